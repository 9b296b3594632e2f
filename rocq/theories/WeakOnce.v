(* cht/oncebox.rs on a weak memory: OnceBoxSlice (73-165) with its OnceBox cells
   (12-66), and the reads through the references they give out.

   The memory is the usual one of views.  A location has a list of messages in
   modification order; the message at position t (from 1) has timestamp t.  A
   thread has a view: for every location, the timestamp of the latest message it
   knows of.  A load reads any message not older than that.  A message carries a
   view too: what its writer knew, if it was written with Release or after a fence,
   and what the message that a compare_exchange replaced carried.  A load with
   Acquire adds that view to the reader's; a relaxed load keeps it for the next
   fence.  An access to a location whose initialisation, which is not atomic, is
   not in the thread's view is a data race, that is, undefined behaviour.

   All later writes to an atomic location are compare_exchanges here, so that each
   comes next after the message it read, that is, last. *)
From Coq Require Import Arith NArith List Bool.
From Verif Require Import Conc.
Import ListNotations.

(* the pointer to the cells; cell i of the array b; the value v, a Box *)
Inductive loc : Type := LArr | LCell (b : nat) (i : N) | LVal (v : nat).
Definition loc_eqb (a b : loc) : bool :=
  match a, b with
  | LArr, LArr => true
  | LCell b i, LCell b' i' => Nat.eqb b b' && N.eqb i i'
  | LVal v, LVal v' => Nat.eqb v v'
  | _, _ => false
  end.

Definition view : Type := loc -> nat.
Definition bot : view := fun _ => O.
Definition join (a b : view) : view := fun l => Nat.max (a l) (b l).
(* also the message t of l *)
Definition know (a : view) (l : loc) (t : nat) : view := fun k => if loc_eqb k l then Nat.max t (a k) else a k.
Definition seen (a : view) (l : loc) : bool := Nat.leb 1 (a l).

Inductive mval : Type := Null | Ptr (n : nat) | Bytes (x : N).
Record msg : Type := Msg { m_val : mval; m_view : view }.

(* which of the orderings of the code have Acquire or Release *)
Record ords : Type := Ords {
  load_acq : bool; (* the loads at 24, 93 and 117 *)
  succ_acq : bool; (* compare_exchange, on success: 41, 133 *)
  succ_rel : bool;
  fail_acq : bool; (* compare_exchange, on failure: 42, 134 *)
  pinned : bool    (* each call begins with a SeqCst fence, as epoch::pin makes one *)
}.
(* Relaxed; Acquire, Relaxed.  Some callers pin the epoch, some do not *)
Definition code_ords (pin : bool) : ords := Ords false true false false pin.

(* what a thread has read: the value v at index idx with the contents x; us: it
   had created it *)
Inductive got : Type := Got (idx : N) (v : nat) (us : bool) (x : N).

Inductive pc : Type :=
| Idle
| G0 (idx : N)                             (* get, 93 *)
| G1 (idx : N) (b : nat)                   (* 97-98, 24 *)
| I0 (idx x : N)                           (* get_or_init: get_or_make_slice, 117 *)
| I1 (idx x : N) (b : nat)                 (* 130-135: the array b is made *)
| I2 (idx x : N) (b : nat)                 (* 113, 34, 24 *)
| I3 (idx x : N) (b v : nat)               (* 38-43: the value v is made *)
| Back (idx : N) (o : option (nat * bool)) (* returned; with a reference, it is used next *)
| Raced (idx : N)                          (* a data race *)
| Dangling (idx : N).                      (* an access to freed memory *)

Record thread : Type := Thread {
  t_cur : view;
  t_acq : view;  (* with all that an acquire fence would add *)
  t_rel : view;  (* as of the last fence *)
  t_pc : pc;
  (* for the statements only, no step depends on them: *)
  t_past : list got;          (* reads that happened before, of this thread or of others *)
  t_calls : list (N * N);     (* its calls of get_or_init *)
  t_wins : list N             (* those that returned true *)
}.

Record wmem : Type := WMem {
  w_msgs : loc -> list msg;
  w_sc : view;                (* what the last SeqCst fence knew *)
  w_past : list got;          (* for the statements only: the reads before it *)
  w_arrs : nat; w_vals : nat; (* allocations so far *)
  w_freed_arrs : list nat; w_freed_vals : list nat;
  w_size : N                  (* oncebox.rs:76 *)
}.

Definition at_pc (t : thread) (p : pc) : thread :=
  Thread (t_cur t) (t_acq t) (t_rel t) p (t_past t) (t_calls t) (t_wins t).
Definition with_cur (t : thread) (f : view -> view) (p : pc) : thread :=
  Thread (f (t_cur t)) (f (t_acq t)) (t_rel t) p (t_past t) (t_calls t) (t_wins t).
(* an atomic load that read the message g, of timestamp n, from l *)
Definition loaded (acq : bool) (t : thread) (l : loc) (n : nat) (g : msg) (p : pc) : thread :=
  let c := know (t_cur t) l n in
  Thread (if acq then join c (m_view g) else c) (join (know (t_acq t) l n) (m_view g))
    (t_rel t) p (t_past t) (t_calls t) (t_wins t).
Definition win (t : thread) (idx : N) : thread :=
  Thread (t_cur t) (t_acq t) (t_rel t) (t_pc t) (t_past t) (t_calls t) (idx :: t_wins t).

Definition put (w : wmem) (l : loc) (ms : list msg) : wmem :=
  WMem (fun k => if loc_eqb k l then ms else w_msgs w k) (w_sc w) (w_past w) (w_arrs w) (w_vals w)
    (w_freed_arrs w) (w_freed_vals w) (w_size w).
(* 123-130: a new array of null cells *)
Definition new_arr (w : wmem) : wmem :=
  WMem (fun k => match k with
                 | LCell b i => if Nat.eqb b (w_arrs w) && N.ltb i (w_size w) then [Msg Null bot] else w_msgs w k
                 | _ => w_msgs w k
                 end)
    (w_sc w) (w_past w) (S (w_arrs w)) (w_vals w) (w_freed_arrs w) (w_freed_vals w) (w_size w).
Definition know_arr (size : N) (n : nat) (a : view) : view :=
  fun k => match k with
           | LCell b i => if Nat.eqb b n && N.ltb i size then Nat.max 1 (a k) else a k
           | _ => a k
           end.
(* 37: a new Box *)
Definition new_val (w : wmem) (x : N) : wmem :=
  WMem (fun k => match k with LVal v => if Nat.eqb v (w_vals w) then [Msg (Bytes x) bot] else w_msgs w k | _ => w_msgs w k end)
    (w_sc w) (w_past w) (w_arrs w) (S (w_vals w)) (w_freed_arrs w) (w_freed_vals w) (w_size w).
(* 54, 145-148: the loser drops its own *)
Definition free_arr (w : wmem) (b : nat) : wmem :=
  WMem (w_msgs w) (w_sc w) (w_past w) (w_arrs w) (w_vals w) (b :: w_freed_arrs w) (w_freed_vals w) (w_size w).
Definition free_val (w : wmem) (v : nat) : wmem :=
  WMem (w_msgs w) (w_sc w) (w_past w) (w_arrs w) (w_vals w) (w_freed_arrs w) (v :: w_freed_vals w) (w_size w).

(* a thread may read the message g, of timestamp n, from l *)
Definition reads (w : wmem) (a : view) (l : loc) (n : nat) (g : msg) : Prop :=
  (a l <= n)%nat /\ (1 <= n)%nat /\ nth_error (w_msgs w l) (n - 1) = Some g.

(* a compare_exchange from null to q that succeeds: the last message of l is g,
   a null; afterwards the thread is at p *)
Definition swapped (o : ords) (w : wmem) (t : thread) (l : loc) (g : msg) (q : nat) (p : pc) : wmem * thread :=
  let n := length (w_msgs w l) in
  let t' := with_cur (loaded (succ_acq o) t l n g p) (fun a => know a l (S n)) p in
  let v := join (if succ_rel o then t_cur t' else know (t_rel t) l (S n)) (m_view g) in
  (put w l (w_msgs w l ++ [Msg (Ptr q) v]), t').

(* a SeqCst fence *)
Definition fence (w : wmem) (t : thread) : wmem * thread :=
  let c := join (join (t_cur t) (t_acq t)) (w_sc w) in
  let past := w_past w ++ t_past t in
  (WMem (w_msgs w) c past (w_arrs w) (w_vals w) (w_freed_arrs w) (w_freed_vals w) (w_size w),
   Thread c c c (t_pc t) past (t_calls t) (t_wins t)).
Definition begin (o : ords) (w : wmem) (t : thread) : wmem * thread := if pinned o then fence w t else (w, t).
Definition calls (t : thread) (idx x : N) : thread :=
  Thread (t_cur t) (t_acq t) (t_rel t) (I0 idx x) (t_past t) ((idx, x) :: t_calls t) (t_wins t).

Inductive tstep (o : ords) (w : wmem) (t : thread) : wmem -> thread -> Prop :=
(* between its calls a thread may make a fence at any time *)
| ts_fence : t_pc t = Idle -> tstep o w t (fst (fence w t)) (snd (fence w t))
| ts_get idx : t_pc t = Idle -> tstep o w t (fst (begin o w t)) (at_pc (snd (begin o w t)) (G0 idx))
| ts_init idx x : t_pc t = Idle -> (idx < w_size w)%N ->
    tstep o w t (fst (begin o w t)) (calls (snd (begin o w t)) idx x)
(* get, 92-100 *)
| ts_g0 idx n g : t_pc t = G0 idx -> reads w (t_cur t) LArr n g ->
    tstep o w t w (loaded (load_acq o) t LArr n g (match m_val g with Ptr b => G1 idx b | _ => Back idx None end))
| ts_g1_out idx b : t_pc t = G1 idx b -> (w_size w <= idx)%N -> tstep o w t w (at_pc t (Back idx None))
| ts_g1_freed idx b : t_pc t = G1 idx b -> (idx < w_size w)%N -> In b (w_freed_arrs w) ->
    tstep o w t w (at_pc t (Dangling idx))
| ts_g1_race idx b : t_pc t = G1 idx b -> (idx < w_size w)%N -> seen (t_cur t) (LCell b idx) = false ->
    tstep o w t w (at_pc t (Raced idx))
| ts_g1 idx b n g : t_pc t = G1 idx b -> (idx < w_size w)%N -> seen (t_cur t) (LCell b idx) = true ->
    ~ In b (w_freed_arrs w) -> reads w (t_cur t) (LCell b idx) n g ->
    tstep o w t w (loaded (load_acq o) t (LCell b idx) n g
      (Back idx (match m_val g with Ptr v => Some (v, false) | _ => None end)))
(* get_or_make_slice, 116-152 *)
| ts_i0_found idx x n g b : t_pc t = I0 idx x -> reads w (t_cur t) LArr n g -> m_val g = Ptr b ->
    tstep o w t w (loaded (load_acq o) t LArr n g (I2 idx x b))
| ts_i0_new idx x n g : t_pc t = I0 idx x -> reads w (t_cur t) LArr n g -> m_val g = Null ->
    tstep o w t (new_arr w)
      (with_cur (loaded (load_acq o) t LArr n g Idle) (know_arr (w_size w) (w_arrs w)) (I1 idx x (w_arrs w)))
| ts_i1_won idx x b g l : t_pc t = I1 idx x b -> w_msgs w LArr = l ++ [g] -> m_val g = Null ->
    tstep o w t (fst (swapped o w t LArr g b (I2 idx x b))) (snd (swapped o w t LArr g b (I2 idx x b)))
| ts_i1_lost idx x b n g b' : t_pc t = I1 idx x b -> reads w (t_cur t) LArr n g -> m_val g = Ptr b' ->
    tstep o w t (free_arr w b) (loaded (fail_acq o) t LArr n g (I2 idx x b'))
(* OnceBox::get_or_init, 32-58 *)
| ts_i2_freed idx x b : t_pc t = I2 idx x b -> In b (w_freed_arrs w) -> tstep o w t w (at_pc t (Dangling idx))
| ts_i2_race idx x b : t_pc t = I2 idx x b -> seen (t_cur t) (LCell b idx) = false -> tstep o w t w (at_pc t (Raced idx))
| ts_i2_found idx x b n g v : t_pc t = I2 idx x b -> seen (t_cur t) (LCell b idx) = true -> ~ In b (w_freed_arrs w) ->
    reads w (t_cur t) (LCell b idx) n g -> m_val g = Ptr v ->
    tstep o w t w (loaded (load_acq o) t (LCell b idx) n g (Back idx (Some (v, false))))
| ts_i2_new idx x b n g : t_pc t = I2 idx x b -> seen (t_cur t) (LCell b idx) = true -> ~ In b (w_freed_arrs w) ->
    reads w (t_cur t) (LCell b idx) n g -> m_val g = Null ->
    tstep o w t (new_val w x)
      (with_cur (loaded (load_acq o) t (LCell b idx) n g Idle) (fun a => know a (LVal (w_vals w)) 1) (I3 idx x b (w_vals w)))
| ts_i3_won idx x b v g l : t_pc t = I3 idx x b v -> w_msgs w (LCell b idx) = l ++ [g] -> m_val g = Null ->
    tstep o w t (fst (swapped o w t (LCell b idx) g v (Back idx (Some (v, true)))))
      (win (snd (swapped o w t (LCell b idx) g v (Back idx (Some (v, true))))) idx)
| ts_i3_lost idx x b v n g v' : t_pc t = I3 idx x b v -> reads w (t_cur t) (LCell b idx) n g -> m_val g = Ptr v' ->
    tstep o w t (free_val w v) (loaded (fail_acq o) t (LCell b idx) n g (Back idx (Some (v', false))))
(* back with the caller: it reads through the reference *)
| ts_none idx : t_pc t = Back idx None -> tstep o w t w (at_pc t Idle)
| ts_use_freed idx v us : t_pc t = Back idx (Some (v, us)) -> In v (w_freed_vals w) -> tstep o w t w (at_pc t (Dangling idx))
| ts_use_race idx v us : t_pc t = Back idx (Some (v, us)) -> seen (t_cur t) (LVal v) = false -> tstep o w t w (at_pc t (Raced idx))
| ts_use idx v us n g x : t_pc t = Back idx (Some (v, us)) -> seen (t_cur t) (LVal v) = true -> ~ In v (w_freed_vals w) ->
    reads w (t_cur t) (LVal v) n g -> m_val g = Bytes x ->
    tstep o w t w (Thread (t_cur t) (t_acq t) (t_rel t) Idle (Got idx v us x :: t_past t) (t_calls t) (t_wins t)).

Record wconf : Type := WConf { k_mem : wmem; k_ths : list thread }.

(* a new slice (80-85), and what a thread knows of it that it was handed to *)
Definition view0 : view := know bot LArr 1.
Definition wmem0 (size : N) : wmem :=
  WMem (fun l => match l with LArr => [Msg Null bot] | _ => [] end) bot [] 0 0 [] [] size.
Definition thread0 : thread := Thread view0 view0 view0 Idle [] [] [].
(* what i did so far happens before what j does from now on: a lock handed on, a
   message sent, a thread joined *)
Definition synced (ti tj : thread) : thread :=
  Thread (join (t_cur tj) (t_cur ti)) (join (t_acq tj) (t_cur ti)) (t_rel tj) Idle
    (t_past ti ++ t_past tj) (t_calls tj) (t_wins tj).

Inductive wkstep (o : ords) : wconf -> wconf -> Prop :=
| wk_spawn w ts : wkstep o (WConf w ts) (WConf w (ts ++ [thread0]))
| wk_thread w ts i t w' t' : nth_error ts i = Some t -> tstep o w t w' t' ->
    wkstep o (WConf w ts) (WConf w' (set_nth i t' ts))
| wk_sync w ts i j ti tj : nth_error ts i = Some ti -> nth_error ts j = Some tj -> t_pc ti = Idle -> t_pc tj = Idle ->
    wkstep o (WConf w ts) (WConf w (set_nth j (synced ti tj) ts)).

Inductive wkreach (o : ords) (size : N) : wconf -> Prop :=
| wr_start : wkreach o size (WConf (wmem0 size) [])
| wr_step x y : wkreach o size x -> wkstep o x y -> wkreach o size y.
