(* The two crossbeam Atomics of the store on a weak memory: the set of globally
   withdrawn muis (tree_bitmap/mod.rs:254, 515-579) and the path selections of a
   prefix (prefix_cht/cht.rs:375, 423-474).  Both are a pointer with a tag, to an
   object that is written once, before the pointer is published.

   The memory is that of WeakOnce.v, for one atomic location and the objects: the
   pointer has messages in modification order, the view of a thread is the
   timestamp of the latest message it knows of and the objects whose
   initialisation it knows of.  All writes after the first are compare_exchanges.
   Nothing is freed: the code never retires the old objects. *)
From Coq Require Import Arith NArith List Bool.
From Verif Require Import Conc.
Import ListNotations.

Record pview : Type := PView { v_at : nat; v_objs : nat -> bool }.
Definition pjoin (a b : pview) : pview := PView (Nat.max (v_at a) (v_at b)) (fun n => v_objs a n || v_objs b n).
Definition pknow (a : pview) (t : nat) : pview := PView (Nat.max t (v_at a)) (v_objs a).
Definition pinit (a : pview) (n : nat) : pview := PView (v_at a) (fun m => Nat.eqb m n || v_objs a m).

Record pords : Type := POrds {
  q_load_acq : bool; (* mod.rs:521, 531, 546; cht.rs:425, 440 (SeqCst), 473 *)
  q_succ_acq : bool; (* mod.rs:567; cht.rs:452 *)
  q_succ_rel : bool;
  q_fail_acq : bool; (* mod.rs:568; cht.rs:453 *)
  q_tag_acq : bool;  (* fetch_update, cht.rs:465 *)
  q_tag_rel : bool
}.
(* Acquire; AcqRel, Acquire; Acquire, Acquire *)
Definition code_pords : pords := POrds true true true true true false.

Section Ptr.
(* the contents of an object; updates of it *)
Context {A F : Type}.
Variable apply : F -> A -> A.
Variable eqb : A -> A -> bool.

(* what a write of the pointer did *)
Inductive pop : Type := Updated (f : F) | Stored (a : A) | Outdated.
(* what a call that returned did: it wrote; it read; it stored nothing as it read what is the same *)
Inductive pdid : Type := DidWrite (b : pop) | DidRead (a : A) | DidFlag (b : bool) | DidKeep (a : A).
Record pmsg : Type := PMsg { pm_ptr : nat; pm_tag : bool; pm_view : pview; pm_by : option pop (* None: the first *) }.

Inductive ppc : Type :=
| PIdle
(* withdrawn_muis_bmin, get_path_selections *)
| PRead0 | PRead1 (t : nat) (n : nat) | PGave (t : nat) (a : A)
(* is_ps_outdated *)
| PTag0 | PTagGave (t : nat) (b : bool)
(* mark_mui_as_active, mark_mui_as_withdrawn: load 531, 546; clone 533-535, 548-550, change and
   allocate 537, 552, 566; compare_exchange 564-570; on failure clone and allocate again 572-574 *)
| PUpd0 (f : F) | PUpd1 (f : F) (n : nat) (tag : bool) | PUpd2 (f : F) (n : nat) (tag : bool) (new : nat)
| PUpd3 (f : F) (n : nat) (tag : bool) (other : nat)
(* set_path_selections: load 440, compare 442, compare_exchange 447-455 *)
| PSet0 (a : A) | PSet1 (t : nat) (a : A) (n : nat) (tag : bool) | PSet2 (a : A) (n : nat) (tag : bool) (new : nat)
(* set_ps_outdated: fetch_update of crossbeam loads, then tries compare_exchange_weak until it succeeds *)
| POut0 | POut1 (n : nat) (tag : bool)
| PRaced.

Record pthread : Type := PThread {
  p_cur : pview; p_acq : pview; p_rel : pview; p_pc : ppc;
  p_past : list (nat * pdid) (* for the statements only: what happened before, with the timestamps of the messages written or read *)
}.
Record pmem : Type := PMem {
  s_msgs : list pmsg;
  s_objs : list A;         (* the objects, each as it was initialised *)
  s_sc : pview; s_past : list (nat * pdid)
}.

Definition pat (t : pthread) (p : ppc) : pthread := PThread (p_cur t) (p_acq t) (p_rel t) p (p_past t).
(* a call returns that wrote nothing *)
Definition pdone (t : pthread) (k : nat) (d : pdid) : pthread := PThread (p_cur t) (p_acq t) (p_rel t) PIdle ((k, d) :: p_past t).
Definition ploaded (acq : bool) (t : pthread) (n : nat) (g : pmsg) (p : ppc) : pthread :=
  let c := pknow (p_cur t) n in
  PThread (if acq then pjoin c (pm_view g) else c) (pjoin (pknow (p_acq t) n) (pm_view g)) (p_rel t) p (p_past t).
(* the message of timestamp n can be read *)
Definition preads (w : pmem) (v : pview) (n : nat) (g : pmsg) : Prop :=
  v_at v <= n /\ 1 <= n /\ nth_error (s_msgs w) (n - 1) = Some g.
(* a compare_exchange that succeeds: g is the last message, and the pointer becomes q with the tag tag *)
Definition pswapped (acq rel : bool) (w : pmem) (t : pthread) (g : pmsg) (q : nat) (tag : bool) (by_ : pop) (p : ppc) : pmem * pthread :=
  let n := length (s_msgs w) in
  let t1 := ploaded acq t n g p in
  let c := pknow (p_cur t1) (S n) in
  let v := pjoin (if rel then c else pknow (p_rel t) (S n)) (pm_view g) in
  (PMem (s_msgs w ++ [PMsg q tag v (Some by_)]) (s_objs w) (s_sc w) (s_past w),
   PThread c (pknow (p_acq t1) (S n)) (p_rel t) p ((S n, DidWrite by_) :: p_past t)).
(* a new object *)
Definition pnew (w : pmem) (a : A) : pmem := PMem (s_msgs w) (s_objs w ++ [a]) (s_sc w) (s_past w).
Definition pmade (w : pmem) (t : pthread) (p : ppc) : pthread :=
  let n := length (s_objs w) in PThread (pinit (p_cur t) n) (pinit (p_acq t) n) (p_rel t) p (p_past t).
Definition pfence (w : pmem) (t : pthread) : pmem * pthread :=
  let c := pjoin (pjoin (p_cur t) (p_acq t)) (s_sc w) in
  let past := s_past w ++ p_past t in
  (PMem (s_msgs w) (s_objs w) c past, PThread c c c (p_pc t) past).

Inductive ptstep (o : pords) (w : pmem) (t : pthread) : pmem -> pthread -> Prop :=
| pt_fence : p_pc t = PIdle -> ptstep o w t (fst (pfence w t)) (snd (pfence w t))
| pt_call p : p_pc t = PIdle -> match p with PRead0 | PTag0 | PUpd0 _ | PSet0 _ | POut0 => True | _ => False end ->
    ptstep o w t w (pat t p)
(* reads *)
| pt_read0 n g : p_pc t = PRead0 -> preads w (p_cur t) n g -> ptstep o w t w (ploaded (q_load_acq o) t n g (PRead1 n (pm_ptr g)))
| pt_read1 k n a : p_pc t = PRead1 k n -> v_objs (p_cur t) n = true -> nth_error (s_objs w) n = Some a ->
    ptstep o w t w (pat t (PGave k a))
| pt_read1_race k n : p_pc t = PRead1 k n -> v_objs (p_cur t) n = false -> ptstep o w t w (pat t PRaced)
| pt_gave k a : p_pc t = PGave k a -> ptstep o w t w (pdone t k (DidRead a))
| pt_tag0 n g : p_pc t = PTag0 -> preads w (p_cur t) n g -> ptstep o w t w (ploaded (q_load_acq o) t n g (PTagGave n (pm_tag g)))
| pt_tag_gave k b : p_pc t = PTagGave k b -> ptstep o w t w (pdone t k (DidFlag b))
(* marks *)
| pt_upd0 f n g : p_pc t = PUpd0 f -> preads w (p_cur t) n g ->
    ptstep o w t w (ploaded (q_load_acq o) t n g (PUpd1 f (pm_ptr g) (pm_tag g)))
| pt_upd1 f n tag a : p_pc t = PUpd1 f n tag -> v_objs (p_cur t) n = true -> nth_error (s_objs w) n = Some a ->
    ptstep o w t (pnew w (apply f a)) (pmade w t (PUpd2 f n tag (length (s_objs w))))
| pt_upd1_race f n tag : p_pc t = PUpd1 f n tag -> v_objs (p_cur t) n = false -> ptstep o w t w (pat t PRaced)
| pt_upd2_won f n tag new g l : p_pc t = PUpd2 f n tag new -> s_msgs w = l ++ [g] -> pm_ptr g = n -> pm_tag g = tag ->
    ptstep o w t (fst (pswapped (q_succ_acq o) (q_succ_rel o) w t g new false (Updated f) PIdle))
      (snd (pswapped (q_succ_acq o) (q_succ_rel o) w t g new false (Updated f) PIdle))
| pt_upd2_lost f n tag new k g : p_pc t = PUpd2 f n tag new -> preads w (p_cur t) k g -> (pm_ptr g, pm_tag g) <> (n, tag) ->
    ptstep o w t w (ploaded (q_fail_acq o) t k g (PUpd3 f n tag (pm_ptr g)))
| pt_upd3 f n tag m a : p_pc t = PUpd3 f n tag m -> v_objs (p_cur t) m = true -> nth_error (s_objs w) m = Some a ->
    ptstep o w t (pnew w a) (pmade w t (PUpd2 f n tag (length (s_objs w))))
| pt_upd3_race f n tag m : p_pc t = PUpd3 f n tag m -> v_objs (p_cur t) m = false -> ptstep o w t w (pat t PRaced)
(* selections *)
| pt_set0 a n g : p_pc t = PSet0 a -> preads w (p_cur t) n g ->
    ptstep o w t w (ploaded (q_load_acq o) t n g (PSet1 n a (pm_ptr g) (pm_tag g)))
| pt_set1_same k a n tag b : p_pc t = PSet1 k a n tag -> v_objs (p_cur t) n = true -> nth_error (s_objs w) n = Some b -> eqb b a = true ->
    ptstep o w t w (pdone t k (DidKeep a))
| pt_set1 k a n tag b : p_pc t = PSet1 k a n tag -> v_objs (p_cur t) n = true -> nth_error (s_objs w) n = Some b -> eqb b a = false ->
    ptstep o w t (pnew w a) (pmade w t (PSet2 a n tag (length (s_objs w))))
| pt_set1_race k a n tag : p_pc t = PSet1 k a n tag -> v_objs (p_cur t) n = false -> ptstep o w t w (pat t PRaced)
| pt_set2_won a n tag new g l : p_pc t = PSet2 a n tag new -> s_msgs w = l ++ [g] -> pm_ptr g = n -> pm_tag g = tag ->
    ptstep o w t (fst (pswapped (q_succ_acq o) (q_succ_rel o) w t g new false (Stored a) PIdle))
      (snd (pswapped (q_succ_acq o) (q_succ_rel o) w t g new false (Stored a) PIdle))
| pt_set2_lost a n tag new k g : p_pc t = PSet2 a n tag new -> preads w (p_cur t) k g -> (pm_ptr g, pm_tag g) <> (n, tag) ->
    ptstep o w t w (ploaded (q_fail_acq o) t k g PIdle)
| pt_out0 n g : p_pc t = POut0 -> preads w (p_cur t) n g ->
    ptstep o w t w (ploaded (q_tag_acq o) t n g (POut1 (pm_ptr g) (pm_tag g)))
| pt_out1_won n tag g l : p_pc t = POut1 n tag -> s_msgs w = l ++ [g] -> pm_ptr g = n -> pm_tag g = tag ->
    ptstep o w t (fst (pswapped (q_tag_acq o) (q_tag_rel o) w t g n true Outdated PIdle))
      (snd (pswapped (q_tag_acq o) (q_tag_rel o) w t g n true Outdated PIdle))
(* also when it fails for no reason *)
| pt_out1_lost n tag k g : p_pc t = POut1 n tag -> preads w (p_cur t) k g ->
    ptstep o w t w (ploaded (q_tag_acq o) t k g (POut1 (pm_ptr g) (pm_tag g))).

Record pconf : Type := PConf { c_mem : pmem; c_ths : list pthread }.
Definition pview0 : pview := PView 1 (fun n => Nat.eqb n 0).
Definition pmem0 (a : A) : pmem := PMem [PMsg 0 false pview0 None] [a] pview0 [].
Definition pthread0 : pthread := PThread pview0 pview0 pview0 PIdle [].
Definition psynced (ti tj : pthread) : pthread :=
  PThread (pjoin (p_cur tj) (p_cur ti)) (pjoin (p_acq tj) (p_cur ti)) (p_rel tj) PIdle (p_past ti ++ p_past tj).

Inductive pcstep (o : pords) : pconf -> pconf -> Prop :=
| pc_spawn w ts : pcstep o (PConf w ts) (PConf w (ts ++ [pthread0]))
| pc_thread w ts i t w' t' : nth_error ts i = Some t -> ptstep o w t w' t' -> pcstep o (PConf w ts) (PConf w' (set_nth i t' ts))
| pc_sync w ts i j ti tj : nth_error ts i = Some ti -> nth_error ts j = Some tj -> p_pc ti = PIdle -> p_pc tj = PIdle ->
    pcstep o (PConf w ts) (PConf w (set_nth j (psynced ti tj) ts)).
Inductive pcreach (o : pords) (a0 : A) : pconf -> Prop :=
| pr_start : pcreach o a0 (PConf (pmem0 a0) [])
| pr_step x y : pcreach o a0 x -> pcstep o x y -> pcreach o a0 y.

(* ---------- what the writes amount to ---------- *)

(* the contents and the flag after some of them *)
Definition do_op (s : A * bool) (b : pop) : A * bool :=
  match b with Updated f => (apply f (fst s), false) | Stored a => (a, false) | Outdated => (fst s, true) end.
Definition do_ops (a0 : A) (l : list pop) : A * bool := fold_left do_op l (a0, false).
(* the writes in modification order *)
Definition order (w : pmem) : list pop := flat_map (fun g => match pm_by g with Some b => [b] | None => [] end) (s_msgs w).
Definition praced (x : pconf) : Prop := exists i t, nth_error (c_ths x) i = Some t /\ p_pc t = PRaced.
End Ptr.
Arguments pop : clear implicits.
Arguments pdid : clear implicits.
Arguments ppc : clear implicits.
Arguments pthread : clear implicits.
Arguments pmem : clear implicits.
Arguments pconf : clear implicits.
Arguments pmsg : clear implicits.
