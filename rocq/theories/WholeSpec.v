(* What the theorems about the whole store under concurrent calls are stated with. *)
From Coq Require Import Arith NArith List Bool.
From Verif Require Import Word Af Maps Cht Tree MultiMap PrefixCht Lsm Rib StarCast HistSpec Ask
  Conc ConcTree ConcStore ConcMarks ConcSpec ConcSerial ConcQuiet ConcWhole.
Import ListNotations.
Local Open Scope N_scope.

Definition wstore : Type := conf wstate wcall wpc.

(* what a call gives back *)
Inductive wret : Type :=
| RetCall (v : ret)
| RetGot (r : result (option (list record)))
| RetMarked.
Definition wret_of (l : wpc) : option wret :=
  match l with
  | WRun l => option_map RetCall (ret_of l)
  | WGot r => Some (RetGot r)
  | WPanic => Some (RetCall RetPanic)
  | WMark GDone | WMark2 IPv6 GDone => Some RetMarked
  | _ => None
  end.

(* the states of a store that begins empty *)
Definition wreach (ov : bool) (st : strategy) (x : wstore) : Prop :=
  exists rb4 rb6, rib_init IPv4 st = Ok rb4 /\ rib_init IPv6 st = Ok rb6 /\ wexec ov (wconf0 rb4 rb6) x.

Definition wstarted (x : wstore) (i : nat) (c : wcall) : Prop :=
  exists l, nth_error (ths x) i = Some (c, l).
Definition wreturned (x : wstore) (i : nat) (c : wcall) (v : wret) : Prop :=
  exists l, nth_error (ths x) i = Some (c, l) /\ wret_of l = Some v.
Definition widle (x : wstore) : Prop :=
  forall i c, wstarted x i c -> exists v, wreturned x i c v /\ v <> RetCall RetPanic.

(* the arguments are what their types allow *)
Definition wwf_calls (x : wstore) : Prop :=
  forall i c, wstarted x i c ->
    match c with
    | WStore _ (CInsert _ r _) => wf_record r
    | WStore _ (CMark _ _ m t) => m < 2 ^ 32 /\ t < 2 ^ 64
    | WStore _ (CRecords _ mui _) => wf_mui mui
    | WGlobal _ _ m | WBoth m => m < 2 ^ 32
    | _ => True
    end.
Definition wno_activations (x : wstore) : Prop :=
  forall i f p m t, ~ wstarted x i (WStore f (CMark Active p m t)).

(* what a call does, as calls of a sequential history; a mark of both families
   counts as one mark of each *)
Definition global_op (f : af) (wd : bool) (m : N) : op :=
  if wd then GlobalWithdrawn f m else GlobalActive f m.
Definition as_ops (c : wcall) : list op :=
  match c with
  | WStore f c => match as_op f c with Some o => [o] | None => [] end
  | WGlobal f wd m => [global_op f wd m]
  | WBoth m => [GlobalWithdrawn IPv4 m; GlobalWithdrawn IPv6 m]
  end.
(* the same, a mark of both families being one call *)
Definition as_one (c : wcall) : list op :=
  match c with WBoth m => [GlobalWithdrawnBoth m] | _ => as_ops c end.

Definition weffective (v : wret) : bool :=
  match v with RetCall v => effective v | _ => true end.

(* h, the last call first, is an order of the calls of x that change the store:
   each at most once, and all that have returned and were not in vain *)
Record whole_order (ops : wcall -> list op) (x : wstore) (h : list (nat * op)) : Prop := {
  wo_once : NoDup h;
  wo_calls : forall i o, In (i, o) h -> exists c, wstarted x i c /\ In o (ops c);
  wo_all : forall i c o v, wreturned x i c v -> weffective v = true -> In o (ops c) -> In (i, o) h
}.

(* moments of one execution, the last first *)
Inductive moments (ov : bool) (st : strategy) : list wstore -> Prop :=
| mo_first x : wreach ov st x -> moments ov st [x]
| mo_next x y l : moments ov st (x :: l) -> wexec ov x y -> moments ov st (y :: x :: l).
(* each history begins with the one before *)
Inductive growing : list (list (nat * op)) -> Prop :=
| gr_nil : growing []
| gr_one h : growing [h]
| gr_next h h' l : growing (h :: l) -> growing ((h' ++ h) :: h :: l).

(* the look-ups of the records of a prefix and of the global marks *)
Definition looks_up (q : query) : bool :=
  match q with QGet _ _ _ | QActive _ _ | QWithdrawn _ _ | QActiveBoth _ => true | _ => false end.
(* the i-th call is c, and it has not returned *)
Definition under_way (x : wstore) (i : nat) (c : wcall) : Prop :=
  exists l, nth_error (ths x) i = Some (c, l) /\ wret_of l = None.
(* the store of one moment with the global marks of another *)
Definition marks_of (w1 w2 : wstore) : store :=
  Store (with_marks (ss_rib (w_v4 (sh w2))) (g_set (w_m4 (sh w1))))
    (with_marks (ss_rib (w_v6 (sh w2))) (g_set (w_m6 (sh w1)))).

(* the call changes the global marks of f *)
Definition marks_in (f : af) (c : wcall) : bool :=
  match c with WStore _ _ => false | WGlobal g _ _ => af_eqb g f | WBoth _ => true end.
Definition is_global (e : nat * op) : bool :=
  match snd e with GlobalWithdrawn _ _ | GlobalActive _ _ | GlobalWithdrawnBoth _ => true | _ => false end.
(* the global marks of one history and the rest of another *)
Definition not_global (e : nat * op) : bool := negb (is_global e).
Definition mixed (h1 h2 : list (nat * op)) : list (nat * op) := filter is_global h1 ++ filter not_global h2.
