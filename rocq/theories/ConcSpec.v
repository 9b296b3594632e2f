(* The notions that the theorems about concurrent calls are stated with. *)
From Coq Require Import Arith NArith List Bool.
From Verif Require Import Word Af Maps Cht Tree MultiMap PrefixCht Lsm Rib HistSpec Conc ConcTree
  ConcStore.
Import ListNotations.
Local Open Scope N_scope.

Definition cstore : Type := conf sstate scall cpc.

(* what a call gives back *)
Inductive ret : Type :=
| RetIns (r : result report)
| RetMark (r : result unit)
| RetHas (b : bool)
| RetRecs (o : option (list record))
| RetPanic.

Definition ret_of (l : cpc) : option ret :=
  match l with
  | LIns (IDone r) => Some (RetIns r)
  | LMark (KDone r) => Some (RetMark r)
  | LHas (XDone b) => Some (RetHas b)
  | LVal (VDone o) => Some (RetRecs o)
  | LIns IPanic | LMark KPanic | LHas XPanic | LVal VPanic => Some RetPanic
  | _ => None
  end.

(* the states of a store of one address family that begins empty *)
Definition reach (f : af) (ov : bool) (st : strategy) (x : cstore) : Prop :=
  exists rb, rib_init f st = Ok rb /\ sexec f ov (sconf0 rb) x.

(* the i-th call is c; it has returned v *)
Definition started (x : cstore) (i : nat) (c : scall) : Prop :=
  exists l, nth_error (ths x) i = Some (c, l).
Definition returned (x : cstore) (i : nat) (c : scall) (v : ret) : Prop :=
  exists l, nth_error (ths x) i = Some (c, l) /\ ret_of l = Some v.
(* call j begins after x *)
Definition begins_after (x : cstore) (j : nat) : Prop := (length (ths x) <= j)%nat.
(* no call is under way, and none has panicked *)
Definition idle (x : cstore) : Prop :=
  forall i c, started x i c -> exists v, returned x i c v /\ v <> RetPanic.

Definition tree_of (x : cstore) : tree := rb_tree (ss_rib (sh x)).
Definition table_of (x : cstore) : pcht := rb_pcht (ss_rib (sh x)).
Definition disk_of (x : cstore) : option lsm := rb_lsm (ss_rib (sh x)).

(* the critical sections on records so far: which call, which prefix, what *)
Definition order (x : cstore) : list (nat * pid * recop) := ss_log (sh x).
Definition call_of (e : nat * pid * recop) : nat := fst (fst e).

(* what a call does to the records *)
Definition does (c : scall) (p : pid) (o : recop) : Prop :=
  match c with
  | CInsert q r _ => q = p /\ o = OUp r
  | CMark s q m t => q = p /\ o = OMark s m t
  | _ => False
  end.

(* the record of m after one operation, after a list of them *)
Definition rec_step (m : N) (cur : option record) (o : recop) : option record :=
  match o with
  | OUp r => if r_mui r =? m then Some r else cur
  | OMark s n t =>
    if n =? m then match cur with Some r => Some (Rec m t s (r_meta r)) | None => None end else cur
  end.
Definition rec_after (p : pid) (m : N) (log : list (nat * pid * recop)) : option record :=
  fold_left (rec_step m) (List.map snd (filter (fun e => pid_eqb (snd (fst e)) p) log)) None.

(* the record of m that a look-up after these operations may give: of the muis
   asked for, and only the active ones unless withdrawn records are included *)
Definition seen_in (log : list (nat * pid * recop)) (p : pid) (mui : option N) (iw : bool) (m : N)
    : option record :=
  if named mui m then
    match rec_after p m log with
    | Some r => if iw || status_eqb (r_status r) Active then Some r else None
    | None => None
    end
  else None.

(* the retry counter of an insert cannot overflow: without overflow checks, or
   with a prefix of at most 108 bits *)
Definition no_overflow (ov : bool) (p : pid) : Prop := ov = false \/ p_len p <= 108.

(* the entry of the prefix table that a call works on *)
Definition working_on (l : cpc) : option key :=
  match l with
  | LIns (IOutdate _ k) | LIns (IUpsert _ k _) | LIns (IRoute _ k _) | LIns (IBest _ k _)
  | LIns (ILoadSel _ k _ _) | LIns (ICasSel _ k _ _ _) | LMark (KMark k) | LMark (KGet k)
  | LVal (VRead k) => Some k
  | _ => None
  end.
Definition prefix_of (c : scall) : pid :=
  match c with CInsert p _ _ | CMark _ p _ _ | CContains p | CRecords p _ _ => p end.

(* the call is merging one node's bitmaps into another's *)
Definition merging (l : cpc) : bool :=
  match l with
  | LIns (ITree (TStore _ _ _ (SMerge _ _ _ _)))
  | LIns (ITree2 _ (TStore _ _ _ (SMerge _ _ _ _))) => true
  | _ => false
  end.

(* how many steps of its own a call may take *)
Definition most_steps (c : scall) : nat :=
  match c with CInsert _ _ _ => N.to_nat 11080 | _ => 100%nat end.
