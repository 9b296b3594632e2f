(* match_prefix and the iterators (ConcQuery.v) run by a thread of the store on a
   weak memory (WeakStore.v).

   A step of the query in the tree reads what the thread knows of it.  For the
   records of a prefix the thread runs get_records_for_prefix, as in WeakStore.v.
   The set of globally withdrawn muis is read for every look-up, and at the
   beginning of some iterators; which one a load gives is left open: any of [B].
   Between two steps the other threads may do anything, and so may the thread
   itself, which an iterator allows it. *)
From Coq Require Import Arith NArith List Bool.
From Verif Require Import Word Af BitSpan Maps ChtMath Cht Node Tree Iter MultiMap RecordSet PrefixCht Lsm Rib StarCast HistSpec
  Conc ConcTree ConcStore ConcTable ConcMarks ConcSpec ConcScan ConcWhole ConcQuery QuerySpec
  WeakTree WeakTable WeakTableFacts WeakStore WeakStoreInv WeakStoreFacts.
Import ListNotations.
Local Open Scope N_scope.

(* a store with this tree and these marks, and no more: what a step of a query that
   is not a look-up uses *)
Definition seeing (v : tree) (bmin : nset) : wstate :=
  let r := SState (Rib MemoryOnly v pcht_init None counters_new) [] [] [] [] in
  let g := GState bmin 0 [] in
  WState r r g g.

(* the prefix that is to be looked up next, and what is done with the answer *)
Definition match_waits (q : atpc) : option pid :=
  match q with
  | AtMain t WAsk => tr_prefix t
  | AtFill _ _ _ _ (c :: _) _ WAsk => Some c
  | _ => None
  end.
Definition match_got (v : option (list record)) (q : atpc) : atpc :=
  match q with
  | AtMain t _ => AtMain t (WGot (ROk v))
  | AtFill more t main ms todo got _ => AtFill more t main ms todo got (WGot (ROk v))
  | _ => q
  end.
Definition each_waits (q : itpc) : option pid :=
  match q with ItScan _ (Some (c, WAsk)) _ => Some c | _ => None end.
Definition each_got (v : option (list record)) (q : itpc) : itpc :=
  match q with ItScan sc (Some (c, _)) got => ItScan sc (Some (c, WGot (ROk v))) got | _ => q end.

(* thread i begins the query when the store is at x0; n counts its steps *)
Inductive asking {Q : Type} (f : af) (ov : bool) (B : nset -> Prop) (mui : option N) (iw : bool)
    (over : Q -> bool) (waits : Q -> option pid) (next : wstate -> Q -> Q) (gets : option (list record) -> Q -> Q)
    (i : nat) (x0 : sconf) (q0 : Q) : nat -> sconf -> Q -> Prop :=
| ak_start past : nth_error (sc_sts x0) i = Some (SThread SIdle past) ->
    asking f ov B mui iw over waits next gets i x0 q0 0 x0 q0
| ak_call n t0 x y q : asking f ov B mui iw over waits next gets i x0 q0 n x q ->
    tree_new f = Ok t0 -> store_step f ov t0 x y ->
    asking f ov B mui iw over waits next gets i x0 q0 n y q
| ak_own n x q past t bmin : asking f ov B mui iw over waits next gets i x0 q0 n x q -> over q = false -> waits q = None ->
    nth_error (sc_sts x) i = Some (SThread SIdle past) -> nth_error (wc_ths (sc_tree x)) i = Some t -> B bmin ->
    asking f ov B mui iw over waits next gets i x0 q0 (S n) x (next (seeing (wt_view t) bmin) q)
| ak_gets n x q past c bmin v : asking f ov B mui iw over waits next gets i x0 q0 n x q -> waits q = Some c ->
    nth_error (sc_sts x) i = Some (SThread (SRet c (ARead mui iw bmin) (RRead v)) past) -> B bmin ->
    asking f ov B mui iw over waits next gets i x0 q0 (S n) x (gets v q).

Definition smatching (f : af) (ov : bool) (B : nset -> Prop) (p : pid) (o : matchopts) (i : nat) (x0 : sconf)
    : nat -> sconf -> atpc -> Prop :=
  asking f ov B (mo_mui o) (mo_withdrawn o) match_over match_waits (match_next f p o) match_got i x0 (match_start p).
Definition siterating (f : af) (ov : bool) (B : nset -> Prop) (k : each) (i : nat) (x0 : sconf)
    : nat -> sconf -> itpc -> Prop :=
  asking f ov B (each_mui k) (each_iw k) each_over each_waits (each_next f k) each_got i x0 (each_start k).

(* v is what a look-up of c gives, with marks that there were, after the first so
   many critical sections on records, among which are those of all inserts that
   happened before *)
Definition read_of (B : nset -> Prop) (past : list (pid * record)) (x : sconf) (c : pid) (mui : option N) (iw : bool)
    (v : option (list record)) : Prop :=
  exists bmin l1 l2, B bmin /\ slog x = l1 ++ l2 /\ (forall r, In (c, r) past -> exists j, In (j, c, OUp r) l1) /\
    answers (seen_with l1 c bmin mui iw) v.
(* an insert of c happened before what thread i does next *)
Definition known_by (x : sconf) (i : nat) (c : pid) : Prop :=
  exists s r, nth_error (sc_sts x) i = Some s /\ In (c, r) (st_past s).
