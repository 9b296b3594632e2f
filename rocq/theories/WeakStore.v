(* One family of the store on a weak memory: the tree of prefixes (WeakTree.v) and
   the prefix table with its records (WeakTable.v) side by side, with the strategy
   MemoryOnly and without path selections.

   An insert, rib/starcast_af.rs:107-139, is set_prefix_exists and then
   upsert_prefix; contains, 200-206, reads the tree; the marks of one prefix and
   get_records_for_prefix use the table.  A step is one of a thread in the tree or
   in the table, with the thread's own views of both.

   Here a lock passes on what is known, unlike in WeakTable.v: std's Mutex around
   the records of a prefix (prefix_cht/cht.rs:36-79) is released with Release and
   taken with Acquire, so whoever takes it comes to know all that those who had it
   before knew when they released it.  A lock has a place among the threads, where
   it keeps what it passes on; it runs no call.  The critical section, the end of
   the call and what is passed on are one step: what a call does after the critical
   section is its own thread's business.  As before the ordering of no other
   operation is used; what the RwLock of a node passes on (node_cht.rs:36) is left
   out, which allows more. *)
From Coq Require Import Arith NArith List Bool.
From Verif Require Import Word Af BitSpan Maps ChtMath Cht Node Tree MultiMap PrefixCht
  Conc ConcTree ConcTreeProofs ConcStore ConcTable WeakTree WeakTable.
Import ListNotations.
Local Open Scope N_scope.

(* where a thread is *)
Inductive store_pc : Type :=
| SLock (p : pid)                                (* not a thread: the lock of the records of p *)
| SIdle
| SIns (p : pid) (r : record)                    (* insert: in the tree *)
| SUp (p : pid) (r : record) (existed : bool)    (* insert: in the table *)
| SHas (p : pid)                                 (* contains *)
| SOne (p : pid) (c : acall)                     (* a mark, or get_records_for_prefix *)
| SRet (p : pid) (c : acall) (a : aret).         (* about to return *)

(* for the statements only: the inserts that happened before *)
Record sthread : Type := SThread { st_pc : store_pc; st_past : list (pid * record) }.

Record sconf : Type := SConf {
  sc_tree : wtconf;
  sc_tab : aconf;
  sc_sts : list sthread;   (* thread i is thread i of both parts *)
  (* for the statements only: the critical sections that changed records, as the
     prefix, the how manieth on it, and the inserts that had happened before it,
     its own with them *)
  sc_hist : list (pid * nat * list (pid * record))
}.

(* ---------- the parts ---------- *)

Definition tree_by (f : af) (ov : bool) (i : nat) (t t' : wthread) (x y : wtconf) : Prop :=
  exists m c, nth_error (wc_ths x) i = Some t /\ wtstep f ov (wc_mem x) t m c t' /\
    y = WTConf m (wc_called x ++ c) (set_nth i t' (wc_ths x)).
Definition tab_by (f : af) (i : nat) (a a' : athread) (x y : aconf) : Prop :=
  exists m, nth_error (ac_ths x) i = Some a /\ atstep f i (ac_mem x) a m a' /\ y = AConf m (set_nth i a' (ac_ths x)).
(* j comes to know what i knows *)
Definition tree_tells (i j : nat) (x y : wtconf) : Prop :=
  exists ti tj, nth_error (wc_ths x) i = Some ti /\ nth_error (wc_ths x) j = Some tj /\
    wt_call ti = WIdle /\ wt_call tj = WIdle /\ y = WTConf (wc_mem x) (wc_called x) (set_nth j (told ti tj) (wc_ths x)).
Definition tab_tells (i j : nat) (x y : aconf) : Prop :=
  exists ti tj, nth_error (ac_ths x) i = Some ti /\ nth_error (ac_ths x) j = Some tj /\
    at_run ti = None /\ at_run tj = None /\ y = AConf (ac_mem x) (set_nth j (atold ti tj) (ac_ths x)).

Definition set_st (i : nat) (s : store_pc) (past : list (pid * record)) (x : sconf) : list sthread :=
  set_nth i (SThread s past) (sc_sts x).

(* the walk to the entry *)
Definition walking (a : athread) : Prop :=
  match at_run a with Some (_, _, AWalk _) | Some (_, _, ALook _) => True | _ => False end.
(* the call that has come to its end in the table *)
Definition answered (s : store_pc) (a : aret) : store_pc :=
  match s with SUp p r _ => SRet p (AUp r) a | SOne p c => SRet p c a | _ => s end.
Definition own_insert (s : store_pc) : list (pid * record) := match s with SUp p r _ => [(p, r)] | _ => [] end.

(* ---------- steps ---------- *)

Inductive store_step (f : af) (ov : bool) (t0 : tree) (x : sconf) : sconf -> Prop :=
| ss_spawn s : s = SIdle \/ (exists p, s = SLock p /\ forall j past, nth_error (sc_sts x) j <> Some (SThread (SLock p) past)) ->
    store_step f ov t0 x
      (SConf (WTConf (wc_mem (sc_tree x)) (wc_called (sc_tree x)) (wc_ths (sc_tree x) ++ [WThread t0 WIdle [] [] 0]))
             (AConf (ac_mem (sc_tab x)) (ac_ths (sc_tab x) ++ [AThread [] None [] [] 0]))
             (sc_sts x ++ [SThread s []]) (sc_hist x))
(* a thread comes to know more of one place *)
| ss_learn_tree i t v y : nth_error (wc_ths (sc_tree x)) i = Some t -> learns (wc_mem (sc_tree x)) (wt_view t) v ->
    tree_by f ov i t (WThread v (wt_call t) (wt_past t) (wt_news t) (wt_steps t)) (sc_tree x) y ->
    store_step f ov t0 x (SConf y (sc_tab x) (sc_sts x) (sc_hist x))
| ss_learn_tab i a v y : nth_error (ac_ths (sc_tab x)) i = Some a -> knows_cell (tm_heap (ac_mem (sc_tab x))) (at_view a) v ->
    tab_by f i a (AThread v (at_run a) (at_past a) (at_did a) (at_steps a)) (sc_tab x) y ->
    store_step f ov t0 x (SConf (sc_tree x) y (sc_sts x) (sc_hist x))
(* insert, and contains *)
| ss_insert i past p r t t' y : nth_error (sc_sts x) i = Some (SThread SIdle past) ->
    tree_by f ov i t t' (sc_tree x) y -> wt_call t = WIdle -> wt_call t' = WIns p (r_mui r) TStart ->
    store_step f ov t0 x (SConf y (sc_tab x) (set_st i (SIns p r) past x) (sc_hist x))
| ss_contains i past p t t' y : nth_error (sc_sts x) i = Some (SThread SIdle past) ->
    tree_by f ov i t t' (sc_tree x) y -> wt_call t = WIdle -> wt_call t' = WHas p XStart ->
    store_step f ov t0 x (SConf y (sc_tab x) (set_st i (SHas p) past x) (sc_hist x))
| ss_tree i t t' y : tree_by f ov i t t' (sc_tree x) y -> wt_call t <> WIdle -> wt_call t' <> WIdle ->
    store_step f ov t0 x (SConf y (sc_tab x) (sc_sts x) (sc_hist x))
| ss_contained i past p t t' y : nth_error (sc_sts x) i = Some (SThread (SHas p) past) ->
    tree_by f ov i t t' (sc_tree x) y -> wt_call t <> WIdle -> wt_call t' = WIdle ->
    store_step f ov t0 x (SConf y (sc_tab x) (set_st i SIdle past x) (sc_hist x))
(* from the tree to the table, starcast_af.rs:115-124 *)
| ss_upsert i past p r mui rc existed t t' a a' y z : nth_error (sc_sts x) i = Some (SThread (SIns p r) past) ->
    tree_by f ov i t t' (sc_tree x) y -> wt_call t = WIns p mui (TDone (ROk (rc, existed))) -> wt_call t' = WIdle ->
    tab_by f i a a' (sc_tab x) z -> at_run a = None -> at_run a' = Some (p, AUp r, abegin f p (AUp r)) ->
    store_step f ov t0 x (SConf y z (set_st i (SUp p r existed) past x) (sc_hist x))
(* the other calls on the table *)
| ss_one i past p c a a' z : nth_error (sc_sts x) i = Some (SThread SIdle past) -> (forall r, c <> AUp r) ->
    tab_by f i a a' (sc_tab x) z -> at_run a = None -> at_run a' = Some (p, c, abegin f p c) ->
    store_step f ov t0 x (SConf (sc_tree x) z (set_st i (SOne p c) past x) (sc_hist x))
| ss_table i a a' z : tab_by f i a a' (sc_tab x) z -> walking a ->
    store_step f ov t0 x (SConf (sc_tree x) z (sc_sts x) (sc_hist x))
(* under the lock of the records of p, which is l: what the call does, its end,
   and what the lock passes on to it and gets from it *)
| ss_locked i l s past lpast p c k found n b a a1 a2 z1 z2 z3 z4 y1 y2 :
    nth_error (sc_sts x) i = Some (SThread s past) -> nth_error (sc_sts x) l = Some (SThread (SLock p) lpast) ->
    tab_by f i a a1 (sc_tab x) z1 -> at_run a = Some (p, c, ACrit k found) -> at_run a1 = Some (p, c, ADone n b) ->
    tab_by f i a1 a2 z1 z2 -> at_run a2 = None ->
    tab_tells l i z2 z3 -> tab_tells i l z3 z4 -> tree_tells l i (sc_tree x) y1 -> tree_tells i l y1 y2 ->
    let known := lpast ++ own_insert s ++ past in
    store_step f ov t0 x
      (SConf y2 z4 (set_nth l (SThread (SLock p) (known ++ lpast)) (set_st i (answered s b) known x))
        (sc_hist x ++ List.map (fun _ => (p, n, known)) (op_of_call c)))
(* the prefix has no entry that the thread knows *)
| ss_none i s past p c n b a a' z : nth_error (sc_sts x) i = Some (SThread s past) ->
    tab_by f i a a' (sc_tab x) z -> at_run a = Some (p, c, ADone n b) -> at_run a' = None ->
    store_step f ov t0 x (SConf (sc_tree x) z (set_st i (answered s b) past x) (sc_hist x))
| ss_return i past p c b : nth_error (sc_sts x) i = Some (SThread (SRet p c b) past) ->
    store_step f ov t0 x (SConf (sc_tree x) (sc_tab x) (set_st i SIdle past x) (sc_hist x))
(* thread j comes to know what thread i knows: i is joined, sends j a message, .. *)
| ss_told i j pi pj y z : nth_error (sc_sts x) i = Some (SThread SIdle pi) -> nth_error (sc_sts x) j = Some (SThread SIdle pj) ->
    tree_tells i j (sc_tree x) y -> tab_tells i j (sc_tab x) z ->
    store_step f ov t0 x (SConf y z (set_st j SIdle (pi ++ pj) x) (sc_hist x)).

Inductive store_reach (f : af) (ov : bool) : sconf -> Prop :=
| sr_start t0 : tree_new f = Ok t0 -> store_reach f ov (SConf (WTConf t0 [] []) (AConf (TMem [] []) []) [] [])
| sr_step t0 x y : tree_new f = Ok t0 -> store_reach f ov x -> store_step f ov t0 x y -> store_reach f ov y.
