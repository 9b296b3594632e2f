(* Properties of the prefix table and the records on a weak memory. *)
From Coq Require Import Arith NArith List Bool Lia.
From Verif Require Import Word Af Maps Cht Node Tree TreeProofs MultiMap PrefixCht Lsm Rib HistSpec
  Conc ConcTree ConcStore ConcTable ConcSpec ConcFacts ConcDemo ConcRefute
  WeakTable WeakTableInv WeakTableFacts WeakTableRun.
Import ListNotations.
Local Open Scope N_scope.

Definition runs_of (x : option aconf) : option (list (option (pid * acall * apc))) :=
  match x with Some x => Some (List.map at_run (ac_ths x)) | None => None end.
(* thread 0 inserts a record of 10.0.0.0/8; thread 1 knows only the new store *)
Definition one_in : list aev := [ESpawn; ESpawn; EBegin 0 p10 (AUp reca)] ++ esteps 0 70 ++ [ERet 0].
(* and tells thread 1, which adds a record of another mui, marks the first and asks for all *)
Definition two_in : list aev := one_in ++ [ETold 0 1; EBegin 1 p10 (AUp recb)] ++ esteps 1 70 ++ [ERet 1].
Definition three_in : list aev := two_in ++ [EBegin 1 p10 (AMark Withdrawn 1 7)] ++ esteps 1 70 ++ [ERet 1].
(* the same on a sequentially consistent memory: two inserts, two look-ups *)
Definition sc_in : cstore := go IPv4 true (at0 IPv4 MemoryOnly)
  [Start (CInsert p10 reca None); Start (CInsert p172 recb None); Steps 0 all; Steps 1 all].
Definition sc_look : cstore := go IPv4 true sc_in
  [Start (CRecords p172 None true); Start (CRecords p10 None true); Steps 2 all; Steps 3 all].
(* ---------- C96: on a weak memory the records of a prefix are those after the first so many critical sections, at least those that happened before ---------- *)

(* a look-up gives what some of the critical sections on the prefix left, in their order: all that happened before it and perhaps more *)
Theorem C96_read : forall f x i t p mui iw bmin n o,
  areach f x -> nth_error (ac_ths x) i = Some t ->
  at_run t = Some (p, ARead mui iw bmin, ADone n (RRead o)) ->
  exists l1 l2, tm_log (ac_mem x) = l1 ++ l2 /\ many p l1 = n /\
    (forall n', In (p, n') (at_past t) -> (n' <= many p l1)%nat) /\
    answers (seen_with l1 p bmin mui iw) o.
Proof. exact wtable_read. Qed.
Print Assumptions C96_read.

(* an upsert is one critical section, after all on the prefix that happened before it, and reports what it replaced *)
Theorem C96_upserted : forall f x i t p r n found o,
  areach f x -> nth_error (ac_ths x) i = Some t ->
  at_run t = Some (p, AUp r, ADone n (RUp found o)) ->
  exists l1 l2, tm_log (ac_mem x) = l1 ++ (i, p, OUp r) :: l2 /\ n = S (many p l1) /\
    (forall n', In (p, n') (at_past t) -> (n' <= many p l1)%nat) /\
    match rec_after p (r_mui r) l1 with
    | None => o = None
    | Some r0 => exists ms, o = Some (mmval_of r0, N.of_nat (length ms)) /\ NoDup ms /\
        forall m, In m ms <-> rec_after p m l1 <> None
    end.
Proof. exact wtable_upserted. Qed.
Print Assumptions C96_upserted.

(* it does not take a prefix that it knows of for new *)
Theorem C96_found : forall f x i t p r n found o,
  areach f x -> nth_error (ac_ths x) i = Some t ->
  at_run t = Some (p, AUp r, ADone n (RUp found o)) -> (exists n', In (p, S n') (at_past t)) -> found = true.
Proof. exact wtable_found. Qed.
Print Assumptions C96_found.

(* a mark is one critical section; it fails only if none on the prefix happened before it *)
Theorem C96_marked : forall f x i t p s mui ltime n ok,
  areach f x -> nth_error (ac_ths x) i = Some t ->
  at_run t = Some (p, AMark s mui ltime, ADone n (RMark ok)) ->
  if ok then
    exists l1 l2, tm_log (ac_mem x) = l1 ++ (i, p, OMark s mui ltime) :: l2 /\ n = S (many p l1) /\
      forall n', In (p, n') (at_past t) -> (n' <= many p l1)%nat
  else n = 0%nat /\ forall n', In (p, n') (at_past t) -> n' = 0%nat.
Proof. exact wtable_marked. Qed.
Print Assumptions C96_marked.

(* nothing else changes a record: the critical sections of a thread are those of its calls, in their order *)
Theorem C96_order : forall f x,
  areach f x ->
  (forall e, In e (tm_log (ac_mem x)) -> (fst (fst e) < length (ac_ths x))%nat) /\
  forall i t, nth_error (ac_ths x) i = Some t ->
    by_thread i (tm_log (ac_mem x)) =
    at_did t ++ match at_run t with Some (p, c, ADone n a) => effect p c a | _ => [] end.
Proof. exact wtable_order. Qed.
Print Assumptions C96_order.

(* what is in memory is what all critical sections have left *)
Theorem C96_memory : forall f x p cnt mui iw bmin,
  areach f x -> wf_pid f p ->
  exists o, get_records_for_prefix f (PCht (tm_heap (ac_mem x)) cnt) p mui iw bmin = Ok o /\
    answers (seen_with (tm_log (ac_mem x)) p bmin mui iw) o.
Proof. exact wtable_memory. Qed.
Print Assumptions C96_memory.

(* what a thread knows to have happened has happened *)
Theorem C96_past : forall f x i t p n,
  areach f x -> nth_error (ac_ths x) i = Some t -> In (p, n) (at_past t) ->
  (n <= many p (tm_log (ac_mem x)))%nat.
Proof. exact wtable_past. Qed.
Print Assumptions C96_past.

(* no entry moves or goes away *)
Theorem C96_kept : forall f x y,
  areach f x -> aexec f x y ->
  (forall k e, lookup k (tm_heap (ac_mem x)) = Some e -> exists e', lookup k (tm_heap (ac_mem y)) = Some e' /\ e_id e' = e_id e) /\
  exists l, tm_log (ac_mem y) = tm_log (ac_mem x) ++ l.
Proof. exact wtable_kept. Qed.
Print Assumptions C96_kept.

(* two threads that insert a prefix at the same time work on one entry *)
Theorem C96_one_entry : forall f x k1 k2 e1 e2,
  areach f x -> lookup k1 (tm_heap (ac_mem x)) = Some e1 ->
  lookup k2 (tm_heap (ac_mem x)) = Some e2 -> e_id e1 = e_id e2 -> k1 = k2.
Proof. exact wtable_one_entry. Qed.
Print Assumptions C96_one_entry.

(* no call panics *)
Theorem C96_no_panic : forall f x i t p c pc,
  areach f x -> nth_error (ac_ths x) i = Some t -> at_run t = Some (p, c, pc) ->
  pc <> APanic /\
  forall n a, pc = ADone n a ->
    match c with
    | AUp _ => exists found o, a = RUp found o
    | AMark _ _ _ => exists ok, a = RMark ok
    | ARead _ _ _ => exists o, a = RRead o
    end.
Proof. exact wtable_no_panic. Qed.
Print Assumptions C96_no_panic.

(* the steps of a call are bounded, those of the others notwithstanding *)
Theorem C96_steps : forall f x i t,
  areach f x -> nth_error (ac_ths x) i = Some t -> at_run t <> None ->
  N.of_nat (at_steps t) <= 67.
Proof. exact wtable_steps. Qed.
Print Assumptions C96_steps.

(* and it can always take them: the call returns without the help of the others *)
Theorem C96_returns : forall f x i t p c pc,
  areach f x -> nth_error (ac_ths x) i = Some t -> at_run t = Some (p, c, pc) ->
  exists y t' n a, aexec f x y /\ others_as i x y /\ nth_error (ac_ths y) i = Some t' /\
    at_run t' = Some (p, c, ADone n a).
Proof. exact wtable_returns. Qed.
Print Assumptions C96_returns.

(* thread 0 tells thread 1 that it is done *)
Definition all_in : list aev := three_in ++ [EBegin 1 p10 (ARead None true [2])] ++ esteps 1 70.
Example C96_read_example : areach IPv4 (final all_in) /\
  List.map at_run (ac_ths (final all_in)) =
    [None; Some (p10, ARead None true [2], ADone 3 (RRead (Some [Rec 1 7 Withdrawn [1]; Rec 2 1 Withdrawn [2]])))] /\
  List.map at_past (ac_ths (final all_in)) = [[(p10, 1%nat)]; [(p10, 3%nat); (p10, 2%nat); (p10, 1%nat)]] /\
  tm_log (ac_mem (final all_in)) = [(0%nat, p10, OUp reca); (1%nat, p10, OUp recb); (1%nat, p10, OMark Withdrawn 1 7)].
Proof. split; [apply final_ok; vm_compute; reflexivity|]. repeat split; vm_compute; reflexivity. Qed.
Example C96_upserted_example : runs_of (erun IPv4 (three_in ++ [EBegin 1 p10 (AUp (Rec 1 9 Active [9]))] ++ esteps 1 70)) =
  Some [None; Some (p10, AUp (Rec 1 9 Active [9]), ADone 4 (RUp true (Some (MMV [1] 7 Withdrawn, 2))))].
Proof. vm_compute. reflexivity. Qed.
(* if it is not told, thread 1 may read what was there before, and a mark may fail *)
Example C96_stale_example : runs_of (erun IPv4 (one_in ++ [EBegin 1 p10 (ARead None true [])] ++ esteps 1 70)) =
  Some [None; Some (p10, ARead None true [], ADone 0 (RRead None))].
Proof. vm_compute. reflexivity. Qed.
Example C96_mark_fails_example : runs_of (erun IPv4 (one_in ++ [EBegin 1 p10 (AMark Withdrawn 1 7); EStep 1; ELearn 1 (cell p10); EStep 1])) =
  Some [None; Some (p10, AMark Withdrawn 1 7, ADone 0 (RMark false))].
Proof. vm_compute. reflexivity. Qed.
(* an upsert of one that knows nothing: get_or_init gives it the entry of the other *)
Example C96_one_entry_example : match erun IPv4 (one_in ++ [EBegin 1 p10 (AUp recb); EStep 1; ELearn 1 (cell p10); EStep 1; EStep 1]) with
  | Some x => List.map fst (tm_heap (ac_mem x)) = [cell p10] /\
      List.map at_run (ac_ths x) = [None; Some (p10, AUp recb, ADone 2 (RUp false None))] /\ List.map at_steps (ac_ths x) = [0; 3]%nat
  | None => False
  end.
Proof. vm_compute. auto. Qed.
(* it cannot go on as long as it has not learnt *)
Example C96_must_learn_example : erun IPv4 (one_in ++ [EBegin 1 p10 (AUp recb); EStep 1; EStep 1]) = None.
Proof. vm_compute. reflexivity. Qed.
Example C96_order_example : match erun IPv4 three_in with
  | Some x => List.map at_did (ac_ths x) = [[(p10, OUp reca)]; [(p10, OUp recb); (p10, OMark Withdrawn 1 7)]] /\
      by_thread 1 (tm_log (ac_mem x)) = [(p10, OUp recb); (p10, OMark Withdrawn 1 7)]
  | None => False
  end.
Proof. vm_compute. auto. Qed.

(* ---------- C97: of two threads that insert a prefix each and then look up that of the other at least one finds it; two inserts are seen in one order ---------- *)

(* on a weak memory neither may find the other's *)
Theorem C97_both_miss_refuted :
  exists x t0 t1, areach IPv4 x /\ ac_ths x = [t0; t1] /\
  at_did t0 = [(p10, OUp reca)] /\ at_did t1 = [(p172, OUp recb)] /\
  at_run t0 = Some (p172, ARead None true [], ADone 0 (RRead None)) /\
  at_run t1 = Some (p10, ARead None true [], ADone 0 (RRead None)).
Proof. exact weak_both_miss. Qed.
Print Assumptions C97_both_miss_refuted.

(* and two threads may see two inserts in opposite orders *)
Theorem C97_opposite_refuted :
  exists x t0 t1 t2 t3, areach IPv4 x /\ ac_ths x = [t0; t1; t2; t3] /\
  tm_log (ac_mem x) = [(0%nat, p10, OUp reca); (1%nat, p172, OUp recb)] /\
  at_past t2 = [(p10, 1%nat)] /\ at_run t2 = Some (p172, ARead None true [], ADone 0 (RRead None)) /\
  at_past t3 = [(p172, 1%nat)] /\ at_run t3 = Some (p10, ARead None true [], ADone 0 (RRead None)).
Proof. exact weak_opposite. Qed.
Print Assumptions C97_opposite_refuted.

(* on a sequentially consistent memory one of them finds it *)
Theorem C97_one_sees_partial : forall f ov st x1 x2 y i1 i2 j1 j2 p q r1 r2 ups1 ups2 a1 a2 v1 v2,
  reach f ov st x1 -> reach f ov st x2 -> st <> PersistOnly ->
  sexec f ov x1 x2 \/ sexec f ov x2 x1 -> sexec f ov x1 y -> sexec f ov x2 y ->
  returned x1 i1 (CInsert p r1 ups1) (RetIns a1) -> begins_after x1 j1 -> returned y j1 (CRecords q None true) v1 ->
  returned x2 i2 (CInsert q r2 ups2) (RetIns a2) -> begins_after x2 j2 -> returned y j2 (CRecords p None true) v2 ->
  v1 <> RetRecs None \/ v2 <> RetRecs None.
Proof. exact conc_one_of_two. Qed.
Print Assumptions C97_one_sees_partial.

Example C97_example : reach IPv4 true MemoryOnly sc_in /\ sexec IPv4 true sc_in sc_look /\
  returned sc_in 0 (CInsert p10 reca None) (RetIns (ROk (Report 0 true true 1))) /\
  returned sc_in 1 (CInsert p172 recb None) (RetIns (ROk (Report 0 true true 1))) /\
  begins_after sc_in 2 /\ begins_after sc_in 3 /\
  returned sc_look 2 (CRecords p172 None true) (RetRecs (Some [recb])) /\
  returned sc_look 3 (CRecords p10 None true) (RetRecs (Some [reca])).
Proof.
  split; [unfold sc_in; apply go_reach; vm_compute; reflexivity|].
  split; [unfold sc_look; apply go_exec; vm_compute; reflexivity|].
  split; [eapply by_nth; vm_compute; reflexivity|]. split; [eapply by_nth; vm_compute; reflexivity|].
  split; [vm_compute; lia|]. split; [vm_compute; lia|].
  split; eapply by_nth; vm_compute; reflexivity.
Qed.
