(* Properties of concurrent calls. *)
From Coq Require Import Arith NArith List Bool Lia.
From Verif Require Import Word Af BitSpan Spec Maps ChtMath Cht Node Tree Iter MultiMap PrefixCht Lsm Rib
  HistSpec Conc ConcOnce ConcMarks ConcTree ConcStore ConcSpec ConcFacts ConcMore Examples ConcDemo ConcRefute
  ConcCount ConcNodes ConcRetry.
Import ListNotations.
Local Open Scope N_scope.

(* two inserts of 160.0.0.0/4 race from the start, then a mark, a look-up and an
   insert of 10.0.0.0/8 *)
Definition race (st : strategy) : cstore := go IPv4 true (at0 IPv4 st) [
  Start (ins p4 1 1 [1]); Start (upd p4 2 1 [2]); Steps 0 5; Steps 1 5; Steps 0 all; Steps 1 all].
Definition later (st : strategy) : cstore := go IPv4 true (race st) [
  Start (CMark Withdrawn p4 1 7); Start (CRecords p4 None true); Start (ins p8 1 1 [3]);
  Start (CContains p4); Steps 4 9; Steps 2 1; Steps 3 all; Steps 2 all; Steps 5 all; Steps 4 all;
  Start (ins p4 3 1 [4]); Steps 6 all].

(* the schedules of the examples are legal executions of an empty store *)
Ltac conc := cbv zeta; unfold later, race; repeat match goal with |- _ /\ _ => split end; lazymatch goal with
  | |- reach _ _ _ (go _ _ (at0 _ _) _) => apply go_reach; vm_compute; reflexivity
  | |- reach _ _ _ _ => rewrite <- go_app; apply go_reach; vm_compute; reflexivity
  | |- sexec _ _ _ _ => apply go_exec; vm_compute; reflexivity
  | |- idle _ => apply idleb_ok; vm_compute; reflexivity
  | |- returned _ _ _ _ => eapply by_nth; [vm_compute; reflexivity|vm_compute; reflexivity]
  | |- started _ _ _ => eexists; vm_compute; reflexivity
  | |- wf_pid _ _ => apply wf_pidb_spec; vm_compute; reflexivity
  | |- begins_after _ _ => vm_compute; lia
  | |- In _ _ => vm_compute; auto 20
  | |- _ <> _ => discriminate
  | |- _ => vm_compute; reflexivity
  end.

(* ---------- C37: WriteAhead: at every moment, whatever was inserted in memory is on disk ---------- *)

(* every state of an execution is a point at which the process may stop *)
Theorem C37_ahead : forall f ov x,
  reach f ov WriteAhead x ->
  (forall i p r, In (i, p, OUp r) (order x) -> exists l v, disk_of x = Some l /\
     In (long_key f p (r_mui r) (r_ltime r) (r_status r), v) l) /\
  (forall l k v, disk_of x = Some l -> In (k, v) l -> exists i p r ups,
     started x i (CInsert p r ups) /\ k = long_key f p (r_mui r) (r_ltime r) (r_status r) /\
     v = r_meta r).
Proof. exact conc_write_ahead. Qed.
Print Assumptions C37_ahead.

(* the process stops after the write to disk of call 0, before its upsert *)
Example C37_ahead_example : let x := go IPv4 true (at0 IPv4 WriteAhead) [Start (ins p4 1 1 [1]); Steps 0 7] in
  reach IPv4 true WriteAhead x /\ order x = [] /\
  disk_of x = Some [(long_key IPv4 p4 1 1 Active, [1])].
Proof. conc. Qed.
Example C37_ahead_order : reach IPv4 true WriteAhead (race WriteAhead) /\
  In (1%nat, p4, OUp (act 2 1 [2])) (order (race WriteAhead)) /\ length (order (race WriteAhead)) = 2%nat.
Proof. conc. Qed.

(* ---------- C38: PersistHistory: what an insert replaced is on disk when it returns ---------- *)

Theorem C38_concurrent : forall f ov x i p r ups rep,
  reach f ov PersistHistory x ->
  returned x i (CInsert p r ups) (RetIns (ROk rep)) ->
  exists l1 l2, order x = l1 ++ (i, p, OUp r) :: l2 /\
    forall old, rec_after p (r_mui r) l1 = Some old -> exists l v, disk_of x = Some l /\
      In (long_key f p (r_mui old) (r_ltime old) (r_status old), v) l.
Proof. exact conc_history. Qed.
Print Assumptions C38_concurrent.

Example C38_concurrent_example : let x := go IPv4 true (at0 IPv4 PersistHistory)
    [Start (ins p4 1 1 [1]); Start (ins p4 1 2 [2]); Steps 0 5; Steps 1 all; Steps 0 all] in
  reach IPv4 true PersistHistory x /\
  returned x 0 (ins p4 1 1 [1]) (RetIns (ROk (Report 1 true true 1))) /\
  order x = [(1%nat, p4, OUp (act 1 2 [2])); (0%nat, p4, OUp (act 1 1 [1]))] /\
  disk_of x = Some [(long_key IPv4 p4 1 2 Active, [2])].
Proof. conc. Qed.

(* ---------- C43: concurrent inserts are never lost ---------- *)

Theorem C43_no_panic_refuted :
  ~ (forall f ov st x i c, reach f ov st x -> ~ returned x i c RetPanic).
Proof. exact panic_possible. Qed.
Print Assumptions C43_no_panic_refuted.

(* an inserted prefix is there from the moment the insert returns, for good *)
Theorem C43_inserted_stays_partial : forall f ov st x y i p r ups a,
  reach f ov st x -> returned x i (CInsert p r ups) (RetIns a) -> 0 < p_len p ->
  sexec f ov x y ->
  prefix_exists f (tree_of y) p = Ok true /\
  forall j v, begins_after x j -> returned y j (CContains p) v -> v = RetHas true.
Proof. exact conc_inserted_stays. Qed.
Print Assumptions C43_inserted_stays_partial.

(* the only panic is the overflow of the retry counter of an insert of a long IPv6 prefix, with overflow checks *)
Theorem C43_no_panic_partial : forall f ov st x i c,
  reach f ov st x -> returned x i c RetPanic ->
  exists p r ups, c = CInsert p r ups /\ ~ no_overflow ov p.
Proof. exact conc_never_panics. Qed.
Print Assumptions C43_no_panic_partial.

(* and the only error is that of the path selection (see C68) *)
Theorem C43_errors_partial : forall f ov st x i p r ups e,
  reach f ov st x ->
  returned x i (CInsert p r ups) (RetIns (RErr e)) ->
  e = PathSelectionOutdated /\ ups <> None /\ st <> PersistOnly.
Proof. exact conc_insert_errors. Qed.
Print Assumptions C43_errors_partial.

Example C43_example : reach IPv4 true MemoryOnly (race MemoryOnly) /\
  returned (race MemoryOnly) 0 (ins p4 1 1 [1]) (RetIns (ROk (Report 0 true true 1))) /\
  sexec IPv4 true (race MemoryOnly) (later MemoryOnly) /\ begins_after (race MemoryOnly) 5 /\
  returned (later MemoryOnly) 5 (CContains p4) (RetHas true) /\
  prefix_exists IPv4 (tree_of (later MemoryOnly)) p4 = Ok true.
Proof. conc. Qed.
Example C43_panic_example :
  returned (go IPv6 true (at0 IPv6 MemoryOnly) (contended 4)) 0 (ins host6 1 1 [1]) RetPanic.
Proof. conc. Qed.

(* ---------- C44: concurrent inserts never create phantom prefixes ---------- *)

Theorem C44_no_phantom : forall f ov st x p,
  reach f ov st x -> wf_pid f p ->
  prefix_exists f (tree_of x) p = Ok true \/ (exists j, returned x j (CContains p) (RetHas true)) ->
  exists i r ups, started x i (CInsert p r ups).
Proof. exact conc_no_phantom. Qed.
Print Assumptions C44_no_phantom.

Theorem C44_seen_forever : forall f ov st x y p j,
  reach f ov st x -> returned x j (CContains p) (RetHas true) ->
  sexec f ov x y ->
  prefix_exists f (tree_of y) p = Ok true /\
  forall k v, begins_after x k -> returned y k (CContains p) v -> v = RetHas true.
Proof. exact conc_seen_forever. Qed.
Print Assumptions C44_seen_forever.

Example C44_example : reach IPv4 true MemoryOnly (later MemoryOnly) /\
  returned (later MemoryOnly) 5 (CContains p4) (RetHas true) /\
  started (later MemoryOnly) 0 (ins p4 1 1 [1]) /\
  prefix_exists IPv4 (tree_of (later MemoryOnly)) (pf4 176 0 0 0 4) = Ok false.
Proof. conc. Qed.

(* ---------- C45: concurrent creators agree on one entry per id ---------- *)

Theorem C45_entries_stay : forall f ov st x y,
  reach f ov st x -> sexec f ov x y ->
  (forall k e, lookup k (pc_heap (table_of x)) = Some e ->
     exists e', lookup k (pc_heap (table_of y)) = Some e' /\ e_id e' = e_id e) /\
  (forall k e, lookup k (t_heap (tree_of x)) = Some e ->
     exists e', lookup k (t_heap (tree_of y)) = Some e' /\ e_id e' = e_id e).
Proof. exact conc_entries_stay. Qed.
Print Assumptions C45_entries_stay.

Theorem C45_one_entry : forall f ov st x,
  reach f ov st x ->
  (forall k1 k2 e1 e2, lookup k1 (pc_heap (table_of x)) = Some e1 ->
     lookup k2 (pc_heap (table_of x)) = Some e2 -> e_id e1 = e_id e2 -> k1 = k2) /\
  (forall k1 k2 e1 e2, lookup k1 (t_heap (tree_of x)) = Some e1 ->
     lookup k2 (t_heap (tree_of x)) = Some e2 -> e_id e1 = e_id e2 -> k1 = k2).
Proof. exact conc_one_entry. Qed.
Print Assumptions C45_one_entry.

Theorem C45_same_entry : forall f ov st x i j ci cj li lj ki kj,
  reach f ov st x ->
  nth_error (ths x) i = Some (ci, li) -> working_on li = Some ki ->
  nth_error (ths x) j = Some (cj, lj) -> working_on lj = Some kj ->
  (prefix_of ci = prefix_of cj <-> ki = kj).
Proof. exact conc_same_entry. Qed.
Print Assumptions C45_same_entry.

(* two inserts and a mark of one prefix at work on its entry *)
Example C45_example : let x := go IPv4 true (at0 IPv4 MemoryOnly)
    [Start (ins p4 1 1 [1]); Start (upd p4 2 1 [2]); Start (CMark Active p4 1 3);
     Steps 0 8; Steps 1 7; Steps 2 2] in
  reach IPv4 true MemoryOnly x /\
  List.map (fun t => working_on (snd t)) (ths x) = [Some (4, [10]); Some (4, [10]); Some (4, [10])].
Proof. conc. Qed.

(* ---------- C46: concurrent upserts of records are linearizable ---------- *)

(* the records are those of the critical sections, one after the other *)
Theorem C46_records : forall f ov st x p m,
  reach f ov st x -> wf_pid f p ->
  get_records_for_prefix f (table_of x) p (Some m) true [] =
  Ok (match rec_after p m (order x) with Some r => Some [r] | None => None end).
Proof. exact conc_records. Qed.
Print Assumptions C46_records.

(* each call has at most one critical section, of its own kind *)
Theorem C46_order_calls : forall f ov st x,
  reach f ov st x ->
  NoDup (List.map call_of (order x)) /\
  forall i p o, In (i, p, o) (order x) -> exists c, started x i c /\ does c p o.
Proof. exact conc_order_calls. Qed.
Print Assumptions C46_order_calls.

(* and exactly one once it has returned *)
Theorem C46_no_lost_update : forall f ov st x,
  reach f ov st x -> st <> PersistOnly ->
  (forall i p r ups a, returned x i (CInsert p r ups) (RetIns a) -> In (i, p, OUp r) (order x)) /\
  (forall i sm p m t u, returned x i (CMark sm p m t) (RetMark (ROk u)) ->
     In (i, p, OMark sm m t) (order x)).
Proof. exact conc_no_lost_update. Qed.
Print Assumptions C46_no_lost_update.

(* the order respects which call returned before another began *)
Theorem C46_order_extends : forall f ov st x y,
  reach f ov st x -> sexec f ov x y ->
  (exists l, order y = order x ++ l) /\
  forall e, In e (order x) -> ~ begins_after x (call_of e).
Proof. exact conc_order_extends. Qed.
Print Assumptions C46_order_extends.

(* a look-up sees the records of one moment between its begin and its end *)
Theorem C46_read : forall f ov st x y j p m iw v,
  reach f ov st x -> sexec f ov x y ->
  begins_after x j -> returned y j (CRecords p m iw) v ->
  exists l1 l2 o, order y = (order x ++ l1) ++ l2 /\ v = RetRecs o /\
    answers (seen_in (order x ++ l1) p m iw) o.
Proof. exact conc_read. Qed.
Print Assumptions C46_read.

(* the count in the report is that of the moment of the upsert, if it replaced a record *)
Theorem C46_mui_count : forall f ov st x i p r ups rep,
  reach f ov st x -> st <> PersistOnly ->
  returned x i (CInsert p r ups) (RetIns (ROk rep)) ->
  exists l1 l2, order x = l1 ++ (i, p, OUp r) :: l2 /\
    (rec_after p (r_mui r) l1 = None -> rp_mui_count rep = 1) /\
    (rec_after p (r_mui r) l1 <> None ->
     exists ms, NoDup ms /\ (forall m, In m ms <-> rec_after p m l1 <> None) /\
       rp_mui_count rep = N.of_nat (length ms)).
Proof. exact conc_mui_count. Qed.
Print Assumptions C46_mui_count.

Example C46_example : reach IPv4 true MemoryOnly (race MemoryOnly) /\
  sexec IPv4 true (race MemoryOnly) (later MemoryOnly) /\
  order (later MemoryOnly) = [(0%nat, p4, OUp (act 1 1 [1])); (1%nat, p4, OUp (act 2 1 [2]));
    (2%nat, p4, OMark Withdrawn 1 7); (4%nat, p8, OUp (act 1 1 [3])); (6%nat, p4, OUp (act 3 1 [4]))] /\
  returned (later MemoryOnly) 2 (CMark Withdrawn p4 1 7) (RetMark (ROk tt)) /\
  returned (later MemoryOnly) 3 (CRecords p4 None true) (RetRecs (Some [act 1 1 [1]; act 2 1 [2]])) /\
  get_records_for_prefix IPv4 (table_of (later MemoryOnly)) p4 (Some 1) true [] = Ok (Some [wdr 1 7 [1]]).
Proof. conc. Qed.

(* ---------- C47: concurrent global marks all take effect and return ---------- *)

(* a call that lost one compare_exchange can never return *)
Theorem C47_returns_refuted :
  ~ (forall x i c p, gexec gconf0 x -> nth_error (ths x) i = Some (c, p) ->
     exists y, gexec x y /\ mark_returned y i c).
Proof. exact mark_never_returns. Qed.
Print Assumptions C47_returns_refuted.

(* the calls that return take effect one after the other *)
Theorem C47_order_partial : forall x y,
  gexec gconf0 x -> gexec x y ->
  exists ox l, NoDup (List.map fst (ox ++ l)) /\
    (forall i c, In (i, c) ox <-> mark_returned x i c) /\
    (forall i c, In (i, c) (ox ++ l) <-> mark_returned y i c) /\
    forall m, mem m (g_set (sh x)) = marked m (List.map snd ox) /\
              mem m (g_set (sh y)) = marked m (List.map snd (ox ++ l)).
Proof. exact marks_linear. Qed.
Print Assumptions C47_order_partial.

Theorem C47_alone_partial : forall (x : mstore) i c,
  gexec gconf0 x -> nth_error (ths x) i = Some (c, GLoad) ->
  mark_returned (runs gstart gstep 2 i x) i c.
Proof. exact mark_returns_alone. Qed.
Print Assumptions C47_alone_partial.

Example C47_example : exists x, play gstart gstep gconf0 lost_mark = Some x /\ gexec gconf0 x /\
  mark_returned x 0 (true, 1) /\ mem 1 (g_set (sh x)) = true /\ mem 2 (g_set (sh x)) = false /\
  nth_error (ths x) 1 = Some ((true, 2), GCas 0 [1] true).
Proof.
  destruct (play gstart gstep gconf0 lost_mark) as [x|] eqn:P; [|vm_compute in P; discriminate].
  exists x. split; [easy|]. split; [apply (play_exec _ _ _ lost_mark); [repeat constructor|exact P]|].
  vm_compute in P. injection P as <-. repeat split.
Qed.

(* ---------- C48: prefix counters and prefix_new are exact under concurrency ---------- *)

Theorem C48_new_refuted :
  ~ (forall f ov st x i j p r ups r' ups' rep rep', reach f ov st x ->
     returned x i (CInsert p r ups) (RetIns (ROk rep)) -> rp_prefix_new rep = true ->
     returned x j (CInsert p r' ups') (RetIns (ROk rep')) -> rp_prefix_new rep' = true -> i = j).
Proof. exact two_report_new. Qed.
Print Assumptions C48_new_refuted.

Theorem C48_count_refuted :
  ~ (forall f ov st x ps, reach f ov st x -> idle x -> NoDup ps ->
     (forall p, In p ps <-> exists i r ups, started x i (CInsert p r ups)) ->
     uc_total (rib_prefixes_count (ss_rib (sh x))) <= N.of_nat (length ps)).
Proof. exact counted_twice. Qed.
Print Assumptions C48_count_refuted.

(* somebody reports each prefix as new *)
Theorem C48_new_partial : forall f ov st x p i r ups rep,
  reach f ov st x -> idle x -> no_errors x ->
  returned x i (CInsert p r ups) (RetIns (ROk rep)) ->
  exists j r' ups' rep', returned x j (CInsert p r' ups') (RetIns (ROk rep')) /\
    rp_prefix_new rep' = true.
Proof. exact conc_someone_new. Qed.
Print Assumptions C48_new_partial.

(* but not an insert that begins after another has returned *)
Theorem C48_not_new_again_partial : forall f ov st x y i j p r ups a r' ups' rep,
  reach f ov st x ->
  returned x i (CInsert p r ups) (RetIns a) -> sexec f ov x y -> begins_after x j ->
  returned y j (CInsert p r' ups') (RetIns (ROk rep)) -> st <> PersistOnly ->
  rp_prefix_new rep = false.
Proof. exact conc_not_new_again. Qed.
Print Assumptions C48_not_new_again_partial.

(* the counter ends no lower than the number of prefixes, if no insert failed *)
Theorem C48_count_low_partial : forall f ov st x ps,
  reach f ov st x -> idle x -> no_errors x -> NoDup ps ->
  (forall p, In p ps -> exists i r ups rep, returned x i (CInsert p r ups) (RetIns (ROk rep))) ->
  N.of_nat (length ps) <= uc_total (rib_prefixes_count (ss_rib (sh x))).
Proof. exact conc_count_at_least. Qed.
Print Assumptions C48_count_low_partial.

(* and no higher than the number of inserts that report a new prefix *)
Theorem C48_count_high_partial : forall f ov st x,
  reach f ov st x -> idle x ->
  exists js, NoDup js /\ N.of_nat (length js) = uc_total (rib_prefixes_count (ss_rib (sh x))) /\
    forall j, In j js -> exists p r ups rep, returned x j (CInsert p r ups) (RetIns (ROk rep)) /\
      rp_prefix_new rep = true.
Proof. exact conc_count_at_most. Qed.
Print Assumptions C48_count_high_partial.

Example C48_example : reach IPv4 true MemoryOnly (race MemoryOnly) /\ idle (race MemoryOnly) /\
  rets (race MemoryOnly) = [Some (RetIns (ROk (Report 0 true true 1)));
                            Some (RetIns (ROk (Report 1 true true 1)))] /\
  uc_total (rib_prefixes_count (ss_rib (sh (race MemoryOnly)))) = 2.
Proof. conc. Qed.
Example C48_again_example : sexec IPv4 true (race MemoryOnly) (later MemoryOnly) /\
  idle (later MemoryOnly) /\ begins_after (race MemoryOnly) 6 /\
  returned (later MemoryOnly) 6 (ins p4 3 1 [4]) (RetIns (ROk (Report 0 false true 1))) /\
  uc_total (rib_prefixes_count (ss_rib (sh (later MemoryOnly)))) = 3.
Proof. conc. Qed.

(* ---------- C49: a concurrent scan sees everything inserted before it started ---------- *)

(* not even a scan that runs while the others stand still *)
Theorem C49_scan_refuted :
  ~ (forall f ov st x p q i r ups rep, reach f ov st x -> wf_pid f p ->
     returned x i (CInsert q r ups) (RetIns (ROk rep)) ->
     0 < p_len q -> covers f p q -> p_len p < BITS f ->
     exists L, more_specifics f (tree_of x) p = Ok L /\ In q L).
Proof. exact scan_misses. Qed.
Print Assumptions C49_scan_refuted.

(* it does if no insert is under way *)
Theorem C49_scan_partial : forall f ov st x p,
  reach f ov st x -> idle x -> wf_pid f p ->
  exists L, more_specifics f (tree_of x) p = Ok L /\ NoDup L /\
    forall q, In q L <-> (exists i r ups, started x i (CInsert q r ups)) /\
                         0 < p_len q /\ covers f p q /\ p_len p < BITS f.
Proof. exact conc_scan_when_idle. Qed.
Print Assumptions C49_scan_partial.

Example C49_example : reach IPv4 true MemoryOnly (later MemoryOnly) /\ idle (later MemoryOnly) /\
  wf_pid IPv4 (pf4 0 0 0 0 0) /\
  more_specifics IPv4 (tree_of (later MemoryOnly)) (pf4 0 0 0 0 0) = Ok [p4; p8].
Proof. conc. Qed.
Example C49_misses_example : more_specifics IPv4
    (tree_of (go IPv4 false (at0 IPv4 MemoryOnly) half_done)) (pf4 0 0 0 0 0) = Ok [].
Proof. conc. Qed.

(* ---------- C50: insert loops terminate under contention ---------- *)

(* no call makes more than this many steps, whatever the others do *)
Theorem C50_steps : forall f ov st x y i c n,
  reach f ov st x ->
  nth_error (ths x) i = Some (c, cstart c) ->
  (st = PersistOnly -> forall sm p m t, c <> CMark sm p m t) ->
  execn cstart (slegal f) (ststep f ov) i x n y -> (n <= most_steps c)%nat.
Proof. exact conc_steps. Qed.
Print Assumptions C50_steps.

(* and it can always make one until it returns *)
Theorem C50_progress : forall f ov st x i c l,
  reach f ov st x -> nth_error (ths x) i = Some (c, l) ->
  ret_of l = None -> exists s' l', ststep f ov i (sh x) c l = Some (s', l').
Proof. exact conc_progress. Qed.
Print Assumptions C50_progress.

Example C50_example : let x := go IPv6 true (at0 IPv6 MemoryOnly) [Start (ins host6 1 1 [1])] in
  reach IPv6 true MemoryOnly x /\
  nth_error (ths x) 0 = Some (ins host6 1 1 [1], cstart (ins host6 1 1 [1])) /\
  execn cstart (slegal IPv6) (ststep IPv6 true) 0 x 1 (go IPv6 true x [Steps 0 1]).
Proof.
  cbv zeta. split; [apply go_reach; vm_compute; reflexivity|]. split; [reflexivity|].
  apply step_execn. vm_compute. reflexivity.
Qed.

(* ---------- C51: a once-cell has a single winner ---------- *)

Theorem C51_one_value : forall V size (x : ostore V) i j ci cj vi vj,
  oexec (oinit size) x ->
  gave_value x i ci vi -> gave_value x j cj vj -> ocall_idx ci = ocall_idx cj -> vi = vj.
Proof. exact (@once_one_value). Qed.
Print Assumptions C51_one_value.

Theorem C51_one_winner : forall V size (x : ostore V) i c v,
  oexec (oinit size) x -> gave_value x i c v ->
  exists k, gave x k (OGetOrInit (ocall_idx c) v) (OStored v true) /\
    forall k' c' w, gave x k' c' (OStored w true) -> ocall_idx c' = ocall_idx c -> k' = k.
Proof. exact (@once_one_winner). Qed.
Print Assumptions C51_one_winner.

Theorem C51_forever : forall V size (x y : ostore V) i c v,
  oexec (oinit size) x -> gave_value x i c v ->
  oexec x y ->
  forall j c' r, (length (ths x) <= j)%nat -> gave y j c' r -> ocall_idx c' = ocall_idx c ->
  r = OFound (Some v) \/ r = OStored v false.
Proof. exact (@once_forever). Qed.
Print Assumptions C51_forever.

Theorem C51_panic : forall V size (x : ostore V) i c,
  oexec (oinit size) x ->
  gave x i c OPanic -> size <= ocall_idx c.
Proof. exact (@once_panic). Qed.
Print Assumptions C51_panic.

Theorem C51_returns : forall V size (x y : ostore V) i c n,
  oexec (oinit size) x ->
  nth_error (ths x) i = Some (c, ostart c) -> execn ostart (fun _ => True) ostep i x n y ->
  (n <= 4)%nat /\
  forall p, nth_error (ths y) i = Some (c, p) -> ostep i (sh y) c p = None -> exists r, p = ODone r.
Proof. exact (@once_returns). Qed.
Print Assumptions C51_returns.

Theorem C51_atomic : forall V (b : N) (path : list N) (size : N) (x : ostore (entry V)),
  oexec (oinit size) x ->
  exists h : heap V,
    aexec b path size (Conf [] []) (Conf h (List.map abs_th (ths x))) /\
    forall idx, idx < size -> lookup (b, path ++ [idx]) h = cell (sh x) idx.
Proof. exact once_atomic. Qed.
Print Assumptions C51_atomic.

Definition C51_race : list (ev (ocall N)) :=
  [Call (OGetOrInit 3 7); Call (OGetOrInit 3 8); Call (OGet 3); Run 0; Run 1; Run 0; Run 1; Run 0; Run 1;
   Run 2; Run 1; Run 0; Run 2; Call (OGetOrInit 3 9); Run 3; Run 3].
Example C51_example : exists x, play ostart ostep (oinit 16) C51_race = Some x /\
  oexec (oinit 16) x /\ gave x 0 (OGetOrInit 3 7) (OStored 8 false) /\
  gave x 1 (OGetOrInit 3 8) (OStored 8 true) /\ gave x 2 (OGet 3) (OFound (Some 8)) /\
  gave x 3 (OGetOrInit 3 9) (OStored 8 false).
Proof.
  destruct (play ostart ostep (oinit 16) C51_race) as [x|] eqn:P; [|vm_compute in P; discriminate].
  exists x. split; [easy|]. split; [apply (play_exec _ _ _ C51_race); [repeat constructor|exact P]|].
  vm_compute in P. injection P as <-. repeat split.
Qed.

(* ---------- C57: merging into a bitmap never loses bits and terminates ---------- *)

(* a merge that lost one compare_exchange can never return *)
Theorem C57_returns_refuted :
  ~ (forall bits x i node p, mexec (mconf0 bits) x -> nth_error (ths x) i = Some (Merge node, p) ->
     exists y, mexec x y /\ nth_error (ths y) i = Some (Merge node, MDone)).
Proof. exact merge_never_returns. Qed.
Print Assumptions C57_returns_refuted.

(* a merge that returned has its bits in, and no bit is lost *)
Theorem C57_keeps_partial : forall bits x y i node,
  mexec (mconf0 bits) x -> mexec x y ->
  nth_error (ths x) i = Some (Merge node, MDone) -> bits_in (N.lor node (sh x)) (sh y).
Proof. exact merge_keeps. Qed.
Print Assumptions C57_keeps_partial.

(* the inserts of this version never get there *)
Theorem C57_unused_partial : forall f ov st x i c l,
  reach f ov st x -> nth_error (ths x) i = Some (c, l) ->
  merging l = false.
Proof. exact conc_no_merge. Qed.
Print Assumptions C57_unused_partial.

Example C57_example : exists x, play (fun _ => MStart) mstep (mconf0 4)
    [Call (Merge 1); Call (AddBits 2); Run 0; Run 0; Run 1] = Some x /\ mexec (mconf0 4) x /\
  nth_error (ths x) 0 = Some (Merge 1, MDone) /\ sh x = 7.
Proof.
  destruct (play (fun _ => MStart) mstep (mconf0 4)
    [Call (Merge 1); Call (AddBits 2); Run 0; Run 0; Run 1]) as [x|] eqn:P; [|vm_compute in P; discriminate].
  exists x. split; [easy|]. split; [eapply play_exec; [|exact P]; repeat constructor|].
  vm_compute in P. injection P as <-. repeat split.
Qed.

(* ---------- C66: the reported number of retries is the number of retries ---------- *)

(* one retry in the first stride of a /128 is reported as a milliard *)
Theorem C66_retries_refuted :
  ~ (forall f ov st x i p r ups rep, reach f ov st x ->
     returned x i (CInsert p r ups) (RetIns (ROk rep)) ->
     rp_cas rep <= N.of_nat (most_steps (CInsert p r ups))).
Proof. exact retries_doubled. Qed.
Print Assumptions C66_retries_refuted.

(* it holds for prefixes of up to 36 bits, so for all of IPv4 *)
Theorem C66_retries_partial : forall f ov st x i p r ups rep,
  reach f ov st x -> p_len p <= 36 ->
  returned x i (CInsert p r ups) (RetIns (ROk rep)) ->
  rp_cas rep <= N.of_nat (most_steps (CInsert p r ups)).
Proof. exact conc_retries_short. Qed.
Print Assumptions C66_retries_partial.

(* a bound in terms of the length, as long as nothing wraps; PersistOnly counts twice *)
Theorem C66_bound_partial : forall f ov st x i p r ups rep,
  reach f ov st x -> p_len p <= 108 ->
  returned x i (CInsert p r ups) (RetIns (ROk rep)) ->
  rp_cas rep <= match st with PersistOnly => 2 | _ => 1 end * most_retries p.
Proof. exact conc_retries. Qed.
Print Assumptions C66_bound_partial.

Example C66_example : rets (go IPv6 true (at0 IPv6 MemoryOnly) (contended 1)) =
  [Some (RetIns (ROk (Report 1073741824 true true 1))); Some (RetIns (ROk (Report 0 true true 1)))].
Proof. conc. Qed.
(* one retry in the first stride of an IPv4 address is reported as 64 *)
Example C66_address : let p := pf4 1 1 0 1 32 in let x := go IPv4 true (at0 IPv4 MemoryOnly)
    [Start (ins p 1 1 [1]); Steps 0 5; Start (ins (pf4 17 0 0 0 8) 1 1 [2]); Steps 1 all; Steps 0 all] in
  reach IPv4 true MemoryOnly x /\
  returned x 0 (ins p 1 1 [1]) (RetIns (ROk (Report 64 true true 1))) /\ most_retries p = 2062.
Proof. conc. Qed.

(* ---------- C67: a selection that is not outdated is that of the present records ---------- *)

Theorem C67_fresh_refuted :
  ~ (forall f ov st x p t r, reach f ov st x -> idle x -> only_inserts t x ->
     rib_is_ps_outdated f (ss_rib (sh x)) p = Ok (ROk false) ->
     rib_best_path f (ss_rib (sh x)) p = Ok (Some (ROk r)) ->
     exists k, selection t (fun m => rec_after p m (order x)) (Some (r_mui r), k)).
Proof. exact selection_stale. Qed.
Print Assumptions C67_fresh_refuted.

Example C67_example : let x := go IPv4 false (at0 IPv4 MemoryOnly) stale_selection in
  reach IPv4 false MemoryOnly x /\ idle x /\
  rib_is_ps_outdated IPv4 (ss_rib (sh x)) p8 = Ok (ROk false) /\
  rib_best_path IPv4 (ss_rib (sh x)) p8 = Ok (Some (ROk (act 3 1 [3]))) /\
  rec_after p8 2 (order x) = Some (act 2 1 [1]).
Proof. conc. Qed.

(* ---------- C68: an insert that selects the best path does not fail ---------- *)

Theorem C68_fails_refuted :
  ~ (forall f ov st x i p r ups e, reach f ov st x ->
     ~ returned x i (CInsert p r ups) (RetIns (RErr e))).
Proof. exact insert_fails. Qed.
Print Assumptions C68_fails_refuted.

(* and then the prefix is not counted *)
Theorem C68_uncounted_refuted :
  ~ (forall f ov st x i p r ups a, reach f ov st x -> idle x ->
     returned x i (CInsert p r ups) (RetIns a) -> 1 <= uc_total (rib_prefixes_count (ss_rib (sh x)))).
Proof. exact counted_never. Qed.
Print Assumptions C68_uncounted_refuted.

(* it is the only error, and only with a selection to update *)
Theorem C68_without_selection_partial : forall f ov st x i p r ups e,
  reach f ov st x ->
  returned x i (CInsert p r ups) (RetIns (RErr e)) ->
  e = PathSelectionOutdated /\ ups <> None /\ st <> PersistOnly.
Proof. exact conc_insert_errors. Qed.
Print Assumptions C68_without_selection_partial.

Example C68_example : let x := go IPv4 false (at0 IPv4 MemoryOnly) overtaken in
  reach IPv4 false MemoryOnly x /\
  returned x 2 (upd p8 2 1 [3]) (RetIns (RErr PathSelectionOutdated)) /\
  rec_after p8 2 (order x) = Some (act 2 1 [3]).
Proof. conc. Qed.

(* ---------- C69: the node counter is the number of nodes under concurrency ---------- *)

Theorem C69_nodes_refuted :
  ~ (forall f ov st x, reach f ov st x -> idle x ->
     rib_nodes_count (ss_rib (sh x)) <= N.of_nat (length (t_heap (tree_of x)))).
Proof. exact node_counted_twice. Qed.
Print Assumptions C69_nodes_refuted.

(* it is at least the number of nodes that the inserts that have returned rely on: the root
   and, for each of their prefixes, one for every multiple of four below its length *)
Theorem C69_nodes_low_partial : forall f ov st x l,
  reach f ov st x -> idle x -> NoDup l ->
  (forall id, In id l -> id = (0, 0) \/ exists i p r ups a,
     returned x i (CInsert p r ups) (RetIns a) /\ on_way f p id) ->
  N.of_nat (length l) <= rib_nodes_count (ss_rib (sh x)).
Proof. exact nodes_low_idle. Qed.
Print Assumptions C69_nodes_low_partial.

(* while inserts are under way it lacks at most one node for each of them *)
Theorem C69_nodes_lag_partial : forall f ov st x l,
  reach f ov st x -> NoDup l ->
  (forall id, In id l -> id = (0, 0) \/ exists i p r ups a,
     returned x i (CInsert p r ups) (RetIns a) /\ on_way f p id) ->
  N.of_nat (length l) <= rib_nodes_count (ss_rib (sh x)) + inserting_now x.
Proof. exact nodes_low. Qed.
Print Assumptions C69_nodes_lag_partial.

(* and never more than the root and one for every four bits of every prefix for which insert
   has been called, the last one to four bits aside *)
Theorem C69_nodes_high_partial : forall f ov st x,
  reach f ov st x ->
  rib_nodes_count (ss_rib (sh x)) <= 1 + sumw depth_of (calls x).
Proof. exact nodes_high. Qed.
Print Assumptions C69_nodes_high_partial.

Example C69_example : let x := go IPv4 false (at0 IPv4 MemoryOnly) node_twice in
  reach IPv4 false MemoryOnly x /\ idle x /\ rib_nodes_count (ss_rib (sh x)) = 3 /\
  length (t_heap (tree_of x)) = 2%nat.
Proof. conc. Qed.
Example C69_bounds : let x := go IPv4 false (at0 IPv4 MemoryOnly) node_twice in
  (exists i r ups a, returned x i (CInsert p8 r ups) (RetIns a)) /\
  on_way IPv4 p8 (0, 0) /\ on_way IPv4 p8 (trunc 32 (p_bits p8) 4, 4) /\
  1 + sumw depth_of (calls x) = 3.
Proof.
  split; [|split; [|split]].
  - exists 0%nat, (act 1 1 [1]), None. eexists. ret.
  - exists 0. repeat split; reflexivity.
  - exists 4. repeat split; reflexivity.
  - vm_compute. reflexivity.
Qed.

(* ---------- C70: WriteAhead: memory and disk agree under concurrency ---------- *)

Theorem C70_agree_refuted :
  ~ (forall f ov x p m r, reach f ov WriteAhead x -> idle x ->
     get_records_for_prefix f (table_of x) p (Some m) true [] = Ok (Some [r]) ->
     exists l, disk_of x = Some l /\ In (long_key f p m (r_ltime r) (r_status r), r_meta r) l).
Proof. exact memory_disk_differ. Qed.
Print Assumptions C70_agree_refuted.

(* they do if no two inserts write different meta data to the same place *)
Theorem C70_agree_partial : forall f ov x i p r,
  reach f ov WriteAhead x -> no_clash x -> wf_records x ->
  In (i, p, OUp r) (order x) -> exists l, disk_of x = Some l /\
    In (long_key f p (r_mui r) (r_ltime r) (r_status r), r_meta r) l.
Proof. exact conc_ahead_value. Qed.
Print Assumptions C70_agree_partial.

Example C70_example : let x := race WriteAhead in
  reach IPv4 true WriteAhead x /\ In (0%nat, p4, OUp (act 1 1 [1])) (order x) /\
  disk_of x = Some [(long_key IPv4 p4 1 1 Active, [1]); (long_key IPv4 p4 2 1 Active, [2])].
Proof. conc. Qed.
Example C70_hypotheses : no_clash (race WriteAhead) /\ wf_records (race WriteAhead).
Proof.
  split.
  - intros i j p r ups r' ups' (l & A) (l' & B) M _ _. vm_compute in A, B.
    destruct i as [|[|[|i]]]; try discriminate A; injection A as <- <- _ _;
    destruct j as [|[|[|j]]]; try discriminate B; injection B as <- _ _; easy.
  - intros i p r ups (l & A). vm_compute in A.
    destruct i as [|[|[|i]]]; try discriminate A; injection A as _ <- _ _; split; reflexivity.
Qed.
