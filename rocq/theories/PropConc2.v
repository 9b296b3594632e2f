(* More properties of concurrent calls. *)
From Coq Require Import Arith NArith List Bool Lia.
From Verif Require Import Word Af BitSpan Spec Maps ChtMath Cht Node Tree Iter MultiMap PrefixCht Lsm Rib
  StarCast HistSpec Conc ConcTree ConcStore ConcSpec ConcFacts ConcMore ConcCount ConcSelect ConcOnly ConcLen ConcSerial
  Examples ConcDemo ConcRefute ConcRefute2.
Import ListNotations.
Local Open Scope N_scope.

(* two inserts of 160.0.0.0/4 race from the start, then a mark, a look-up and an
   insert of 10.0.0.0/8 *)
Definition race (st : strategy) : cstore := go IPv4 true (at0 IPv4 st) [
  Start (ins p4 1 1 [1]); Start (upd p4 2 1 [2]); Steps 0 5; Steps 1 5; Steps 0 all; Steps 1 all].
Definition later (st : strategy) : cstore := go IPv4 true (race st) [
  Start (CMark Withdrawn p4 1 7); Start (CRecords p4 None true); Start (ins p8 1 1 [3]);
  Start (CContains p4); Steps 4 9; Steps 2 1; Steps 3 all; Steps 2 all; Steps 5 all; Steps 4 all;
  Start (ins p4 3 1 [4]); Steps 6 all].

(* the schedules of the examples are legal executions of an empty store *)
Ltac conc := cbv zeta; unfold later, race; repeat match goal with |- _ /\ _ => split end; lazymatch goal with
  | |- reach _ _ _ (go _ _ (at0 _ _) _) => apply go_reach; vm_compute; reflexivity
  | |- reach _ _ _ _ => rewrite <- go_app; apply go_reach; vm_compute; reflexivity
  | |- sexec _ _ _ _ => apply go_exec; vm_compute; reflexivity
  | |- idle _ => apply idleb_ok; vm_compute; reflexivity
  | |- returned _ _ _ _ => eapply by_nth; [vm_compute; reflexivity|vm_compute; reflexivity]
  | |- started _ _ _ => eexists; vm_compute; reflexivity
  | |- wf_pid _ _ => apply wf_pidb_spec; vm_compute; reflexivity
  | |- begins_after _ _ => vm_compute; lia
  | |- In _ _ => vm_compute; auto 20
  | |- _ <> _ => discriminate
  | |- _ => vm_compute; reflexivity
  end.

(* PersistOnly: two inserts of one prefix, the second given to a mark that races
   with a third *)
Definition disk_race : cstore := go IPv4 true (at0 IPv4 PersistOnly) [
  Start (ins p4 1 1 [1]); Start (ins p4 2 1 [2]); Steps 0 5; Steps 1 5; Steps 0 all; Steps 1 all].
Definition disk_later : cstore := go IPv4 true disk_race [
  Start (CMark Withdrawn p4 1 7); Steps 2 1; Start (ins p4 1 9 [9]); Steps 3 all; Steps 2 all].

(* ---------- C38: PersistHistory: what a mark changed is on disk when it returns ---------- *)

Theorem C38_mark_concurrent : forall f ov x i sm p m t,
  reach f ov PersistHistory x ->
  returned x i (CMark sm p m t) (RetMark (ROk tt)) ->
  exists l1 l2, order x = l1 ++ (i, p, OMark sm m t) :: l2 /\
    forall old, rec_after p m l1 = Some old -> exists l v, disk_of x = Some l /\
      In (long_key f p m t Withdrawn, v) l.
Proof. exact conc_history_mark. Qed.
Print Assumptions C38_mark_concurrent.

Example C38_mark_concurrent_example : let x := go IPv4 true (at0 IPv4 PersistHistory)
    [Start (ins p4 1 1 [1]); Steps 0 all; Start (CMark Withdrawn p4 1 7); Start (ins p4 1 2 [2]); Steps 1 1;
     Steps 2 all; Steps 1 all] in
  reach IPv4 true PersistHistory x /\ returned x 1 (CMark Withdrawn p4 1 7) (RetMark (ROk tt)) /\
  order x = [(0%nat, p4, OUp (act 1 1 [1])); (2%nat, p4, OUp (act 1 2 [2])); (1%nat, p4, OMark Withdrawn 1 7)] /\
  disk_of x = Some [(long_key IPv4 p4 1 1 Active, [1]); (long_key IPv4 p4 1 7 Withdrawn, [])].
Proof. conc. Qed.

(* ---------- C48: prefix counters under concurrency: per length, and in memory ---------- *)

(* as C48_count_low_partial, for each length *)
Theorem C48_len_low_partial : forall f ov st x ps len n,
  reach f ov st x -> idle x -> no_errors x -> NoDup ps ->
  (forall p, In p ps -> p_len p = len /\
     exists i r ups rep, returned x i (CInsert p r ups) (RetIns (ROk rep))) ->
  rib_prefixes_count_for_len f (ss_rib (sh x)) len = Ok (ROk n) ->
  N.of_nat (length ps) <= uc_total n.
Proof. exact conc_len_at_least. Qed.
Print Assumptions C48_len_low_partial.

(* as C48_count_high_partial, for each length *)
Theorem C48_len_high_partial : forall f ov st x len n,
  reach f ov st x -> idle x ->
  rib_prefixes_count_for_len f (ss_rib (sh x)) len = Ok (ROk n) ->
  exists js, NoDup js /\ N.of_nat (length js) = uc_total n /\
    forall j, In j js -> exists p r ups rep, returned x j (CInsert p r ups) (RetIns (ROk rep)) /\
      p_len p = len /\ rp_prefix_new rep = true.
Proof. exact conc_len_at_most. Qed.
Print Assumptions C48_len_high_partial.

(* the prefixes in memory are counted too often *)
Theorem C48_memory_twice_refuted :
  ~ (forall f ov st x ps, reach f ov st x -> idle x -> NoDup ps ->
     (forall p, In p ps <-> exists i r ups, started x i (CInsert p r ups)) ->
     uc_memory (rib_prefixes_count (ss_rib (sh x))) <= N.of_nat (length ps)).
Proof. exact memory_counted_twice. Qed.
Print Assumptions C48_memory_twice_refuted.

(* or not at all, though no insert failed *)
Theorem C48_memory_never_refuted :
  ~ (forall f ov st x i p r ups rep, st <> PersistOnly -> reach f ov st x -> idle x -> no_errors x ->
     returned x i (CInsert p r ups) (RetIns (ROk rep)) ->
     1 <= uc_memory (rib_prefixes_count (ss_rib (sh x)))).
Proof. exact memory_counted_never. Qed.
Print Assumptions C48_memory_never_refuted.

Example C48_len_example : let x := later MemoryOnly in reach IPv4 true MemoryOnly x /\ idle x /\
  rib_prefixes_count_for_len IPv4 (ss_rib (sh x)) 4 = Ok (ROk (UCounters 0 0 2)) /\
  rib_prefixes_count_for_len IPv4 (ss_rib (sh x)) 8 = Ok (ROk (UCounters 0 0 1)) /\
  returned x 0 (ins p4 1 1 [1]) (RetIns (ROk (Report 0 true true 1))) /\
  returned x 1 (upd p4 2 1 [2]) (RetIns (ROk (Report 1 true true 1))).
Proof. conc. Qed.
Example C48_memory_example :
  uc_memory (rib_prefixes_count (ss_rib (sh (go IPv4 false (at0 IPv4 MemoryOnly) memory_twice)))) = 2 /\
  uc_memory (rib_prefixes_count (ss_rib (sh (go IPv4 false (at0 IPv4 MemoryOnly) memory_never)))) = 0 /\
  rets (go IPv4 false (at0 IPv4 MemoryOnly) memory_never) =
    [Some (RetIns (ROk (Report 0 true false 1))); Some (RetIns (ROk (Report 0 false true 1)))].
Proof. conc. Qed.

(* ---------- C67: a selection under concurrency ---------- *)

(* not even if every insert selects and none fails *)
Theorem C67_all_select_refuted :
  ~ (forall f ov st x p t r, reach f ov st x -> idle x -> no_errors x -> all_select t x ->
     rib_is_ps_outdated f (ss_rib (sh x)) p = Ok (ROk false) ->
     rib_best_path f (ss_rib (sh x)) p = Ok (Some (ROk r)) ->
     exists k, selection t (fun m => rec_after p m (order x)) (Some (r_mui r), k)).
Proof. exact selection_stale_all. Qed.
Print Assumptions C67_all_select_refuted.

(* it is that of the records of one moment after the upsert of the insert that made it *)
Theorem C67_origin_partial : forall f ov st x p sel,
  reach f ov st x -> wf_pid f p ->
  selection_of f x p = Some sel -> sel <> (None, None) ->
  exists i r t l1 l2, started x i (CInsert p r (Some t)) /\ order x = l1 ++ l2 /\
    In (i, p, OUp r) l1 /\ selection t (fun m => rec_after p m l1) sel.
Proof. exact conc_selection. Qed.
Print Assumptions C67_origin_partial.

(* what best_path gives is present and active *)
Theorem C67_best_partial : forall f ov st x p r,
  reach f ov st x -> wf_pid f p ->
  rib_best_path f (ss_rib (sh x)) p = Ok (Some (ROk r)) ->
  rec_after p (r_mui r) (order x) = Some r /\ r_status r = Active /\
  exists k, selection_of f x p = Some (Some (r_mui r), k).
Proof. exact conc_best. Qed.
Print Assumptions C67_best_partial.

(* an insert that selects stores the selection of a moment of its own *)
Theorem C67_selects_partial : forall f ov st x y i j p r ups a r' t rep,
  reach f ov st x -> st <> PersistOnly ->
  returned x i (CInsert p r ups) (RetIns a) -> sexec f ov x y -> begins_after x j ->
  returned y j (CInsert p r' (Some t)) (RetIns (ROk rep)) ->
  exists z l1 l2 sel, sexec f ov x z /\ sexec f ov z y /\ order z = l1 ++ l2 /\
    In (j, p, OUp r') l1 /\ selection_of f z p = Some sel /\
    selection t (fun m => rec_after p m l1) sel.
Proof. exact conc_selects. Qed.
Print Assumptions C67_selects_partial.

(* an insert that finds the prefix leaves it flagged if no other selects *)
Theorem C67_flagged_partial : forall f ov st x y i j p r ups a r' ups' rep,
  reach f ov st x -> st <> PersistOnly ->
  returned x i (CInsert p r ups) (RetIns a) -> sexec f ov x y -> begins_after x j ->
  returned y j (CInsert p r' ups') (RetIns (ROk rep)) ->
  (forall k r t, started y k (CInsert p r (Some t)) -> exists v, returned x k (CInsert p r (Some t)) v) ->
  rib_is_ps_outdated f (ss_rib (sh y)) p = Ok (ROk true).
Proof. exact conc_flagged. Qed.
Print Assumptions C67_flagged_partial.

Example C67_all_select_example : let x := go IPv4 false (at0 IPv4 MemoryOnly) overwritten in
  reach IPv4 false MemoryOnly x /\ idle x /\
  rib_is_ps_outdated IPv4 (ss_rib (sh x)) p8 = Ok (ROk false) /\
  rib_best_path IPv4 (ss_rib (sh x)) p8 = Ok (Some (ROk (act 2 1 [7]))) /\
  selection_of IPv4 x p8 = Some (Some 2, Some 1) /\
  rec_after p8 1 (order x) = Some (act 1 3 [5]).
Proof. conc. Qed.
Example C67_selects_example : let x := race MemoryOnly in
  let y := go IPv4 true x [Start (upd p4 3 1 [1]); Start (ins p4 3 2 [3]); Steps 2 11; Steps 3 all; Steps 2 all] in
  reach IPv4 true MemoryOnly x /\ sexec IPv4 true x y /\ begins_after x 2 /\
  returned y 2 (upd p4 3 1 [1]) (RetIns (ROk (Report 0 false true 1))) /\
  returned x 0 (ins p4 1 1 [1]) (RetIns (ROk (Report 0 true true 1))) /\
  selection_of IPv4 y p4 = Some (Some 1, Some 3) /\
  rib_best_path IPv4 (ss_rib (sh y)) p4 = Ok (Some (ROk (act 1 1 [1]))).
Proof. conc. Qed.
Example C67_flagged_example : let x := race MemoryOnly in let y := later MemoryOnly in
  reach IPv4 true MemoryOnly x /\ sexec IPv4 true x y /\
  returned x 0 (ins p4 1 1 [1]) (RetIns (ROk (Report 0 true true 1))) /\ begins_after x 6 /\
  returned y 6 (ins p4 3 1 [4]) (RetIns (ROk (Report 0 false true 1))) /\
  rib_is_ps_outdated IPv4 (ss_rib (sh y)) p4 = Ok (ROk true).
Proof. conc. Qed.

(* ---------- C77: the route counter under concurrency ---------- *)

(* the counter is the number of inserts that reported a new route, but for those under way *)
Theorem C77_routes : forall f ov st x,
  reach f ov st x ->
  new_routes x <= uc_total (rib_routes_count (ss_rib (sh x))) <= new_routes x + inserting_now x.
Proof. exact conc_routes. Qed.
Print Assumptions C77_routes.

(* and exactly that when no call is under way *)
Theorem C77_routes_idle : forall f ov st x,
  reach f ov st x -> idle x ->
  uc_total (rib_routes_count (ss_rib (sh x))) = new_routes x.
Proof. exact conc_routes_idle. Qed.
Print Assumptions C77_routes_idle.

(* a record reported as not new did replace one *)
Theorem C77_known : forall f ov st x i p r ups rep,
  reach f ov st x ->
  returned x i (CInsert p r ups) (RetIns (ROk rep)) -> rp_mui_new rep = false ->
  exists l1 l2, order x = l1 ++ (i, p, OUp r) :: l2 /\ rec_after p (r_mui r) l1 <> None.
Proof. exact conc_known. Qed.
Print Assumptions C77_known.

Example C77_example : reach IPv4 true MemoryOnly (later MemoryOnly) /\ idle (later MemoryOnly) /\
  uc_total (rib_routes_count (ss_rib (sh (later MemoryOnly)))) = 4 /\ new_routes (later MemoryOnly) = 4.
Proof. conc. Qed.
Example C77_known_example : let x := go IPv4 false (at0 IPv4 MemoryOnly) memory_never in
  reach IPv4 false MemoryOnly x /\
  returned x 0 (ins p4 1 1 [1]) (RetIns (ROk (Report 0 true false 1))) /\
  order x = [(1%nat, p4, OUp (act 1 2 [2])); (0%nat, p4, OUp (act 1 1 [1]))] /\ new_routes x = 1.
Proof. conc. Qed.
Example C77_under_way_example : let x := go IPv4 false (at0 IPv4 MemoryOnly) [Start (ins p4 1 1 [1]); Steps 0 12] in
  reach IPv4 false MemoryOnly x /\ new_routes x = 0 /\ inserting_now x = 1 /\
  uc_total (rib_routes_count (ss_rib (sh x))) = 1.
Proof. conc. Qed.

(* ---------- C78: PersistOnly: concurrent calls leave on disk what they leave one after the other ---------- *)

(* not if a mark as active is among them *)
Theorem C78_serial_refuted :
  ~ (forall f ov x y, reach f ov PersistOnly x -> sexec f ov x y -> idle x -> idle y -> wf_calls y ->
     exists h1 h2, an_order f x h1 /\ an_order f y (h2 ++ h1) /\
       (exists st, after PersistOnly (List.map snd (h2 ++ h1)) st /\ rb_lsm (rib_of st f) = disk_of y)).
Proof. exact only_not_serial. Qed.
Print Assumptions C78_serial_refuted.

(* without: there is an order of the calls, each after those that returned before it began, that leaves the same *)
Theorem C78_serial_partial : forall f ov x y,
  reach f ov PersistOnly x -> sexec f ov x y ->
  wf_calls y -> no_activations y ->
  exists h1 h2, an_order f x h1 /\ an_order f y (h2 ++ h1) /\
    (exists st, after PersistOnly (List.map snd h1) st /\ rb_lsm (rib_of st f) = disk_of x) /\
    (exists st, after PersistOnly (List.map snd (h2 ++ h1)) st /\ rb_lsm (rib_of st f) = disk_of y).
Proof. exact conc_only_serial. Qed.
Print Assumptions C78_serial_partial.

(* an inserted record has its place from the moment the insert returns *)
Theorem C78_stays_partial : forall f ov x y i p r ups rep,
  reach f ov PersistOnly x ->
  returned x i (CInsert p r ups) (RetIns (ROk rep)) -> sexec f ov x y ->
  exists d v, disk_of y = Some d /\ In (short_key f p (r_mui r), v) d.
Proof. exact conc_only_stays. Qed.
Print Assumptions C78_stays_partial.

(* there is nothing but records given to inserts, and what marks make of them *)
Theorem C78_no_phantom_partial : forall f ov x d k v,
  reach f ov PersistOnly x -> wf_calls x ->
  disk_of x = Some d -> In (k, v) d ->
  exists p r, written x p r /\ k = short_key f p (r_mui r) /\
    v = value_header (r_ltime r) (r_status r) ++ r_meta r.
Proof. exact conc_only_disk. Qed.
Print Assumptions C78_no_phantom_partial.

(* a withdrawal that begins after an insert has returned is on disk at some moment before it returns *)
Theorem C78_withdrawn_partial : forall f ov x y i j p r ups rep m t v,
  reach f ov PersistOnly x ->
  returned x i (CInsert p r ups) (RetIns (ROk rep)) -> r_mui r = m ->
  sexec f ov x y -> wf_calls y -> begins_after x j ->
  returned y j (CMark Withdrawn p m t) v ->
  exists z d, sexec f ov x z /\ sexec f ov z y /\ disk_of z = Some d /\
    In (short_key f p m, value_header t Withdrawn) d.
Proof. exact conc_only_mark. Qed.
Print Assumptions C78_withdrawn_partial.

Theorem C78_marks_return_partial : forall f ov x i sm p m t v,
  reach f ov PersistOnly x -> wf_calls x ->
  returned x i (CMark sm p m t) v -> v = RetMark (ROk tt).
Proof. exact conc_only_mark_ok. Qed.
Print Assumptions C78_marks_return_partial.

Example C78_example : reach IPv4 true PersistOnly disk_race /\ sexec IPv4 true disk_race disk_later /\
  disk_of disk_race = Some [(short_key IPv4 p4 1, value_header 1 Active ++ [1]);
    (short_key IPv4 p4 2, value_header 1 Active ++ [2])] /\
  disk_of disk_later = Some [(short_key IPv4 p4 1, value_header 7 Withdrawn);
    (short_key IPv4 p4 2, value_header 1 Active ++ [2])] /\
  returned disk_later 2 (CMark Withdrawn p4 1 7) (RetMark (ROk tt)) /\
  returned disk_later 3 (ins p4 1 9 [9]) (RetIns (ROk (Report 0 true true 0))).
Proof. unfold disk_later, disk_race. conc. Qed.
Example C78_hypotheses : wf_calls disk_later /\ no_activations disk_later.
Proof.
  split; [split|].
  - intros i p r ups (l & E). vm_compute in E.
    destruct i as [|[|[|[|[|i]]]]]; try discriminate E; injection E as _ <- _ _; split; reflexivity.
  - intros i sm p m t (l & E). vm_compute in E.
    destruct i as [|[|[|[|[|i]]]]]; try discriminate E; injection E as _ _ <- <- _; split; reflexivity.
  - intros i p m t (l & E). vm_compute in E.
    destruct i as [|[|[|[|[|i]]]]]; discriminate E.
Qed.
Example C78_refuted_example : let x := go IPv4 false (at0 IPv4 PersistOnly) (first_insert ++ emptied) in
  reach IPv4 false PersistOnly x /\ idle x /\
  disk_of x = Some [(short_key IPv4 p4 1, value_header 2 Active)].
Proof. conc. Qed.
