(* Executions that show where the code departs from what one would claim of
   concurrent calls.  Each is a concrete schedule, played by computation. *)
From Coq Require Import Arith NArith List Bool Lia.
From Verif Require Import Word Af BitSpan Spec Maps ChtMath Cht Node Tree Iter MultiMap PrefixCht Lsm Rib
  Conc ConcTree ConcStore ConcSpec HistSpec Examples ConcDemo.
Import ListNotations.
Local Open Scope N_scope.

(* the i-th call, what it is and what it has returned, by computation *)
Lemma by_nth x i c l v : nth_error (ths x) i = Some (c, l) -> ret_of l = Some v -> returned x i c v.
Proof. intros A B. now exists l. Qed.
Ltac ret := eapply by_nth; [vm_compute; reflexivity|vm_compute; reflexivity].
Ltac schedule := apply go_reach; vm_compute; reflexivity.

(* ---------- C43: four failed compare_exchanges in the first stride ---------- *)

(* 1:1::/128, and four others that differ in the first four bits *)
Definition host6 : pid := snd (v6 1 1 128).
Definition other6 (n : N) : pid := (n * 2 ^ 124, 8).
Definition contended (n : nat) : list sact :=
  [Start (ins host6 1 1 [1]); Steps 0 6] ++
  flat_map (fun i => [Start (ins (other6 (N.of_nat i)) 2 1 [2]); Steps i all; Steps 0 1]) (seq 1 n) ++
  [Steps 0 all].

Lemma panic_possible :
  ~ (forall f ov st x i c, reach f ov st x -> ~ returned x i c RetPanic).
Proof.
  intros H. apply (H IPv6 true MemoryOnly (go IPv6 true (at0 IPv6 MemoryOnly) (contended 4)) 0%nat
    (ins host6 1 1 [1])); [schedule|ret].
Qed.

(* ---------- C66: one failed compare_exchange ---------- *)

Lemma retries_doubled :
  ~ (forall f ov st x i p r ups rep, reach f ov st x ->
     returned x i (CInsert p r ups) (RetIns (ROk rep)) ->
     rp_cas rep <= N.of_nat (most_steps (CInsert p r ups))).
Proof.
  intros H. specialize (H IPv6 true MemoryOnly (go IPv6 true (at0 IPv6 MemoryOnly) (contended 1)) 0%nat
    host6 (act 1 1 [1]) None (Report (2 ^ 30) true true 1)).
  assert (A : 2 ^ 30 <= 11080) by (apply H; [schedule|ret]). vm_compute in A. now apply A.
Qed.

(* ---------- C48: two inserts of one prefix, both find it absent ---------- *)

Definition p4 : pid := pf4 160 0 0 0 4.
Definition both_new : list sact :=
  [Start (ins p4 1 1 [1]); Start (ins p4 2 1 [2]); Steps 0 5; Steps 1 5; Steps 0 all; Steps 1 all].

Lemma two_report_new :
  ~ (forall f ov st x i j p r ups r' ups' rep rep', reach f ov st x ->
     returned x i (CInsert p r ups) (RetIns (ROk rep)) -> rp_prefix_new rep = true ->
     returned x j (CInsert p r' ups') (RetIns (ROk rep')) -> rp_prefix_new rep' = true -> i = j).
Proof.
  intros H. specialize (H IPv4 false MemoryOnly (go IPv4 false (at0 IPv4 MemoryOnly) both_new) 0%nat 1%nat
    p4 (act 1 1 [1]) None (act 2 1 [2]) None (Report 0 true true 1) (Report 1 true true 1)).
  assert (A : 0%nat = 1%nat); [|discriminate A].
  apply H; [schedule|ret|reflexivity|ret|reflexivity].
Qed.

Lemma counted_twice :
  ~ (forall f ov st x ps, reach f ov st x -> idle x -> NoDup ps ->
     (forall p, In p ps <-> exists i r ups, started x i (CInsert p r ups)) ->
     uc_total (rib_prefixes_count (ss_rib (sh x))) <= N.of_nat (length ps)).
Proof.
  intros H. specialize (H IPv4 false MemoryOnly (go IPv4 false (at0 IPv4 MemoryOnly) both_new) [p4]).
  assert (A : 2 <= 1); [|vm_compute in A; now apply A].
  apply H.
  - schedule.
  - apply idleb_ok. vm_compute. reflexivity.
  - constructor; [easy|constructor].
  - intros p. split.
    + intros [<-|[]]. exists 0%nat, (act 1 1 [1]), None. eexists. vm_compute. reflexivity.
    + intros (i & r & ups & l & E). vm_compute in E. left.
      destruct i as [|[|[|i]]]; try discriminate E; injection E as <- _ _ _; reflexivity.
Qed.

(* ---------- C49: the pointer bit is set before the node is stored ---------- *)

Definition half_done : list sact :=
  [Start (ins (pf4 160 0 0 0 8) 1 1 [1]); Steps 0 all; Start (ins (pf4 10 0 0 0 8) 2 1 [2]); Steps 1 7].

Lemma scan_misses :
  ~ (forall f ov st x p q i r ups rep, reach f ov st x -> wf_pid f p ->
     returned x i (CInsert q r ups) (RetIns (ROk rep)) ->
     0 < p_len q -> covers f p q -> p_len p < BITS f ->
     exists L, more_specifics f (tree_of x) p = Ok L /\ In q L).
Proof.
  intros H. destruct (H IPv4 false MemoryOnly (go IPv4 false (at0 IPv4 MemoryOnly) half_done)
    (pf4 0 0 0 0 0) (pf4 160 0 0 0 8) 0%nat (act 1 1 [1]) None (Report 0 true true 1)) as (L & A & B).
  - schedule.
  - apply wf_pidb_spec. vm_compute. reflexivity.
  - ret.
  - vm_compute. reflexivity.
  - split; [vm_compute; discriminate|]. simpl. intros k K. lia.
  - vm_compute. reflexivity.
  - vm_compute in A. injection A as <-. destruct B.
Qed.

(* ---------- C67: the flag is set before the record is there ---------- *)

(* call 2 flags the selection and stops before its upsert; call 3 inserts and
   selects, which clears the flag; then call 2 goes on with a better record *)
Definition p8 : pid := pf4 10 0 0 0 8.
Definition stale_selection : list sact :=
  [Start (ins p8 1 1 [5]); Steps 0 all; Start (upd p8 1 2 [5]); Steps 1 all;
   Start (ins p8 2 1 [1]); Steps 2 12; Start (upd p8 3 1 [3]); Steps 3 all; Steps 2 all].

Definition only_inserts (t : tbi) (x : cstore) : Prop := forall i c, started x i c ->
  exists p r, c = CInsert p r None \/ c = CInsert p r (Some t).

Lemma selection_stale :
  ~ (forall f ov st x p t r, reach f ov st x -> idle x -> only_inserts t x ->
     rib_is_ps_outdated f (ss_rib (sh x)) p = Ok (ROk false) ->
     rib_best_path f (ss_rib (sh x)) p = Ok (Some (ROk r)) ->
     exists k, selection t (fun m => rec_after p m (order x)) (Some (r_mui r), k)).
Proof.
  intros H. set (x := go IPv4 false (at0 IPv4 MemoryOnly) stale_selection).
  destruct (H IPv4 false MemoryOnly x p8 by_byte (act 3 1 [3])) as (k & S).
  - schedule.
  - apply idleb_ok. vm_compute. reflexivity.
  - intros i c (l & E). vm_compute in E.
    destruct i as [|[|[|[|[|i]]]]]; try discriminate E; injection E as <- _; do 2 eexists;
      solve [left; reflexivity|right; reflexivity].
  - vm_compute. reflexivity.
  - vm_compute. reflexivity.
  - assert (B : best_of by_byte (fun m => rec_after p8 m (order x)) (fun _ => True) 3).
    { destruct k; apply S. }
    destruct B as (_ & _ & B). specialize (B 2 I).
    assert (N2 : rec_after p8 2 (order x) <> None) by (vm_compute; discriminate).
    specialize (B N2 ltac:(discriminate)).
    destruct B as (r & r' & E1 & E2 & O).
    assert (V3 : rec_after p8 3 (order x) = Some (act 3 1 [3])) by (vm_compute; reflexivity).
    assert (V2 : rec_after p8 2 (order x) = Some (act 2 1 [1])) by (vm_compute; reflexivity).
    rewrite V3 in E1. rewrite V2 in E2. injection E1 as <-. injection E2 as <-.
    simpl in O. lia.
Qed.

(* ---------- C68: an insert that has stored its record fails ---------- *)

(* call 3 has changed the selection between the load and the
   compare_exchange of call 2 *)
Definition overtaken : list sact :=
  [Start (ins p8 1 1 [5]); Steps 0 all; Start (upd p8 1 2 [5]); Steps 1 all;
   Start (upd p8 2 1 [3]); Steps 2 16; Start (upd p8 3 1 [1]); Steps 3 all; Steps 2 all].

Lemma insert_fails :
  ~ (forall f ov st x i p r ups e, reach f ov st x ->
     ~ returned x i (CInsert p r ups) (RetIns (RErr e))).
Proof.
  intros H. apply (H IPv4 false MemoryOnly (go IPv4 false (at0 IPv4 MemoryOnly) overtaken) 2%nat
    p8 (act 2 1 [3]) (Some by_byte) PathSelectionOutdated); [schedule|ret].
Qed.

(* and the prefix, which it has made present, is never counted *)
Definition uncounted : list sact :=
  [Start (upd p4 1 1 [5]); Steps 0 6; Start (ins p4 2 1 [3]); Steps 1 all; Steps 0 6;
   Start (upd p4 3 1 [1]); Steps 2 all; Steps 0 all].

Lemma counted_never :
  ~ (forall f ov st x i p r ups a, reach f ov st x -> idle x ->
     returned x i (CInsert p r ups) (RetIns a) -> 1 <= uc_total (rib_prefixes_count (ss_rib (sh x)))).
Proof.
  intros H. specialize (H IPv4 false MemoryOnly (go IPv4 false (at0 IPv4 MemoryOnly) uncounted) 0%nat
    p4 (act 1 1 [5]) (Some by_byte) (RErr PathSelectionOutdated)).
  assert (A : 1 <= 0); [|vm_compute in A; now apply A].
  apply H; [schedule|apply idleb_ok; vm_compute; reflexivity|ret].
Qed.

(* ---------- C69: two inserts create the same node ---------- *)

Definition node_twice : list sact :=
  [Start (ins p8 1 1 [1]); Start (ins p8 2 1 [2]); Steps 0 6; Steps 1 6; Steps 0 all; Steps 1 all].

Lemma node_counted_twice :
  ~ (forall f ov st x, reach f ov st x -> idle x ->
     rib_nodes_count (ss_rib (sh x)) <= N.of_nat (length (t_heap (tree_of x)))).
Proof.
  intros H. specialize (H IPv4 false MemoryOnly (go IPv4 false (at0 IPv4 MemoryOnly) node_twice)).
  assert (A : 3 <= 2); [|vm_compute in A; now apply A].
  apply H; [schedule|apply idleb_ok; vm_compute; reflexivity].
Qed.

(* ---------- C70: two inserts write memory and disk in different orders ---------- *)

(* the write to disk of call 1 comes after that of call 0, its upsert before *)
Definition crossed : list sact :=
  [Start (ins p4 1 1 [1]); Steps 0 7; Start (ins p4 1 1 [2]); Steps 1 all; Steps 0 all].

Lemma memory_disk_differ :
  ~ (forall f ov x p m r, reach f ov WriteAhead x -> idle x ->
     get_records_for_prefix f (table_of x) p (Some m) true [] = Ok (Some [r]) ->
     exists l, disk_of x = Some l /\ In (long_key f p m (r_ltime r) (r_status r), r_meta r) l).
Proof.
  intros H. destruct (H IPv4 false (go IPv4 false (at0 IPv4 WriteAhead) crossed) p4 1 (act 1 1 [1]))
    as (l & A & B).
  - schedule.
  - apply idleb_ok. vm_compute. reflexivity.
  - vm_compute. reflexivity.
  - vm_compute in A. injection A as <-. vm_compute in B. destruct B as [B|[]]; discriminate B.
Qed.
