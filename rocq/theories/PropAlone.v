(* Properties of a call that no other interferes with. *)
From Coq Require Import Arith NArith List Bool Lia.
From Verif Require Import Word Af BitSpan Spec Maps ChtMath Cht Node Tree Iter MultiMap PrefixCht Lsm Rib
  Conc ConcTree ConcStore ConcScan ConcSpec ConcFacts ConcScanSpec AloneSpec ConcAlone ConcSolo ConcStill
  Examples ConcDemo ConcRefute.
Import ListNotations.
Local Open Scope N_scope.

(* two inserts of 160.0.0.0/4 race from the start, then a mark, a look-up and an
   insert of 10.0.0.0/8 *)
Definition race (st : strategy) : cstore := go IPv4 true (at0 IPv4 st) [
  Start (ins p4 1 1 [1]); Start (upd p4 2 1 [2]); Steps 0 5; Steps 1 5; Steps 0 all; Steps 1 all].
Definition later (st : strategy) : cstore := go IPv4 true (race st) [
  Start (CMark Withdrawn p4 1 7); Start (CRecords p4 None true); Start (ins p8 1 1 [3]);
  Start (CContains p4); Steps 4 9; Steps 2 1; Steps 3 all; Steps 2 all; Steps 5 all; Steps 4 all;
  Start (ins p4 3 1 [4]); Steps 6 all].

(* the schedules of the examples are legal executions of an empty store *)
Ltac conc := cbv zeta; unfold later, race; repeat match goal with |- _ /\ _ => split end; lazymatch goal with
  | |- reach _ _ _ (go _ _ (at0 _ _) _) => apply go_reach; vm_compute; reflexivity
  | |- reach _ _ _ _ => rewrite <- go_app; apply go_reach; vm_compute; reflexivity
  | |- sexec _ _ _ _ => apply go_exec; vm_compute; reflexivity
  | |- idle _ => apply idleb_ok; vm_compute; reflexivity
  | |- returned _ _ _ _ => eapply by_nth; [vm_compute; reflexivity|vm_compute; reflexivity]
  | |- started _ _ _ => eexists; vm_compute; reflexivity
  | |- wf_pid _ _ => apply wf_pidb_spec; vm_compute; reflexivity
  | |- begins_after _ _ => vm_compute; lia
  | |- In _ _ => vm_compute; auto 20
  | |- _ <> _ => discriminate
  | |- _ => vm_compute; reflexivity
  end.

(* ---------- C80: a call that runs undisturbed does what the sequential code does, whatever other calls have left half done ---------- *)

(* it returns, and leaves the store that the sequential function leaves *)
Theorem C80_alone : forall f ov st x c,
  reach f ov st x -> slegal f c ->
  let i := length (ths x) in
  exists rb' v y, in_sequence f (ss_rib (sh x)) c = Ok (rb', v) /\ v <> RetPanic /\
    only f ov i (begin x c) y /\ returned y i c v /\ ss_rib (sh y) = rb' /\
    (forall z v', only f ov i (begin x c) z -> returned z i c v' -> z = y /\ v' = v).
Proof. exact like_sequence. Qed.
Print Assumptions C80_alone.

(* an insert returns Ok, without a retry *)
Theorem C80_first_try : forall f ov st x p r ups,
  reach f ov st x -> wf_pid f p ->
  let c := CInsert p r ups in let i := length (ths x) in
  exists y rep, only f ov i (begin x c) y /\ returned y i c (RetIns (ROk rep)) /\ rp_cas rep = 0.
Proof. exact first_try. Qed.
Print Assumptions C80_first_try.

(* so does the longest match *)
Theorem C80_longest : forall f ov st x p,
  reach f ov st x -> wf_pid f p ->
  exists o n, longest_matching_prefix f (tree_of x) p = Ok o /\
    let s := still (bnext f true p) (tree_of x) n (bscan0 true p) in
    bs_pc s = BDone /\ matches s = match o with Some q => [q] | None => [] end.
Proof. exact still_longest. Qed.
Print Assumptions C80_longest.

(* the less-specifics iterator *)
Theorem C80_less : forall f ov st x p,
  reach f ov st x -> wf_pid f p ->
  exists l n, less_specifics f (tree_of x) p = Ok l /\
    let s := still (bnext f false p) (tree_of x) n (bscan0 false p) in bs_pc s = BDone /\ matches s = l.
Proof. exact still_less. Qed.
Print Assumptions C80_less.

(* and the more-specifics iterator *)
Theorem C80_more : forall f ov st x p,
  reach f ov st x -> wf_pid f p ->
  exists l n, more_specifics f (tree_of x) p = Ok l /\
    let s := still (mnext f p) (tree_of x) n mscan0 in
    scan_over s = true /\ sc_pc s <> MPanic /\ given s = l.
Proof. exact still_more. Qed.
Print Assumptions C80_more.

(* an insert of 1:1::/128 is stopped after six steps: it has begun to write the
   path to its prefix and will never go on *)
Definition stopped : cstore := go IPv6 true (at0 IPv6 WriteAhead) [
  Start (ins (other6 1) 2 1 [2]); Steps 0 all; Start (ins host6 1 1 [1]); Steps 1 6].
Example C80_example :
  reach IPv6 true WriteAhead stopped /\ rets stopped = [Some (RetIns (ROk (Report 0 true true 1))); None].
Proof. unfold stopped. conc. Qed.
Example C80_example_insert :
  let c := ins host6 2 1 [3] in let y := runs cstart (ststep IPv6 true) all 2 (begin stopped c) in
  slegal IPv6 c /\ only IPv6 true 2 (begin stopped c) y /\
  returned y 2 c (RetIns (ROk (Report 0 true true 1))) /\
  disk_of y = Some [(long_key IPv6 (other6 1) 2 1 Active, [2]); (long_key IPv6 host6 2 1 Active, [3])] /\
  match in_sequence IPv6 (ss_rib (sh stopped)) c with
  | Ok (rb, v) => rb = ss_rib (sh y) /\ v = RetIns (ROk (Report 0 true true 1))
  | _ => False
  end.
Proof.
  cbv zeta. split; [apply wf_pidb_spec; vm_compute; reflexivity|].
  split; [exists all; reflexivity|].
  split; [eapply by_nth; [vm_compute; reflexivity|vm_compute; reflexivity]|].
  split; [vm_compute; reflexivity|]. vm_compute. split; reflexivity.
Qed.
(* it is not so when another call takes a step in between *)
Example C80_disturbed :
  let x := go IPv4 true (at0 IPv4 MemoryOnly) [
    Start (ins p4 1 1 [1]); Start (ins p4 2 1 [2]); Steps 0 5; Steps 1 5; Steps 0 all; Steps 1 all] in
  reach IPv4 true MemoryOnly x /\
  returned x 1 (ins p4 2 1 [2]) (RetIns (ROk (Report 1 true true 1))).
Proof. conc. Qed.
Example C80_readers :
  let t := tree_of stopped in let p := host6 in
  more_specifics IPv6 t (0, 0) = Ok [other6 1] /\
  given (still (mnext IPv6 (0, 0)) t 100 mscan0) = [other6 1] /\
  longest_matching_prefix IPv6 t (snd (v6 (2 ^ 28 * 1) 5 128)) = Ok None /\
  less_specifics IPv6 t (2 ^ 124, 60) = Ok [other6 1] /\
  matches (still (bnext IPv6 false (2 ^ 124, 60)) t 900 (bscan0 false (2 ^ 124, 60))) = [other6 1] /\
  matches (still (bnext IPv6 true (2 ^ 124, 60)) t 900 (bscan0 true (2 ^ 124, 60))) = [other6 1] /\
  longest_matching_prefix IPv6 t (2 ^ 124, 60) = Ok (Some (other6 1)).
Proof. vm_compute. repeat split. Qed.
