(* Properties of the conversions from PrefixId to Prefix for queries on a weak memory. *)
From Coq Require Import Arith NArith List Bool Lia.
From Verif Require Import Word Af BitSpan Spec Maps Cht Node Tree Iter MultiMap RecordSet PrefixCht Lsm Rib StarCast
  HistSpec Ask Public PublicWeak Conc ConcTree ConcStore ConcTable ConcMarks ConcSpec ConcScan ConcWhole ConcQuery QuerySpec WeakTree
  WeakTreeRun WeakTable WeakTableRun WeakScanRun WeakStore WeakStoreRun WeakMatch WeakMatchRun PropWeakMatch.
Import ListNotations.
Local Open Scope N_scope.

(* ---------- C109: on a weak memory ---------- *)

(* whatever other threads do and whatever is read late, every prefix that match_prefix shows can be made a Prefix *)
Theorem C109_match_weak : forall f ov B p o i x0 n x r a,
  store_reach f ov x0 -> wf_pid f p ->
  smatching f ov B p o i x0 n x (AtEnd (ROk r)) -> In a (shown_by (AMatch (ROk r))) ->
  fst a = f /\ exists y, prefix_of_id f (snd a) = Ok y /\ public y /\ family (fst y) = f /\
    id_of_prefix f y = Ok (snd a).
Proof. exact match_weak_public. Qed.
Print Assumptions C109_match_weak.

Theorem C109_each_weak : forall f ov B k i x0 n x g a,
  store_reach f ov x0 -> wf_each f k ->
  siterating f ov B k i x0 n x (ItEnd g) -> In a (shown_by (AItems g)) ->
  fst a = f /\ exists y, prefix_of_id f (snd a) = Ok y /\ public y /\ family (fst y) = f /\
    id_of_prefix f y = Ok (snd a).
Proof. exact each_weak_public. Qed.
Print Assumptions C109_each_weak.

(* 10.0.0.0/8 with 8.0.0.0/6 and 10.1.0.0/16; the execution is the one of C103_example *)
Example C109_weak_example : exists n x r,
  store_reach IPv4 true (vend three_told) /\ smatching IPv4 true no_marks p10 all_of 1 (vend three_told) n x (AtEnd (ROk r)) /\
  List.map (fun a => prefix_of_id (fst a) (snd a)) (shown_by (AMatch (ROk r))) =
    [Ok (AddrV4 [10; 0; 0; 0], 8); Ok (AddrV4 [8; 0; 0; 0], 6); Ok (AddrV4 [10; 1; 0; 0], 16)].
Proof.
  destruct C103_example as (n & x & r & _ & A & B & E). exists n, x, r. split; [exact A|]. split; [exact B|].
  rewrite E. vm_compute. reflexivity.
Qed.
Example C109_each_weak_example : exists n x g,
  store_reach IPv4 true (vend three_told) /\ siterating IPv4 true no_marks EachPrefix 1 (vend three_told) n x (ItEnd g) /\
  List.map (fun a => prefix_of_id (fst a) (snd a)) (shown_by (AItems g)) =
    [Ok (AddrV4 [8; 0; 0; 0], 6); Ok (AddrV4 [10; 0; 0; 0], 8); Ok (AddrV4 [10; 1; 0; 0], 16)].
Proof.
  destruct C105_example as (n & x & g & _ & A & B & E). exists n, x, g. split; [exact A|]. split; [exact B|].
  rewrite E. vm_compute. reflexivity.
Qed.
