(* PersistOnly: no order of the calls explains the answers if a mark as active is
   among them; the schedule is that of ConcRefute2.v. *)
From Coq Require Import Arith NArith List Bool Permutation Lia.
From Verif Require Import Word Af BitSpan Spec Maps ChtMath Cht Node Tree Iter MultiMap PrefixCht Lsm Rib
  StarCast HistSpec Ask SameSpec Conc ConcTree ConcStore ConcSpec ConcFacts ConcOnly ConcSerial Examples ConcDemo
  ConcRefute ConcRefute2 ConcQuiet.
Import ListNotations.
Local Open Scope N_scope.

Lemma serial_an_order f x h : serial_order f x h ->
  (forall i c v, returned x i c v -> v <> RetPanic -> effective v = true) -> an_order f x h.
Proof.
  intros [A B C] D. split; [exact A|exact B|]. intros i c o v R N O. exact (C i c o v R (D i c v R N) O).
Qed.

Lemma quiet_only_not_serial :
  ~ (forall f ov x y, reach f ov PersistOnly x -> sexec f ov x y -> idle x -> idle y -> wf_calls y ->
     exists h1 h2, serial_order f x h1 /\ serial_order f y (h2 ++ h1) /\
       exists s, after PersistOnly (List.map snd (h2 ++ h1)) s /\
         forall q, for_records q = true -> wf_query q -> answer_alike (ask (with_rib s f y) q) (ask s q)).
Proof.
  intros H. destruct emptied_calls as (R & E & I1 & I2 & W).
  destruct (H _ _ _ _ R E I1 I2 W) as (h1 & h2 & A1 & A2 & st & (_ & B) & C).
  apply serial_an_order in A1.
  2:{ intros i c v (l & N & L) _. vm_compute in N. destruct i as [|[|i]]; try discriminate N.
      injection N as _ <-. injection L as <-. reflexivity. }
  apply serial_an_order in A2.
  2:{ intros i c v (l & N & L) _. vm_compute in N. destruct i as [|[|[|[|i]]]]; try discriminate N;
      injection N as _ <-; injection L as <-; reflexivity. }
  assert (Wq : wf_query (QGet (IPv4, p4) None true)).
  { split; [apply wf_pidb_spec; vm_compute; reflexivity|exact I]. }
  specialize (C (QGet (IPv4, p4) None true) eq_refl Wq).
  destruct (emptied_orders h1 h2 A1 A2) as [O|O]; rewrite O in B; clear O;
    vm_compute in B; injection B as <-;
    destruct C as (a & b & Ea & Eb & Q);
    vm_compute in Ea; vm_compute in Eb; injection Ea as <-; injection Eb as <-; cbn in Q;
    apply Permutation_length_1 in Q; discriminate Q.
Qed.
