(* The other calls step by step, and what follows for every execution. *)
From Coq Require Import Arith NArith List Bool Lia.
From Verif Require Import Word Af BitSpan Maps ChtMath Cht Node Tree ChainProofs TreeProofs
  MultiMap PrefixCht PrefixChtProofs Lsm LsmProofs Rib RibProofs Conc ConcTree ConcTreeProofs
  ConcTreeInv ConcTreeStep ConcTreeEnd ConcTreeSeen ConcStore ConcTable ConcStoreInv ConcStoreStep
  ConcInsert.
Import ListNotations.
Local Open Scope N_scope.

(* how many steps are left *)
Definition kmu (pc : kpc) : N :=
  match pc with
  | KStart => 100
  | KWalk q => pmu q + 10
  | KMark _ => 5
  | KGet _ => 4
  | KEmpty => 3
  | KRewrite _ | KDone _ | KPanic => 0
  end.
Definition vmu (pc : gpc) : N :=
  match pc with
  | VStart => 100
  | VGet w => (32 - w_level w) + 10
  | VRead _ => 1
  | VDone _ | VPanic => 0
  end.

Section Calls.
Variable f : af.
Variable ov : bool.
Variable st : strategy.
Variable n0 : nat.
Variable s0 : sstate.

Notation G := (sG f st s0).
Notation sI := (sI f ov st n0 s0).
Notation kI := (kI f st n0 s0).
Notation vI := (vI f n0 s0).

Lemma kstep_ok s cs i sm p mui lt pc s' pc' : G s cs -> nth_error cs i = Some (CMark sm p mui lt) ->
  kI s i sm p mui lt pc -> kstep f i s sm p mui lt pc = Some (s', pc') ->
  G s' cs /\ kI s' i sm p mui lt pc' /\ sR s s' /\ sO i s s' /\
  (st <> PersistOnly -> kmu pc' < kmu pc).
Proof.
  intros Gs Nc I E.
  assert (Wp : wf_pid f p).
  { pose proof (g_legal _ _ _ _ _ Gs) as LG. rewrite Forall_forall in LG.
    apply nth_error_In in Nc. exact (proj1 (LG _ Nc)). }
  pose proof (g_strat _ _ _ _ _ Gs) as ST.
  assert (SAME : G s cs /\ sR s s /\ sO i s s).
  { split; [easy|]. split; [apply sR_refl|now apply sO_same]. }
  destruct SAME as (GS & RS & OS).
  destruct pc as [|q|k|k| |recs|res|]; simpl in I; unfold kstep in E; [..|discriminate|discriminate].
  - (* KStart *)
    assert (D : pdom f p) by (now apply pdom_wf).
    destruct (walk_start_ok PSTRIDE PSTRIDE_nz f (pheap s) p D) as (w & E1 & O & L0).
    rewrite E1 in E. cbn [bind or_kpanic] in E.
    assert (H : (st <> PersistOnly /\ s' = s /\ pc' = KWalk (PGet w)) \/
                (st = PersistOnly /\ s' = s /\ exists recs, pc' = KRewrite recs)).
    { pose proof (g_lsm _ _ _ _ _ Gs) as GL. rewrite ST in E.
      destruct (rb_lsm (ss_rib s)); [clear GL|specialize (GL eq_refl)];
        destruct st; try congruence; injection E as <- <-;
        try (left; split; [discriminate|]; now split); right; split; eauto. }
    destruct H as [(S & -> & ->)|(S & -> & recs & ->)].
    + split; [easy|]. split; [simpl; auto|]. split; [easy|]. split; [easy|].
      intros _. simpl. rewrite L0. lia.
    + split; [easy|]. split; [exact S|]. split; [easy|]. split; [easy|]. easy.
  - (* KWalk *)
    destruct I as (S & NL & PQ & FR).
    destruct (G_walk f st s0 s cs i p q Gs Wp PQ) as (h' & o & E1 & G1 & R1 & O1 & PO1 & HI & MU).
    rewrite E1 in E. injection E as <- <-. split; [exact G1|].
    assert (HI1 : fresh n0 i -> entry0 f s0 p -> hits o = true).
    { intros X Y. apply HI; [eapply entry_now; eauto|now apply FR]. }
    destruct o as [q'|k fd].
    { split; [simpl; auto|]. split; [exact R1|]. split; [exact O1|]. intros _. cbn [kmu]. lia. }
    destruct fd; (split; [|split; [exact R1|]; split; [exact O1|]; intros _; destruct q; simpl; lia]).
    + simpl. auto.
    + simpl. rewrite ST. intros _. split; [easy|]. split; [exact NL|].
      intros X Y. discriminate (HI1 X Y).
  - (* KMark *)
    destruct I as (S & NL & AT).
    injection E as <- <-.
    destruct (G_op f st s0 s cs i (CMark sm p mui lt) k p
      (fun v => set_recs v (mark_for_mui sm (pv_recs v) mui lt)) (OMark sm mui lt) Gs Nc)
      as (G1 & R1 & O1 & AT1 & CA); auto.
    { now split. }
    { discriminate. }
    match type of G1 with sG _ _ _ ?x _ => set (s1 := x) in * end.
    split; [exact G1|]. rewrite ST.
    assert (H : (st = PersistHistory /\
                 match st with PersistHistory => KGet k | _ => KDone (ROk tt) end = KGet k) \/
                (st <> PersistHistory /\
                 match st with PersistHistory => KGet k | _ => KDone (ROk tt) end = KDone (ROk tt))).
    { destruct st; auto; right; easy. }
    destruct H as [(S1 & ->)|(S1 & ->)].
    + split; [simpl; eauto|]. split; [exact R1|]. split; [exact O1|]. simpl. lia.
    + split; [|split; [exact R1|split; [exact O1|simpl; lia]]].
      simpl. intros _. exists (ss_log s). split; [exact CA|]. easy.
  - (* KGet *)
    destruct I as (S & AT & (l1 & CA)).
    destruct (at_id_lookup _ _ _ AT) as (v & DR & sl & LK). rewrite DR in E.
    pose proof (at_id_pfxs f _ _ _ _ _ (g_table _ _ _ _ _ Gs) LK) as PV.
    pose proof (g_recs _ _ _ _ _ Gs p) as RC. rewrite PV in RC.
    injection E as <- <-. split; [easy|].
    destruct (get_record_for_mui (pv_recs v) mui true) eqn:GR.
    + split; [simpl; eauto|]. split; [easy|]. split; [easy|]. simpl. lia.
    + split; [|split; [easy|split; [easy|simpl; lia]]].
      simpl. intros _. exists l1. split; [exact CA|]. intros _ X. exfalso.
      destruct CA as (l2 & CA). rewrite RC, CA in GR.
      pose proof (replay_keeps p l1 ((i, p, OMark sm mui lt) :: l2) mui X) as Y.
      unfold get_record_for_mui in GR.
      destruct (lookup mui (replay p (l1 ++ (i, p, OMark sm mui lt) :: l2))); [discriminate|easy].
  - (* KEmpty *)
    destruct I as (S & (l1 & CA)).
    destruct (rb_lsm (ss_rib s)) as [l|] eqn:L.
    2:{ pose proof (g_lsm _ _ _ _ _ Gs L). congruence. }
    injection E as <- <-. unfold insert_empty_record.
    destruct (G_lsm f st s0 s cs i (long_key f p mui lt Withdrawn) [] l Gs L) as (G1 & R1 & O1 & OD);
      [congruence|].
    split; [exact G1|]. split; [|split; [exact R1|split; [exact O1|simpl; lia]]].
    simpl. intros _. exists l1. split; [eapply cs_at_R; eauto|]. auto.
  - (* KRewrite *)
    destruct recs as [|b recs].
    + injection E as <- <-. split; [easy|]. split; [now simpl|]. split; [easy|]. split; easy.
    + destruct (rb_lsm (ss_rib s)) as [l|] eqn:L.
      2:{ pose proof (g_lsm _ _ _ _ _ Gs L). congruence. }
      unfold rewrite_header_for_record in E. destruct (zc_record f b) as [[id r]|].
      * injection E as <- <-.
        match goal with |- context [kv_insert ?k ?v l] =>
          destruct (G_lsm f st s0 s cs i k v l Gs L) as (G1 & R1 & O1 & OD); [congruence|] end.
        split; [exact G1|]. split; [exact I|]. split; [exact R1|]. split; [exact O1|]. congruence.
      * injection E as <- <-. split; [easy|]. split; [now simpl|]. split; [easy|]. split; easy.
Qed.

Lemma gfr_nil mui iw b : get_filtered_records [] mui iw b = None.
Proof. destruct mui as [m|], iw; easy. Qed.

Lemma vstep_ok s cs i p mui iw pc s' pc' : G s cs -> nth_error cs i = Some (CRecords p mui iw) ->
  vI s i p mui iw pc -> vstep f s p mui iw pc = Some (s', pc') ->
  s' = s /\ vI s i p mui iw pc' /\ vmu pc' < vmu pc.
Proof.
  intros Gs Nc I E.
  assert (Wp : wf_pid f p).
  { pose proof (g_legal _ _ _ _ _ Gs) as LG. rewrite Forall_forall in LG.
    apply nth_error_In in Nc. exact (LG _ Nc). }
  assert (D : pdom f p) by (now apply pdom_wf).
  assert (SN : fresh n0 i -> exists l3, ss_log s = ss_log s0 ++ l3).
  { intros _. apply (g_since _ _ _ _ _ Gs). }
  pose proof (g_table _ _ _ _ _ Gs) as PI.
  destruct pc as [|w|k|res|]; simpl in I; unfold vstep in E; [..|discriminate|discriminate];
    injection E as <- <-; (split; [easy|]).
  - destruct (walk_start_ok PSTRIDE PSTRIDE_nz f (pheap s) p D) as (w & E1 & O & L0).
    rewrite E1. split; [exact O|]. simpl. rewrite L0. lia.
  - pose proof (pwalk_level f (pheap s) p w D I) as LV.
    destruct I as (k & K & -> & O). cbn [w_level w_b w_path w_slots] in *.
    rewrite hash_pat by auto. cbn [bind].
    rewrite (slot_get_level f PSTRIDE) by (auto; unfold nlev in K; lia).
    destruct (lookup (kof f PSTRIDE p k) (pheap s)) as [e|] eqn:L.
    + destruct (pid_eqb p (e_id e)) eqn:Q.
      * apply pid_eqb_spec in Q. rewrite walk_key. split; [exists e; auto|]. simpl. lia.
      * assert (NE : e_id e <> p).
        { intros X. rewrite X, pid_eqb_refl in Q. discriminate. }
        destruct (walk_next PSTRIDE PSTRIDE_nz f (pheap s) p k e PI D K O L NE) as (A & B & C & K2 & E).
        rewrite A. cbn [bind]. split; [exact E|].
        pose proof (pwalk_level f (pheap s) p _ D E). cbn [w_level vmu] in *. lia.
    + split; [|simpl; lia]. simpl. exists (ss_log s), []. split; [now rewrite app_nil_r|].
      split; [easy|].
      pose proof (pwalk_none f (pheap s) p k K O L) as PN.
      pose proof (g_recs _ _ _ _ _ Gs p) as RC. rewrite PN in RC.
      unfold replay. rewrite RC. simpl. now rewrite gfr_nil.
  - destruct (at_id_lookup _ _ _ I) as (v & DR & sl & LK). rewrite DR.
    pose proof (at_id_pfxs f _ _ _ _ _ PI LK) as PV.
    pose proof (g_recs _ _ _ _ _ Gs p) as RC. rewrite PV in RC.
    split; [|simpl; lia]. simpl. exists (ss_log s), []. split; [now rewrite app_nil_r|].
    split; [easy|]. now rewrite RC.
Qed.

Definition smu (c : scall) (l : cpc) : nat :=
  match c, l with
  | CInsert p _ _, LIns pc => N.to_nat (imu p pc)
  | _, LMark pc => N.to_nat (kmu pc)
  | _, LHas pc => N.to_nat (xmu pc)
  | _, LVal pc => N.to_nat (vmu pc)
  | _, LIns _ => 0%nat
  end.
Definition ssel (c : scall) : Prop :=
  match c with CMark _ _ _ _ => st <> PersistOnly | _ => True end.

Lemma srun_ok s cs i c l s' l' : G s cs -> nth_error cs i = Some c -> sI s cs i c l ->
  ststep f ov i s c l = Some (s', l') ->
  (G s' cs /\ sI s' cs i c l' /\ sR s s' /\ sO i s s') /\ (ssel c -> smu c l' < smu c l)%nat.
Proof.
  intros Gs Nc I E.
  destruct c as [p r ups|sm p mui lt|p|p mui iw], l as [pc|pc|pc|pc]; simpl in E; try discriminate;
    simpl in I.
  - destruct (istep f ov i s p r ups pc) as [[s1 pc1]|] eqn:T; simpl in E; [|discriminate].
    injection E as <- <-.
    destruct (istep_ok f ov st n0 s0 s cs i p r ups pc s1 pc1 Gs Nc I T) as (A & B & D & X & M).
    split; [exact (conj A (conj B (conj D X)))|]. intros _. simpl. lia.
  - destruct (kstep f i s sm p mui lt pc) as [[s1 pc1]|] eqn:T; simpl in E; [|discriminate].
    injection E as <- <-.
    destruct (kstep_ok s cs i sm p mui lt pc s1 pc1 Gs Nc I T) as (A & B & D & X & M).
    split; [exact (conj A (conj B (conj D X)))|]. intros S. specialize (M S). simpl. lia.
  - assert (Wp : wf_pid f p).
    { pose proof (g_legal _ _ _ _ _ Gs) as LG. rewrite Forall_forall in LG.
      apply nth_error_In in Nc. exact (LG _ Nc). }
    destruct (xstep_ok f (insp cs) p _ _ pc (proj1 (g_tree _ _ _ _ _ Gs)) Wp I) as (pc1 & E1 & I1 & M).
    fold (stree s) in E. rewrite E1 in E.
    assert (X : s' = s /\ l' = LHas pc1 /\ xmu pc1 < xmu pc).
    { destruct pc; try discriminate; now injection E as <- <-. }
    destruct X as (-> & -> & X).
    split; [|intros _; simpl; lia].
    split; [easy|]. split; [exact I1|]. split; [apply sR_refl|now apply sO_same].
  - destruct (vstep f s p mui iw pc) as [[s1 pc1]|] eqn:T; simpl in E; [|discriminate].
    injection E as <- <-.
    destruct (vstep_ok s cs i p mui iw pc s1 pc1 Gs Nc I T) as (-> & B & M).
    split; [|intros _; simpl; lia].
    split; [easy|]. split; [exact B|]. split; [apply sR_refl|now apply sO_same].
Qed.

Definition sok (x : conf sstate scall cpc) : Prop := all_ok G sI x.

Lemma sok_exec x y : sok x -> sexec f ov x y -> sok y.
Proof.
  apply all_ok_exec with (R := sR) (O := sO).
  - apply sR_refl.
  - intros s cs c. apply sG_call.
  - auto.
  - intros s cs c. apply sI_start.
  - intros s s' cs i j c l. apply sI_stable.
  - intros. eapply srun_ok; eauto.
Qed.

Lemma sR_exec x y : sok x -> sexec f ov x y -> sR (sh x) (sh y).
Proof.
  apply guarantee_exec with (O := sO).
  - apply sR_refl.
  - intros s cs c. apply sG_call.
  - auto.
  - intros s cs c. apply sI_start.
  - intros s s' cs i j c l. apply sI_stable.
  - intros. eapply srun_ok; eauto.
  - intros a b c. apply sR_trans.
Qed.

Lemma sown_steps x y i n c l : ssel c -> sok x -> execn cstart (slegal f) (ststep f ov) i x n y ->
  nth_error (ths x) i = Some (c, l) ->
  exists l', nth_error (ths y) i = Some (c, l') /\ (n + smu c l' <= smu c l)%nat.
Proof.
  apply own_steps with (R := sR) (O := sO).
  - apply sR_refl.
  - intros s cs c0. apply sG_call.
  - auto.
  - intros s cs c0. apply sI_start.
  - intros s s' cs i0 j c0 l0. apply sI_stable.
  - intros. eapply srun_ok; eauto.
  - intros. eapply srun_ok; eauto.
Qed.

End Calls.

(* the empty store *)
Lemma sok_init f ov st rb : rib_init f st = Ok rb ->
  sok f ov st 0 (sh (sconf0 rb)) (sconf0 rb).
Proof.
  unfold rib_init. destruct (tree_new f) as [t| |] eqn:T; try discriminate. cbn [bind].
  intros E. injection E as <-.
  destruct (tG_new f (insp []) t T) as (A & B & D).
  assert (PI : pinv f (pc_heap pcht_init)).
  { apply (mem_rel_init f). }
  split; [|intros [|i] c l X; discriminate].
  assert (PN : forall id, pfxs f (pc_heap pcht_init) id = None).
  { intros id. unfold pfxs. destruct (find f PSTRIDE (pc_heap pcht_init) id) as [e|] eqn:F; [|easy].
    apply find_spec in F; [|easy|exact PI]. now destruct F as (k & L & _). }
  constructor.
  - constructor.
  - reflexivity.
  - simpl. destruct st; easy.
  - simpl. destruct st; intros l X; try discriminate; injection X as <-; constructor.
  - exact A.
  - exact PI.
  - intros id. unfold pheap. simpl. now rewrite PN.
  - constructor.
  - intros i p o [].
  - intros _ i p r [].
  - simpl. intros -> l k v L1 I1. injection L1 as <-. destruct I1.
  - intros i [].
  - intros q _ X. unfold stree in X. simpl in X. rewrite B in X. discriminate.
  - intros i [].
  - constructor.
  - reflexivity.
  - reflexivity.
  - apply sR_refl.
  - split; [|exact PI]. exact (g_cht _ _ _ (proj1 A)).
Qed.

(* every point in time can be taken as the one to look back to *)
Lemma sok_rebase f ov st n0 s0 x : sok f ov st n0 s0 x ->
  sok f ov st (length (ths x)) (sh x) x.
Proof.
  intros [A B]. destruct (rebase f ov st n0 s0 (sh x) (calls x) (length (ths x)) A) as [C D].
  { unfold calls. now rewrite map_length. }
  split; [exact C|]. intros i c l E. apply D; auto. unfold calls. rewrite map_length.
  eapply nth_some_lt; eauto.
Qed.

Lemma sok_from f ov st rb x y : rib_init f st = Ok rb -> sexec f ov (sconf0 rb) x ->
  sexec f ov x y ->
  sok f ov st (length (ths x)) (sh x) y /\ sR (sh x) (sh y).
Proof.
  intros E A B. pose proof (sok_rebase _ _ _ _ _ x (sok_exec _ _ _ _ _ _ _ (sok_init f ov st rb E) A)) as H.
  split; [eapply sok_exec; eauto|eapply sR_exec; eauto].
Qed.
