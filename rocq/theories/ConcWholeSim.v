(* Each address family of the whole store does what the machine of ConcStore.v
   can do. *)
From Coq Require Import Arith NArith List Bool Lia.
From Verif Require Import Word Af BitSpan Spec Maps ChtMath Cht Node Tree ChainProofs TreeProofs
  MultiMap PrefixCht PrefixChtProofs Lsm Rib StarCast HistSpec Conc ConcTree ConcTreeProofs ConcTreeInv ConcStore
  ConcMarks ConcStoreInv ConcCalls ConcSpec ConcFacts ConcSerial ConcQuiet AloneSpec ConcAlone ConcSolo
  ConcWhole WholeSpec.
Import ListNotations.
Local Open Scope N_scope.

Lemma Forall2_nth {A B} (R : A -> B -> Prop) l l' i a : Forall2 R l l' -> nth_error l i = Some a ->
  exists b, nth_error l' i = Some b /\ R a b.
Proof.
  intros F. revert i. induction F as [|x y l l' H F IH]; intros [|i] E; try discriminate.
  - injection E as ->. now exists y.
  - exact (IH i E).
Qed.
Lemma Forall2_nth_r {A B} (R : A -> B -> Prop) l l' i b : Forall2 R l l' -> nth_error l' i = Some b ->
  exists a, nth_error l i = Some a /\ R a b.
Proof.
  intros F. revert i. induction F as [|x y l l' H F IH]; intros [|i] E; try discriminate.
  - injection E as ->. now exists x.
  - exact (IH i E).
Qed.
Lemma Forall2_set_nth {A B} (R : A -> B -> Prop) i a b : forall l l', Forall2 R l l' -> R a b ->
  Forall2 R (set_nth i a l) (set_nth i b l').
Proof.
  intros l l' F H. revert i. induction F as [|x y l l' Hx F IH]; intros [|i]; cbn; constructor; auto.
Qed.
Lemma Forall2_set_l {A B} (R : A -> B -> Prop) i a b : forall l l', Forall2 R l l' ->
  nth_error l' i = Some b -> R a b -> Forall2 R (set_nth i a l) l'.
Proof.
  intros l l' F E H. rewrite <- (set_nth_same l' i b E). now apply Forall2_set_nth.
Qed.

Lemma fam_set_same s f x : fam (set_fam s f x) f = x.
Proof. now destruct f. Qed.
Lemma fam_set_other s f g x : af_eqb f g = false -> fam (set_fam s f x) g = fam s g.
Proof. now destruct f, g. Qed.
Lemma fam_marks s f g x : fam (set_marks s f x) g = fam s g.
Proof. now destruct f, g. Qed.
Lemma marks_fam s f g x : marks (set_fam s f x) g = marks s g.
Proof. now destruct f, g. Qed.
Lemma marks_set_same s f x : marks (set_marks s f x) f = x.
Proof. now destruct f. Qed.
Lemma marks_set_other s f g x : af_eqb f g = false -> marks (set_marks s f x) g = marks s g.
Proof. now destruct f, g. Qed.

(* the threads of a family: a call on the other family, or a global mark, stands
   as a look-up that has returned *)
Definition elsewhere (u : scall * cpc) : Prop := fst u = CContains (0, 0) /\ exists b, snd u = LHas (XDone b).
Definition pj (st : strategy) (f : af) (t : wcall * wpc) (u : scall * cpc) : Prop :=
  match fst t with
  | WStore g c =>
    if af_eqb g f then
      match snd t with
      | WRun l => u = (c, l) /\ match c with CRecords _ _ _ => False | _ => True end
      | WAsk => u = (c, LVal VStart) /\ match c with CRecords _ _ _ => True | _ => False end
      | WLook _ pc => u = (c, LVal pc) /\ match c with CRecords _ _ _ => True | _ => False end /\
          (st = PersistOnly -> pc = VStart) /\ match pc with VDone _ | VPanic => False | _ => True end
      | WGot _ | WPanic => fst u = c /\ (exists o, snd u = LVal (VDone o)) /\
          match c with CRecords _ _ _ => True | _ => False end
      | _ => False
      end
    else elsewhere u
  | _ => elsewhere u
  end.
Definition sim (st : strategy) (f : af) (w : wstore) (x : cstore) : Prop :=
  sh x = fam (sh w) f /\ Forall2 (pj st f) (ths w) (ths x).

Lemma set_nth_last {A} (l : list A) x y : set_nth (length l) y (l ++ [x]) = l ++ [y].
Proof. induction l as [|z l IH]; cbn; [easy|]. now rewrite IH. Qed.
Lemma nth_last {A} (l : list A) x : nth_error (l ++ [x]) (length l) = Some x.
Proof. rewrite nth_error_app2 by easy. now rewrite Nat.sub_diag. Qed.

Lemma wf_root f : wf_pid f (0, 0).
Proof. repeat split; try apply N.le_0_l. simpl. apply N.neq_0_lt_0, N.pow_nonzero. lia. Qed.

(* a look-up that begins and returns at once *)
Lemma stands_in f ov st x : reach f ov st x ->
  exists y b, sexec f ov x y /\ sh y = sh x /\ ths y = ths x ++ [(CContains (0, 0), LHas (XDone b))].
Proof.
  intros R. destruct (call_total f ov st x (CContains (0, 0)) R (wf_root f)) as (rb' & v & E & _).
  cbn [in_sequence rib_contains] in E. destruct (prefix_exists f (rb_tree (ss_rib (sh x))) (0, 0)) as [b| |] eqn:P; [|discriminate..].
  pose proof (contains_alone _ _ _ _ P) as S. destruct x as [s ts]. cbn [sh ths] in *.
  assert (Gx : forall a b', gx f (0, 0) (t_heap (rb_tree (ss_rib s))) a = Some b' ->
    ststep f ov (length ts) s (CContains (0, 0)) (LHas a) = Some (s, LHas b')).
  { intros a b' G. cbn [ststep]. unfold gx in G.
    destruct a; try discriminate G; destruct (xstep f (0, 0) _ _); try discriminate G; injection G as ->; reflexivity. }
  destruct (star_only f ov _ (fun a => (s, LHas a)) (length ts) (CContains (0, 0)) Gx _ _ S
    (ts ++ [(CContains (0, 0), LHas XStart)]) (nth_last _ _)) as [n Rn].
  - eexists. exists b. split.
    + eapply exec_trans; [|apply (runs_exec cstart (slegal f) (ststep f ov) n (length ts))].
      apply exec_one. apply (cs_call cstart (slegal f) (ststep f ov) s ts (CContains (0, 0))). exact (wf_root f).
    + cbn [fst snd] in Rn. cbn [cstart]. rewrite Rn. cbn [sh ths]. rewrite set_nth_last. easy.
Qed.

(* a look-up of records that is let run to its end *)
Lemma runs_out f ov st x i p mui iw : reach f ov st x ->
  nth_error (ths x) i = Some (CRecords p mui iw, LVal VStart) ->
  exists o, sexec f ov x (Conf (sh x) (set_nth i (CRecords p mui iw, LVal (VDone o)) (ths x))).
Proof.
  intros R N. assert (Wp : wf_pid f p).
  { exact (wf_prefix _ _ _ _ _ _ _ _ (reach_sok _ _ _ _ R) (ex_intro _ _ N)). }
  destruct (reach_sok _ _ _ _ R) as [G _]. pose proof (g_table _ _ _ _ _ G) as T.
  destruct x as [s ts]. cbn [sh ths] in *.
  pose proof (records_alone f s p mui iw _ (get_records_ok f _ p mui iw _ T Wp)) as S.
  destruct (star_only f ov _ (fun a => (fst a, LVal (snd a))) i (CRecords p mui iw)
    (fun a b G => f_equal (lift LVal) (eq_trans G (f_equal Some (surjective_pairing b)))) _ _ S ts N) as [n Rn].
  cbn [fst snd] in Rn. eexists. rewrite <- Rn. apply runs_exec.
Qed.

Lemma vstep_marks f s bmin p mui iw pc s1 pc1 :
  vstep f (ConcStore.set_rib s (with_marks (ss_rib s) bmin)) p mui iw pc = Some (s1, pc1) ->
  exists pc2, vstep f s p mui iw pc = Some (s, pc2) /\
    match pc1 with VDone _ => exists o, pc2 = VDone o | _ => pc2 = pc1 end.
Proof.
  destruct pc as [|w|k|o|]; cbn [vstep]; intros E; try discriminate; injection E as <- <-.
  - eexists. split; [reflexivity|]. now destruct (walk_start f PSTRIDE p).
  - eexists. split; [reflexivity|].
    change (pheap (ConcStore.set_rib s (with_marks (ss_rib s) bmin))) with (pheap s).
    destruct (hash_id f p (w_level w)); cbn [bind]; [|reflexivity..].
    destruct (slot_get (pheap s) (w_b w) (w_path w) (w_slots w) a); [|eauto].
    destruct (pid_eqb p (e_id e)); [reflexivity|]. now destruct (add8 (w_level w) 1).
  - change (pheap (ConcStore.set_rib s (with_marks (ss_rib s) bmin))) with (pheap s).
    eexists. split; [reflexivity|]. destruct (deref k (pheap s)); eauto.
Qed.

Lemma nth_pj st f w x i c l : sim st f w x -> nth_error (ths w) i = Some (c, l) ->
  exists u, nth_error (ths x) i = Some u /\ pj st f (c, l) u.
Proof. intros [_ F] N. exact (Forall2_nth _ _ _ _ _ F N). Qed.

(* one step of the whole store is some steps of the family *)
Lemma sim_step ov st f w w' x : reach f ov st x -> sim st f w x -> cstep wstart wlegal (wstep ov) w w' ->
  exists x', sexec f ov x x' /\ sim st f w' x'.
Proof.
  intros R S T. pose proof S as [E F]. destruct T as [s ts c Lc|s ts i c l s' l' N T]; cbn [sh ths] in *.
  - (* a call begins *)
    assert (Else : (forall u, elsewhere u -> pj st f (c, wstart c) u) ->
      exists x', sexec f ov x x' /\ sim st f (Conf s (ts ++ [(c, wstart c)])) x').
    { intros P. destruct (stands_in f ov st x R) as (y & b & A & B & C). exists y. split; [exact A|].
      split; [cbn [sh]; now rewrite B|]. cbn [ths]. rewrite C. apply Forall2_app; [exact F|].
      constructor; [|constructor]. apply P. split; [easy|]. now exists b. }
    destruct c as [g c'|g wd m|m]; [|apply Else; intros u U; exact U..].
    destruct (af_eqb g f) eqn:Q.
    + apply af_eqb_spec in Q. subst g. exists (Conf (sh x) (ths x ++ [(c', cstart c')])). split.
      * destruct x as [s0 ts0]. apply exec_one. constructor. exact Lc.
      * split; [exact E|]. cbn [ths]. apply Forall2_app; [exact F|]. constructor; [|constructor].
        unfold pj. cbn [fst snd wstart]. replace (af_eqb f f) with true by (now destruct f).
        destruct c'; cbn; auto.
    + apply Else. intros u U. unfold pj. cbn [fst]. now rewrite Q.
  - (* a call takes a step *)
    destruct (nth_pj st f (Conf s ts) x i c l S N) as (u & Nu & P).
    unfold pj in P. cbn [fst snd] in P.
    assert (Stay : fam s' f = fam s f -> pj st f (c, l') u ->
      exists x', sexec f ov x x' /\ sim st f (Conf s' (set_nth i (c, l') ts)) x').
    { intros Es Pu. exists x. split; [apply ex_refl|]. split; [cbn [sh]; congruence|]. cbn [ths].
      exact (Forall2_set_l _ _ _ u _ _ F Nu Pu). }
    destruct c as [g c'|g wd m|m].
    + destruct (af_eqb g f) eqn:Q.
      * apply af_eqb_spec in Q. subst g.
        assert (Qf : af_eqb f f = true) by (now destruct f).
        destruct l as [lc| |bmin pc|r| |gg|g2 gg]; cbn [wstep] in T;
          try (destruct c'; discriminate T); try contradiction P.
        -- (* a step of the family *)
           destruct P as [-> Pc].
           assert (T' : exists x1 l1, ststep f ov i (fam s f) c' lc = Some (x1, l1) /\ s' = set_fam s f x1 /\ l' = WRun l1).
           { destruct c'; cbn [wstep] in T; destruct (ststep f ov i (fam s f) _ lc) as [[x1 l1]|]; try discriminate T;
               injection T as <- <-; eauto. }
           destruct T' as (x1 & l1 & T' & -> & ->). exists (Conf x1 (set_nth i (c', l1) (ths x))). split.
           ++ destruct x as [s0 ts0]. cbn [sh ths] in *. subst s0. apply exec_one. econstructor; eauto.
           ++ split; [cbn [sh]; now rewrite fam_set_same|]. cbn [ths]. apply Forall2_set_nth; [exact F|].
              unfold pj. cbn [fst snd]. rewrite Qf. auto.
        -- destruct P as [-> Pc]. destruct c' as [| | |p mui iw]; try contradiction Pc. injection T as <- <-.
           apply Stay; [easy|]. unfold pj. cbn [fst snd]. rewrite Qf. auto.
        -- destruct P as (-> & Pc & Po & Pp). destruct c' as [| | |p mui iw]; try contradiction Pc. injection T as <- <-.
           unfold wlook. assert (St : rb_strat (ss_rib (fam s f)) = st).
           { rewrite <- E. exact (g_strat _ _ _ _ _ (proj1 (reach_sok _ _ _ _ R))). }
           rewrite St.
           assert (Only : st = PersistOnly -> forall l2, (exists r, l2 = WGot r) \/ l2 = WPanic ->
             exists x', sexec f ov x x' /\ sim st f (Conf s (set_nth i (WStore f (CRecords p mui iw), l2) ts)) x').
           { intros Eo l2 L2. specialize (Po Eo). subst pc.
             destruct (runs_out f ov st x i p mui iw R Nu) as (o & X). eexists. split; [exact X|].
             split; [exact E|]. cbn [ths]. apply Forall2_set_nth; [exact F|]. unfold pj. cbn [fst snd]. rewrite Qf.
             destruct L2 as [(r & ->)| ->]; (split; [easy|]; split; [eauto|easy]). }
           assert (Mem : st <> PersistOnly ->
             exists x', sexec f ov x x' /\ sim st f (Conf s (set_nth i (WStore f (CRecords p mui iw),
               match vstep f (ConcStore.set_rib (fam s f) (with_marks (ss_rib (fam s f)) bmin)) p mui iw pc with
               | Some (_, VDone o) => WGot (ROk o)
               | Some (_, VPanic) | None => WPanic
               | Some (_, pc') => WLook bmin pc'
               end) ts)) x').
           { intros No.
             destruct (vstep f (ConcStore.set_rib (fam s f) (with_marks (ss_rib (fam s f)) bmin)) p mui iw pc)
               as [[s1 pc1]|] eqn:V.
             - destruct (vstep_marks _ _ _ _ _ _ _ _ _ V) as (pc2 & V2 & M).
               assert (X : sexec f ov x (Conf (sh x) (set_nth i (CRecords p mui iw, LVal pc2) (ths x)))).
               { destruct x as [s0 ts0]. cbn [sh ths] in *. subst s0. apply exec_one. econstructor; [exact Nu|].
                 cbn [ststep]. rewrite V2. reflexivity. }
               eexists. split; [exact X|]. split; [exact E|]. cbn [ths]. apply Forall2_set_nth; [exact F|].
               assert (NPp : pc2 <> VPanic).
               { intros ->. destruct (reach_sok _ _ _ _ (reach_exec _ _ _ _ _ R X)) as [_ SI].
                 specialize (SI i (CRecords p mui iw) (LVal VPanic)). cbn [ths] in SI.
                 rewrite nth_set_nth in SI by (eapply nth_some_lt; eauto). rewrite Nat.eqb_refl in SI.
                 exact (SI eq_refl). }
               unfold pj. cbn [fst snd]. rewrite Qf.
               destruct pc1; cbn [fst snd]; try (subst pc2; repeat split; auto; intros; contradiction).
               destruct M as (o & ->). repeat split; eauto.
             - (* the look-up has not returned *)
               exfalso. destruct pc as [|w|k|o|]; try discriminate V; exact Pp. }
           destruct st; try (apply Mem; discriminate).
           apply Only; [easy|]. destruct (rib_get_value _ _ _ _ _); eauto.
      * assert (Es : fam s' f = fam s f /\ l' = l' /\ True).
        { destruct l; cbn [wstep] in T; destruct c'; try discriminate T;
            try (injection T as <- <-; auto; fail);
            destruct (ststep g ov i (fam s g) _ _) as [[x1 l1]|]; try discriminate T;
            injection T as <- <-; rewrite fam_set_other by exact Q; auto. }
        apply Stay; [apply Es|]. unfold pj. cbn [fst]. now rewrite Q.
    + apply Stay; [|exact P]. cbn [wstep] in T. destruct l; try discriminate T.
      destruct (gstep i (marks s g) (wd, m) g0) as [[x1 g1]|]; [|discriminate T]. injection T as <- <-. apply fam_marks.
    + apply Stay; [|exact P]. cbn [wstep] in T. destruct l; try discriminate T.
      destruct (gstep i (marks s f0) (true, m) g) as [[x1 g1]|]; [|discriminate T]. injection T as <- <-. apply fam_marks.
Qed.
