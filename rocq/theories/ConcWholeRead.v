(* What get_records_for_prefix gives while other calls are under way. *)
From Coq Require Import Arith NArith List Bool Lia.
From Verif Require Import Word Af BitSpan Spec Maps ChtMath Cht Node Tree ChainProofs TreeProofs
  MultiMap PrefixCht PrefixChtProofs Lsm LsmProofs Rib StarCast RibProofs RibLsm RibOk HistSpec Ask Queries Facts1 SameSpec SameProofs
  Conc ConcTree ConcTreeProofs ConcTreeInv ConcTable ConcStore
  ConcMarks ConcStoreInv ConcCalls ConcSpec ConcFacts ConcOnly ConcSerial ConcQuiet AloneSpec ConcAlone ConcSolo
  ConcWhole WholeSpec ConcWholeSim ConcWholeFacts.
Import ListNotations.
Local Open Scope N_scope.

(* the last step of a look-up gives what the sequential code gives in that state *)
Lemma vstep_last f ov st x i p mui iw bmin pc s1 o : reach f ov st x ->
  nth_error (ths x) i = Some (CRecords p mui iw, LVal pc) ->
  vstep f (ConcStore.set_rib (sh x) (with_marks (ss_rib (sh x)) bmin)) p mui iw pc = Some (s1, VDone o) ->
  PrefixCht.get_records_for_prefix f (rb_pcht (ss_rib (sh x))) p mui iw bmin = Ok o.
Proof.
  intros R N E. assert (Wp : wf_pid f p).
  { exact (wf_prefix _ _ _ _ _ _ _ _ (reach_sok _ _ _ _ R) (ex_intro _ _ N)). }
  destruct (reach_sok _ _ _ _ R) as [G A]. specialize (A _ _ _ N). cbn [sI] in A.
  pose proof (g_table _ _ _ _ _ G) as PI. unfold pheap in PI.
  assert (D : pdom f p) by (now apply pdom_wf).
  rewrite get_records_ok by auto. f_equal.
  destruct pc as [|w|k|o'|]; cbn [vstep] in E; try discriminate.
  - destruct (walk_start f PSTRIDE p); discriminate.
  - cbn [vI] in A. injection E as _ E. destruct A as (k & K & -> & O). cbn [w_level w_b w_path w_slots] in *.
    rewrite hash_pat in E by auto. cbn [bind] in E.
    change (pheap (ConcStore.set_rib (sh x) (with_marks (ss_rib (sh x)) bmin))) with (pheap (sh x)) in E.
    rewrite (slot_get_level f PSTRIDE) in E by (auto; unfold nlev in K; lia).
    destruct (lookup (kof f PSTRIDE p k) (pheap (sh x))) as [e|] eqn:L.
    + destruct (pid_eqb p (e_id e)); [discriminate|]. destruct (add8 _ _); discriminate.
    + injection E as <-. pose proof (pwalk_none f (pheap (sh x)) p k K O L) as PN. unfold pheap in PN. now rewrite PN.
  - cbn [vI] in A. injection E as _ E.
    change (pheap (ConcStore.set_rib (sh x) (with_marks (ss_rib (sh x)) bmin))) with (pheap (sh x)) in E.
    destruct (at_id_lookup _ _ _ A) as (v & DR & sl & LK). rewrite DR in E. injection E as <-.
    pose proof (at_id_pfxs f _ _ _ _ _ PI LK) as PV. unfold pheap in *. now rewrite PV.
Qed.

(* and a look-up in memory does not panic *)
Lemma vstep_runs f ov st x i p mui iw bmin pc : reach f ov st x ->
  nth_error (ths x) i = Some (CRecords p mui iw, LVal pc) ->
  match pc with VDone _ | VPanic => False | _ => True end ->
  exists s1 pc1, vstep f (ConcStore.set_rib (sh x) (with_marks (ss_rib (sh x)) bmin)) p mui iw pc = Some (s1, pc1) /\
    pc1 <> VPanic.
Proof.
  intros R N Pc.
  destruct (vstep f (ConcStore.set_rib (sh x) (with_marks (ss_rib (sh x)) bmin)) p mui iw pc) as [[s1 pc1]|] eqn:E.
  2: { destruct pc; try discriminate E; easy. }
  exists s1, pc1. split; [easy|]. destruct (vstep_marks _ _ _ _ _ _ _ _ _ E) as (pc2 & E2 & M).
  destruct (reach_sok _ _ _ _ R) as [G A]. specialize (A _ _ _ N). cbn [sI] in A.
  assert (Nc : nth_error (calls x) i = Some (CRecords p mui iw)).
  { unfold calls. now rewrite nth_error_map, N. }
  intros ->. subst pc2. destruct (vstep_ok _ _ _ _ _ _ _ _ _ _ _ _ _ G Nc A E2) as (_ & B & _). exact B.
Qed.

(* ---------- the two moments of a look-up ---------- *)

Definition gets (st : strategy) (v : wret) (a : res answer) : Prop :=
  (exists r, v = RetGot r /\ a = Ok (ARecords r)) \/
  (st = PersistOnly /\ v = RetCall RetPanic /\ forall r, a <> Ok r).

Definition lookI (ov : bool) (st : strategy) (x w : wstore) (i : nat) (c : wcall) (l : wpc) : Prop :=
  match c with
  | WStore f (CRecords p mui iw) =>
    match l with
    | WAsk => True
    | WLook bmin _ => exists w1, wexec ov x w1 /\ wexec ov w1 w /\ under_way w1 i c /\ bmin = g_set (marks (sh w1) f)
    | _ => exists w1 w2, wexec ov x w1 /\ wexec ov w1 w2 /\ wexec ov w2 w /\ under_way w1 i c /\ under_way w2 i c /\
        exists v, wret_of l = Some v /\ gets st v (ask (marks_of w1 w2) (QGet (f, p) mui iw))
    end
  | _ => True
  end.

Lemma lookI_exec ov st x w w' i c l : wexec ov w w' -> lookI ov st x w i c l -> lookI ov st x w' i c l.
Proof.
  intros E. unfold lookI. destruct c as [f c| |]; auto. destruct c; auto.
  assert (T : forall w1, wexec ov w1 w -> wexec ov w1 w') by (intros w1 A; eapply exec_trans; eauto).
  destruct l; auto; try (intros (w1 & w2 & A & B & C & D); exists w1, w2; split; [easy|]; split; [easy|];
    split; [now apply T|easy]).
  intros (w1 & A & B & D). exists w1. split; [easy|]. split; [now apply T|easy].
Qed.

Lemma ask_get w1 w2 f p mui iw : ask (marks_of w1 w2) (QGet (f, p) mui iw) =
  Ask.lift ARecords (rib_get_value f (with_marks (ss_rib (fam (sh w2) f)) (g_set (marks (sh w1) f))) p mui iw).
Proof. now destruct f. Qed.

Lemma wsim_exec ov st x y : wreach ov st x -> wexec ov x y ->
  forall f, exists z, reach f ov st z /\ sim st f y z.
Proof.
  intros (a & b & A & B & E0) E f. pose proof (exec_trans _ _ _ _ _ _ E0 E) as T. clear E0 E x.
  remember (wconf0 a b) as w0 eqn:Ew. induction T as [w|w w' w'' T IH S].
  - subst w. destruct f.
    + exists (sconf0 a). split; [exists a; split; [easy|apply ex_refl]|]. split; [easy|constructor].
    + exists (sconf0 b). split; [exists b; split; [easy|apply ex_refl]|]. split; [easy|constructor].
  - destruct (IH Ew) as (z & R & Si). destruct (sim_step ov st f _ _ z R Si S) as (z' & E & Si').
    exists z'. split; [exact (reach_exec _ _ _ _ _ R E)|exact Si'].
Qed.
Lemma wreach_sim ov st x f : wreach ov st x -> exists z, reach f ov st z /\ sim st f x z.
Proof. intros R. exact (wsim_exec ov st x x R (ex_refl _ _ _ _) f). Qed.

Lemma lookI_all ov st x y : wreach ov st x -> wexec ov x y ->
  forall i c l, nth_error (ths y) i = Some (c, l) -> (length (ths x) <= i)%nat -> lookI ov st x y i c l.
Proof.
  intros Rx E. induction E as [x|x y z E IH T]; intros i c l N Li.
  - apply nth_some_lt in N. lia.
  - specialize (IH Rx). pose proof (exec_one _ _ _ _ _ T) as T1.
    assert (Old : forall j c0 l0, nth_error (ths y) j = Some (c0, l0) -> (length (ths x) <= j)%nat ->
      lookI ov st x z j c0 l0) by (intros; eapply lookI_exec; eauto).
    destruct T as [s ts c0 Lc|s ts j c0 l0 s' l' Nj St].
    + destruct (Nat.lt_ge_cases i (length ts)) as [H|H].
      * cbn [ths] in N. rewrite nth_error_app1 in N by easy. now apply Old.
      * cbn [ths] in N. rewrite nth_error_app2 in N by easy.
        destruct (i - length ts)%nat as [|n]; [|now destruct n]. cbn in N. injection N as <- <-.
        destruct c0 as [f c0| |]; cbn; auto. now destruct c0.
    + cbn [ths] in N. destruct (Nat.eq_dec j i) as [->|Ne].
      all: rewrite nth_set_nth in N by (apply nth_error_Some; cbn [ths] in Nj; congruence).
      2: { apply Nat.eqb_neq in Ne. rewrite Nat.eqb_sym, Ne in N || rewrite Ne in N. now apply Old. }
      rewrite Nat.eqb_refl in N.
      injection N as <- <-. specialize (IH _ _ _ Nj Li).
      set (w := Conf s ts) in *. set (w' := Conf s' (set_nth i (c0, l') ts)) in *.
      destruct c0 as [f c0|f wd m|m]; try exact I. destruct c0 as [|sm|p0|p mui iw]; try exact I.
      destruct l0 as [l0| |bmin pc|r| |g|f0 g]; cbn [wstep] in St; try discriminate St.
      * (* not a state of this call *)
        destruct (wsim_exec ov st x w Rx E f) as (u & R & S).
        destruct (nth_pj st f w u i _ _ S Nj) as (t & _ & P). unfold pj in P. cbn [fst snd] in P.
        rewrite af_refl in P. destruct P as [_ []].
      * injection St as <- <-. cbn [lookI]. exists w. split; [exact E|]. split; [exact T1|].
        split; [|reflexivity]. exists WAsk. easy.
      * injection St as <- <-. cbn [lookI] in IH. destruct IH as (w1 & A1 & A2 & A3 & ->).
        assert (U : under_way w i (WStore f (CRecords p mui iw))) by (eexists; split; [exact Nj|reflexivity]).
        destruct (wsim_exec ov st x w Rx E f) as (u & R & S).
        destruct (nth_pj st f w u i _ _ S Nj) as (t & Nt & P). unfold pj in P. cbn [fst snd] in P.
        rewrite af_refl in P. destruct P as (-> & _ & Po & Pc). pose proof S as [Es _].
        destruct (reach_sok _ _ _ _ R) as [G _]. pose proof (g_strat _ _ _ _ _ G) as Gst.
        rewrite Es in Gst. change (sh w) with s in *.
        assert (Pd : forall l1 v, wret_of l1 = Some v -> match l1 with WAsk | WLook _ _ => False | _ => True end ->
          gets st v (ask (marks_of w1 w) (QGet (f, p) mui iw)) ->
          lookI ov st x w' i (WStore f (CRecords p mui iw)) l1).
        { intros l1 v Q1 Q2 Q3. assert (Z : exists w1 w2, wexec ov x w1 /\ wexec ov w1 w2 /\ wexec ov w2 w' /\
            under_way w1 i (WStore f (CRecords p mui iw)) /\ under_way w2 i (WStore f (CRecords p mui iw)) /\
            exists v, wret_of l1 = Some v /\ gets st v (ask (marks_of w1 w2) (QGet (f, p) mui iw))).
          { exists w1, w. split; [exact A1|]. split; [exact A2|]. split; [exact T1|]. split; [exact A3|]. split; [exact U|].
            now exists v. }
          destruct l1; try exact Z; contradiction Q2. }
        assert (Dec : st = PersistOnly \/ st <> PersistOnly) by (destruct st; auto; right; discriminate).
        destruct Dec as [Eo|NP].
        -- unfold wlook. rewrite Gst, Eo. rewrite Eo in Pd.
           assert (Ag : ask (marks_of w1 w) (QGet (f, p) mui iw) =
             Ask.lift ARecords (rib_get_value f (with_marks (ss_rib (fam s f)) (g_set (marks (sh w1) f))) p mui iw))
             by apply ask_get.
           destruct (rib_get_value f (with_marks (ss_rib (fam s f)) (g_set (marks (sh w1) f))) p mui iw) as [r| |].
           ++ eapply Pd; [reflexivity|exact I|]. left. exists r. split; [easy|exact Ag].
           ++ eapply Pd; [reflexivity|exact I|]. right. rewrite Ag. split; [easy|]. split; [easy|discriminate].
           ++ eapply Pd; [reflexivity|exact I|]. right. rewrite Ag. split; [easy|]. split; [easy|discriminate].
        -- destruct (vstep_runs f ov st u i p mui iw (g_set (marks (sh w1) f)) pc R Nt Pc) as (s1 & pc1 & V & NVP).
           assert (Ew : wlook f (fam s f) p mui iw (g_set (marks (sh w1) f)) pc =
             match pc1 with VDone o => WGot (ROk o) | VPanic => WPanic | _ => WLook (g_set (marks (sh w1) f)) pc1 end).
           { unfold wlook. rewrite Gst, <- Es, V. destruct st; try reflexivity. now elim NP. }
           rewrite Ew. destruct pc1 as [|w0|k|o|]; try (cbn [lookI]; exists w1; split; [exact A1|];
             split; [eapply exec_trans; [exact A2|exact T1]|]; split; [exact A3|reflexivity]).
           ++ eapply Pd; [reflexivity|exact I|]. left. exists (ROk o). split; [easy|].
              rewrite ask_get. unfold rib_get_value. cbn [with_marks set_tree rb_strat rb_pcht rb_tree t_withdrawn].
              change (sh w) with s. rewrite Gst, <- Es.
              rewrite (vstep_last f ov st u i p mui iw _ pc s1 o R Nt V).
              destruct st; try reflexivity. now elim NP.
           ++ now elim NVP.
Qed.

Lemma whole_read ov st x y i f p mui iw v : wreach ov st x -> wexec ov x y -> (length (ths x) <= i)%nat ->
  wreturned y i (WStore f (CRecords p mui iw)) v ->
  exists w1 w2, wexec ov x w1 /\ wexec ov w1 w2 /\ wexec ov w2 y /\
    under_way w1 i (WStore f (CRecords p mui iw)) /\ under_way w2 i (WStore f (CRecords p mui iw)) /\
    gets st v (ask (marks_of w1 w2) (QGet (f, p) mui iw)).
Proof.
  intros R E L (l & N & V). pose proof (lookI_all ov st x y R E _ _ _ N L) as I. cbn [lookI] in I.
  destruct l; try discriminate V; destruct I as (w1 & w2 & A & B & C & D & F & v' & V' & G);
    exists w1, w2; rewrite V in V'; injection V' as <-; do 5 (split; [easy|]); exact G.
Qed.

(* ---------- one moment, if no global mark comes in between ---------- *)

Lemma wreturned_step ov x y i c v : cstep wstart wlegal (wstep ov) x y -> wreturned x i c v -> wreturned y i c v.
Proof.
  intros T (l & N & V). destruct T as [s ts c0 Lc|s ts j c0 l0 s' l' Nj St]; cbn [ths] in *.
  - exists l. split; [|exact V]. cbn [ths]. rewrite nth_error_app1; [exact N|]. exact (nth_some_lt _ _ _ N).
  - exists l. split; [|exact V]. cbn [ths]. rewrite nth_set_nth by (exact (nth_some_lt _ _ _ Nj)).
    destruct (Nat.eqb_spec j i) as [->|Ne]; [|exact N]. exfalso. rewrite N in Nj. injection Nj as <- <-.
    destruct c as [f c|f wd m|m], l as [l| | |r| |g|g0 g]; cbn [wstep] in St; try discriminate V; try discriminate St.
    + cbn [wret_of] in V. destruct (ret_of l) as [v0|] eqn:Rv; [|discriminate V].
      rewrite (ret_none f ov i (fam s f) c l v0 Rv) in St. destruct c; discriminate St.
    + destruct c; discriminate St.
    + destruct c; discriminate St.
    + destruct c; discriminate St.
    + destruct c; discriminate St.
    + destruct g; discriminate.
    + destruct g0, g; discriminate.
Qed.
Lemma wreturned_exec ov x y i c v : wexec ov x y -> wreturned x i c v -> wreturned y i c v.
Proof. intros E. induction E as [|x y z E IH T]; auto. intros Q. eapply wreturned_step; eauto. Qed.

Lemma marks_still ov f x y : wexec ov x y ->
  (forall i c, wstarted y i c -> marks_in f c = true -> exists v, wreturned x i c v) ->
  marks (sh y) f = marks (sh x) f.
Proof.
  intros E. induction E as [|x y z E IH T]; intros H; [easy|].
  rewrite <- IH.
  2: { intros i c S. apply H. eapply wstarted_exec; [|exact S]. exact (exec_one _ _ _ _ _ T). }
  destruct T as [s ts c0 Lc|s ts j c0 l0 s' l' Nj St]; [easy|]. cbn [sh].
  assert (Ret : marks_in f c0 = true -> exists v, wreturned (Conf s ts) j c0 v).
  { intros M. destruct (H j c0) as (v & R); [|exact M|].
    - exists l'. cbn [ths]. rewrite nth_set_nth by (exact (nth_some_lt _ _ _ Nj)). now rewrite Nat.eqb_refl.
    - exists v. exact (wreturned_exec _ _ _ _ _ _ E R). }
  cbn [ths] in Nj. destruct c0 as [g c|g wd m|m], l0 as [l| | |r| |k|g0 k]; cbn [wstep] in St; try discriminate St.
  - destruct (ststep g ov j (fam s g) c l) as [[a b]|]; [|destruct c; discriminate St].
    assert (Es : s' = set_fam s g a) by (destruct c; now injection St as <- <-). rewrite Es. apply marks_fam.
  - destruct c; try discriminate St. now injection St as <- <-.
  - destruct c; try discriminate St. now injection St as <- <-.
  - destruct c; discriminate St.
  - destruct c; discriminate St.
  - destruct c; discriminate St.
  - destruct c; discriminate St.
  - destruct (af_eqb g f) eqn:Q.
    + destruct (Ret Q) as (v & l & N & V). cbn [ths] in N. rewrite Nj in N. injection N as <-. destruct k; discriminate.
    + destruct (gstep j (marks s g) (wd, m) k) as [[a b]|]; [|discriminate St]. injection St as <- <-.
      now apply marks_set_other.
  - destruct (Ret eq_refl) as (v & l & N & V). cbn [ths] in N. rewrite Nj in N. injection N as <-. destruct g0, k; discriminate.
Qed.

Lemma ask_get_now (w : wstore) f p mui iw : ask (store_now (sh w)) (QGet (f, p) mui iw) =
  Ask.lift ARecords (rib_get_value f (with_marks (ss_rib (fam (sh w) f)) (g_set (marks (sh w) f))) p mui iw).
Proof. now destruct f. Qed.

Lemma whole_read_one ov st x y i f p mui iw v : wreach ov st x -> wexec ov x y -> (length (ths x) <= i)%nat ->
  (forall j c, wstarted y j c -> marks_in f c = true -> exists u, wreturned x j c u) ->
  wreturned y i (WStore f (CRecords p mui iw)) v ->
  exists w, wexec ov x w /\ wexec ov w y /\ under_way w i (WStore f (CRecords p mui iw)) /\
    gets st v (ask (store_now (sh w)) (QGet (f, p) mui iw)).
Proof.
  intros R E L M V. destruct (whole_read ov st x y i f p mui iw v R E L V) as (w1 & w2 & A & B & C & D & F & G).
  pose proof (exec_trans _ _ _ _ _ _ A B) as AB. pose proof (exec_trans _ _ _ _ _ _ B C) as BC.
  exists w2. split; [exact AB|]. split; [exact C|]. split; [exact F|]. rewrite ask_get_now. rewrite ask_get in G.
  replace (marks (sh w2) f) with (marks (sh w1) f); [exact G|]. transitivity (marks (sh x) f).
  - apply (marks_still ov f x w1 A). intros j c S. apply M. exact (wstarted_exec _ _ _ _ _ BC S).
  - symmetry. apply (marks_still ov f x w2 AB). intros j c S. apply M. exact (wstarted_exec _ _ _ _ _ C S).
Qed.

(* ---------- no panic ---------- *)

Lemma wf_look ov st x i f p mui iw : wreach ov st x -> wstarted x i (WStore f (CRecords p mui iw)) -> wf_pid f p.
Proof.
  intros R S. destruct (wreach_sim ov st x f R) as (z & Rz & Si). destruct S as (l & N).
  destruct (nth_pj st f x z i _ _ Si N) as (u & Nu & P). unfold pj in P. cbn [fst snd] in P. rewrite af_refl in P.
  assert (E : fst u = CRecords p mui iw).
  { destruct l; try contradiction P; destruct P as [P _]; try (subst u; reflexivity); exact P. }
  destruct u as [c l1]. cbn in E. subst c.
  exact (wf_prefix _ _ _ _ _ _ _ _ (reach_sok _ _ _ _ Rz) (ex_intro _ _ Nu)).
Qed.

Lemma mixed_gw f m h2 : forall h1, g_withdrawn (List.map snd (mixed h1 h2)) f m = g_withdrawn (List.map snd h1) f m.
Proof.
  induction h1 as [|[i o] h IH].
  - unfold mixed. cbn [filter app]. induction h2 as [|[i o] h2 IH]; [easy|]. cbn [filter]. unfold not_global at 1, is_global at 1.
    cbn [snd]. destruct o; cbn [negb List.map snd g_withdrawn]; exact IH.
  - unfold mixed in *. cbn [filter]. unfold is_global at 1. cbn [snd].
    destruct o; cbn [app List.map snd g_withdrawn]; rewrite ?IH; reflexivity.
Qed.
Lemma mixed_po p m h2 : forall h1, po_rec (List.map snd (mixed h1 h2)) p m = po_rec (List.map snd h2) p m.
Proof.
  induction h1 as [|[i o] h IH].
  - unfold mixed. cbn [filter app]. induction h2 as [|[i o] h2 IH]; [easy|]. cbn [filter]. unfold not_global at 1, is_global at 1.
    cbn [snd]. destruct o; cbn [negb List.map snd po_rec]; rewrite ?IH; reflexivity.
  - unfold mixed in *. cbn [filter]. unfold is_global at 1. cbn [snd].
    destruct o; cbn [app List.map snd po_rec]; exact IH.
Qed.
Lemma mixed_last p m h2 : forall h1, last_rec (List.map snd (mixed h1 h2)) p m = last_rec (List.map snd h2) p m.
Proof.
  induction h1 as [|[i o] h IH].
  - unfold mixed. cbn [filter app]. induction h2 as [|[i o] h2 IH]; [easy|]. cbn [filter]. unfold not_global at 1, is_global at 1.
    cbn [snd]. destruct o; cbn [negb List.map snd last_rec]; rewrite ?IH; reflexivity.
  - unfold mixed in *. cbn [filter]. unfold is_global at 1. cbn [snd].
    destruct o; cbn [app List.map snd last_rec]; exact IH.
Qed.
Lemma mixed_wf h1 h2 : wf_history (List.map snd h1) -> wf_history (List.map snd h2) -> wf_history (List.map snd (mixed h1 h2)).
Proof.
  unfold wf_history. rewrite !Forall_forall. intros A B o I. apply in_map_iff in I. destruct I as (e & <- & I).
  apply in_app_or in I. destruct I as [I|I]; apply filter_In in I.
  - apply A. apply in_map. tauto.
  - apply B. apply in_map. tauto.
Qed.

Lemma mixed_ans ov st w1 w2 h1 h2 f t : winv ov st w1 h1 -> winv ov st w2 h2 ->
  tree_ans f (List.map snd (mixed h1 h2)) t ->
  rib_ans st f (List.map snd (mixed h1 h2)) (filled t (with_marks (ss_rib (fam (sh w2) f)) (g_set (marks (sh w1) f)))).
Proof.
  intros V1 V2 [T1 T2 T3 T4 T5 T6]. destruct (wv_fam _ _ _ _ V2 f) as (x & R & [Es _] & Gx).
  destruct (reach_sok _ _ _ _ R) as [G _]. split.
  - cbn. rewrite <- Es. exact (g_strat _ _ _ _ _ G).
  - split; auto. intros m. rewrite mixed_gw. exact (wv_set _ _ _ _ V1 f m).
  - intros NP. pose proof (hist_mem f ov st x R) as [M1 M2]. unfold table_of in M1, M2. rewrite Es in M1, M2.
    assert (E : part f h2 = hist f x) by (destruct st; easy).
    split; [exact M1|]. cbn [filled set_tree with_marks rb_pcht]. intros p Wp. specialize (M2 p Wp).
    rewrite <- E in M2. destruct (pfxs f (pc_heap (rb_pcht (ss_rib (fam (sh w2) f)))) p) as [v|].
    + destruct M2 as [N1 N2]. split; [exact N1|]. intros m. rewrite N2, mixed_last. f_equal. apply part_last.
    + intros m. rewrite mixed_last, <- part_last. apply M2.
  - intros Eo. destruct (winv_lsm ov st w2 h2 f V2 Eo) as (l & L & S). exists l. split; [exact L|].
    eapply short_rel_ext; [|exact S]. intros p m. symmetry. apply mixed_po.
Qed.

Lemma whole_read_order ov st x y i f p mui iw v : wreach ov st x -> wexec ov x y -> (length (ths x) <= i)%nat ->
  wwf_calls y -> (st = PersistOnly -> wno_activations y) ->
  wreturned y i (WStore f (CRecords p mui iw)) v ->
  exists w1 w2 h1 d o, wexec ov x w1 /\ wexec ov w1 w2 /\ wexec ov w2 y /\
    whole_order as_ops w1 h1 /\ whole_order as_ops w2 (d ++ h1) /\
    v = RetGot (ROk o) /\ answers (view st (List.map snd (mixed h1 (d ++ h1))) (f, p) mui iw) o.
Proof.
  intros R E L W NA V.
  assert (Wm : wf_mui mui) by (destruct V as (l & N & _); exact (W i _ (ex_intro _ l N))).
  destruct (whole_read ov st x y i f p mui iw v R E L V) as (w1 & w2 & A & B & C & D & F & G).
  pose proof R as (a & b & Ea & Eb & E0).
  pose proof (wwf_back ov w2 y C W) as W2. pose proof (wwf_back ov w1 w2 B W2) as W1.
  assert (NA2 : st = PersistOnly -> wno_activations w2) by (intros Eo; exact (wna_back ov w2 y C (NA Eo))).
  assert (NA1 : st = PersistOnly -> wno_activations w1) by (intros Eo; exact (wna_back ov w1 w2 B (NA2 Eo))).
  destruct (winv_exec ov st _ w1 [] (winv_init ov st a b Ea Eb) (exec_trans _ _ _ _ _ _ E0 A)) as (h1 & V1).
  { intros Eo. split; [exact W1|exact (NA1 Eo)]. }
  rewrite app_nil_r in V1. destruct (winv_exec ov st w1 w2 h1 V1 B) as (d & V2).
  { intros Eo. split; [exact W2|exact (NA2 Eo)]. }
  assert (Wp : wf_pid f p).
  { destruct V as (l & N & _). apply (wf_look ov st y i f p mui iw); [|now exists l].
    exists a, b. split; [easy|]. split; [easy|]. eapply exec_trans; eauto. }
  pose proof (mixed_wf _ _ (winv_wf _ _ _ _ V1 W1) (winv_wf _ _ _ _ V2 W2)) as WH.
  destruct (run_ok st _ WH) as (s & Ru & _).
  assert (Af : after st (List.map snd (mixed h1 (d ++ h1))) s) by (now split).
  pose proof (ra_tree _ _ _ _ (rib_ok_ans _ _ _ _ (proj2 (after_rib _ _ _ f Af)))) as Tr.
  pose proof (mixed_ans ov st w1 w2 h1 (d ++ h1) f _ V1 V2 Tr) as RA.
  destruct (rib_value_ok st f _ _ WH RA p mui iw Wp Wm) as (o & Q & An).
  assert (Eg : ask (marks_of w1 w2) (QGet (f, p) mui iw) = Ok (ARecords (ROk o))).
  { rewrite ask_get. change (Ask.lift ARecords (rib_get_value f (filled (rb_tree (rib_of s f))
      (with_marks (ss_rib (fam (sh w2) f)) (g_set (marks (sh w1) f)))) p mui iw) = Ok (ARecords (ROk o))). now rewrite Q. }
  exists w1, w2, h1, d, o. split; [exact A|]. split; [exact B|]. split; [exact C|].
  split; [exact (winv_order _ _ _ _ V1 (fun _ => W1))|]. split; [exact (winv_order _ _ _ _ V2 (fun _ => W2))|].
  split; [|exact An]. rewrite Eg in G. destruct G as [(r & -> & G)|(_ & _ & G)].
  - now injection G as <-.
  - now elim (G (ARecords (ROk o))).
Qed.

Lemma mark_shape ov x y : wexec ov x y ->
  (forall i c l, nth_error (ths x) i = Some (c, l) ->
     match c with WGlobal _ _ _ => exists g, l = WMark g | WBoth _ => exists f g, l = WMark2 f g | _ => True end) ->
  forall i c l, nth_error (ths y) i = Some (c, l) ->
     match c with WGlobal _ _ _ => exists g, l = WMark g | WBoth _ => exists f g, l = WMark2 f g | _ => True end.
Proof.
  intros E. induction E as [|x y z E IH T]; auto. intros H i c l N. specialize (IH H).
  destruct T as [s ts c0 Lc|s ts j c0 l0 s' l' Nj St]; cbn [ths] in *.
  - destruct (Nat.lt_ge_cases i (length ts)) as [Q|Q].
    + rewrite nth_error_app1 in N by easy. exact (IH _ _ _ N).
    + rewrite nth_error_app2 in N by easy. destruct (i - length ts)%nat as [|n]; [|now destruct n].
      cbn in N. injection N as <- <-. destruct c0; cbn; eauto.
  - rewrite nth_set_nth in N by (exact (nth_some_lt _ _ _ Nj)).
    destruct (Nat.eqb_spec j i) as [->|Ne]; [|exact (IH _ _ _ N)]. injection N as <- <-. specialize (IH _ _ _ Nj).
    destruct c0 as [f c0|f wd m|m]; [exact I| |].
    + destruct IH as (g & ->). cbn [wstep] in St. destruct (gstep _ _ _ _) as [[a b]|]; [|discriminate].
      injection St as <- <-. eauto.
    + destruct IH as (f & g & ->). cbn [wstep] in St. destruct (gstep _ _ _ _) as [[a b]|]; [|discriminate].
      injection St as <- <-. destruct f, b; eauto.
Qed.

(* what is on disk decodes *)
Lemma po_decodes f l id mui iw bmin : wf_pid f id -> wf_mui mui ->
  (forall k v, In (k, v) l -> exists p r, wf_pid f p /\ wf_record r /\ k = short_key f p (r_mui r) /\ v = sval r) ->
  exists o, po_value f l id mui iw bmin = Ok (ROk o).
Proof.
  intros W Wm D. unfold po_value, records_for_prefix.
  set (p := match mui with Some m => short_key f id m | None => pid_bytes f id end).
  set (L := kv_prefix p l).
  assert (Ent : forall kv, In kv L -> entry_is f kv id (ent f kv)).
  { intros [k v] I. unfold L in I. apply In_kv_prefix in I. destruct I as [I P].
    destruct (D k v I) as (q & r & Wq & Wr & -> & ->).
    assert (id = q) as ->.
    { unfold p in P. destruct mui as [m|].
      - rewrite <- (app_nil_r (short_key f q (r_mui r))) in P. apply short_prefix in P; auto; [|apply Wr].
        now destruct P.
      - unfold short_key in P. now apply pid_prefix in P. }
    pose proof (short_entry f q r Wq Wr) as X. now rewrite (entry_ent _ _ _ _ X). }
  destruct iw.
  - destruct (included_decode f bmin id L Ent) as (bs & -> & _ & Dc). cbn [bind].
    destruct bs as [|b bs]; cbn [none_if_empty]; [eauto|]. rewrite Dc. eauto.
  - destruct (excluded_decode f bmin id L Ent) as (bs & -> & _ & Dc). cbn [bind].
    destruct (cat_opts bs) as [|b bs']; cbn [none_if_empty]; [eauto|]. rewrite Dc. eauto.
Qed.

Lemma whole_get_ok ov st x w1 w2 f p mui iw : wreach ov st x -> wexec ov x w2 -> wwf_calls w2 ->
  wf_pid f p -> wf_mui mui -> exists o, ask (marks_of w1 w2) (QGet (f, p) mui iw) = Ok (ARecords (ROk o)).
Proof.
  intros R E W Wp Wm. destruct (wsim_exec ov st x w2 R E f) as (z & Rz & Si). pose proof Si as [Es _].
  destruct (reach_sok _ _ _ _ Rz) as [G _]. rewrite ask_get. unfold rib_get_value.
  cbn [with_marks set_tree rb_strat rb_pcht rb_tree t_withdrawn rb_lsm].
  rewrite <- Es, (g_strat _ _ _ _ _ G). pose proof (g_table _ _ _ _ _ G) as T.
  destruct st; try (rewrite (get_records_ok f _ p mui iw _ T Wp); cbn; eauto).
  destruct (rb_lsm (ss_rib (sh z))) as [l|] eqn:Ll; [|cbn; eauto].
  destruct (po_decodes f l p mui iw (g_set (marks (sh w1) f)) Wp Wm) as (o & Q).
  { intros k v I. destruct (proj1 (only_inv f ov z Rz (sim_wf _ _ _ _ Si W)) l k v Ll I) as (q & r & A & B & _ & C & D).
    exists q, r. auto. }
  unfold po_value in Q. rewrite Q. cbn. eauto.
Qed.

(* only an insert can panic *)
Lemma whole_panics ov st x i c : wreach ov st x -> wwf_calls x -> wreturned x i c (RetCall RetPanic) ->
  exists f p r ups, c = WStore f (CInsert p r ups) /\ ~ no_overflow ov p.
Proof.
  intros R W (l & N & V). destruct c as [f c|f wd m|m].
  - destruct (wreach_sim ov st x f R) as (z & Rz & Si).
    destruct (nth_pj st f x z i _ _ Si N) as (u & Nu & P). unfold pj in P. cbn [fst snd] in P. rewrite af_refl in P.
    destruct l as [l| | |r| |g|g0 g]; try discriminate V; try contradiction P.
    + destruct P as [-> _]. cbn [wret_of] in V. destruct (ret_of l) as [v0|] eqn:Rv; [|discriminate V].
      injection V as ->. destruct (conc_never_panics f ov st z i c Rz (ex_intro _ l (conj Nu Rv))) as (p & r & ups & -> & O).
      now exists f, p, r, ups.
    + exfalso. destruct P as (_ & _ & P). destruct c as [| | |p mui iw]; try contradiction P.
      pose proof (W i _ (ex_intro _ _ N)) as Wm. pose proof (wf_look ov st x i f p mui iw R (ex_intro _ _ N)) as Wp.
      pose proof R as (a & b & Ea & Eb & E).
      assert (R0 : wreach ov st (wconf0 a b)) by (exists a, b; split; [easy|]; split; [easy|apply ex_refl]).
      destruct (whole_read ov st (wconf0 a b) x i f p mui iw (RetCall RetPanic) R0 E (Nat.le_0_l i))
        as (w1 & w2 & A & B & C & _ & _ & G).
      { now exists WPanic. }
      destruct G as [(r & G & _)|(Eo & _ & G)]; [discriminate G|].
      destruct (whole_get_ok ov st _ w1 w2 f p mui iw R0 (exec_trans _ _ _ _ _ _ A B) (wwf_back _ _ _ C W) Wp Wm) as (o & Q).
      exact (G _ Q).
  - exfalso. destruct R as (a & b & _ & _ & E).
    destruct (mark_shape ov _ _ E ltac:(intros [|k]; discriminate) _ _ _ N) as (g & ->). destruct g; discriminate V.
  - exfalso. destruct R as (a & b & _ & _ & E).
    destruct (mark_shape ov _ _ E ltac:(intros [|k]; discriminate) _ _ _ N) as (f & g & ->). destruct f, g; discriminate V.
Qed.

(* the look-up gives an answer *)
Lemma whole_read_now ov st x y i f p mui iw v : wreach ov st x -> wexec ov x y -> (length (ths x) <= i)%nat ->
  wwf_calls y -> wreturned y i (WStore f (CRecords p mui iw)) v ->
  exists w1 w2 o, wexec ov x w1 /\ wexec ov w1 w2 /\ wexec ov w2 y /\
    under_way w1 i (WStore f (CRecords p mui iw)) /\ under_way w2 i (WStore f (CRecords p mui iw)) /\
    v = RetGot (ROk o) /\ ask (marks_of w1 w2) (QGet (f, p) mui iw) = Ok (ARecords (ROk o)).
Proof.
  intros R E L W V. destruct (whole_read ov st x y i f p mui iw v R E L V) as (w1 & w2 & A & B & C & D & F & G).
  assert (S : wstarted y i (WStore f (CRecords p mui iw))) by (destruct V as (l & N & _); now exists l).
  assert (Ry : wreach ov st y).
  { destruct R as (a & b & Ea & Eb & E0). exists a, b. split; [easy|]. split; [easy|]. eapply exec_trans; eauto. }
  destruct (whole_get_ok ov st x w1 w2 f p mui iw R (exec_trans _ _ _ _ _ _ A B) (wwf_back _ _ _ C W)
    (wf_look ov st y i f p mui iw Ry S) (W i _ S)) as (o & Q).
  exists w1, w2, o. do 5 (split; [easy|]). split; [|exact Q].
  rewrite Q in G. destruct G as [(r & -> & G)|(_ & _ & G)].
  - now injection G as <-.
  - now elim (G (ARecords (ROk o))).
Qed.

(* at one moment, if no global mark comes in between *)
Lemma whole_read_moment ov st x y i f p mui iw v : wreach ov st x -> wexec ov x y -> (length (ths x) <= i)%nat ->
  wwf_calls y -> (forall j c, wstarted y j c -> marks_in f c = true -> exists u, wreturned x j c u) ->
  wreturned y i (WStore f (CRecords p mui iw)) v ->
  exists w o, wexec ov x w /\ wexec ov w y /\ under_way w i (WStore f (CRecords p mui iw)) /\
    v = RetGot (ROk o) /\ ask (store_now (sh w)) (QGet (f, p) mui iw) = Ok (ARecords (ROk o)).
Proof.
  intros R E L W M V. destruct (whole_read_one ov st x y i f p mui iw v R E L M V) as (w & A & B & C & G).
  assert (S : wstarted y i (WStore f (CRecords p mui iw))) by (destruct V as (l & N & _); now exists l).
  assert (Ry : wreach ov st y).
  { destruct R as (a & b & Ea & Eb & E0). exists a, b. split; [easy|]. split; [easy|]. eapply exec_trans; eauto. }
  destruct (whole_get_ok ov st x w w f p mui iw R A (wwf_back _ _ _ B W)
    (wf_look ov st y i f p mui iw Ry S) (W i _ S)) as (o & Q).
  change (ask (store_now (sh w)) (QGet (f, p) mui iw) = Ok (ARecords (ROk o))) in Q.
  exists w, o. do 3 (split; [easy|]). split; [|exact Q].
  rewrite Q in G. destruct G as [(r & -> & G)|(_ & _ & G)].
  - now injection G as <-.
  - now elim (G (ARecords (ROk o))).
Qed.
