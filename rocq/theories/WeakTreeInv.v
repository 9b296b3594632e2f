(* What holds of the tree and of the threads at any time. *)
From Coq Require Import Arith NArith List Bool Lia.
From Verif Require Import Word Af BitSpan Maps ChtMath Cht Node Tree ChainProofs TreeProofs
  Conc ConcMarks ConcTree ConcTreeProofs ConcTreeInv ConcTreeStep ConcTreeEnd ConcTreeSeen WeakTree WeakTreeView WeakTreeStep.
Import ListNotations.
Local Open Scope N_scope.

Section I.
Variable f : af.
Variable ov : bool.

Lemma present_reads p mui m pc q :
  match pc with TLoadPtr _ _ | TLoadPfx _ _ _ | TTestPtr _ _ _ | TDone _ | TPanic => True | _ => False end ->
  present f (fst (tnext f ov p mui m pc)) q = present f m q.
Proof. intros H. now rewrite tnext_reads. Qed.

Lemma present_quiet m h' id q : quiet f id (t_heap m) h' -> present f (set_heap m h') q = true -> present f m q = true.
Proof.
  intros Q. unfold present. simpl. destruct (p_len q =? 0); [easy|]. eapply stored_quiet; eauto.
Qed.

(* the thread that makes a prefix present will say that it is new *)
Lemma made_known (C : pid -> Prop) p mui m v pc : (forall q, C q -> wf_pid f q) -> C p -> tG f C m -> known f m v ->
  tI f ov p v pc -> ~ ended pc -> agrees f p m v pc ->
  forall q, wf_pid f q -> present f (fst (tnext f ov p mui m pc)) q = true ->
    present f m q = true \/ q = p /\ made (snd (tnext f ov p mui v pc)).
Proof.
  intros Cwf Cp G K T NE A q Wq P. pose proof (Cwf _ Cp) as Wp. pose proof (g_cht _ _ _ (proj1 G)) as I.
  pose proof (known_ninv f m v K I) as IV. destruct K as [H Cl DF].
  pose proof (tI_known f ov p m v pc ltac:(now constructor) I T) as TM.
  pose proof (tnext_good f ov C Cwf p mui m pc Cp G TM ltac:(destruct pc; auto; now apply NE)) as GD.
  unfold good in GD. destruct (tnext f ov p mui m pc) as [m' pm] eqn:EM. cbn [fst] in P.
  destruct GD as (_ & _ & _ & _ & _ & MD).
  destruct (MD q Wq P) as [Q|[-> MP]]; [now left|].
  pose proof Wp as [Hl [Hb Hm]]. pose proof (BITS_le f) as B1.
  assert (RD : match pc with TLoadPtr _ _ | TLoadPfx _ _ _ | TTestPtr _ _ _ | TDone _ | TPanic => True | _ => False end ->
    m' = m).
  { intros X. pose proof (tnext_reads f ov p mui m pc X) as Y. now rewrite EM in Y. }
  destruct pc as [|ex r|fr r|fr k|fr k ptr|fr k ptr|fr k cur rc|fr k cur rc|fr rc
    |fr rc nn s0|r|]; try (left; rewrite (RD Logic.I) in P; exact P); clear RD; simpl in A; simpl in T, TM;
    unfold tnext in EM |- *; cbn [tstep] in EM |- *.
  - destruct (N.eqb_spec (p_len p) 0) as [L|L].
    + destruct (walk_start _ _ _); cbn [bind] in *; injection EM as <- <-; [|now left|now left].
      right. split; [easy|]. cbn [snd made] in *. now rewrite (A L).
    + left. destruct (next_turn _ _ _ _ _); cbn [bind] in *; injection EM as <- <-; easy.
  - destruct TM as (L & _ & R). left.
    destruct (rstep_ok f (t_heap m) (0, 0) mui r I (root_dom f) R) as (h' & o & E & _ & _ & Q & _).
    unfold root_node_id in EM. rewrite E in EM. cbn [bind] in EM. injection EM as <- _.
    eapply present_quiet; eauto.
  - destruct TM as ((s & acc & -> & M & Ls & _) & _ & R). simpl in R. cbn [fr_cur mkframe] in *. left.
    pose proof (anc_dom f p s Wp M ltac:(lia)) as D.
    destruct (rstep_ok f (t_heap m) (anc f p s) mui r I D R) as (h' & o & E & _ & _ & Q & _).
    rewrite E in EM. cbn [bind] in EM. injection EM as <- _. eapply present_quiet; eauto.
  - left. destruct (deref k (t_heap m)); cbn [bind] in *; [|injection EM as <- <-; easy|injection EM as <- <-; easy].
    destruct (into_bit_pos _); cbn [bind] in *; [|injection EM as <- <-; easy|injection EM as <- <-; easy].
    destruct (_ =? _); [injection EM as <- <-; easy|].
    destruct (add32 _ _ _); cbn [bind] in *; injection EM as <- <-; easy.
  - destruct T as (_ & _ & AT & _). destruct (at_id_lookup _ _ _ AT) as (x & DR & _).
    destruct (deref_hle _ _ _ _ H DR) as (y & DR' & NL). rewrite DR. rewrite DR' in EM. cbn [bind] in *.
    destruct (into_bit_pos _); cbn [bind] in *; [|injection EM as <- <-; now left|injection EM as <- <-; now left].
    specialize (A _ _ DR DR'). simpl in A.
    destruct (N.eqb_spec (nv_pfx x) cur), (N.eqb_spec (nv_pfx y) cur); try (exfalso; tauto).
    + injection EM as <- <-. right. easy.
    + left. destruct (add32 _ _ _); cbn [bind] in *; injection EM as <- <-; easy.
  - left. destruct (new_id _ _ _); cbn [bind] in *; [|injection EM as <- <-; easy|injection EM as <- <-; easy].
    destruct (walk_start _ _ _); cbn [bind] in *; injection EM as <- <-; easy.
  - left. destruct TM as ((s & acc & -> & M & Ls & _) & _ & LF & _ & -> & R). simpl in LF, R.
    apply N.leb_gt in LF. rewrite (next_id_ok f p s acc Wp M LF) in *. cbn [bind] in *.
    pose proof (anc_dom f p (s + 4) Wp ltac:(dlia) ltac:(lia)) as D.
    destruct (sstep_ok f (t_heap m) (anc f p (s + 4)) mui s0 I D R) as (h' & o & E & _ & _ & Q & _).
    rewrite E in EM. cbn [bind] in EM. injection EM as <- _. eapply present_quiet; eauto.
Qed.

Lemma made_stays p mui v pc : tI f ov p (fst (tnext f ov p mui v pc)) (snd (tnext f ov p mui v pc)) ->
  ~ ended pc -> made pc -> made (snd (tnext f ov p mui v pc)).
Proof.
  destruct pc; simpl; try easy; try (intros _ NE; now elim NE). intros T _ ->. revert T.
  unfold tnext. cbn [tstep]. destruct (rstep _ _ _ _ _) as [[h o]| |]; cbn [bind snd fst]; try easy.
  now destruct o.
Qed.

(* ---------- the invariant ---------- *)

Definition callI (called : list pid) (t : wthread) : Prop :=
  match wt_call t with
  | WIdle => True
  | WIns p _ pc => In p called /\ tI f ov p (wt_view t) pc /\ N.of_nat (wt_steps t) + tmu p pc <= TSTEPS /\
      (In p (wt_past t) -> may_make pc = false)
  | WHas p pc => wf_pid f p /\ N.of_nat (wt_steps t) + xmu pc <= 68 /\
      exists before, (In p (wt_past t) -> 0 < p_len p -> before = true) /\ xI f p before (t_heap (wt_view t)) pc
  end.

Record thI (m : tree) (called : list pid) (t : wthread) : Prop := {
  th_known : known f m (wt_view t);
  th_past : forall q, In q (wt_past t) -> In q called /\ inserted f (wt_view t) q;
  th_news : forall q, In q (wt_news t) -> In q called;
  th_call : callI called t
}.

(* the thread has said of q that it is new, or will *)
Definition says (t : wthread) (q : pid) : Prop :=
  In q (wt_news t) \/ exists mui pc, wt_call t = WIns q mui pc /\ made pc.
Definition inserting (t : wthread) (q : pid) : Prop := exists mui pc, wt_call t = WIns q mui pc.

Record wtI (t0 : tree) (x : wtconf) : Prop := {
  wi_wf : forall q, In q (wc_called x) -> wf_pid f q;
  wi_mem : tG f (fun q => In q (wc_called x)) (wc_mem x);
  wi_start : known f (wc_mem x) t0;
  wi_ths : forall i t, nth_error (wc_ths x) i = Some t -> thI (wc_mem x) (wc_called x) t;
  wi_ins : forall q, In q (wc_called x) ->
    inserted f (wc_mem x) q \/ exists i t, nth_error (wc_ths x) i = Some t /\ inserting t q;
  wi_new : forall q, wf_pid f q -> present f (wc_mem x) q = true ->
    exists i t, nth_error (wc_ths x) i = Some t /\ says t q
}.

Lemma known_tR m m' v : known f m v -> tR m m' -> known f m' v.
Proof.
  intros [A B C] (R1 & R2 & _). constructor; auto. eapply hle_trans; eauto.
Qed.

Lemma inserted_known m v q : known f m v -> ninv f (t_heap m) -> inserted f v q -> inserted f m q.
Proof.
  intros K I. pose proof (known_ninv f m v K I) as IV. destruct K as [A B C].
  unfold inserted. destruct (p_len q =? 0); [auto|]. intros [X Y]. split.
  - now apply (path_done_hle f (t_heap v)).
  - now apply (stored_hle f (t_heap v)).
Qed.

Lemma callI_view called t v : ninv f (t_heap (wt_view t)) -> ninv f (t_heap v) -> tR (wt_view t) v ->
  callI called t -> callI called (WThread v (wt_call t) (wt_past t) (wt_news t) (wt_steps t)).
Proof.
  intros I I' R. unfold callI. simpl. destruct (wt_call t) as [|p mui pc|p pc]; auto.
  - intros (A & B & D). split; [easy|]. split; [|easy]. now apply (tI_R f ov p (wt_view t)).
  - intros (A & B & b & D & X). split; [easy|]. split; [easy|]. exists b. split; [easy|].
    apply (xI_hle f p b (t_heap (wt_view t))); auto. apply R.
Qed.

Lemma thI_mono m m' called c t : thI m called t -> tR m m' -> thI m' (called ++ c) t.
Proof.
  intros [A B C D] R. constructor.
  - eapply known_tR; eauto.
  - intros q Q. destruct (B q Q). split; auto. apply in_or_app. auto.
  - intros q Q. apply in_or_app. auto.
  - unfold callI in *. destruct (wt_call t); auto. destruct D as (D1 & D2). split; auto. apply in_or_app. auto.
Qed.

Lemma thread_step m called t m' c t' : (forall q, In q called -> wf_pid f q) ->
  tG f (fun q => In q called) m -> thI m called t -> wtstep f ov m t m' c t' ->
  (forall q, In q c -> wf_pid f q) /\ tG f (fun q => In q (called ++ c)) m' /\ tR m m' /\ thI m' (called ++ c) t' /\
  (forall q, In q c -> inserting t' q) /\
  (forall q, inserting t q -> inserting t' q \/ inserted f m' q) /\
  (forall q, wf_pid f q -> present f m' q = true -> present f m q = true \/ says t' q) /\
  (forall q, says t q -> says t' q).
Proof.
  intros CW G T S. pose proof (g_cht _ _ _ (proj1 G)) as I. pose proof (th_known _ _ _ T) as K.
  pose proof (known_ninv f m _ K I) as IV.
  assert (G' : forall c, tG f (fun q => In q (called ++ c)) m).
  { intros c0. eapply tG_mono; [|exact G]. intros q Q. simpl. apply in_or_app. auto. }
  destruct T as [_ P NW CI].
  inversion S; subst; clear S.
  - (* insert *)
    split; [intros q [<-|[]]; easy|]. split; [auto|]. split; [apply tR_refl|]. split; [|split; [|split; [|split]]].
    + constructor; simpl; auto.
      * intros q Q. destruct (P q Q). split; auto. apply in_or_app. auto.
      * intros q Q. apply in_or_app. auto.
      * unfold callI. simpl. split; [apply in_or_app; right; now left|]. split; [easy|].
        split; [|easy]. apply start_mu in H0. simpl in *. lia.
    + intros q [<-|[]]. exists mui, TStart. easy.
    + intros q (mu & pc & E). congruence.
    + auto.
    + intros q [Q|(mu & pc & E & _)]; [now left|congruence].
  - (* contains *)
    rewrite app_nil_r in *.
    split; [easy|]. split; [auto|]. split; [apply tR_refl|]. split; [|split; [easy|split; [|split]]].
    + constructor; simpl; auto. unfold callI. simpl. split; [easy|]. split; [lia|].
      exists (stored f (t_heap (wt_view t)) p). split.
      * intros Q L. destruct (P _ Q) as [_ X]. unfold inserted in X. destruct (N.eqb_spec (p_len p) 0); [lia|tauto].
      * split; auto.
    + intros q (mu & pc & E). congruence.
    + auto.
    + intros q [Q|(mu & pc & E & _)]; [now left|congruence].
  - (* learn *)
    rewrite app_nil_r in *. destruct (learns_known f m' _ _ K H) as [K' R].
    pose proof (known_ninv f m' _ K' I) as IV'.
    split; [easy|]. split; [easy|]. split; [apply tR_refl|]. split; [|split; [easy|split; [|split]]].
    + constructor; simpl; auto.
      * intros q Q. destruct (P q Q). split; auto. now apply (inserted_R f (wt_view t)).
      * now apply callI_view.
    + intros q (mu & pc & E). left. exists mu, pc. easy.
    + auto.
    + intros q [Q|(mu & pc & E & M)]; [now left|]. right. exists mu, pc. easy.
  - (* a step of an insert *)
    rewrite app_nil_r in *. unfold callI in CI. rewrite H in CI. destruct CI as (IN & TI & ST & SN).
    pose proof (CW _ IN) as Wp.
    pose proof (small_known f _ _ _ (proj1 G) IV (kn_le _ _ _ K)) as SM.
    pose proof (tnext_known f ov p mui (wt_view t) pc Wp IV SM TI H0) as VG.
    pose proof (tI_known f ov p m _ pc K I TI) as TM.
    pose proof (tnext_good f ov _ CW p mui m pc IN G TM ltac:(destruct pc; auto; now apply H0)) as GD.
    pose proof (tnext_le f ov p mui m _ pc Wp K I TI H1) as LE. cbv zeta in LE.
    pose proof (made_known _ p mui m _ pc CW IN G K TI H0 H1) as MK.
    pose proof (tnext_seen_known f ov p mui _ pc IV TI) as SK.
    pose proof (made_stays p mui (wt_view t) pc) as MS.
    unfold good in GD. unfold vgood in VG.
    destruct (tnext f ov p mui m pc) as [m1 pm1]. destruct (tnext f ov p mui (wt_view t) pc) as [v1 pc1].
    cbn [fst snd] in *.
    destruct GD as (GG & _ & RR & _). destruct VG as (NV & TV & RV & MU).
    assert (K1 : known f m1 v1).
    { constructor; try easy. apply (kn_closed _ _ _ (known_refl f v1 NV)). }
    split; [easy|]. split; [easy|]. split; [easy|]. split; [|split; [easy|split; [|split]]].
    + constructor; simpl; auto.
      * intros q Q. destruct (P q Q). split; auto. now apply (inserted_R f (wt_view t)).
      * unfold callI. simpl wt_call. cbv iota. simpl wt_view. simpl wt_past.
        split; [easy|]. split; [easy|]. split.
        -- simpl wt_steps. rewrite Nat2N.inj_succ. lia.
        -- intros Q. apply SK; [|now apply SN]. apply (inserted_present f (fun _ => True)). exact (proj2 (P _ Q)).
    + intros q (mu & pc0 & E). rewrite H in E. injection E as <- <- <-. left. exists mui, pc1. easy.
    + intros q Wq Q. destruct (MK q Wq Q) as [X|[-> X]]; [now left|]. right. right. exists mui, pc1. easy.
    + intros q [Q|(mu & pc0 & E & M)]; [now left|]. rewrite H in E. injection E as <- <- <-.
      right. exists mui, pc1. split; [easy|]. auto.
  - (* an insert returns *)
    rewrite app_nil_r in *. unfold callI in CI. rewrite H in CI. destruct CI as (IN & TI & ST & SN). simpl in TI.
    split; [easy|]. split; [easy|]. split; [apply tR_refl|]. split; [|split; [easy|split; [|split]]].
    + constructor; simpl; auto.
      * intros q [<-|Q]; [easy|auto].
      * destruct existed; auto. intros q [<-|Q]; auto.
      * exact Logic.I.
    + intros q (mu & pc & E). rewrite H in E. injection E as <- <- <-. right. now apply (inserted_known _ (wt_view t)).
    + auto.
    + intros q [Q|(mu & pc & E & M)]; left; simpl; [destruct existed; [easy|now right]|].
      rewrite H in E. injection E as <- <- <-. simpl in M. rewrite M. now left.
  - (* a step of a look-up *)
    rewrite app_nil_r in *. unfold callI in CI. rewrite H in CI. destruct CI as (Wp & ST & b & B & X).
    destruct (xstep_known f p b _ pc IV Wp X) as (pc' & -> & X' & MU).
    split; [easy|]. split; [easy|]. split; [apply tR_refl|]. split; [|split; [easy|split; [|split]]].
    + constructor; simpl; auto. unfold callI. simpl wt_call. cbv iota. split; [easy|]. split.
      * simpl wt_steps. rewrite Nat2N.inj_succ. destruct pc; try easy; lia.
      * exists b. easy.
    + intros q (mu & pc0 & E). congruence.
    + auto.
    + intros q [Q|(mu & pc0 & E & _)]; [now left|congruence].
  - (* a look-up returns *)
    rewrite app_nil_r in *.
    split; [easy|]. split; [easy|]. split; [apply tR_refl|]. split; [|split; [easy|split; [|split]]].
    + constructor; simpl; auto. exact Logic.I.
    + intros q (mu & pc0 & E). congruence.
    + auto.
    + intros q [Q|(mu & pc0 & E & _)]; [now left|congruence].
Qed.

Lemma set_nth_cases {A} i (x : A) l j y : nth_error (set_nth i x l) j = Some y ->
  j = i /\ y = x \/ j <> i /\ nth_error l j = Some y.
Proof.
  revert i j. induction l as [|a l IH]; intros i j.
  - destruct i; destruct j; discriminate.
  - destruct i, j; simpl; intros E; try (injection E as <-); auto.
    destruct (IH _ _ E) as [[-> ->]|[N E']]; auto.
Qed.
Lemma set_nth_here {A} i (x y : A) l : nth_error l i = Some y -> nth_error (set_nth i x l) i = Some x.
Proof. revert i. induction l as [|a l IH]; intros [|i] E; try discriminate; simpl in *; auto. Qed.
Lemma set_nth_there {A} i (x : A) l j : i <> j -> nth_error (set_nth i x l) j = nth_error l j.
Proof. revert i j. induction l as [|a l IH]; intros [|i] [|j] N; simpl; try easy. apply IH. congruence. Qed.

Lemma wtI_step t0 x y : wtI t0 x -> wtcstep f ov t0 x y -> wtI t0 y.
Proof.
  intros [CW G K0 TH IN NW] S. pose proof (g_cht _ _ _ (proj1 G)) as I. inversion S; subst; clear S; simpl in *.
  - constructor; simpl; auto.
    + intros i t E. destruct (Nat.lt_ge_cases i (length ts)) as [L|L].
      * rewrite nth_error_app1 in E by auto. eauto.
      * rewrite nth_error_app2 in E by auto. destruct (i - length ts)%nat as [|n]; simpl in E.
        -- injection E as <-. constructor; simpl; try easy.
        -- destruct n; discriminate.
    + intros q Q. destruct (IN q Q) as [X|(i & t & E & X)]; [auto|]. right. exists i, t. split; auto.
      rewrite nth_error_app1; auto. apply nth_error_Some. congruence.
    + intros q Wq Q. destruct (NW q Wq Q) as (i & t & E & X). exists i, t. split; auto.
      rewrite nth_error_app1; auto. apply nth_error_Some. congruence.
  - destruct (thread_step m c t m' c' t' CW G (TH _ _ H) H0) as (A1 & A2 & A3 & A4 & A5 & A6 & A7 & A8).
    pose proof (g_cht _ _ _ (proj1 A2)) as I'.
    constructor; simpl; auto.
    + intros q Q. apply in_app_or in Q. destruct Q; auto.
    + eapply known_tR; eauto.
    + intros j u E. apply set_nth_cases in E. destruct E as [[-> ->]|[N E]]; [easy|].
      eapply thI_mono; eauto.
    + intros q Q. apply in_app_or in Q. destruct Q as [Q|Q].
      * destruct (IN q Q) as [X|(j & u & E & X)].
        -- left. now apply (inserted_R f m).
        -- destruct (Nat.eq_dec i j) as [<-|NE].
           ++ rewrite H in E. injection E as <-. destruct (A6 q X) as [Y|Y]; [|auto].
              right. exists i, t'. split; [|easy]. eapply set_nth_here; eauto.
           ++ right. exists j, u. split; [|easy]. now rewrite set_nth_there.
      * right. exists i, t'. split; [|auto]. eapply set_nth_here; eauto.
    + intros q Wq Q. destruct (A7 q Wq Q) as [X|X].
      * destruct (NW q Wq X) as (j & u & E & Y). destruct (Nat.eq_dec i j) as [<-|NE].
        -- rewrite H in E. injection E as <-. exists i, t'. split; [|auto]. eapply set_nth_here; eauto.
        -- exists j, u. split; [|easy]. now rewrite set_nth_there.
      * exists i, t'. split; [|auto]. eapply set_nth_here; eauto.
  - destruct (TH _ _ H) as [Ki Pi _ _]. destruct (TH _ _ H0) as [Kj Pj Nj _].
    destruct (tjoin_known f m _ _ Ki Kj) as (KJ & Hi & Di & Rj).
    pose proof (known_ninv f _ _ Ki I) as Ii. pose proof (known_ninv f _ _ Kj I) as Ij.
    pose proof (known_ninv f _ _ KJ I) as IJ.
    constructor; simpl; auto.
    + intros k u E. apply set_nth_cases in E. destruct E as [[-> ->]|[N E]]; [|eauto].
      constructor; simpl; auto; [|exact Logic.I].
      intros q Q. apply in_app_or in Q. destruct Q as [Q|Q].
      * destruct (Pi q Q) as [Z1 Z2]. split; [easy|]. unfold inserted in *.
        destruct (p_len q =? 0); [auto|]. destruct Z2 as [Z2 Z3]. split.
        -- now apply (path_done_hle f (t_heap (wt_view ti))).
        -- now apply (stored_hle f (t_heap (wt_view ti))).
      * destruct (Pj q Q) as [Z1 Z2]. split; [easy|]. now apply (inserted_R f (wt_view tj)).
    + intros q Q. destruct (IN q Q) as [X|(k & u & E & X)]; [auto|]. right.
      destruct (Nat.eq_dec j k) as [<-|NE].
      * rewrite H0 in E. injection E as <-. destruct X as (mu & pc & E). congruence.
      * exists k, u. split; [|easy]. now rewrite set_nth_there.
    + intros q Wq Q. destruct (NW q Wq Q) as (k & u & E & X). destruct (Nat.eq_dec j k) as [<-|NE].
      * rewrite H0 in E. injection E as <-. exists j, (told ti tj). split; [eapply set_nth_here; eauto|].
        destruct X as [X|(mu & pc & E & _)]; [now left|congruence].
      * exists k, u. split; [|easy]. now rewrite set_nth_there.
Qed.

Lemma wtI_reach x : wtreach f ov x -> exists t0, tree_new f = Ok t0 /\ wtI t0 x.
Proof.
  induction 1 as [t0 E|t0 x y E R (t1 & E1 & IH) S].
  - exists t0. split; [easy|]. destruct (tG_new f (fun q => In q []) t0 E) as (G & NP & _).
    pose proof (known_refl f t0 (g_cht _ _ _ (proj1 G))) as K.
    constructor; simpl; auto; try easy.
    + intros [|i] t Q; discriminate.
    + intros q _ Q. now rewrite NP in Q.
  - exists t0. split; [easy|]. rewrite E in E1. injection E1 as <-. eapply wtI_step; eauto.
Qed.

End I.
