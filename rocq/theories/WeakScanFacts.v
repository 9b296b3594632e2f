(* What the long readers give on a weak memory. *)
From Coq Require Import Arith NArith List Bool Sorted Lia.
From Verif Require Import Word Af BitSpan Spec Maps ChtMath Cht Node Tree ChainProofs TreeProofs NodeProofs
  Iter IterProofs Conc ConcMarks ConcTree ConcTreeProofs ConcTreeInv ConcTreeStep ConcTreeEnd ConcTreeSeen ConcSpec
  ConcScan ConcScanProofs ConcScanSpec ConcScanFacts
  WeakTree WeakTreeView WeakTreeStep WeakTreeInv WeakTreeFacts WeakScan.
Import ListNotations.
Local Open Scope N_scope.

(* ---------- what a thread knows stays known ---------- *)

Lemma view_thread f ov m called t m' c t' : (forall q, In q called -> wf_pid f q) ->
  tG f (fun q => In q called) m -> thI f ov m called t -> wtstep f ov m t m' c t' ->
  hle (t_heap (wt_view t)) (t_heap (wt_view t')).
Proof.
  intros CW G T S. pose proof (g_cht _ _ _ (proj1 G)) as I. pose proof (th_known _ _ _ _ _ T) as K.
  pose proof (known_ninv f m _ K I) as IV. destruct T as [_ P NW CI].
  inversion S; subst; clear S; simpl; try apply hle_refl.
  - apply (learns_known f m' _ _ K H).
  - unfold callI in CI. rewrite H in CI. destruct CI as (IN & TI & _).
    pose proof (small_known f _ _ _ (proj1 G) IV (kn_le _ _ _ K)) as SM.
    pose proof (tnext_known f ov p mui (wt_view t) pc (CW _ IN) IV SM TI H0) as VG. unfold vgood in VG.
    destruct (tnext f ov p mui (wt_view t) pc) as [v1 pc1]. simpl. destruct VG as (_ & _ & R & _). apply R.
Qed.

Lemma view_step f ov t0 x y i t : wtreach f ov x -> wtcstep f ov t0 x y -> nth_error (wc_ths x) i = Some t ->
  exists t', nth_error (wc_ths y) i = Some t' /\ hle (t_heap (wt_view t)) (t_heap (wt_view t')).
Proof.
  intros R S E. destruct (wtI_reach f ov x R) as (t1 & _ & [CW G K TH _ _]).
  destruct S as [m c ts|m c ts j u m' c' u' N S|m c ts k j tk tj Nk Nj Ck Cj]; simpl in *.
  - exists t. split; [|apply hle_refl]. rewrite nth_error_app1; [easy|]. apply nth_error_Some. congruence.
  - destruct (Nat.eq_dec j i) as [->|NE].
    + rewrite E in N. injection N as <-. exists u'. split; [eapply set_nth_here; eauto|].
      exact (view_thread f ov m c t m' c' u' CW G (TH _ _ E) S).
    + exists t. split; [now rewrite set_nth_there|apply hle_refl].
  - destruct (Nat.eq_dec j i) as [->|NE].
    + rewrite E in Nj. injection Nj as <-. exists (told tk t). split; [eapply set_nth_here; eauto|].
      destruct (tjoin_known f m _ _ (th_known _ _ _ _ _ (TH _ _ Nk)) (th_known _ _ _ _ _ (TH _ _ E))) as (_ & _ & _ & Rj).
      apply Rj.
    + exists t. split; [now rewrite set_nth_there|apply hle_refl].
Qed.

Lemma called_step f ov t0 x y q : wtcstep f ov t0 x y -> In q (wc_called x) -> In q (wc_called y).
Proof. intros S Q. destruct S; simpl in *; auto. apply in_or_app. auto. Qed.

(* it is enough of a tree to read *)
Lemma known_hV f C m v : hG f C (t_heap m) -> known f m v -> hV f C (t_heap v).
Proof.
  intros G K. pose proof (g_cht _ _ _ G) as I. pose proof (known_ninv f m v K I) as IV.
  pose proof (kn_le _ _ _ K) as H. pose proof (small_known f C _ _ G IV H) as SM.
  constructor; auto.
  - intros id x N. split; [|exact (proj1 (SM _ _ N))].
    destruct (nodes_hle f _ _ _ _ IV I H N) as (y & Ny & _). exact (proj1 (g_node _ _ _ G _ _ Ny)).
  - intros id x b N T. destruct (nodes_hle f _ _ _ _ IV I H N) as (y & Ny & (L & _)).
    exact (g_ptr _ _ _ G _ _ _ Ny (L _ T)).
  - intros id x b N T. destruct (nodes_hle f _ _ _ _ IV I H N) as (y & Ny & (_ & L & _)).
    exact (g_pfx _ _ _ G _ _ _ Ny (L _ T)).
Qed.

(* the inserts that happened before the reader began *)
Definition wpast (t : wthread) (q : pid) : Prop := 0 < p_len q /\ In q (wt_past t).

Lemma wpast_linked f ov m called t q : (forall q, In q called -> wf_pid f q) -> thI f ov m called t -> wpast t q ->
  okp f q /\ linked f (t_heap (wt_view t)) q.
Proof.
  intros CW T [L P]. destruct (th_past _ _ _ _ _ T q P) as [Q X]. split; [split; auto|].
  unfold inserted in X. destruct (N.eqb_spec (p_len q) 0); [lia|]. split; tauto.
Qed.

Lemma stored_called f (C : pid -> Prop) m q : (forall q, C q -> wf_pid f q) -> tG f C m -> wf_pid f q ->
  stored f (t_heap m) q = true -> C q /\ 0 < p_len q.
Proof.
  intros CW G Wq X.
  assert (L : 0 < p_len q).
  { unfold stored in X. destruct (nodes f (t_heap m) (node_of f q)) as [v|] eqn:N; [|easy].
    destruct (g_pfx _ _ _ (proj1 G) _ _ _ N X) as (r & Cr & Lr & E1 & E2).
    destruct (N.eq_dec (p_len q) 0) as [Z|Z]; [|lia]. exfalso.
    pose proof (span_bit f r Lr) as B1. rewrite <- E2 in B1.
    assert (bs_bit (span_of f q) = 31); [|lia].
    unfold span_of, bs_bit, bs_index, nlen. rewrite Z. simpl bs_len. simpl bs_bits.
    change (4 * ((0 - 1) / 4)) with 0. change (0 - 0) with 0. unfold slice.
    change (2 ^ 0) with 1. now rewrite N.mod_1_r. }
  split; [|easy]. apply (present_called f _ CW m); auto. unfold present. destruct (N.eqb_spec (p_len q) 0); [lia|easy].
Qed.

Section R.
Variable f : af.
Variable ov : bool.

Lemma wbeside_exec {S} over (next : tree -> S -> S) i x0 s0 n x s :
  wbeside f ov over next i x0 s0 n x s -> wtexec f ov x0 x.
Proof. induction 1 as [|n t0 x y s B IH E St|n x s t B IH E N C]; [constructor|eapply we_step; eauto|easy]. Qed.

Lemma view_here x i t : wtreach f ov x -> nth_error (wc_ths x) i = Some t ->
  (forall q, In q (wc_called x) -> wf_pid f q) /\ hV f (fun q => In q (wc_called x)) (t_heap (wt_view t)).
Proof.
  intros R E. destruct (wt_here f ov x i t R E) as (CW & G & T). split; [easy|].
  exact (known_hV f _ _ _ (proj1 G) (th_known _ _ _ _ _ T)).
Qed.

Lemma view_stored_called x i t q : wtreach f ov x -> nth_error (wc_ths x) i = Some t -> wf_pid f q ->
  stored f (t_heap (wt_view t)) q = true -> In q (wc_called x).
Proof.
  intros R E W X. destruct (wt_here f ov x i t R E) as (CW & G & [K _ _ _]).
  pose proof (g_cht _ _ _ (proj1 G)) as I. pose proof (known_ninv f _ _ K I) as IV.
  apply (stored_hle f _ (t_heap (wc_mem x)) q IV I (kn_le _ _ _ K)) in X.
  exact (proj1 (stored_called f _ _ q CW G W X)).
Qed.
End R.

(* ---------- the more-specifics iterator ---------- *)

Lemma wscans_inv f ov p i x0 tb n x s : wtreach f ov x0 -> nth_error (wc_ths x0) i = Some tb -> wf_pid f p ->
  wscans f ov p i x0 n x s ->
  exists t, nth_error (wc_ths x) i = Some t /\
    mI f p (fun q => In q (wc_called x)) (wpast tb) (t_heap (wt_view t)) s /\ N.of_nat n + mmu f s <= mmu f mscan0.
Proof.
  intros R E W B. induction B as [|n t0 x y s B (t & Et & IH & ST) N S|n x s t B (t1 & Et & IH & ST) O N C].
  - exists tb. split; [easy|]. split; [|simpl; lia]. apply mI_start. intros q D.
    destruct (wt_here f ov x0 i tb R E) as (CW & _ & T). exact (wpast_linked f ov _ _ _ _ CW T D).
  - pose proof (wtexec_reach _ _ _ _ R (wbeside_exec _ _ _ _ _ _ _ _ _ _ B)) as Rx.
    pose proof (wr_step f ov t0 x y N Rx S) as Ry.
    destruct (view_step f ov t0 x y i t Rx S Et) as (t' & Et' & H). exists t'. split; [easy|]. split; [|easy].
    apply (mI_mono f p (fun q => In q (wc_called x))).
    { intros q. now apply (called_step f ov t0). }
    apply (mI_hle f p _ _ (t_heap (wt_view t))); auto.
    + exact (v_cht f _ _ (proj2 (view_here f ov x i t Rx Et))).
    + exact (v_cht f _ _ (proj2 (view_here f ov y i t' Ry Et'))).
  - rewrite N in Et. injection Et as <-. exists t. split; [easy|].
    pose proof (wtexec_reach _ _ _ _ R (wbeside_exec _ _ _ _ _ _ _ _ _ _ B)) as Rx.
    destruct (view_here f ov x i t Rx N) as (CW & G).
    destruct (mstep_ok f p W _ _ _ _ G CW IH) as (s' & Es & I' & M).
    unfold mnext. rewrite Es. split; [easy|].
    assert (F : finished s = false) by exact O. specialize (M F). lia.
Qed.

(* no panic; nothing twice; only prefixes that someone inserts *)
Lemma wscan_sound f ov p i x0 tb n x s : wtreach f ov x0 -> nth_error (wc_ths x0) i = Some tb -> wf_pid f p ->
  wscans f ov p i x0 n x s ->
  sc_pc s <> MPanic /\ NoDup (given s) /\
  forall q, In q (given s) -> In q (wc_called x) /\ 0 < p_len q /\ covers f p q.
Proof.
  intros R E W B. destruct (wscans_inv _ _ _ _ _ _ _ _ _ R E W B) as (t & _ & I & _). split.
  - destruct I as [_ I]. intros Q. rewrite Q in I. exact I.
  - destruct (mI_rI _ _ _ _ _ _ I) as [rs [A1 A2 _ _ _]]. unfold given. split.
    + now apply NoDup_rev.
    + intros q Iq. apply in_rev in Iq. destruct (A2 q Iq) as ((_ & L) & Cq & Cv & _). easy.
Qed.

(* all that was inserted before it began, if it is not cut short *)
Lemma wscan_complete f ov p i x0 tb n x s : wtreach f ov x0 -> nth_error (wc_ths x0) i = Some tb -> wf_pid f p ->
  wscans f ov p i x0 n x s -> sc_pc s = MDone true ->
  forall q, In q (wt_past tb) -> 0 < p_len q -> covers f p q -> p_len p < BITS f -> In q (given s).
Proof.
  intros R E W B D q P L Cv Lp. destruct (wscans_inv _ _ _ _ _ _ _ _ _ R E W B) as (t & _ & [_ I] & _).
  rewrite D in I. cbv zeta in I. unfold given. apply in_rev. rewrite rev_involutive.
  destruct (r_all _ _ _ _ _ _ I q) as [A|(r0 & A & _)]; auto; [|destruct A]. split; easy.
Qed.

(* it is not cut short if its thread knows of all inserts *)
Lemma wscan_cut f ov p i x0 tb n x s t : wtreach f ov x0 -> nth_error (wc_ths x0) i = Some tb -> wf_pid f p ->
  wscans f ov p i x0 n x s -> scan_over s = false -> nth_error (wc_ths x) i = Some t ->
  sc_pc (mnext f p (wt_view t) s) = MDone false ->
  exists q, In q (wc_called x) /\ ~ In q (wt_past t).
Proof.
  intros R E W B NO Et D. pose proof (wtexec_reach _ _ _ _ R (wbeside_exec _ _ _ _ _ _ _ _ _ _ B)) as Rx.
  destruct (wscans_inv _ _ _ _ _ _ _ _ _ R E W B) as (t1 & Et1 & I & _). rewrite Et in Et1. injection Et1 as <-.
  destruct (view_here f ov x i t Rx Et) as (CW & G).
  destruct (mstep_ok f p W _ _ _ _ G CW I) as (s' & Es & _). unfold mnext in D. rewrite Es in D.
  assert (Dec : forall a b : pid, {a = b} + {a <> b}) by (decide equality; apply N.eq_dec).
  destruct (Forall_dec (fun q => In q (wt_past t)) (fun q => in_dec Dec q (wt_past t)) (wc_called x)) as [A|A].
  2:{ apply Exists_Forall_neg in A; [|intros q; destruct (in_dec Dec q (wt_past t)); tauto].
      apply Exists_exists in A. exact A. }
  exfalso. rewrite Forall_forall in A.
  refine (mstep_cut f p _ _ _ _ _ G CW I Es D _ _).
  { intros Q. unfold scan_over in NO. rewrite Q in NO. discriminate. }
  intros b v k Nv Hk Tv K.
  destruct (v_ptr f _ _ G b v _ Nv Tv) as (q & Cq & OP & Lq & Eq).
  destruct (wt_here f ov x i t Rx Et) as (_ & _ & T).
  destruct (wpast_linked f ov _ _ _ q CW T) as [_ [S P]]; [split; [lia|auto]|].
  pose proof (hg_nid f _ _ G b v Nv) as NI. destruct (nid_ok_len f b NI) as [_ M].
  unfold on_path in OP. rewrite !andb_true_iff in OP. destruct OP as [[_ _] OB]. apply N.eqb_eq in OB.
  pose proof (nlen_spec (p_len q)) as NQ. destruct (CW q Cq) as [Lw [Bq _]].
  assert (U : under f b q) by (split; [lia|]; destruct b as [bb bl]; simpl in *; now subst bb).
  assert (Ek : k = slice (BITS f) (p_bits q) (p_len b) 4).
  { unfold nib in Eq. pose proof (slice_lt (BITS f) (p_bits q) (p_len b) 4) as SL. change (2 ^ 4) with 16 in SL.
    unfold ptr_bit in Eq. lia. }
  assert (U' : under f (child f b k) q) by (subst k; apply under_child; auto).
  assert (NC : nid_ok f (child f b k)) by (apply child_ok; auto; lia).
  destruct (linked_exists f _ _ q NC (CW q Cq) ltac:(lia) U' (conj S P)) as [v' Q']. congruence.
Qed.

Lemma wscan_ends f ov p i x0 tb n x s : wtreach f ov x0 -> nth_error (wc_ths x0) i = Some tb -> wf_pid f p ->
  wscans f ov p i x0 n x s -> N.of_nat n <= 2 ^ 204.
Proof.
  intros R E W B. destruct (wscans_inv _ _ _ _ _ _ _ _ _ R E W B) as (_ & _ & _ & M).
  assert (Q : mmu f mscan0 <= 2 ^ 204) by (vm_compute; discriminate). lia.
Qed.

(* ---------- the longest match and the less specifics ---------- *)

Lemma wlooks_inv f ov once p i x0 tb n x s : wtreach f ov x0 -> nth_error (wc_ths x0) i = Some tb -> wf_pid f p ->
  wlooks f ov once p i x0 n x s ->
  exists t, nth_error (wc_ths x) i = Some t /\
    bsI f p once (fun q => In q (wc_called x)) (wpast tb) (t_heap (wt_view t)) s /\
    N.of_nat n + bmu s <= bmu (bscan0 once p).
Proof.
  intros R E W B. induction B as [|n t0 x y s B (t & Et & IH & ST) N S|n x s t B (t1 & Et & IH & ST) O N C].
  - exists tb. split; [easy|]. split; [|simpl; lia]. apply bsI_start; auto. intros q D.
    destruct (wt_here f ov x0 i tb R E) as (CW & _ & T). destruct (wpast_linked f ov _ _ _ _ CW T D) as [_ [A _]]. exact A.
  - pose proof (wtexec_reach _ _ _ _ R (wbeside_exec _ _ _ _ _ _ _ _ _ _ B)) as Rx.
    pose proof (wr_step f ov t0 x y N Rx S) as Ry.
    destruct (view_step f ov t0 x y i t Rx S Et) as (t' & Et' & H). exists t'. split; [easy|]. split; [|easy].
    apply (bsI_mono f p once (fun q => In q (wc_called x))).
    { intros q. now apply (called_step f ov t0). }
    apply (bsI_hle f p once _ _ (t_heap (wt_view t))); auto.
    + exact (v_cht f _ _ (proj2 (view_here f ov x i t Rx Et))).
    + exact (v_cht f _ _ (proj2 (view_here f ov y i t' Ry Et'))).
  - rewrite N in Et. injection Et as <-. exists t. split; [easy|].
    pose proof (wtexec_reach _ _ _ _ R (wbeside_exec _ _ _ _ _ _ _ _ _ _ B)) as Rx.
    destruct (view_here f ov x i t Rx N) as (CW & G).
    destruct (bstep_ok f p W once _ _ _ _ G CW (fun q Wq => view_stored_called f ov x i t q Rx N Wq) IH) as (s' & Es & I' & M).
    unfold bnext. rewrite Es. split; [easy|].
    assert (F : bfinished s = false) by exact O. specialize (M F). lia.
Qed.

Lemma wlooks_sound f ov once p i x0 tb n x s : wtreach f ov x0 -> nth_error (wc_ths x0) i = Some tb -> wf_pid f p ->
  wlooks f ov once p i x0 n x s ->
  bs_pc s <> BPanic /\
  forall q, In q (matches s) -> In q (wc_called x) /\ 0 < p_len q /\ covers f q p /\ (once = false -> p_len q < p_len p).
Proof.
  intros R E W B. destruct (wlooks_inv _ _ _ _ _ _ _ _ _ _ R E W B) as (t & _ & I & _).
  destruct (bsI_bI _ _ _ _ _ _ _ I) as [NP (lvl & J)]. split; [easy|].
  intros q Iq. unfold matches in Iq. apply in_rev in Iq.
  destruct (b_out _ _ _ _ _ _ _ _ J q Iq) as (k & K & -> & Cq).
  pose proof (top_le p once) as T. split; [easy|]. simpl. split; [lia|].
  split; [apply at_len_covers; auto; lia|]. intros ->. unfold top, sat_sub in K. lia.
Qed.

Lemma wless_complete f ov p i x0 tb n x s : wtreach f ov x0 -> nth_error (wc_ths x0) i = Some tb -> wf_pid f p ->
  wlooks f ov false p i x0 n x s ->
  len_desc (matches s) /\
  (look_over s = true -> forall q, In q (wt_past tb) -> 0 < p_len q -> p_len q < p_len p -> covers f q p ->
     In q (matches s)).
Proof.
  intros R E W B. destruct (wlooks_inv _ _ _ _ _ _ _ _ _ _ R E W B) as (t & _ & I & _). split.
  { destruct (bsI_bI _ _ _ _ _ _ _ I) as [_ (lvl & J)]. apply rev_desc. exact (b_sort _ _ _ _ _ _ _ _ J). }
  intros O q P L Lq Cv. assert (D : wpast tb q) by (split; easy).
  destruct (wt_here f ov x0 i tb R E) as (CW & _ & T). pose proof (CW _ (proj1 (th_past _ _ _ _ _ T q P))) as Wq.
  apply covers_trunc in Cv; auto. destruct Cv as [_ Q]. change (q = at_len f p (p_len q)) in Q.
  unfold bsI in I. unfold look_over in O. destruct (bs_pc s) as [lvl y| |]; [discriminate| |easy].
  destruct I as (lvl & J & [[-> _]|[? _]]); [|easy]. unfold matches. rewrite <- in_rev.
  rewrite Q. apply (b_all _ _ _ _ _ _ _ _ J).
  - unfold top, sat_sub. lia.
  - now rewrite <- Q.
Qed.

Lemma wless_sound f ov p i x0 tb n x s : wtreach f ov x0 -> nth_error (wc_ths x0) i = Some tb -> wf_pid f p ->
  wlooks f ov false p i x0 n x s ->
  bs_pc s <> BPanic /\
  forall q, In q (matches s) -> In q (wc_called x) /\ 0 < p_len q /\ p_len q < p_len p /\ covers f q p.
Proof.
  intros R E W B. destruct (wlooks_sound _ _ _ _ _ _ _ _ _ _ R E W B) as [A H]. split; [easy|].
  intros q Q. destruct (H q Q) as (H1 & H2 & H3 & H4). auto.
Qed.

Lemma wlongest f ov p i x0 tb n x s : wtreach f ov x0 -> nth_error (wc_ths x0) i = Some tb -> wf_pid f p ->
  wlooks f ov true p i x0 n x s ->
  bs_pc s <> BPanic /\ (length (matches s) <= 1)%nat /\
  (forall m, In m (matches s) -> In m (wc_called x) /\ 0 < p_len m /\ covers f m p) /\
  (look_over s = true -> forall q, In q (wt_past tb) -> 0 < p_len q -> covers f q p ->
     exists m, matches s = [m] /\ p_len q <= p_len m).
Proof.
  intros R E W B. destruct (wlooks_sound _ _ _ _ _ _ _ _ _ _ R E W B) as [NP SD].
  destruct (wlooks_inv _ _ _ _ _ _ _ _ _ _ R E W B) as (t & _ & I & _). split; [easy|].
  assert (LE : (length (matches s) <= 1)%nat).
  { unfold matches. rewrite rev_length. unfold bsI in I. destruct (bs_pc s) as [lvl y| |]; [| |easy].
    - destruct I as (_ & _ & I & _). rewrite (I eq_refl). simpl. lia.
    - destruct I as (lvl & _ & [[_ I]|[_ ->]]); [rewrite (I eq_refl)|]; simpl; lia. }
  split; [easy|]. split.
  { intros m M. destruct (SD m M) as (A1 & A2 & A3 & _). easy. }
  intros O q P L Cv. assert (D : wpast tb q) by (split; easy).
  unfold bsI in I. unfold look_over in O. destruct (bs_pc s) as [lvl y| |]; [discriminate| |easy].
  destruct I as (lvl & J & Z).
  destruct (wt_here f ov x0 i tb R E) as (CW & _ & T). pose proof (CW _ (proj1 (th_past _ _ _ _ _ T q P))) as Wq.
  apply covers_trunc in Cv; auto. destruct Cv as [Le Q]. change (q = at_len f p (p_len q)) in Q.
  pose proof (b_all _ _ _ _ _ _ _ _ J (p_len q)) as A. rewrite <- Q in A. unfold top in A.
  destruct Z as [[-> Z]|[_ Z]].
  - specialize (Z eq_refl). rewrite Z in A. destruct A; auto; lia.
  - exists (at_len f p (lvl + 1)). unfold matches. rewrite Z. split; [easy|]. simpl.
    destruct (N.le_gt_cases (p_len q) (lvl + 1)) as [|Gt]; [easy|].
    assert (K : lvl < p_len q <= p_len p) by lia. specialize (A K D). rewrite Z in A.
    destruct A as [A|[]]. rewrite <- A. simpl. lia.
Qed.

Lemma wlooks_end f ov once p i x0 tb n x s : wtreach f ov x0 -> nth_error (wc_ths x0) i = Some tb -> wf_pid f p ->
  wlooks f ov once p i x0 n x s -> N.of_nat n <= 100 * p_len p + 68.
Proof.
  intros R E W B. destruct (wlooks_inv _ _ _ _ _ _ _ _ _ _ R E W B) as (_ & _ & _ & M).
  pose proof (top_le p once) as T. unfold bscan0 in M. fold (top p once) in M. unfold bat in M.
  assert (X : xmu XStart <= 68) by (vm_compute; discriminate).
  destruct (N.eqb_spec (top p once) 0); cbn [bmu bs_pc] in M; lia.
Qed.
