(* What a user sees of the prefix tree on a weak memory. *)
From Coq Require Import Arith NArith List Bool Lia.
From Verif Require Import Word Af BitSpan Maps ChtMath Cht Node Tree ChainProofs TreeProofs
  Conc ConcMarks ConcTree ConcTreeProofs ConcTreeInv ConcTreeStep ConcTreeEnd ConcTreeSeen ConcSpec
  WeakTree WeakTreeView WeakTreeStep WeakTreeInv.
Import ListNotations.
Local Open Scope N_scope.

(* executions from one state to another *)
Inductive wtexec (f : af) (ov : bool) (x : wtconf) : wtconf -> Prop :=
| we_refl : wtexec f ov x x
| we_step t0 y z : wtexec f ov x y -> tree_new f = Ok t0 -> wtcstep f ov t0 y z -> wtexec f ov x z.
Lemma wtexec_reach f ov x y : wtreach f ov x -> wtexec f ov x y -> wtreach f ov y.
Proof. intros R E. induction E; [exact R|]. eapply wr_step; eauto. Qed.
Lemma wtexec_trans f ov x y z : wtexec f ov x y -> wtexec f ov y z -> wtexec f ov x z.
Proof. intros A B. induction B; [exact A|]. eapply we_step; eauto. Qed.

Lemma wt_here f ov x i t : wtreach f ov x -> nth_error (wc_ths x) i = Some t ->
  (forall q, In q (wc_called x) -> wf_pid f q) /\ tG f (fun q => In q (wc_called x)) (wc_mem x) /\
  thI f ov (wc_mem x) (wc_called x) t.
Proof.
  intros R E. destruct (wtI_reach f ov x R) as (t0 & _ & I). split; [apply I|]. split; [apply I|]. eapply wi_ths; eauto.
Qed.

(* a look-up finds what was inserted before it *)
Lemma wtree_found f ov x i t p b : wtreach f ov x -> nth_error (wc_ths x) i = Some t ->
  wt_call t = WHas p (XDone b) -> In p (wt_past t) -> 0 < p_len p -> b = true.
Proof.
  intros R E C P L. destruct (wt_here f ov x i t R E) as (_ & _ & [_ _ _ T]). unfold callI in T. rewrite C in T.
  destruct T as (_ & _ & before & B & _ & X & _). auto.
Qed.

(* and nothing that no one has begun to insert *)
Lemma wtree_no_phantom f ov x i t p : wtreach f ov x -> nth_error (wc_ths x) i = Some t ->
  wt_call t = WHas p (XDone true) -> In p (wc_called x).
Proof.
  intros R E C. destruct (wt_here f ov x i t R E) as (CW & G & [K _ _ T]). unfold callI in T. rewrite C in T.
  destruct T as (Wp & _ & before & B & _ & _ & X). specialize (X eq_refl).
  pose proof (g_cht _ _ _ (proj1 G)) as I. pose proof (known_ninv f _ _ K I) as IV.
  apply (stored_hle f _ (t_heap (wc_mem x)) p IV I (kn_le _ _ _ K)) in X.
  assert (L : 0 < p_len p).
  { unfold stored in X. destruct (nodes f (t_heap (wc_mem x)) (node_of f p)) as [v|] eqn:N; [|easy].
    destruct (g_pfx _ _ _ (proj1 G) _ _ _ N X) as (q & Cq & Lq & E1 & E2).
    destruct (N.eq_dec (p_len p) 0) as [Z|Z]; [|lia]. exfalso.
    pose proof (span_bit f q Lq) as B1. rewrite <- E2 in B1.
    assert (bs_bit (span_of f p) = 31); [|lia].
    unfold span_of, bs_bit, bs_index, nlen. rewrite Z. simpl bs_len. simpl bs_bits.
    change (4 * ((0 - 1) / 4)) with 0. change (0 - 0) with 0. unfold slice.
    change (2 ^ 0) with 1. now rewrite N.mod_1_r. }
  apply (present_called f _ CW (wc_mem x)); auto.
  unfold present. destruct (N.eqb_spec (p_len p) 0); [lia|easy].
Qed.

(* no call fails; none panics but for the retry counter of C43 *)
Lemma wtree_no_error f ov x i t : wtreach f ov x -> nth_error (wc_ths x) i = Some t ->
  match wt_call t with
  | WIns p _ (TDone (RErr _)) => False
  | WIns p _ TPanic => ~ no_overflow ov p
  | WHas _ XPanic => False
  | _ => True
  end.
Proof.
  intros R E. destruct (wt_here f ov x i t R E) as (CW & G & [K _ _ T]). unfold callI in T.
  destruct (wt_call t) as [|p mui pc|p pc]; auto.
  - destruct pc; auto; destruct T as (_ & T & _); [destruct r; auto|exact T].
  - destruct pc; auto. destruct T as (_ & _ & ? & _ & _ & T). easy.
Qed.

(* an insert of what was inserted before does not say that it is new *)
Lemma wtree_not_new f ov x i t p mui rc existed : wtreach f ov x -> nth_error (wc_ths x) i = Some t ->
  wt_call t = WIns p mui (TDone (ROk (rc, existed))) -> In p (wt_past t) -> existed = true.
Proof.
  intros R E C P. destruct (wt_here f ov x i t R E) as (_ & _ & [_ _ _ T]). unfold callI in T. rewrite C in T.
  destruct T as (_ & _ & _ & M). specialize (M P). simpl in M. now destruct existed.
Qed.

(* the steps of a call *)
Lemma wtree_steps f ov x i t : wtreach f ov x -> nth_error (wc_ths x) i = Some t ->
  match wt_call t with
  | WIdle => True
  | WIns _ _ _ => N.of_nat (wt_steps t) <= 5440
  | WHas _ _ => N.of_nat (wt_steps t) <= 68
  end.
Proof.
  intros R E. destruct (wt_here f ov x i t R E) as (_ & _ & [_ _ _ T]). unfold callI in T.
  destruct (wt_call t) as [|p mui pc|p pc]; auto.
  - destruct T as (_ & _ & T & _). change TSTEPS with 5440 in T. lia.
  - destruct T as (_ & T & _). lia.
Qed.

(* once no insert is under way, the tree is that of the prefixes inserted *)
Lemma wtree_settled f ov x : wtreach f ov x ->
  (forall i t p mui pc, nth_error (wc_ths x) i = Some t -> wt_call t <> WIns p mui pc) ->
  tree_inv f (t_heap (wc_mem x)) /\
  forall q, wf_pid f q -> 0 < p_len q -> (prefix_exists f (wc_mem x) q = Ok true <-> In q (wc_called x)).
Proof.
  intros R NI. destruct (wtI_reach f ov x R) as (t0 & _ & [CW G _ _ IN _]).
  assert (D : forall q, In q (wc_called x) -> inserted f (wc_mem x) q).
  { intros q Q. destruct (IN q Q) as [X|(i & t & E & mui & pc & X)]; [easy|]. now elim (NI i t q mui pc). }
  assert (T : tree_inv f (t_heap (wc_mem x))).
  { apply (hG_tree_inv f _ CW); [apply G|]. intros q Q L. specialize (D q Q). unfold inserted in D.
    destruct (N.eqb_spec (p_len q) 0); [lia|easy]. }
  split; [easy|]. intros q Wq L. rewrite prefix_exists_ok by (auto; exact (g_cht _ _ _ (proj1 G))). split.
  - intros X. injection X as X. apply (present_called f _ CW (wc_mem x)); auto.
    unfold present. destruct (N.eqb_spec (p_len q) 0); [lia|easy].
  - intros Q. specialize (D q Q). unfold inserted in D. destruct (N.eqb_spec (p_len q) 0); [lia|].
    destruct D as [_ ->]. easy.
Qed.

(* and each was said to be new by at least one of its inserts *)
Lemma wtree_said_new f ov x q : wtreach f ov x ->
  (forall i t p mui pc, nth_error (wc_ths x) i = Some t -> wt_call t <> WIns p mui pc) ->
  In q (wc_called x) -> exists i t, nth_error (wc_ths x) i = Some t /\ In q (wt_news t).
Proof.
  intros R NI Q. destruct (wtI_reach f ov x R) as (t0 & _ & [CW G _ _ IN NW]).
  assert (D : inserted f (wc_mem x) q).
  { destruct (IN q Q) as [X|(i & t & E & mui & pc & X)]; [easy|]. now elim (NI i t q mui pc). }
  apply (inserted_present f (fun _ => True)) in D.
  destruct (NW q (CW q Q) D) as (i & t & E & [S|(mui & pc & S & _)]); [eauto|]. now elim (NI i t q mui pc).
Qed.

(* what is known is never forgotten *)
Lemma wtree_kept f ov x y q : wtreach f ov x -> wtexec f ov x y -> wf_pid f q -> 0 < p_len q ->
  prefix_exists f (wc_mem x) q = Ok true -> prefix_exists f (wc_mem y) q = Ok true.
Proof.
  intros R X Wq L P. destruct (wtI_reach f ov x R) as (t0 & _ & I0).
  pose proof (g_cht _ _ _ (proj1 (wi_mem _ _ _ _ I0))) as Ix.
  rewrite prefix_exists_ok in P by auto. injection P as P.
  enough (Q : stored f (t_heap (wc_mem y)) q = true).
  { destruct (wtI_reach f ov y (wtexec_reach _ _ _ _ R X)) as (t1 & _ & I1).
    rewrite prefix_exists_ok by (auto; exact (g_cht _ _ _ (proj1 (wi_mem _ _ _ _ I1)))). now rewrite Q. }
  induction X as [|t1 y z X IH E S]; [easy|].
  destruct (wtI_reach f ov y (wtexec_reach _ _ _ _ R X)) as (t2 & _ & [CW G K TH _ _]).
  pose proof (g_cht _ _ _ (proj1 G)) as Iy.
  destruct S as [m c ts|m c ts i t m' c' t' N S|m c ts i j ti tj Ni Nj Ci Cj]; simpl in *; try easy.
  destruct (thread_step f ov m c t m' c' t' CW G (TH _ _ N) S) as (_ & G' & (H & _) & _).
  pose proof (g_cht _ _ _ (proj1 G')) as Iz. eapply stored_hle; [exact Iy|exact Iz|exact H|exact IH].
Qed.

(* ---------- a call can go on whatever the others do ---------- *)

Inductive learns_all (m : tree) (v : tree) : tree -> Prop :=
| la_refl : learns_all m v v
| la_step u w : learns_all m v u -> learns m u w -> learns_all m v w.

Lemma learns_all_known f m v w : known f m v -> learns_all m v w -> known f m w /\ tR v w.
Proof.
  intros K L. induction L as [|u w L [IH1 IH2] S]; [split; [easy|apply tR_refl]|].
  destruct (learns_known f m u w IH1 S) as [A B]. split; [easy|]. eapply tR_trans; eauto.
Qed.

Lemma slot_learn f m v id w : known f m v -> ndom f id -> walk_ok NSTRIDE f (t_heap v) id w ->
  exists v', learns_all m v v' /\ same_slot f id (t_heap m) (t_heap v') w.
Proof.
  intros [H Cl _] D (k & K & -> & O).
  assert (S : forall h, (lookup (kof f NSTRIDE id k) h = None <-> lookup (kof f NSTRIDE id k) (t_heap m) = None) ->
    same_slot f id (t_heap m) h (Walk (p_len id / NSTRIDE) (hpath f id k) (slots_at (p_len id) k) (N.of_nat k))).
  { intros h Q ix. simpl w_level. rewrite hash_at by auto. intros E. injection E as <-. rewrite walk_key. exact Q. }
  destruct (lookup (kof f NSTRIDE id k) (t_heap v)) as [ev|] eqn:Lv.
  - exists v. split; [constructor|]. apply S. destruct (H _ _ Lv) as (e' & L' & _). rewrite Lv, L'. split; discriminate.
  - destruct (lookup (kof f NSTRIDE id k) (t_heap m)) as [e|] eqn:Lm.
    + eexists. split.
      * eapply la_step; [constructor|]. eapply (ln_node m v (kof f NSTRIDE id k) e (e_val e)); eauto.
        -- apply reach_kof. intros j J. destruct (O j J) as (e' & -> & _). easy.
        -- intros e0. rewrite Lv. discriminate.
        -- apply nle_refl.
      * apply S. simpl. rewrite lookup_update, eqb_refl. split; discriminate.
    + exists v. split; [constructor|]. apply S. tauto.
Qed.

Lemma arr_learn f m v isptr k cur : known f m v -> (exists x, deref k (t_heap v) = Ok x) ->
  exists v', learns_all m v v' /\ same_arr isptr (t_heap m) (t_heap v') k cur.
Proof.
  intros [H Cl _] [x DX]. unfold deref in DX. destruct (lookup k (t_heap v)) as [ev|] eqn:Lv; [|easy].
  destruct (H _ _ Lv) as (e & Lm & E1 & E2 & NL). eexists. split.
  - eapply la_step; [constructor|]. eapply (ln_node m v k e (e_val e)); eauto.
    + intros e0. rewrite Lv. intros Q. injection Q as <-. easy.
    + apply nle_refl.
  - intros a b. unfold deref. simpl. rewrite lookup_update, eqb_refl, Lm. simpl.
    intros A B. injection A as <-. injection B as <-. easy.
Qed.

Lemma default_learn m v : (t_default v = true -> t_default m = true) ->
  exists v', learns_all m v v' /\ t_default v' = t_default m.
Proof.
  intros D. destruct (t_default v) eqn:Dv.
  - exists v. split; [constructor|]. rewrite Dv. symmetry. now apply D.
  - destruct (t_default m) eqn:Dm.
    + eexists. split; [eapply la_step; [constructor|now apply ln_default]|]. easy.
    + exists v. split; [constructor|]. easy.
Qed.

Lemma can_agree f ov p m v pc : wf_pid f p -> known f m v -> tI f ov p v pc ->
  exists v', learns_all m v v' /\ agrees f p m v' pc.
Proof.
  intros Wp K T. pose proof Wp as [Hl [Hb Hm]].
  assert (Z : agrees f p m v pc -> exists v', learns_all m v v' /\ agrees f p m v' pc).
  { intros A. exists v. split; [constructor|easy]. }
  destruct pc as [|ex r|fr r|fr k|fr k ptr|fr k ptr|fr k cur rc|fr k cur rc|fr rc
    |fr rc nn s0|r|]; try (now apply Z); simpl in T.
  - destruct (default_learn m v (kn_default _ _ _ K)) as (v' & L & E). exists v'. split; [easy|]. simpl. auto.
  - destruct r as [w|w|k]; try (now apply Z). destruct T as (_ & _ & T).
    apply (slot_learn f m v root_node_id w K (root_dom f) T).
  - destruct r as [w|w|k]; try (now apply Z). destruct T as ((s & acc & -> & M & Ls & _) & _ & T).
    apply (slot_learn f m v (anc f p s) w K); auto. apply anc_dom; auto. lia.
  - destruct T as (_ & _ & AT & _). destruct (at_id_lookup _ _ _ AT) as (x & DR & _).
    apply (arr_learn f m v true k cur K). eauto.
  - destruct T as (_ & _ & AT & _). destruct (at_id_lookup _ _ _ AT) as (x & DR & _).
    apply (arr_learn f m v false k cur K). eauto.
  - destruct s0 as [w|w|k todo rc0|]; try (now apply Z).
    destruct T as ((s & acc & -> & M & Ls & _) & _ & LF & _ & -> & T). simpl in LF, T. apply N.leb_gt in LF.
    assert (D : ndom f (anc f p (s + 4))) by (apply anc_dom; auto; [dlia|lia]).
    destruct (slot_learn f m v (anc f p (s + 4)) w K D T) as (v' & L & A).
    exists v'. split; [easy|]. simpl. intros id E. rewrite (next_id_ok f p s acc Wp M LF) in E. injection E as <-. easy.
Qed.

(* the other threads do not move *)
Definition others_rest (i : nat) (x y : wtconf) : Prop :=
  forall j, j <> i -> nth_error (wc_ths y) j = nth_error (wc_ths x) j.

Lemma thread_learns f ov t0 m c ts i t v : tree_new f = Ok t0 -> nth_error ts i = Some t -> learns_all m (wt_view t) v ->
  wtexec f ov (WTConf m c ts)
    (WTConf m c (set_nth i (WThread v (wt_call t) (wt_past t) (wt_news t) (wt_steps t)) ts)).
Proof.
  intros E N L. induction L as [|u w L IH S].
  - replace (set_nth i _ ts) with ts; [constructor|]. symmetry. destruct t. simpl.
    revert i N. clear. induction ts as [|a ts IH]; intros [|i] N; try discriminate; simpl in *.
    + now injection N as ->.
    + f_equal. now apply IH.
  - eapply we_step; [exact IH|exact E|].
    replace c with (c ++ []) at 2 by apply app_nil_r.
    replace (set_nth i (WThread w _ _ _ _) ts) with
      (set_nth i (WThread w (wt_call t) (wt_past t) (wt_news t) (wt_steps t))
        (set_nth i (WThread u (wt_call t) (wt_past t) (wt_news t) (wt_steps t)) ts)).
    + eapply wc_thread; [eapply set_nth_here; eauto|].
      exact (wt_learn f ov m (WThread u (wt_call t) (wt_past t) (wt_news t) (wt_steps t)) w S).
    + clear. revert i. induction ts as [|a ts IH]; intros [|i]; simpl; auto. f_equal. apply IH.
Qed.

Lemma set_nth_rest {A} i (a : A) l j : j <> i -> nth_error (set_nth i a l) j = nth_error l j.
Proof. intros N. apply set_nth_there. auto. Qed.

(* an insert, and a look-up, return when the others do nothing *)
Lemma wtree_insert_returns f ov x i t p mui pc : wtreach f ov x -> nth_error (wc_ths x) i = Some t ->
  wt_call t = WIns p mui pc -> no_overflow ov p ->
  exists y t' r, wtexec f ov x y /\ others_rest i x y /\ nth_error (wc_ths y) i = Some t' /\
    wt_call t' = WIns p mui (TDone (ROk r)).
Proof.
  intros R E C NO. remember (N.to_nat (tmu p pc)) as n eqn:Hn. revert x t pc R E C Hn.
  induction n as [n IH] using lt_wf_ind. intros x t pc R E C Hn.
  destruct (wt_here f ov x i t R E) as (CW & G & TH). pose proof TH as [K _ _ T]. unfold callI in T. rewrite C in T.
  destruct T as (Q & T & _ & _). pose proof (CW _ Q) as Wp.
  assert (F : ~ ended pc \/ exists r, pc = TDone (ROk r)).
  { destruct pc; try (left; intros Z; exact Z); [destruct r; [right; eauto|easy]|]. now elim T. }
  destruct F as [F|[r ->]]; [|exists x, t, r; split; [constructor|]; split; [intros j _; easy|auto]].
  destruct (can_agree f ov p (wc_mem x) (wt_view t) pc Wp K T) as (v & L & A).
  destruct (wtI_reach f ov x R) as (t0 & E0 & _). destruct x as [m c ts]. simpl in *.
  pose proof (thread_learns f ov t0 m c ts i t v E0 E L) as X1.
  set (t1 := WThread v (wt_call t) (wt_past t) (wt_news t) (wt_steps t)) in *.
  set (x1 := WTConf m c (set_nth i t1 ts)) in *.
  assert (N1 : nth_error (wc_ths x1) i = Some t1) by (simpl; eapply set_nth_here; eauto).
  assert (S1 : wtcstep f ov t0 x1 (WTConf (fst (tnext f ov p mui m pc)) (c ++ [])
     (set_nth i (at_call t1 (fst (tnext f ov p mui v pc)) (WIns p mui (snd (tnext f ov p mui v pc)))) (set_nth i t1 ts)))).
  { eapply wc_thread; [exact N1|]. now apply (wt_ins f ov m t1 p mui pc). }
  set (x2 := WTConf _ _ _) in S1.
  assert (X2 : wtexec f ov (WTConf m c ts) x2) by (eapply we_step; eauto).
  pose proof (wtexec_reach _ _ _ _ R X2) as R2.
  destruct (learns_all_known f m _ v K L) as [Kv Rv].
  pose proof (g_cht _ _ _ (proj1 G)) as I.
  pose proof (known_ninv f _ _ K I) as Iw. pose proof (known_ninv f _ _ Kv I) as Iv.
  pose proof (tI_R f ov p _ v pc Iw Iv Rv T) as Tv.
  pose proof (small_known f _ _ _ (proj1 G) Iv (kn_le _ _ _ Kv)) as SM.
  pose proof (tnext_known f ov p mui v pc Wp Iv SM Tv F) as VG. unfold vgood in VG.
  assert (MU : tmu p (snd (tnext f ov p mui v pc)) < tmu p pc).
  { destruct (tnext f ov p mui v pc). simpl. tauto. }
  assert (N2 : nth_error (wc_ths x2) i =
    Some (at_call t1 (fst (tnext f ov p mui v pc)) (WIns p mui (snd (tnext f ov p mui v pc))))).
  { simpl. eapply set_nth_here; eauto. }
  destruct (IH (N.to_nat (tmu p (snd (tnext f ov p mui v pc)))) ltac:(lia) x2 _ _ R2 N2 eq_refl eq_refl)
    as (y & t' & r & Y & O & Ny & Cy).
  exists y, t', r. split; [eapply wtexec_trans; eauto|]. split; [|auto].
  intros j J. rewrite (O j J). simpl. now rewrite !set_nth_rest.
Qed.

Lemma wtree_contains_returns f ov x i t p pc : wtreach f ov x -> nth_error (wc_ths x) i = Some t ->
  wt_call t = WHas p pc ->
  exists y t' b, wtexec f ov x y /\ others_rest i x y /\ nth_error (wc_ths y) i = Some t' /\
    wt_call t' = WHas p (XDone b).
Proof.
  intros R E C. remember (N.to_nat (xmu pc)) as n eqn:Hn. revert x t pc R E C Hn.
  induction n as [n IH] using lt_wf_ind. intros x t pc R E C Hn.
  destruct (wt_here f ov x i t R E) as (CW & G & TH). pose proof TH as [K _ _ T]. unfold callI in T. rewrite C in T.
  destruct T as (Wp & _ & before & _ & X).
  pose proof (g_cht _ _ _ (proj1 G)) as I. pose proof (known_ninv f _ _ K I) as Iv.
  assert (F : match pc with XDone _ | XPanic => False | _ => True end \/ exists b, pc = XDone b).
  { destruct pc; auto; [right; eauto|]. destruct X as [_ X]. now elim X. }
  destruct F as [F|[b ->]]; [|exists x, t, b; split; [constructor|]; split; [intros j _; easy|auto]].
  destruct (xstep_known f p before _ pc Iv Wp X) as (pc' & Ex & _ & MU).
  destruct (wtI_reach f ov x R) as (t0 & E0 & _). destruct x as [m c ts]. simpl in *.
  assert (S1 : wtcstep f ov t0 (WTConf m c ts) (WTConf m (c ++ []) (set_nth i (at_call t (wt_view t) (WHas p pc')) ts))).
  { eapply wc_thread; [exact E|]. pose proof (wt_has f ov m t p pc C F) as S. now rewrite Ex in S. }
  set (x2 := WTConf _ _ (set_nth _ _ _)) in S1.
  assert (X2 : wtexec f ov (WTConf m c ts) x2) by (eapply we_step; eauto; constructor).
  pose proof (wtexec_reach _ _ _ _ R X2) as R2.
  assert (N2 : nth_error (wc_ths x2) i = Some (at_call t (wt_view t) (WHas p pc'))) by (simpl; eapply set_nth_here; eauto).
  destruct (IH (N.to_nat (xmu pc')) ltac:(destruct pc; easy || lia) x2 _ _ R2 N2 eq_refl eq_refl) as (y & t' & b & Y & O & Ny & Cy).
  exists y, t', b. split; [eapply wtexec_trans; eauto|]. split; [|auto].
  intros j J. rewrite (O j J). simpl. now rewrite !set_nth_rest.
Qed.
