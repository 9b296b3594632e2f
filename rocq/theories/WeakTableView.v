(* What a thread knows of the prefix table is a part of it that is closed under the
   chains of slot arrays; the steps of a walk on it and on the memory. *)
From Coq Require Import Arith NArith List Bool Lia.
From Verif Require Import Word Af BitSpan Maps ChtMath Cht Node Tree ChainProofs MultiMap PrefixCht PrefixChtProofs
  Conc ConcTree ConcTreeProofs ConcStore ConcTable WeakTable.
Import ListNotations.
Local Open Scope N_scope.

Definition cells_closed (h : heap pval) : Prop := forall k e, lookup k h = Some e -> cell_reached h k.

Record part (f : af) (m v : heap pval) : Prop := {
  pa_le : grows v m;
  pa_closed : cells_closed v
}.

Section V.
Variable f : af.

Lemma reached_kof (h : heap pval) id k : cell_reached h (kof f PSTRIDE id (S k)) ->
  lookup (kof f PSTRIDE id k) h <> None.
Proof.
  intros R. apply (R (hpath f id (S k)) (hidx f id (N.of_nat (S k)))).
  - unfold kof. simpl. apply hpath_S.
  - rewrite hpath_S. now destruct (hpath f id k).
Qed.

Lemma kof_reached (h : heap pval) id k :
  (forall j, (j < k)%nat -> lookup (kof f PSTRIDE id j) h <> None) -> cell_reached h (kof f PSTRIDE id k).
Proof.
  intros O path i E N. unfold kof in E. simpl in E. rewrite hpath_S in E.
  apply app_inj_tail in E. destruct E as [<- <-].
  destruct k as [|k]; [now elim N|]. exact (O k (Nat.lt_succ_diag_r k)).
Qed.

Lemma closed_below h id k : cells_closed h -> lookup (kof f PSTRIDE id k) h <> None ->
  forall j, (j < k)%nat -> lookup (kof f PSTRIDE id j) h <> None.
Proof.
  intros Cl. induction k as [|k IH]; intros L j J; [lia|].
  assert (L' : lookup (kof f PSTRIDE id k) h <> None).
  { destruct (lookup (kof f PSTRIDE id (S k)) h) as [e|] eqn:E; [|easy]. apply reached_kof. eapply Cl; eauto. }
  destruct (Nat.eq_dec j k) as [->|]; [easy|]. apply IH; [easy|lia].
Qed.

(* such a part is a table itself *)
Lemma part_pinv m h : part f m h -> pinv f m -> pinv f h.
Proof.
  intros [H Cl] I k e L. destruct (H _ _ L) as (e' & L' & E1 & E2).
  destruct (I _ _ L') as (D & n & K & N & S & O). rewrite E1, E2 in *. split; [easy|].
  exists n. split; [easy|]. split; [easy|]. split; [easy|]. intros j J.
  assert (X : lookup (kof f PSTRIDE (e_id e) j) h <> None).
  { apply (closed_below h (e_id e) n); auto. rewrite <- K. now rewrite L. }
  destruct (lookup (kof f PSTRIDE (e_id e) j) h) as [e1|] eqn:L1; [|easy]. exists e1. split; [easy|].
  destruct (H _ _ L1) as (e2 & L2 & E3 & _). destruct (O j J) as (e3 & L3 & E4).
  rewrite L2 in L3. injection L3 as <-. now rewrite <- E3.
Qed.

Lemma reached_grows (h h' : heap pval) k : grows h h' -> cell_reached h k -> cell_reached h' k.
Proof.
  intros H R path i E N X. apply (R path i E N). destruct (lookup ((fst k, path) : key) h) as [e|] eqn:L; [|easy].
  destruct (H _ _ L) as (e1 & L1 & _). rewrite L1 in X. discriminate.
Qed.

Lemma closed_cell h k e : cells_closed h -> cell_reached h k -> lookup k h = None -> cells_closed (update k e h).
Proof.
  intros Cl R N k' e' L. rewrite lookup_update in L. apply (reached_grows h); [now apply grows_insert|].
  destruct (eqb k' k) eqn:Q; [|eapply Cl; eauto]. apply eqb_eq in Q. now subst.
Qed.

Lemma part_grows m m' v : grows m m' -> part f m v -> part f m' v.
Proof. intros G [A B]. constructor; [|easy]. eapply grows_trans; eauto. Qed.

Lemma knows_part m v v' : part f m v -> knows_cell m v v' -> part f m v' /\ grows v v'.
Proof.
  intros [A B] L. destruct L as [k e K R N].
  assert (G : grows v (update k (Entry (e_id e) pval_new (e_slots e)) v)) by (now apply grows_insert).
  split; [|easy]. constructor; [|now apply closed_cell].
  intros k0 e0 L0. rewrite lookup_update in L0. destruct (eqb k0 k) eqn:Q; [|now apply A].
  apply eqb_eq in Q. subst k0. injection L0 as <-. exists e. simpl. auto.
Qed.

Lemma add_cell_ok a m k h : grows a m -> grows h m -> grows h (add_cell a k h) /\ grows (add_cell a k h) m /\
  (forall e, lookup k a = Some e -> exists e', lookup k (add_cell a k h) = Some e' /\ e_id e' = e_id e /\
     e_slots e' = e_slots e) /\
  (forall q, lookup q (add_cell a k h) <> None -> lookup q a <> None \/ lookup q h <> None).
Proof.
  intros A H. unfold add_cell. destruct (lookup k h) as [e1|] eqn:K1.
  { split; [apply grows_refl|]. split; [easy|]. split; [|auto]. intros e K. exists e1. split; [easy|].
    destruct (A _ _ K) as (em & Lm & E1 & E2). destruct (H _ _ K1) as (em' & Lm' & E3 & E4).
    rewrite Lm in Lm'. injection Lm' as <-. split; congruence. }
  destruct (lookup k a) as [e|] eqn:K.
  2:{ split; [apply grows_refl|]. split; [easy|]. split; [easy|auto]. }
  split; [now apply grows_insert|]. split; [|split].
  - intros k0 e0 L0. rewrite lookup_update in L0. destruct (eqb k0 k) eqn:Q; [|now apply H].
    apply eqb_eq in Q. subst k0. injection L0 as <-. now apply A.
  - intros e0 E0. injection E0 as <-. rewrite lookup_update_same. now exists e.
  - intros q. rewrite lookup_update. destruct (eqb q k) eqn:Q; [|auto].
    apply eqb_eq in Q. subst q. rewrite K. intros _. now left.
Qed.

Lemma cells_join_ok a b m : grows a m -> grows b m -> grows a (cells_join a b) /\ grows b (cells_join a b) /\
  grows (cells_join a b) m /\ forall q, lookup q (cells_join a b) <> None -> lookup q a <> None \/ lookup q b <> None.
Proof.
  intros A B.
  assert (X : forall ks, let h := fold_right (add_cell a) b ks in
    (forall k e, In k ks -> lookup k a = Some e -> exists e', lookup k h = Some e' /\ e_id e' = e_id e /\
       e_slots e' = e_slots e) /\
    grows b h /\ grows h m /\ forall q, lookup q h <> None -> lookup q a <> None \/ lookup q b <> None).
  { induction ks as [|k ks IH]; simpl.
    - split; [easy|]. split; [apply grows_refl|]. split; [easy|auto].
    - destruct IH as (I1 & I2 & I3 & I4).
      destruct (add_cell_ok a m k (fold_right (add_cell a) b ks) A I3) as (J1 & J2 & J3 & J4).
      split; [|split; [eapply grows_trans; eauto|split; [easy|]]].
      + intros k0 e [->|I] L; [now apply J3|]. destruct (I1 _ _ I L) as (e1 & L1 & E1 & S1).
        destruct (J1 _ _ L1) as (e2 & L2 & E2 & S2). exists e2. split; [easy|]. split; congruence.
      + intros q Q. destruct (J4 q Q) as [Z|Z]; [now left|]. now apply I4. }
  destruct (X (List.map fst a)) as (X1 & X2 & X3 & X4). split; [|auto].
  intros k e L. apply X1; [|easy]. clear - L. induction a as [|[k' v'] a IH]; [discriminate|].
  change (lookup k ((k', v') :: a)) with (if eqb k k' then Some v' else lookup k a) in L.
  destruct (eqb k k') eqn:Q; [left; apply eqb_eq in Q; now symmetry|]. right. now apply IH.
Qed.

Lemma join_part m a b : part f m a -> part f m b ->
  part f m (cells_join a b) /\ grows a (cells_join a b) /\ grows b (cells_join a b).
Proof.
  intros [A1 A2] [B1 B2]. destruct (cells_join_ok _ _ _ A1 B1) as (J1 & J2 & J3 & J4). split; [|auto].
  constructor; [easy|]. intros k e L. destruct (J4 k) as [Z|Z]; [now rewrite L| |].
  - destruct (lookup k a) as [e1|] eqn:L1; [|easy]. eapply reached_grows; [exact J1|]. eapply A2; eauto.
  - destruct (lookup k b) as [e1|] eqn:L1; [|easy]. eapply reached_grows; [exact J2|]. eapply B2; eauto.
Qed.

Lemma part_empty m : part f m [].
Proof. constructor; intros k e L; discriminate. Qed.

(* ---------- the steps of a walk ---------- *)

Lemma lookup_part m v k e : part f m v -> lookup k v = Some e ->
  exists e', lookup k m = Some e' /\ e_id e' = e_id e /\ e_slots e' = e_slots e.
Proof. intros [A _] L. now apply A. Qed.

(* the thread and the memory agree on the cell of get_or_init *)
Lemma walked_ok m v id q : pinv f m -> wf_pid f id -> part f m v -> pI f v id q -> cells_agree f id m v q ->
  let m' := walked f id m q in let v' := walked f id v q in
  pinv f m' /\ grows m m' /\ pquiet f id m m' /\ part f m' v' /\ grows v v' /\
  exists o, pstep f id v q = Ok (v', o) /\ poI f v' id o /\
    (pfxs f v id <> None -> is_get q = true -> hits o = true) /\
    match o with PMore q' => pmu q' < pmu q | _ => True end.
Proof.
  intros I Wp P Q A. pose proof (part_pinv m v P I) as IV.
  assert (QM : pI f m id q) by (eapply pI_grows; [exact (pa_le _ _ _ P)|exact Q]).
  destruct (pstep_ok f v id q IV Wp Q) as (v' & o & E & IV' & GV & _ & PO & HI & GE & MU).
  destruct (pstep_ok f m id q I Wp QM) as (m' & om & EM & IM' & GM & PQ & _ & _ & GEM & _).
  unfold walked. rewrite E, EM. cbn zeta. split; [easy|]. split; [easy|]. split; [easy|].
  split; [|split; [easy|exists o; auto]].
  destruct q as [w|w].
  - rewrite (GE eq_refl), (GEM eq_refl). easy.
  - assert (D : pdom f id) by (now apply pdom_wf). simpl in Q. destruct Q as (k & K & -> & O).
    cbn [cells_agree w_level] in A. specialize (A _ (hash_pat f id k D K)). rewrite walk_key in A.
    clear PO HI GE GEM MU PQ QM. revert E EM. cbn [pstep w_level w_b w_path w_slots].
    rewrite hash_pat by auto. cbn [bind].
    rewrite (lvl_succ f id) by (auto; try apply D; lia). cbn [bind].
    rewrite (size_next f) by (auto; try apply D; lia). cbn [bind].
    rewrite !(slot_init_level f PSTRIDE) by (auto; unfold nlev in K; lia).
    destruct (lookup (kof f PSTRIDE id k) v) as [e|] eqn:L.
    + destruct (lookup_part m v _ e P L) as (e' & L' & _). rewrite L'. cbn [bind].
      destruct (pcheck id _ _ e false) as [o1| |]; try discriminate. cbn [bind]. intros E. injection E as <- <-.
      destruct (pcheck id _ _ e' false) as [o2| |]; try discriminate. cbn [bind]. intros E. now injection E as <- <-.
    + rewrite (proj1 A eq_refl). cbn [bind].
      destruct (pcheck id _ _ _ false) as [o1| |]; try discriminate. cbn [bind]. intros E. injection E as <- <-.
      intros E. injection E as <- <-. destruct P as [P1 P2]. pose proof (proj1 A eq_refl) as LM. constructor.
      * intros k0 e0 L0. rewrite lookup_update in L0. rewrite lookup_update.
        destruct (eqb k0 (kof f PSTRIDE id k)) eqn:Z; [exists e0; auto|now apply P1].
      * apply closed_cell; auto. apply kof_reached. intros j J. destruct (O j J) as (e & -> & _). easy.
Qed.

(* get_records_for_prefix *)
Lemma alook_ok v id w : pinv f v -> wf_pid f id -> walk_ok PSTRIDE f v id w ->
  (pfxs f v id = None /\ alook f id v w = Ok (ADone 0 (RRead None))) \/
  (exists k, alook f id v w = Ok (ACrit k true) /\ at_id v k id) \/
  (exists w', alook f id v w = Ok (ALook w') /\ walk_ok PSTRIDE f v id w' /\ w_level w' = w_level w + 1 /\ w_level w' < 32).
Proof.
  intros I Wp R. assert (D : pdom f id) by (now apply pdom_wf). pose proof (pwalk_level f v id w D R) as LV.
  destruct R as (k & K & -> & O). unfold alook. cbn [w_level w_b w_path w_slots] in *.
  rewrite hash_pat by auto. cbn [bind]. rewrite (slot_get_level f PSTRIDE) by (auto; unfold nlev in K; lia).
  destruct (lookup (kof f PSTRIDE id k) v) as [e|] eqn:L.
  - right. destruct (pid_eqb id (e_id e)) eqn:Q.
    + left. rewrite walk_key. eexists. split; [reflexivity|]. exists e. split; [easy|]. apply pid_eqb_spec in Q. easy.
    + right. assert (NE : e_id e <> id).
      { intros X. rewrite X, pid_eqb_refl in Q. discriminate. }
      destruct (walk_next PSTRIDE PSTRIDE_nz f v id k e I D K O L NE) as (A & B & C & K2 & E).
      rewrite A. cbn [bind]. eexists. split; [reflexivity|]. split; [exact E|].
      pose proof (pwalk_level f v id _ D E) as LV'. cbn [w_level] in *. split; [lia|easy].
  - left. split; [|easy]. now apply (pwalk_none f v id k).
Qed.

(* a thread may always learn of the cell that get_or_init fills *)
Lemma cell_learn m v id q : pinv f m -> wf_pid f id -> part f m v -> pI f v id q -> ~ cells_agree f id m v q ->
  exists v', knows_cell m v v' /\ cells_agree f id m v' q.
Proof.
  intros I Wp P Q NA. assert (D : pdom f id) by (now apply pdom_wf). destruct q as [w|w]; [elim NA; exact Logic.I|].
  simpl in Q. destruct Q as (k & K & -> & O).
  destruct (lookup (kof f PSTRIDE id k) v) as [e|] eqn:L.
  - elim NA. intros index. cbn [w_level]. rewrite (hash_pat f id k D K). intros X. injection X as <-. rewrite walk_key, L.
    destruct (lookup_part m v _ e P L) as (e' & -> & _). easy.
  - destruct (lookup (kof f PSTRIDE id k) m) as [e|] eqn:LM.
    + eexists. split; [apply (kc_cell m v (kof f PSTRIDE id k) e); auto|].
      * apply kof_reached. intros j J. destruct (O j J) as (e0 & -> & _). easy.
      * intros index. cbn [w_level]. rewrite (hash_pat f id k D K). intros X. injection X as <-.
        rewrite walk_key, LM, lookup_update_same. easy.
    + elim NA. intros index. cbn [w_level]. rewrite (hash_pat f id k D K). intros X. injection X as <-.
      rewrite walk_key, L, LM. easy.
Qed.

Lemma cells_agree_dec m v id q : cells_agree f id m v q \/ ~ cells_agree f id m v q.
Proof.
  destruct q as [w|w]; [now left|]. simpl. destruct (hash_id f id (w_level w)) as [index| |]; [|left; discriminate..].
  destruct (lookup (wkey w index) v) eqn:A, (lookup (wkey w index) m) eqn:B.
  - left. intros i E. injection E as <-. now rewrite A, B.
  - right. intros X. specialize (X _ eq_refl). rewrite A, B in X. destruct X as [_ X]. now specialize (X eq_refl).
  - right. intros X. specialize (X _ eq_refl). rewrite A, B in X. destruct X as [X _]. now specialize (X eq_refl).
  - left. intros i E. injection E as <-. now rewrite A, B.
Qed.
End V.
