(* What a thread knows of the tree is a part of it that is closed under the chains
   of slot arrays. *)
From Coq Require Import Arith NArith List Bool Lia.
From Verif Require Import Word Af BitSpan Maps ChtMath Cht Node Tree ChainProofs TreeProofs
  ConcMarks ConcTree ConcTreeProofs ConcTreeInv WeakTree.
Import ListNotations.
Local Open Scope N_scope.

Definition closed (h : heap nodeval) : Prop := forall k e, lookup k h = Some e -> in_reach h k.

Record known (f : af) (m v : tree) : Prop := {
  kn_le : hle (t_heap v) (t_heap m);
  kn_closed : closed (t_heap v);
  kn_default : t_default v = true -> t_default m = true
}.

Section V.
Variable f : af.

Lemma hpath_app id j n : exists r, hpath f id (j + n) = hpath f id j ++ r.
Proof.
  exists (List.map (fun k => hidx f id (N.of_nat k)) (seq j n)).
  unfold hpath. now rewrite seq_app, map_app.
Qed.

Lemma in_reach_kof (h : heap nodeval) id k : in_reach h (kof f NSTRIDE id (S k)) ->
  lookup (kof f NSTRIDE id k) h <> None.
Proof.
  intros R. apply (R (hpath f id (S k)) (hidx f id (N.of_nat (S k)))).
  - unfold kof. simpl. apply hpath_S.
  - rewrite hpath_S. now destruct (hpath f id k).
Qed.

Lemma reach_kof (h : heap nodeval) id k :
  (forall j, (j < k)%nat -> lookup (kof f NSTRIDE id j) h <> None) -> in_reach h (kof f NSTRIDE id k).
Proof.
  intros O path i E N. unfold kof in E. simpl in E. rewrite hpath_S in E.
  apply app_inj_tail in E. destruct E as [<- <-].
  destruct k as [|k]; [now elim N|]. exact (O k (Nat.lt_succ_diag_r k)).
Qed.

Lemma closed_levels h id k : closed h -> lookup (kof f NSTRIDE id k) h <> None ->
  forall j, (j < k)%nat -> lookup (kof f NSTRIDE id j) h <> None.
Proof.
  intros Cl. induction k as [|k IH]; intros L j J; [lia|].
  assert (L' : lookup (kof f NSTRIDE id k) h <> None).
  { destruct (lookup (kof f NSTRIDE id (S k)) h) as [e|] eqn:E; [|easy]. apply in_reach_kof. eapply Cl; eauto. }
  destruct (Nat.eq_dec j k) as [->|]; [easy|]. apply IH; [easy|lia].
Qed.

(* such a part is a table itself *)
Lemma closed_ninv h m : closed h -> hle h m -> ninv f m -> ninv f h.
Proof.
  intros Cl H I k e L. destruct (H _ _ L) as (e' & L' & E1 & E2 & _).
  destruct (I _ _ L') as (D & n & K & N & S & O). rewrite E1, E2 in *. split; [easy|].
  exists n. split; [easy|]. split; [easy|]. split; [easy|]. intros j J.
  assert (X : lookup (kof f NSTRIDE (e_id e) j) h <> None).
  { apply (closed_levels h (e_id e) n); auto. rewrite <- K. now rewrite L. }
  destruct (lookup (kof f NSTRIDE (e_id e) j) h) as [e1|] eqn:L1; [|easy]. exists e1. split; [easy|].
  destruct (H _ _ L1) as (e2 & L2 & E3 & _). destruct (O j J) as (e3 & L3 & E4).
  rewrite L2 in L3. injection L3 as <-. now rewrite <- E3.
Qed.

Lemma known_ninv m v : known f m v -> ninv f (t_heap m) -> ninv f (t_heap v).
Proof. intros [A B _]. now apply closed_ninv. Qed.

Lemma in_reach_hle h h' k : hle h h' -> in_reach h k -> in_reach h' k.
Proof.
  intros H R path i E N X. apply (R path i E N). destruct (lookup ((fst k, path) : key) h) as [e|] eqn:L; [|easy].
  destruct (H _ _ L) as (e1 & L1 & _). rewrite L1 in X. discriminate.
Qed.

Lemma closed_update h k e : closed h -> in_reach h k -> hle h (update k e h) -> closed (update k e h).
Proof.
  intros Cl R H k' e' L. rewrite lookup_update in L. apply (in_reach_hle h); [easy|].
  destruct (eqb k' k) eqn:Q; [|eapply Cl; eauto]. apply eqb_eq in Q. now subst.
Qed.

Lemma closed_modify h k g : closed h -> closed (modify k g h).
Proof.
  intros Cl k' e' L path i E N X.
  assert (S : forall q, lookup q (modify k g h) = None <-> lookup q h = None).
  { intros q. unfold modify. destruct (lookup k h) as [e|] eqn:K; [|easy]. rewrite lookup_update.
    destruct (eqb q k) eqn:Q; [|easy]. apply eqb_eq in Q. subst. rewrite K. easy. }
  apply S in X. destruct (lookup k' h) as [e|] eqn:K.
  - exact (Cl _ _ K path i E N X).
  - apply S in K. congruence.
Qed.

(* learning *)
Lemma learns_known m v v' : known f m v -> learns m v v' -> known f m v' /\ tR v v'.
Proof.
  intros [A B D] L. destruct L as [k e x K R O X|E].
  - assert (H : hle (t_heap v) (update k (Entry (e_id e) x (e_slots e)) (t_heap v))).
    { intros k0 e0 L0. rewrite lookup_update. destruct (eqb k0 k) eqn:Q.
      - apply eqb_eq in Q. subst k0. destruct (A _ _ L0) as (e1 & L1 & E1 & E2 & _). rewrite K in L1. injection L1 as <-.
        eexists. split; [reflexivity|]. simpl. split; [easy|]. split; [easy|]. now apply O.
      - exists e0. repeat split; auto using bits_in_refl. }
    split.
    + constructor; simpl; auto.
      * intros k0 e0 L0. rewrite lookup_update in L0. destruct (eqb k0 k) eqn:Q.
        -- apply eqb_eq in Q. subst k0. injection L0 as <-. exists e. simpl. auto.
        -- now apply A.
      * now apply closed_update.
    + split; [easy|]. simpl. split; [auto|]. split; [lia|easy].
  - split.
    + constructor; simpl; auto.
    + split; [apply hle_refl|]. simpl. split; [auto|]. split; [lia|easy].
Qed.

(* what two threads know *)
Lemma nle_join_l a b : nle a (njoin a b).
Proof.
  split; [apply bits_in_lor_l|]. split; [apply bits_in_lor_l|]. simpl. intros m H.
  induction (nv_rbm a) as [|x l IH]; [easy|]. cbn [fold_right]. rewrite mem_insert.
  simpl in H. apply orb_true_iff in H. destruct H as [->|H]; [easy|]. rewrite IH by easy. apply orb_true_r.
Qed.
Lemma nle_join_r a b : nle b (njoin a b).
Proof.
  split; [apply bits_in_lor_r|]. split; [apply bits_in_lor_r|]. simpl. intros m H.
  induction (nv_rbm a) as [|x l IH]; [easy|]. cbn [fold_right]. rewrite mem_insert, IH. apply orb_true_r.
Qed.
Lemma nle_join_lub a b c : nle a c -> nle b c -> nle (njoin a b) c.
Proof.
  intros (A1 & A2 & A3) (B1 & B2 & B3). split; [|split].
  - intros i. simpl. rewrite N.lor_spec, orb_true_iff. intros [T|T]; auto.
  - intros i. simpl. rewrite N.lor_spec, orb_true_iff. intros [T|T]; auto.
  - simpl. intros m. revert A3. induction (nv_rbm a) as [|x l IH]; simpl; [auto|]. intros A3.
    rewrite mem_insert, orb_true_iff. intros [Q|Q].
    + apply A3. now rewrite Q.
    + apply IH; [|easy]. intros m' H'. apply A3. rewrite H'. apply orb_true_r.
Qed.

Lemma add_known_ok a m k h : hle a m -> hle h m -> hle h (add_known a k h) /\ hle (add_known a k h) m /\
  (forall e, lookup k a = Some e -> exists e', lookup k (add_known a k h) = Some e' /\ e_id e' = e_id e /\
     e_slots e' = e_slots e /\ nle (e_val e) (e_val e')) /\
  (forall q, lookup q (add_known a k h) <> None -> lookup q a <> None \/ lookup q h <> None).
Proof.
  intros A H. unfold add_known. destruct (lookup k a) as [e|] eqn:K.
  2:{ split; [apply hle_refl|]. split; [easy|]. split; [easy|auto]. }
  destruct (A _ _ K) as (em & Lm & E1 & E2 & N). split; [|split; [|split]].
  - intros k0 e0 L0. rewrite lookup_update. destruct (eqb k0 k) eqn:Q.
    + apply eqb_eq in Q. subst k0. rewrite L0. destruct (H _ _ L0) as (em' & Lm' & E3 & E4 & _).
      rewrite Lm in Lm'. injection Lm' as <-. eexists. split; [reflexivity|]. simpl. split; [congruence|].
      split; [congruence|]. apply nle_join_r.
    + exists e0. repeat split; auto using bits_in_refl.
  - intros k0 e0 L0. rewrite lookup_update in L0. destruct (eqb k0 k) eqn:Q; [|now apply H].
    apply eqb_eq in Q. subst k0. injection L0 as <-. exists em. split; [easy|].
    destruct (lookup k h) as [e'|] eqn:L1; simpl; [|easy]. split; [easy|]. split; [easy|].
    destruct (H _ _ L1) as (em' & Lm' & _ & _ & N'). rewrite Lm in Lm'. injection Lm' as <-.
    now apply nle_join_lub.
  - intros e0 E0. injection E0 as <-. rewrite lookup_update_same. eexists. split; [reflexivity|].
    destruct (lookup k h) as [e'|]; simpl; repeat split; auto using bits_in_refl; apply nle_join_l.
  - intros q. rewrite lookup_update. destruct (eqb q k) eqn:Q; [|auto].
    apply eqb_eq in Q. subst q. rewrite K. intros _. now left.
Qed.

Lemma hjoin_ok a b m : hle a m -> hle b m -> hle a (hjoin a b) /\ hle b (hjoin a b) /\ hle (hjoin a b) m /\
  forall q, lookup q (hjoin a b) <> None -> lookup q a <> None \/ lookup q b <> None.
Proof.
  intros A B.
  assert (X : forall ks, let h := fold_right (add_known a) b ks in
    (forall k e, In k ks -> lookup k a = Some e -> exists e', lookup k h = Some e' /\ e_id e' = e_id e /\
       e_slots e' = e_slots e /\ nle (e_val e) (e_val e')) /\
    hle b h /\ hle h m /\ forall q, lookup q h <> None -> lookup q a <> None \/ lookup q b <> None).
  { induction ks as [|k ks IH]; simpl.
    - split; [easy|]. split; [apply hle_refl|]. split; [easy|auto].
    - destruct IH as (I1 & I2 & I3 & I4).
      destruct (add_known_ok a m k (fold_right (add_known a) b ks) A I3) as (J1 & J2 & J3 & J4).
      split; [|split; [eapply hle_trans; eauto|split; [easy|]]].
      + intros k0 e [->|I] L; [now apply J3|]. destruct (I1 _ _ I L) as (e1 & L1 & E1 & S1 & N1).
        destruct (J1 _ _ L1) as (e2 & L2 & E2 & S2 & N2). exists e2. split; [easy|]. split; [congruence|].
        split; [congruence|]. eapply nle_trans; eauto.
      + intros q Q. destruct (J4 q Q) as [Z|Z]; [now left|]. now apply I4. }
  destruct (X (List.map fst a)) as (X1 & X2 & X3 & X4). split; [|auto].
  intros k e L. apply X1; [|easy]. clear - L. induction a as [|[k' v'] a IH]; [discriminate|].
  change (lookup k ((k', v') :: a)) with (if eqb k k' then Some v' else lookup k a) in L.
  destruct (eqb k k') eqn:Q; [left; apply eqb_eq in Q; now symmetry|]. right. now apply IH.
Qed.

Lemma tjoin_known m a b : known f m a -> known f m b ->
  known f m (tjoin a b) /\ hle (t_heap a) (t_heap (tjoin a b)) /\ (t_default a = true -> t_default (tjoin a b) = true) /\
  tR b (tjoin a b).
Proof.
  intros [A1 A2 A3] [B1 B2 B3]. destruct (hjoin_ok _ _ _ A1 B1) as (J1 & J2 & J3 & J4). split; [|split; [|split]].
  - constructor; simpl; [easy| |].
    + intros k e L. destruct (J4 k) as [Z|Z]; [now rewrite L| |].
      * destruct (lookup k (t_heap a)) as [e1|] eqn:L1; [|easy]. eapply in_reach_hle; [exact J1|]. eapply A2; eauto.
      * destruct (lookup k (t_heap b)) as [e1|] eqn:L1; [|easy]. eapply in_reach_hle; [exact J2|]. eapply B2; eauto.
    + intros E. apply orb_true_iff in E. destruct E; auto.
  - easy.
  - simpl. intros ->. easy.
  - split; [easy|]. simpl. split; [intros ->; apply orb_true_r|]. split; [lia|easy].
Qed.

Lemma known_refl t : ninv f (t_heap t) -> known f t t.
Proof.
  intros I. constructor; auto; [apply hle_refl|]. intros k e L. destruct (I _ _ L) as (_ & n & -> & _ & _ & O).
  apply reach_kof. intros j J. destruct (O j J) as (e' & -> & _). easy.
Qed.
End V.
