(* What one step of set_prefix_exists keeps and changes when other threads run. *)
From Coq Require Import Arith NArith List Bool Lia.
From Verif Require Import Word Af BitSpan Maps ChtMath Cht Node Tree ChainProofs TreeProofs
  ConcMarks ConcTree.
Import ListNotations.
Local Open Scope N_scope.

(* ---------- tables that only grow ---------- *)

Section Grow.
Context {V : Type}.
Variable stride : N.
Hypothesis stride_nz : stride <> 0.
Variable f : af.

(* entries stay where they are and keep their id and their next slot array *)
Definition grows (h h' : heap V) : Prop :=
  forall k e, lookup k h = Some e ->
    exists e', lookup k h' = Some e' /\ e_id e' = e_id e /\ e_slots e' = e_slots e.

Lemma grows_refl h : grows h h.
Proof. intros k e L. eauto. Qed.
Lemma grows_trans a b c : grows a b -> grows b c -> grows a c.
Proof.
  intros A B k e L. destruct (A _ _ L) as (e1 & L1 & I1 & S1).
  destruct (B _ _ L1) as (e2 & L2 & I2 & S2). exists e2. repeat split; congruence.
Qed.

Lemma grows_modify k g h : grows h (modify k g h).
Proof.
  intros k0 e L. unfold modify. destruct (lookup k h) as [e0|] eqn:K; [|eauto].
  rewrite lookup_update. destruct (eqb k0 k) eqn:Q; [|eauto].
  apply eqb_eq in Q. subst k0. rewrite K in L. injection L as <-.
  exists (set_val e0 (g (e_val e0))). easy.
Qed.

Lemma grows_insert k e h : lookup k h = None -> grows h (update k e h).
Proof.
  intros N k0 e0 L. rewrite lookup_update. destruct (eqb k0 k) eqn:Q; [|eauto].
  apply eqb_eq in Q. congruence.
Qed.

(* the entry at this address belongs to this id *)
Definition at_id (h : heap V) (k : key) (id : pid) : Prop :=
  exists e, lookup k h = Some e /\ e_id e = id.

Lemma at_id_grows h h' k id : grows h h' -> at_id h k id -> at_id h' k id.
Proof.
  intros G (e & L & E). destruct (G _ _ L) as (e' & L' & E' & _). exists e'. split; congruence.
Qed.

(* a walk in progress: the levels above are taken by others *)
Definition walk_ok (h : heap V) (id : pid) (w : walk) : Prop :=
  exists k, (k < nlev id)%nat /\
    w = Walk (p_len id / stride) (hpath f id k) (slots_at (p_len id) k) (N.of_nat k) /\
    forall j, (j < k)%nat -> exists e, lookup (kof f stride id j) h = Some e /\ e_id e <> id.

Lemma walk_ok_grows h h' id w : grows h h' -> walk_ok h id w -> walk_ok h' id w.
Proof.
  intros G (k & K & E & O). exists k. split; [easy|]. split; [easy|].
  intros j J. destruct (O j J) as (e & L & N). destruct (G _ _ L) as (e' & L' & E' & _).
  exists e'. split; congruence.
Qed.

Lemma walk_start_ok h id : dom f stride id ->
  exists w, walk_start f stride id = Ok w /\ walk_ok h id w /\ w_level w = 0.
Proof.
  intros D. unfold walk_start. rewrite (root_for_len_ok f stride stride_nz) by easy. cbn [bind].
  eexists. split; [reflexivity|]. split; [|easy]. exists 0%nat. split; [apply nlev_pos|]. split; [easy|].
  intros j J. lia.
Qed.

Lemma walk_key k id : wkey (Walk (p_len id / stride) (hpath f id k)
    (slots_at (p_len id) k) (N.of_nat k)) (hidx f id (N.of_nat k)) = kof f stride id k.
Proof. unfold wkey. simpl. symmetry. apply kof_slot. Qed.

Lemma walk_vac (h : heap V) id k : (k < nlev id)%nat ->
  (forall j, (j < k)%nat -> exists e, lookup (kof f stride id j) h = Some e /\ e_id e <> id) ->
  lookup (kof f stride id k) h = None -> locate f stride (nlev id) h id 0 = LVac k.
Proof.
  intros K O L. rewrite (locate_reach f stride stride_nz h id (nlev id) 0 k).
  - destruct (nlev id - (k - 0))%nat eqn:Z; [lia|]. simpl. now rewrite L.
  - lia.
  - intros i Hi. apply O. lia.
Qed.

(* stepping over an entry of another id *)
Lemma walk_next (h : heap V) id k e : cht_inv f stride h -> dom f stride id -> (k < nlev id)%nat ->
  (forall j, (j < k)%nat -> exists e, lookup (kof f stride id j) h = Some e /\ e_id e <> id) ->
  lookup (kof f stride id k) h = Some e -> e_id e <> id ->
  add8 (N.of_nat k) 1 = Ok (N.of_nat (S k)) /\
  nodeset_size (p_len id) (N.of_nat (S k)) = Ok (lvl_size (p_len id) (N.of_nat (S k))) /\
  (0 <? lvl_size (p_len id) (N.of_nat (S k))) = true /\ (S k < nlev id)%nat /\
  walk_ok h id (Walk (p_len id / stride) (hpath f id k ++ [hidx f id (N.of_nat k)])
                 (e_slots e) (N.of_nat (S k))).
Proof.
  intros I D K O L N. pose proof (proj1 D) as W.
  assert (K' : (S k < nlev id)%nat).
  { destruct (Nat.lt_ge_cases (S k) (nlev id)); [easy|]. exfalso. apply N.
    apply (last_level_own f stride stride_nz h id k e); auto. lia. }
  split; [apply (lvl_succ f id); auto; lia|].
  split; [apply (size_next f); auto; lia|].
  split; [rewrite size_next_pos by lia; now apply Nat.ltb_lt|].
  split; [easy|]. exists (S k). split; [easy|]. split.
  - rewrite hpath_S. f_equal. now apply (slots_next f stride stride_nz h).
  - intros j J. destruct (Nat.eq_dec j k) as [->|]; [eauto|]. apply O. lia.
Qed.

End Grow.

Lemma at_id_lookup {V} (h : heap V) k id : at_id h k id ->
  exists v, deref k h = Ok v /\ exists s, lookup k h = Some (Entry id v s).
Proof.
  intros ([i v s] & L & E). simpl in E. subst i. exists v. unfold deref. rewrite L. simpl. eauto.
Qed.

(* ---------- nodes whose bitmaps only gain bits ---------- *)

Definition nle (a b : nodeval) : Prop :=
  bits_in (nv_ptr a) (nv_ptr b) /\ bits_in (nv_pfx a) (nv_pfx b) /\
  forall m, mem m (nv_rbm a) = true -> mem m (nv_rbm b) = true.

Definition hle (h h' : heap nodeval) : Prop :=
  forall k e, lookup k h = Some e ->
    exists e', lookup k h' = Some e' /\ e_id e' = e_id e /\ e_slots e' = e_slots e /\
               nle (e_val e) (e_val e').

Lemma nle_refl v : nle v v.
Proof. split; [apply bits_in_refl|]. split; [apply bits_in_refl|auto]. Qed.
Lemma nle_trans a b c : nle a b -> nle b c -> nle a c.
Proof.
  intros (A & B & C) (A' & B' & C'). split; [|split]; eauto using bits_in_trans.
Qed.
Lemma hle_refl h : hle h h.
Proof. intros k e L. exists e. repeat split; auto using bits_in_refl. Qed.
Lemma hle_trans a b c : hle a b -> hle b c -> hle a c.
Proof.
  intros A B k e L. destruct (A _ _ L) as (e1 & L1 & I1 & S1 & N1).
  destruct (B _ _ L1) as (e2 & L2 & I2 & S2 & N2). exists e2.
  split; [easy|]. split; [congruence|]. split; [congruence|]. eapply nle_trans; eauto.
Qed.
Lemma hle_grows h h' : hle h h' -> grows h h'.
Proof. intros A k e L. destruct (A _ _ L) as (e' & L' & I' & S' & _). eauto. Qed.

Lemma hle_modify k g h : (forall v, nle v (g v)) -> hle h (modify k g h).
Proof.
  intros G k0 e L. unfold modify. destruct (lookup k h) as [e0|] eqn:K.
  - rewrite lookup_update. destruct (eqb k0 k) eqn:Q.
    + apply eqb_eq in Q. subst k0. rewrite K in L. injection L as <-.
      exists (set_val e0 (g (e_val e0))). repeat split; auto; try apply G.
    + exists e. repeat split; auto using bits_in_refl.
  - exists e. repeat split; auto using bits_in_refl.
Qed.
Lemma hle_modify_at k g h e : lookup k h = Some e -> nle (e_val e) (g (e_val e)) ->
  hle h (modify k g h).
Proof.
  intros K G k0 e0 L. unfold modify. rewrite K, lookup_update. destruct (eqb k0 k) eqn:Q.
  - apply eqb_eq in Q. subst k0. rewrite K in L. injection L as <-.
    exists (set_val e (g (e_val e))). repeat split; auto; try apply G.
  - exists e0. repeat split; auto using bits_in_refl.
Qed.
Lemma hle_insert k e h : lookup k h = None -> hle h (update k e h).
Proof.
  intros N k0 e0 L. rewrite lookup_update. destruct (eqb k0 k) eqn:Q.
  - apply eqb_eq in Q. congruence.
  - exists e0. repeat split; auto using bits_in_refl.
Qed.

Lemma mem_set_insert m n s : mem m s = true -> mem m (set_insert n s) = true.
Proof. intros H. rewrite mem_insert, H. apply orb_true_r. Qed.

Section N.
Variable f : af.
Notation W := (BITS f).

Lemma nodes_hle h h' id v : ninv f h -> ninv f h' -> hle h h' -> nodes f h id = Some v ->
  exists v', nodes f h' id = Some v' /\ nle v v'.
Proof.
  intros I I' H E. unfold nodes in *. destruct (find f NSTRIDE h id) as [e|] eqn:F; [|discriminate].
  simpl in E. injection E as <-. apply find_spec in F; auto. destruct F as (k & L & Ei).
  destruct (H _ _ L) as (e' & L' & Ei' & _ & N). exists (e_val e'). split; [|easy].
  assert (find f NSTRIDE h' id = Some e') as ->; [|easy].
  apply find_spec; auto. exists k. split; congruence.
Qed.

Lemma at_id_nodes h k id v s : ninv f h -> lookup k h = Some (Entry id v s) ->
  nodes f h id = Some v.
Proof.
  intros I L. unfold nodes.
  assert (find f NSTRIDE h id = Some (Entry id v s)) as ->; [|easy].
  apply find_spec; auto. now exists k.
Qed.

Lemma nodes_at_id h id v : ninv f h -> nodes f h id = Some v ->
  exists k s, lookup k h = Some (Entry id v s).
Proof.
  intros I E. unfold nodes in E. destruct (find f NSTRIDE h id) as [[i w s]|] eqn:F; [|discriminate].
  simpl in E. injection E as <-. apply find_spec in F; auto. destruct F as (k & L & Ei).
  simpl in Ei. subst i. eauto.
Qed.

(* changing a node in place *)
Lemma modify_nodes h k id g : ninv f h -> at_id h k id ->
  ninv f (modify k g h) /\ forall id', nodes f (modify k g h) id' =
    if pid_eqb id' id then option_map g (nodes f h id) else nodes f h id'.
Proof.
  intros I (e & L & E). subst id. unfold modify. rewrite L.
  destruct (nodes_write f h k e (g (e_val e)) I L) as [I' N']. split; [easy|].
  intros id'. rewrite N'. destruct (pid_eqb id' (e_id e)) eqn:Q; [|easy].
  destruct e as [i v s]. simpl in *. now rewrite (at_id_nodes h k i v s I L).
Qed.

(* ---------- the steps of the two loops over a chain ---------- *)

(* no bits are added; a node may appear, with no bits, only for id *)
Definition quiet (id : pid) (h h' : heap nodeval) : Prop :=
  forall id' v', nodes f h' id' = Some v' ->
    (exists v, nodes f h id' = Some v /\ nv_ptr v' = nv_ptr v /\ nv_pfx v' = nv_pfx v) \/
    (id' = id /\ nv_ptr v' = 0 /\ nv_pfx v' = 0).

Lemma quiet_refl id h : quiet id h h.
Proof. intros id' v' E. left. eauto. Qed.

Lemma quiet_rbm h k id mui : ninv f h -> at_id h k id ->
  quiet id h (modify k (fun v => update_rbm_index v mui) h).
Proof.
  intros I A id' v' E. destruct (modify_nodes h k id (fun v => update_rbm_index v mui) I A) as [_ N].
  rewrite N in E. destruct (pid_eqb id' id) eqn:Q; [|left; eauto].
  apply pid_eqb_spec in Q. subst id'. destruct (nodes f h id) as [v|]; [|discriminate].
  injection E as <-. left. exists v. easy.
Qed.

Lemma nle_rbm mui v : nle v (update_rbm_index v mui).
Proof.
  split; [apply bits_in_refl|]. split; [apply bits_in_refl|]. simpl.
  intros m. apply mem_set_insert.
Qed.

Lemma insert_quiet h id k : ninv f h -> ndom f id ->
  locate f NSTRIDE (nlev id) h id 0 = LVac k ->
  ninv f (update (kof f NSTRIDE id k) (Entry id node_new (slots_at (p_len id) (S k))) h) /\
  hle h (update (kof f NSTRIDE id k) (Entry id node_new (slots_at (p_len id) (S k))) h) /\
  quiet id h (update (kof f NSTRIDE id k) (Entry id node_new (slots_at (p_len id) (S k))) h).
Proof.
  intros I D L. split; [now apply (inv_insert f NSTRIDE NSTRIDE_nz)|]. split.
  - apply hle_insert. apply (locate_vac f NSTRIDE) in L; auto. apply L.
  - intros id' v' E. unfold nodes in E. rewrite (find_insert f NSTRIDE NSTRIDE_nz) in E by auto.
    destruct (pid_eqb id' id) eqn:Q.
    + apply pid_eqb_spec in Q. subst id'. simpl in E. injection E as <-. right. easy.
    + left. exists v'. easy.
Qed.

Local Ltac unch := split; [easy|]; split; [apply hle_refl|]; split; [apply quiet_refl|].

Definition rI (h : heap nodeval) (id : pid) (r : rpc) : Prop :=
  match r with
  | RGet w | RInit w => walk_ok NSTRIDE f h id w
  | RRbm k => at_id h k id
  end.

Definition roI (h : heap nodeval) (id : pid) (o : rout) : Prop :=
  match o with
  | RMore r => rI h id r
  | RFound k => at_id h k id
  | RNone => False
  end.

Lemma rI_grows h h' id r : grows h h' -> rI h id r -> rI h' id r.
Proof. intros G. destruct r; simpl; eauto using walk_ok_grows, at_id_grows. Qed.

Lemma hash_at id k : ndom f id -> (k < nlev id)%nat ->
  hash_id f id (N.of_nat k) = Ok (hidx f id (N.of_nat k)).
Proof. intros D K. apply hash_id_ok; [apply D|]. unfold nlev in K. lia. Qed.

Lemma rcheck_ok h id k e : ninv f h -> ndom f id -> (k < nlev id)%nat ->
  (forall j, (j < k)%nat -> exists e, lookup (kof f NSTRIDE id j) h = Some e /\ e_id e <> id) ->
  lookup (kof f NSTRIDE id k) h = Some e ->
  exists o, rcheck id (Walk (p_len id / NSTRIDE) (hpath f id k) (slots_at (p_len id) k) (N.of_nat k))
      (hidx f id (N.of_nat k)) e = Ok o /\ roI h id o.
Proof.
  intros I D K O L. unfold rcheck. rewrite walk_key. cbn [w_level w_b w_path].
  destruct (pid_eqb id (e_id e)) eqn:Q.
  - apply pid_eqb_spec in Q. eexists. split; [reflexivity|]. exists e. auto.
  - assert (NE : e_id e <> id).
    { intros X. rewrite X, pid_eqb_refl in Q. discriminate. }
    destruct (walk_next NSTRIDE NSTRIDE_nz f h id k e I D K O L NE) as (A & B & C & _ & E).
    rewrite A. cbn [bind]. rewrite B. cbn [bind]. rewrite C.
    eexists. split; [reflexivity|]. exact E.
Qed.

Lemma rstep_ok h id mui r : ninv f h -> ndom f id -> rI h id r ->
  exists h' o, rstep f id mui h r = Ok (h', o) /\ ninv f h' /\ hle h h' /\ quiet id h h' /\
    roI h' id o.
Proof.
  intros I D R. destruct r as [w|w|k]; simpl in R.
  - destruct R as (k & K & -> & O). unfold rstep. cbn [w_level w_b w_path w_slots].
    rewrite hash_at by auto. cbn [bind].
    rewrite (slot_get_level f NSTRIDE) by (auto; unfold nlev in K; lia).
    destruct (lookup (kof f NSTRIDE id k) h) as [e|] eqn:L.
    + destruct (rcheck_ok h id k e I D K O L) as (o & E & P). rewrite E. cbn [bind].
      exists h, o. split; [reflexivity|]. unch.
      exact P.
    + exists h, (RMore (RInit (Walk (p_len id / NSTRIDE) (hpath f id k) (slots_at (p_len id) k)
        (N.of_nat k)))). split; [reflexivity|]. unch.
      exists k. auto.
  - destruct R as (k & K & -> & O). unfold rstep. cbn [w_level w_b w_path w_slots].
    rewrite hash_at by auto. cbn [bind].
    rewrite (lvl_succ f id) by (auto; try apply D; lia). cbn [bind].
    rewrite (size_next f) by (auto; try apply D; lia). cbn [bind].
    rewrite (slot_init_level f NSTRIDE) by (auto; unfold nlev in K; lia).
    rewrite slots_at_S.
    destruct (lookup (kof f NSTRIDE id k) h) as [e|] eqn:L; cbn [bind].
    + destruct (rcheck_ok h id k e I D K O L) as (o & E & P). rewrite E. cbn [bind].
      exists h, o. split; [reflexivity|]. unch.
      exact P.
    + pose proof (walk_vac NSTRIDE NSTRIDE_nz f h id k K O L) as V.
      destruct (insert_quiet h id k I D V) as (I' & H' & Q').
      unfold rcheck. cbn [e_id]. rewrite pid_eqb_refl. cbn [bind]. rewrite walk_key.
      eexists _, _. split; [reflexivity|]. split; [easy|]. split; [easy|]. split; [easy|].
      simpl. exists (Entry id node_new (slots_at (p_len id) (S k))).
      split; [apply lookup_update_same|easy].
  - simpl. eexists _, _. split; [reflexivity|].
    split; [now apply (modify_nodes h k id)|].
    split; [apply hle_modify; intros; apply nle_rbm|].
    split; [now apply quiet_rbm|].
    simpl. eapply at_id_grows; [apply grows_modify|easy].
Qed.

(* the same for store_node with an empty node *)
Definition sI (h : heap nodeval) (id : pid) (s : spc) : Prop :=
  match s with
  | SGet w | SInit w => walk_ok NSTRIDE f h id w
  | SRbm k todo rc => at_id h k id /\ todo = [] /\ rc = 0
  | SMerge _ _ _ _ => False
  end.

Definition soI (h : heap nodeval) (id : pid) (o : sout) : Prop :=
  match o with
  | SMore s => sI h id s
  | SDone r => r = Some (id, 0)
  end.

Lemma sI_grows h h' id s : grows h h' -> sI h id s -> sI h' id s.
Proof.
  intros G. destruct s; simpl; eauto using walk_ok_grows.
  intros (A & B & C). split; eauto using at_id_grows.
Qed.

Lemma sstep_ok h id mui s : ninv f h -> ndom f id -> sI h id s ->
  exists h' o, sstep f id mui node_new h s = Ok (h', o) /\ ninv f h' /\ hle h h' /\
    quiet id h h' /\ soI h' id o.
Proof.
  intros I D R. destruct s as [w|w|k todo rc|]; simpl in R; [| | |easy].
  - destruct R as (k & K & -> & O). unfold sstep. cbn [w_level w_b w_path w_slots].
    rewrite hash_at by auto. cbn [bind].
    rewrite (slot_get_level f NSTRIDE) by (auto; unfold nlev in K; lia).
    destruct (lookup (kof f NSTRIDE id k) h) as [e|] eqn:L.
    + rewrite walk_key. destruct (pid_eqb id (e_id e)) eqn:Q.
      * apply pid_eqb_spec in Q.
        eexists _, _. split; [reflexivity|]. unch.
        simpl. split; [|easy]. exists e. auto.
      * assert (NE : e_id e <> id).
        { intros X. rewrite X, pid_eqb_refl in Q. discriminate. }
        destruct (walk_next NSTRIDE NSTRIDE_nz f h id k e I D K O L NE) as (A & B & C & _ & E).
        rewrite A. cbn [bind]. rewrite B. cbn [bind]. rewrite C.
        eexists _, _. split; [reflexivity|]. unch. exact E.
    + eexists _, _. split; [reflexivity|]. unch.
      exists k. auto.
  - destruct R as (k & K & -> & O). unfold sstep. cbn [w_level w_b w_path w_slots].
    rewrite hash_at by auto. cbn [bind].
    rewrite (lvl_succ f id) by (auto; try apply D; lia). cbn [bind].
    rewrite (size_next f) by (auto; try apply D; lia). cbn [bind].
    rewrite (slot_init_level f NSTRIDE) by (auto; unfold nlev in K; lia).
    rewrite slots_at_S.
    destruct (lookup (kof f NSTRIDE id k) h) as [e|] eqn:L; cbn [bind].
    + destruct (pid_eqb (e_id e) id) eqn:Q.
      * apply pid_eqb_spec in Q.
        eexists _, _. split; [reflexivity|]. unch.
        rewrite walk_key. simpl. split; [|easy]. exists e. auto.
      * eexists _, _. split; [reflexivity|]. unch. easy.
    + pose proof (walk_vac NSTRIDE NSTRIDE_nz f h id k K O L) as V.
      destruct (insert_quiet h id k I D V) as (I' & H' & Q').
      cbn [e_id]. rewrite pid_eqb_refl. rewrite walk_key.
      eexists _, _. split; [reflexivity|]. split; [easy|]. split; [easy|]. split; [easy|].
      simpl. split; [|easy]. exists (Entry id node_new (slots_at (p_len id) (S k))).
      split; [apply lookup_update_same|easy].
  - destruct R as (A & -> & ->). simpl. eexists _, _. split; [reflexivity|].
    split; [now apply (modify_nodes h k id)|].
    split; [apply hle_modify; intros; apply nle_rbm|].
    split; [now apply quiet_rbm|]. easy.
Qed.

End N.
