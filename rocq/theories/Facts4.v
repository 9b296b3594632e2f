(* The lemmas behind the properties of the store, part 4: the number of nodes. *)
From Coq Require Import Arith NArith List Bool Lia Permutation.
From Verif Require Import Word Af BitSpan Spec Maps ChtMath Cht Node Tree ChainProofs TreeProofs
  Iter IterProofs MultiMap PrefixCht PrefixChtProofs Lsm LsmProofs RecordSet Rib StarCast HistSpec
  Ask PropSpec RibProofs RibLsm RibOk Queries Queries2 Disk MuiWalk Facts1 Facts2 Facts3.
Import ListNotations.
Local Open Scope N_scope.

(* ---------- no address occurs twice in the node table ---------- *)

Definition one_each (h : heap nodeval) : Prop := NoDup (keys h).

Lemma one_each_init h b path slots i mk h' e x :
  slot_get_or_init h b path slots i mk = Ok (h', e, x) -> one_each h -> one_each h'.
Proof.
  unfold slot_get_or_init. destruct (i <? slots); [|discriminate].
  destruct (lookup (b, path ++ [i]) h); intros E O; inversion E; subst; auto. now apply update_NoDup.
Qed.

Lemma one_each_store f id mui nn b : forall fuel h path slots level h' o,
  store_node_loop fuel f h id mui nn b path slots level = Ok (h', o) -> one_each h -> one_each h'.
Proof.
  induction fuel as [|fuel IH]; intros h path slots level h' o E O; [discriminate|].
  cbn [store_node_loop] in E. destruct (hash_id f id level) as [i| |]; try discriminate. cbn [bind] in E.
  destruct (slot_get h b path slots i) as [e|].
  - destruct (pid_eqb id (e_id e)).
    + inversion E; subst. now apply update_NoDup.
    + destruct (add8 level 1) as [l1| |]; try discriminate. cbn [bind] in E.
      destruct (nodeset_size (p_len id) l1) as [sz| |]; try discriminate. cbn [bind] in E.
      destruct (0 <? sz); [eauto|]. now inversion E; subst.
  - destruct (add8 level 1) as [l1| |]; try discriminate. cbn [bind] in E.
    destruct (nodeset_size (p_len id) l1) as [sz| |]; try discriminate. cbn [bind] in E.
    destruct (slot_get_or_init h b path slots i (Entry id nn (slots_for sz))) as [[[h1 e] us]| |] eqn:S;
      try discriminate.
    cbn [bind] in E. apply one_each_init in S; auto.
    destruct (pid_eqb (e_id e) id); inversion E; subst; auto. now apply update_NoDup.
Qed.

Lemma one_each_retrieve f id mui b : forall fuel h path slots level h' o,
  retrieve_node_mut_loop fuel f h id mui b path slots level = Ok (h', o) -> one_each h -> one_each h'.
Proof.
  induction fuel as [|fuel IH]; intros h path slots level h' o E O; [discriminate|].
  cbn [retrieve_node_mut_loop] in E. destruct (hash_id f id level) as [i| |]; try discriminate. cbn [bind] in E.
  assert (X : forall h1 e, one_each h1 ->
    (if pid_eqb id (e_id e)
     then Ok (update (b, path ++ [i]) (set_val e (update_rbm_index (e_val e) mui)) h1,
              Some ((b, path ++ [i]), set_val e (update_rbm_index (e_val e) mui)))
     else do level' <- add8 level 1;
          do size <- nodeset_size (p_len id) level';
          if 0 <? size then
            retrieve_node_mut_loop fuel f h1 id mui b (path ++ [i]) (e_slots e) level'
          else Ok (h1, None)) = Ok (h', o) -> one_each h').
  { intros h1 e O1 X. destruct (pid_eqb id (e_id e)).
    - inversion X; subst. now apply update_NoDup.
    - destruct (add8 level 1) as [l1| |]; try discriminate. cbn [bind] in X.
      destruct (nodeset_size (p_len id) l1) as [sz| |]; try discriminate. cbn [bind] in X.
      destruct (0 <? sz); [eauto|]. now inversion X; subst. }
  destruct (slot_get h b path slots i) as [e|].
  - cbn [bind] in E. now apply X in E.
  - destruct (add8 level 1) as [l1| |] eqn:A1; try discriminate. cbn [bind] in E.
    destruct (nodeset_size (p_len id) l1) as [sz| |] eqn:A2; try discriminate. cbn [bind] in E.
    destruct (slot_get_or_init h b path slots i (Entry id node_new (slots_for sz))) as [[[h1 e] us]| |] eqn:S;
      try discriminate.
    cbn [bind] in E. apply one_each_init in S; auto. cbn [bind] in X.
    destruct (pid_eqb id (e_id e)) eqn:Q.
    + inversion E; subst. now apply update_NoDup.
    + destruct (0 <? sz); [eauto|]. now inversion E; subst.
Qed.

Lemma one_each_set f pfx mui : forall fuel h cnt se cur acc h' c' o,
  set_prefix_exists_loop fuel f h cnt pfx mui se cur acc = Ok (h', c', o) -> one_each h -> one_each h'.
Proof.
  induction fuel as [|fuel IH]; intros h cnt se cur acc h' c' o E O; [discriminate|].
  cbn [set_prefix_exists_loop] in E.
  destruct (add8 se STRIDE_SIZE) as [s1| |]; try discriminate. cbn [bind] in E.
  destruct (if p_len pfx <? s1 then _ else _) as [nl| |] in E; try discriminate. cbn [bind] in E.
  destruct (sub8 s1 STRIDE_SIZE) as [ss| |]; try discriminate. cbn [bind] in E.
  destruct (into_bit_span f (p_bits pfx) ss nl) as [bs| |]; try discriminate. cbn [bind] in E.
  destruct (retrieve_node_mut f h cur mui) as [[h1 o1]| |] eqn:R; try discriminate. cbn [bind] in E.
  assert (O1 : one_each h1).
  { unfold retrieve_node_mut in R. destruct (root_for_len f NSTRIDE (p_len cur)); try discriminate.
    cbn [bind] in R. now apply one_each_retrieve in R. }
  destruct o1 as [[k e]|]; [|now inversion E; subst].
  destruct (eval_node_or_prefix_at f (e_val e) bs (p_bits pfx, ss) (p_len pfx <=? s1))
    as [[ev v']| |]; try discriminate. cbn [bind] in E.
  assert (O2 : one_each (update k (set_val e v') h1)) by (now apply update_NoDup).
  destruct ev.
  - destruct (add8 ss (bs_len bs)) as [l| |]; try discriminate. cbn [bind] in E.
    destruct (store_node f (update k (set_val e v') h1) (new_with_cleaned_id f (p_bits pfx) l) mui node_new)
      as [[h3 o3]| |] eqn:S; try discriminate. cbn [bind] in E.
    assert (O3 : one_each h3).
    { unfold store_node in S. destruct (root_for_len _ _ _); try discriminate.
      cbn [bind] in S. now apply one_each_store in S. }
    destruct o3 as [[n c]|]; eapply IH; eauto.
  - eapply IH; eauto.
  - now inversion E; subst.
  - now inversion E; subst.
Qed.

Lemma one_each_exists f t pfx mui t' o : set_prefix_exists f t pfx mui = Ok (t', o) ->
  one_each (t_heap t) -> one_each (t_heap t').
Proof.
  unfold set_prefix_exists. intros E O. destruct (p_len pfx =? 0).
  - unfold update_default_route_prefix_meta in E.
    destruct (retrieve_node_mut f (t_heap t) root_node_id mui) as [[h1 o1]| |] eqn:R; try discriminate.
    cbn [bind] in E. inversion E; subst. simpl.
    unfold retrieve_node_mut in R. destruct (root_for_len _ _ _); try discriminate.
    cbn [bind] in R. now apply one_each_retrieve in R.
  - destruct (set_prefix_exists_loop _ _ _ _ _ _ _ _ _) as [[[h1 c] o1]| |] eqn:R; try discriminate.
    cbn [bind] in E. inversion E; subst. simpl. now apply one_each_set in R.
Qed.

Lemma one_each_new f t : tree_new f = Ok t -> one_each (t_heap t).
Proof.
  unfold tree_new. destruct (store_node f [] root_node_id 0 node_new) as [[h o]| |] eqn:S; try discriminate.
  cbn [bind]. destruct o as [x|]; intros E; inversion E; subst. simpl.
  unfold store_node in S. destruct (root_for_len _ _ _); try discriminate.
  cbn [bind] in S. apply one_each_store in S; auto. constructor.
Qed.

Lemma upsert_tree f rb id r ups x : rb_strat rb <> PersistOnly ->
  rib_upsert_prefix f rb id r ups = Ok x -> rb_tree (fst x) = rb_tree rb.
Proof.
  intros S. unfold rib_upsert_prefix. destruct (rb_strat rb) eqn:St; try easy.
  1: destruct (rb_lsm rb); [|intros E; inversion E; reflexivity].
  all: destruct (pc_upsert_prefix _ _ _ _ _) as [[c [rep old]]| |]; cbn [bind]; try discriminate;
    intros E; inversion E; try reflexivity.
  destruct old as [o|]; auto. now destruct (rb_lsm rb).
Qed.

Lemma one_each_upsert f rb id r ups x : one_each (t_heap (rb_tree rb)) ->
  rib_upsert_prefix f rb id r ups = Ok x -> one_each (t_heap (rb_tree (fst x))).
Proof.
  intros O E. destruct (rb_strat rb) eqn:St.
  1-3: apply upsert_tree in E; [now rewrite E|congruence].
  unfold rib_upsert_prefix in E. rewrite St in E. destruct (rb_lsm rb).
  - destruct (set_prefix_exists f (rb_tree rb) id (r_mui r)) as [[t o]| |] eqn:S; try discriminate.
    cbn [bind] in E. apply one_each_exists in S; auto.
    destruct o as [[rc ex]|e]; inversion E; subst; exact S.
  - inversion E; subst. exact O.
Qed.

Lemma one_each_insert f rb id r ups x : one_each (t_heap (rb_tree rb)) ->
  rib_insert f rb id r ups = Ok x -> one_each (t_heap (rb_tree (fst x))).
Proof.
  intros O E. unfold rib_insert in E.
  destruct (set_prefix_exists f (rb_tree rb) id (r_mui r)) as [[t o]| |] eqn:S; try discriminate.
  cbn [bind] in E. apply one_each_exists in S; auto.
  destruct o as [[rc ex]|e].
  - destruct (rib_upsert_prefix f (set_tree rb t) id r ups) as [[rb2 o2]| |] eqn:U; try discriminate.
    cbn [bind] in E. apply one_each_upsert in U; [|exact S]. cbn [fst] in U.
    destruct o2; inversion E; subst; exact U.
  - inversion E; subst. exact S.
Qed.

Lemma one_each_run s h st f : run s h = Ok st -> one_each (t_heap (rb_tree (rib_of st f))).
Proof.
  revert st f. induction h as [|o h IH]; intros st f E; cbn [run] in E.
  - unfold new_with_config, rib_init in E.
    destruct (tree_new IPv4) as [t4| |] eqn:T4; try discriminate. cbn [bind] in E.
    destruct (tree_new IPv6) as [t6| |] eqn:T6; try discriminate. cbn [bind] in E.
    inversion E; subst. apply one_each_new in T4. apply one_each_new in T6. now destruct f.
  - destruct (run s h) as [st0| |] eqn:R; try discriminate. cbn [bind] in E.
    destruct (exec st0 o) as [[st1 x]| |] eqn:X; try discriminate. cbn [bind fst] in E.
    inversion E; subst st1. specialize (IH st0 f eq_refl).
    destruct (leaves_tree o) eqn:L.
    { now rewrite (leaves_tree_ok st0 o st x L X). }
    destruct o as [[g p] r u|p n t|p n t|g n|n|g n|p t]; try discriminate; cbn [exec] in X.
    + unfold insert in X. cbn [fst snd] in X.
      destruct (rib_insert g (rib_of st0 g) p r u) as [[rb y]| |] eqn:I; try discriminate.
      cbn [bind fst snd] in X. inversion X; subst. rewrite rib_of_set.
      destruct (af_eqb f g) eqn:F; auto. apply af_eqb_spec in F. subst g.
      now apply one_each_insert in I.
    + inversion X; subst. unfold mark_mui_as_withdrawn_af. rewrite rib_of_set.
      destruct (af_eqb f g) eqn:F; auto. apply af_eqb_spec in F. subst g. exact IH.
    + inversion X; subst. unfold mark_mui_as_withdrawn_all, mark_mui_as_withdrawn_af.
      rewrite !rib_of_set. destruct f; exact IH.
    + inversion X; subst. unfold mark_mui_as_active_af. rewrite rib_of_set.
      destruct (af_eqb f g) eqn:F; auto. apply af_eqb_spec in F. subst g. exact IH.
Qed.

(* ---------- the node counter ---------- *)


Lemma visited_spec f h id : wf_history h -> (visited h f id = true <-> node_on_path f h id).
Proof.
  intros Wh. unfold visited, node_on_path. rewrite orb_true_iff, pid_eqb_spec, existsb_exists.
  split.
  - intros [(o & I & T)|E]; auto. destruct o as [[g p] r u|?|?|?|?|?|?]; try discriminate.
    apply andb_true_iff in T. destruct T as [T1 T2]. cbn [fst snd] in *.
    apply af_eqb_spec in T1. subst g. unfold wf_history in Wh. rewrite Forall_forall in Wh.
    destruct (Wh _ I) as [Wp _]. change (wf_pid f p) in Wp.
    unfold through in T2. apply orb_true_iff in T2. destruct T2 as [T2|T2].
    + right. exists p, r, u. split; auto. pose proof (on_path_covers f p id Wp T2) as C.
      apply on_path_inv in T2. destruct T2 as (A & B & D). split; [|auto].
      rewrite D. apply wf_trunc; [apply Wp|]. destruct Wp. lia.
    + apply andb_true_iff in T2. destruct T2 as [_ T2]. apply pid_eqb_spec in T2. auto.
  - intros [E|(p & r & u & I & Wi & M & L & C)]; auto. left. exists (Insert (f, p) r u).
    split; auto. cbn [fst snd]. rewrite af_eqb_refl. unfold wf_history in Wh.
    rewrite Forall_forall in Wh. destruct (Wh _ I) as [Wp _]. change (wf_pid f p) in Wp.
    apply covers_trunc in C; auto. destruct C as [_ C]. unfold through. rewrite C.
    now rewrite on_path_at.
Qed.

Lemma nodes_count_spec s h st f : after s h st ->
  exists l, NoDup l /\ (forall id, In id l <-> node_on_path f h id) /\
    nodes_count_af st f = N.of_nat (length l).
Proof.
  intros A. destruct (after_rib _ _ _ f A) as [Wh R].
  pose proof (ro_tree _ _ _ _ R) as T. destruct (tl_ok _ _ _ T) as [TI Cn].
  pose proof (one_each_run s h st f (proj2 A)) as O. unfold one_each in O.
  pose proof (ti_cht _ _ TI) as I.
  set (hp := t_heap (rb_tree (rib_of st f))) in *.
  exists (List.map (fun x : key * entry nodeval => e_id (snd x)) hp). split; [|split].
  - assert (X : forall l : list (key * entry nodeval), NoDup (List.map fst l) ->
       (forall k e, In (k, e) l -> lookup k hp = Some e) ->
       NoDup (List.map (fun x => e_id (snd x)) l)).
    { induction l as [|[k e] l IH]; intros N S; [constructor|]. simpl in *.
      inversion N as [|? ? Ni Nd]; subst. constructor; auto.
      intros C. apply in_map_iff in C. destruct C as ([k2 e2] & E & C). simpl in E.
      assert (k2 = k) by (apply (key_unique f NSTRIDE NSTRIDE_nz hp k2 k e2 e); auto).
      subst k2. apply Ni. apply in_map_iff. exists (k, e2). auto. }
    apply X; auto. intros k e Ie. now apply In_lookup.
  - intros id. rewrite <- visited_spec by auto. rewrite <- (tl_nodes _ _ _ T id).
    fold hp. unfold nodes. rewrite in_map_iff. split.
    + intros ([k e] & E & Ie). simpl in E. apply In_lookup in Ie; auto.
      assert (F : find f NSTRIDE hp id = Some e) by (apply find_spec; eauto).
      now rewrite F.
    + destruct (find f NSTRIDE hp id) as [e|] eqn:F; [|discriminate]. intros _.
      apply find_spec in F; auto. destruct F as (k & L & E). exists (k, e). split; auto.
      now apply lookup_In.
  - rewrite map_length. unfold nodes_count_af, rib_nodes_count. exact Cn.
Qed.

(* ---------- the shape of the tree ---------- *)

(* every pointer bit leads to a node and every node but the root has one *)
Lemma tree_links s h st f : after s h st ->
  let node := nodes f (t_heap (rb_tree (rib_of st f))) in
  node (0, 0) <> None /\
  (forall id v, node id = Some v -> 0 < p_len id ->
    exists v', node (parent f id) = Some v' /\
      N.testbit (nv_ptr v') (ptr_bit (slice (BITS f) (p_bits id) (p_len id - 4) 4)) = true) /\
  (forall id v n, node id = Some v -> n < 16 -> N.testbit (nv_ptr v) (ptr_bit n) = true ->
    node (child f id n) <> None).
Proof.
  intros A. destruct (after_rib _ _ _ f A) as [Wh R].
  pose proof (ro_tree _ _ _ _ R) as T. destruct (tl_ok _ _ _ T) as [[C Rt Nd Up Dn] _].
  split; auto. split; auto. intros id v n E H B. now apply (Dn id v n).
Qed.
