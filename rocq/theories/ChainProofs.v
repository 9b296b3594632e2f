(* The loops over one chain of the node table, in terms of [locate]/[find]. *)
From Coq Require Import Arith NArith List Bool Lia.
From Verif Require Import Word Af BitSpan Maps ChtMath Cht Node Tree.
Import ListNotations.
Local Open Scope N_scope.

Lemma NSTRIDE_nz : NSTRIDE <> 0.
Proof. discriminate. Qed.
Global Hint Resolve NSTRIDE_nz : core.

Notation ninv f h := (cht_inv f NSTRIDE h).
Notation ndom f id := (dom f NSTRIDE id).

Lemma nlev_le f id : wf_pid f id -> (nlev id <= 32)%nat.
Proof. intros [H _]. unfold nlev. pose proof (nlevels_le f _ H). lia. Qed.

Section Chain.
Variable f : af.

(* one probe: hash, level arithmetic *)
Lemma lvl_succ (id : pid) k : wf_pid f id -> (S k <= nlev id)%nat ->
  add8 (N.of_nat k) 1 = Ok (N.of_nat (S k)).
Proof.
  intros W K. pose proof (nlev_le f id W). rewrite add8_ok by lia. f_equal. lia.
Qed.

Lemma size_next (id : pid) k : wf_pid f id -> (S k <= nlev id)%nat ->
  nodeset_size (p_len id) (N.of_nat (S k)) = Ok (lvl_size (p_len id) (N.of_nat (S k))).
Proof.
  intros W K. apply (nodeset_size_ok f); [apply W|]. unfold nlev in K. lia.
Qed.

Lemma size_next_pos (id : pid) k : (S k <= nlev id)%nat ->
  (0 <? lvl_size (p_len id) (N.of_nat (S k))) = (S k <? nlev id)%nat.
Proof.
  intros K. unfold nlev in *. rewrite lvl_size_gt0 by lia.
  destruct (N.ltb_spec (N.of_nat (S k)) (nlevels (p_len id))),
    (Nat.ltb_spec (S k) (N.to_nat (nlevels (p_len id)))); lia.
Qed.

Lemma slots_at_S (id : pid) k :
  slots_for (lvl_size (p_len id) (N.of_nat (S k))) = slots_at (p_len id) (S k).
Proof. reflexivity. Qed.

Ltac probe W K :=
  rewrite hash_id_ok by (auto; unfold nlev in *; lia); cbn [bind].

Lemma retrieve_node_loop_spec h id : ninv f h -> ndom f id ->
  forall n k fuel, (n + k = nlev id)%nat -> (0 < n)%nat -> (n <= fuel)%nat ->
  retrieve_node_loop fuel f h id (p_len id / NSTRIDE) (hpath f id k)
     (slots_at (p_len id) k) (N.of_nat k) =
  Ok (match locate f NSTRIDE n h id k with LHit _ e => Some (e_val e) | _ => None end).
Proof.
  intros I D. pose proof (proj1 D) as W.
  induction n as [|n IH]; intros k fuel E P F; [lia|].
  destruct fuel as [|fuel]; [lia|]. simpl.
  rewrite hash_id_ok by (auto; unfold nlev in *; lia). cbn [bind].
  rewrite (slot_get_level f NSTRIDE) by (auto; unfold nlev in *; lia).
  destruct (lookup (kof f NSTRIDE id k) h) as [e|] eqn:L; [|easy].
  destruct (pid_eqb id (e_id e)) eqn:Q; [easy|].
  rewrite (lvl_succ id) by (auto; lia). cbn [bind].
  rewrite size_next by (auto; lia). cbn [bind].
  rewrite size_next_pos by lia.
  destruct (Nat.ltb_spec (S k) (nlev id)).
  - rewrite <- hpath_S.
    rewrite (slots_next f NSTRIDE NSTRIDE_nz h id k e) by auto.
    apply IH; lia.
  - replace n with 0%nat by lia. easy.
Qed.

Lemma retrieve_node_ok h id : ninv f h -> ndom f id ->
  retrieve_node f h id = Ok (option_map e_val (find f NSTRIDE h id)).
Proof.
  intros I D. unfold retrieve_node.
  rewrite (root_for_len_ok f NSTRIDE NSTRIDE_nz) by auto. cbn [bind].
  change root_slots with (slots_at (p_len id) 0).
  change (@nil N) with (hpath f id 0). change 0 with (N.of_nat 0).
  rewrite (retrieve_node_loop_spec h id I D (nlev id) 0).
  - unfold find. destruct (locate f NSTRIDE (nlev id) h id 0); easy.
  - lia.
  - apply nlev_pos.
  - pose proof (nlev_le f id (proj1 D)). unfold CHAIN_FUEL. lia.
Qed.

Lemma retrieve_node_mut_loop_spec h id mui : ninv f h -> ndom f id ->
  forall n k fuel, (n + k = nlev id)%nat -> (0 < n)%nat -> (n <= fuel)%nat ->
  retrieve_node_mut_loop fuel f h id mui (p_len id / NSTRIDE) (hpath f id k)
     (slots_at (p_len id) k) (N.of_nat k) =
  Ok (match locate f NSTRIDE n h id k with
      | LHit j e =>
        let e' := set_val e (update_rbm_index (e_val e) mui) in
        (update (kof f NSTRIDE id j) e' h, Some (kof f NSTRIDE id j, e'))
      | LVac j =>
        let e' := Entry id (update_rbm_index node_new mui) (slots_at (p_len id) (S j)) in
        (update (kof f NSTRIDE id j) e' h, Some (kof f NSTRIDE id j, e'))
      | LOut => (h, None)
      end).
Proof.
  intros I D. pose proof (proj1 D) as W.
  induction n as [|n IH]; intros k fuel E P F; [lia|].
  destruct fuel as [|fuel]; [lia|].
  cbn [retrieve_node_mut_loop locate].
  rewrite hash_id_ok by (auto; unfold nlev in *; lia). cbn [bind].
  rewrite (slot_get_level f NSTRIDE) by (auto; unfold nlev in *; lia).
  destruct (lookup (kof f NSTRIDE id k) h) as [e|] eqn:L.
  - cbn [bind]. destruct (pid_eqb id (e_id e)) eqn:Q.
    + rewrite <- hpath_S. reflexivity.
    + rewrite (lvl_succ id) by (auto; lia). cbn [bind].
      rewrite size_next by (auto; lia). cbn [bind].
      rewrite size_next_pos by lia.
      destruct (Nat.ltb_spec (S k) (nlev id)).
      * rewrite <- hpath_S.
        rewrite (slots_next f NSTRIDE NSTRIDE_nz h id k e) by auto.
        apply IH; lia.
      * replace n with 0%nat by lia. easy.
  - rewrite (lvl_succ id) by (auto; lia). cbn [bind].
    rewrite size_next by (auto; lia). cbn [bind].
    rewrite (slot_init_level f NSTRIDE) by (auto; unfold nlev in *; lia).
    rewrite L. cbn [bind e_id e_val e_slots]. rewrite pid_eqb_refl.
    rewrite slots_at_S. unfold set_val. cbn [e_id e_val e_slots].
    rewrite <- hpath_S. fold (kof f NSTRIDE id k).
    rewrite update_update. reflexivity.
Qed.

Lemma store_node_loop_spec h id mui nn : ninv f h -> ndom f id ->
  forall n k fuel, (n + k = nlev id)%nat -> (0 < n)%nat -> (n <= fuel)%nat ->
  store_node_loop fuel f h id mui nn (p_len id / NSTRIDE) (hpath f id k)
     (slots_at (p_len id) k) (N.of_nat k) =
  Ok (match locate f NSTRIDE n h id k with
      | LHit j e =>
        let v1 := update_rbm_index (e_val e) mui in
        let e' := set_val e (NodeVal
          (if nv_ptr nn =? 0 then nv_ptr v1 else merge (nv_ptr v1) (nv_ptr nn))
          (if nv_pfx nn =? 0 then nv_pfx v1 else merge (nv_pfx v1) (nv_pfx nn))
          (nv_rbm v1)) in
        (update (kof f NSTRIDE id j) e' h, Some (id, 0))
      | LVac j =>
        let e' := Entry id (update_rbm_index nn mui) (slots_at (p_len id) (S j)) in
        (update (kof f NSTRIDE id j) e' h, Some (id, 0))
      | LOut => (h, None)
      end).
Proof.
  intros I D. pose proof (proj1 D) as W.
  induction n as [|n IH]; intros k fuel E P F; [lia|].
  destruct fuel as [|fuel]; [lia|].
  cbn [store_node_loop locate].
  rewrite hash_id_ok by (auto; unfold nlev in *; lia). cbn [bind].
  rewrite (slot_get_level f NSTRIDE) by (auto; unfold nlev in *; lia).
  destruct (lookup (kof f NSTRIDE id k) h) as [e|] eqn:L.
  - destruct (pid_eqb id (e_id e)) eqn:Q.
    + rewrite <- hpath_S. reflexivity.
    + rewrite (lvl_succ id) by (auto; lia). cbn [bind].
      rewrite size_next by (auto; lia). cbn [bind].
      rewrite size_next_pos by lia.
      destruct (Nat.ltb_spec (S k) (nlev id)).
      * rewrite <- hpath_S.
        rewrite (slots_next f NSTRIDE NSTRIDE_nz h id k e) by auto.
        apply IH; lia.
      * replace n with 0%nat by lia. easy.
  - rewrite (lvl_succ id) by (auto; lia). cbn [bind].
    rewrite size_next by (auto; lia). cbn [bind].
    rewrite (slot_init_level f NSTRIDE) by (auto; unfold nlev in *; lia).
    rewrite L. cbn [bind e_id e_val e_slots]. rewrite pid_eqb_refl.
    rewrite slots_at_S. unfold set_val. cbn [e_id e_val e_slots negb andb].
    rewrite <- hpath_S. fold (kof f NSTRIDE id k).
    rewrite update_update. reflexivity.
Qed.

(* ---------- the node table seen as a map from ids to nodes ---------- *)

Definition nodes (h : heap nodeval) (id : pid) : option nodeval :=
  option_map e_val (find f NSTRIDE h id).

Lemma retrieve_node_nodes h id : ninv f h -> ndom f id ->
  retrieve_node f h id = Ok (nodes h id).
Proof. apply retrieve_node_ok. Qed.

Lemma nodes_dom h id v : ninv f h -> nodes h id = Some v -> ndom f id.
Proof.
  intros I E. unfold nodes in E. destruct (find f NSTRIDE h id) eqn:F; [|discriminate].
  now apply find_dom in F.
Qed.

Definition old_or_new (o : option nodeval) : nodeval :=
  match o with Some v => v | None => node_new end.

(* writing a node through its address *)
Lemma nodes_write h k e v : ninv f h -> lookup k h = Some e ->
  ninv f (update k (set_val e v) h) /\
  forall id', nodes (update k (set_val e v) h) id' =
     if pid_eqb id' (e_id e) then Some v else nodes h id'.
Proof.
  intros I L. split; [now apply inv_set_val|].
  intros id'. unfold nodes. rewrite find_set_val by (auto using NSTRIDE_nz).
  now destruct (pid_eqb id' (e_id e)).
Qed.

Lemma retrieve_node_mut_ok h id mui : ninv f h -> ndom f id ->
  exists h' k e, retrieve_node_mut f h id mui = Ok (h', Some (k, e)) /\
    ninv f h' /\ lookup k h' = Some e /\ e_id e = id /\
    e_val e = update_rbm_index (old_or_new (nodes h id)) mui /\
    (forall id', nodes h' id' = if pid_eqb id' id then Some (e_val e) else nodes h id') /\
    length h' = match nodes h id with Some _ => length h | None => S (length h) end.
Proof.
  intros I D. unfold retrieve_node_mut.
  rewrite (root_for_len_ok f NSTRIDE NSTRIDE_nz) by auto. cbn [bind].
  change root_slots with (slots_at (p_len id) 0).
  change (@nil N) with (hpath f id 0). change 0 with (N.of_nat 0).
  rewrite (retrieve_node_mut_loop_spec h id mui I D (nlev id) 0); try lia.
  2: apply nlev_pos.
  2: pose proof (nlev_le f id (proj1 D)); unfold CHAIN_FUEL; lia.
  destruct (locate f NSTRIDE (nlev id) h id 0) as [j e|j|] eqn:L.
  - pose proof (locate_hit f NSTRIDE NSTRIDE_nz h id _ _ _ _ L) as [Lk [Ei _]].
    eexists _, _, _. split; [reflexivity|].
    destruct (nodes_write h _ e (update_rbm_index (e_val e) mui) I Lk) as [I' N'].
    split; [easy|]. split; [apply lookup_update_same|]. split; [easy|].
    split.
    + simpl. unfold nodes, find. rewrite L. reflexivity.
    + split; [intros id'; rewrite N', Ei; reflexivity|].
      rewrite update_length, Lk. unfold nodes, find. now rewrite L.
  - eexists _, _, _. split; [reflexivity|].
    split; [now apply (inv_insert f NSTRIDE NSTRIDE_nz)|].
    split; [apply lookup_update_same|]. split; [easy|].
    split.
    + simpl. unfold nodes, find. rewrite L. reflexivity.
    + split.
      * intros id'. unfold nodes. rewrite (find_insert f NSTRIDE NSTRIDE_nz) by auto.
        destruct (pid_eqb id' id); easy.
      * apply locate_vac in L as Lk; auto. destruct Lk as [Lk _].
        rewrite update_length, Lk. unfold nodes, find. now rewrite L.
  - exfalso. pose proof (nlev_pos id).
    apply (locate_not_out f NSTRIDE NSTRIDE_nz h id I D (nlev id) 0); auto; lia.
Qed.

(* storing an empty node *)
Lemma store_node_ok h id mui : ninv f h -> ndom f id ->
  exists h', store_node f h id mui node_new = Ok (h', Some (id, 0)) /\
    ninv f h' /\
    (forall id', nodes h' id' = if pid_eqb id' id
       then Some (update_rbm_index (old_or_new (nodes h id)) mui) else nodes h id') /\
    length h' = match nodes h id with Some _ => length h | None => S (length h) end.
Proof.
  intros I D. unfold store_node.
  rewrite (root_for_len_ok f NSTRIDE NSTRIDE_nz) by auto. cbn [bind].
  change root_slots with (slots_at (p_len id) 0).
  change (@nil N) with (hpath f id 0). change 0 with (N.of_nat 0) at 1.
  rewrite (store_node_loop_spec h id mui node_new I D (nlev id) 0); try lia.
  2: apply nlev_pos.
  2: pose proof (nlev_le f id (proj1 D)); unfold CHAIN_FUEL; lia.
  destruct (locate f NSTRIDE (nlev id) h id 0) as [j e|j|] eqn:L.
  - pose proof (locate_hit f NSTRIDE NSTRIDE_nz h id _ _ _ _ L) as [Lk [Ei _]].
    eexists. split; [reflexivity|].
    match goal with |- context [set_val e ?v] =>
      destruct (nodes_write h _ e v I Lk) as [I' N'] end.
    split; [easy|]. split.
    + intros id'. rewrite N', Ei. destruct (pid_eqb id' id); [|easy].
      unfold nodes, find. rewrite L. reflexivity.
    + rewrite update_length, Lk. unfold nodes, find. now rewrite L.
  - eexists. split; [reflexivity|].
    split; [now apply (inv_insert f NSTRIDE NSTRIDE_nz)|].
    split.
    + intros id'. unfold nodes. rewrite (find_insert f NSTRIDE NSTRIDE_nz) by auto.
      destruct (pid_eqb id' id); [|easy]. unfold find. rewrite L. reflexivity.
    + apply locate_vac in L as Lk; auto. destruct Lk as [Lk _].
      rewrite update_length, Lk. unfold nodes, find. now rewrite L.
  - exfalso. pose proof (nlev_pos id).
    apply (locate_not_out f NSTRIDE NSTRIDE_nz h id I D (nlev id) 0); auto; lia.
Qed.

End Chain.
