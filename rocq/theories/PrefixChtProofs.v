(* The loops over one chain of the prefix table, and the table seen as a map. *)
From Coq Require Import Arith NArith List Bool Lia.
From Verif Require Import Word Af BitSpan Maps ChtMath Cht Tree ChainProofs MultiMap PrefixCht.
Import ListNotations.
Local Open Scope N_scope.

Lemma PSTRIDE_nz : PSTRIDE <> 0.
Proof. discriminate. Qed.
Global Hint Resolve PSTRIDE_nz : core.

Notation pinv f h := (cht_inv f PSTRIDE h).
Notation pdom f id := (dom f PSTRIDE id).

Lemma pdom_wf f id : pdom f id <-> wf_pid f id.
Proof. unfold dom, PSTRIDE. rewrite N.mod_1_r. tauto. Qed.

Section Chain.
Variable f : af.

Lemma get_records_loop_spec h id mui iw bmin : pinv f h -> pdom f id ->
  forall n k fuel, (n + k = nlev id)%nat -> (0 < n)%nat -> (n <= fuel)%nat ->
  get_records_loop fuel f h id mui iw bmin (p_len id / PSTRIDE) (hpath f id k)
     (slots_at (p_len id) k) (N.of_nat k) =
  Ok (match locate f PSTRIDE n h id k with
      | LHit _ e => get_filtered_records (pv_recs (e_val e)) mui iw bmin
      | _ => None end).
Proof.
  intros I D. pose proof (proj1 D) as W.
  induction n as [|n IH]; intros k fuel E P F; [lia|].
  destruct fuel as [|fuel]; [lia|]. cbn [get_records_loop locate].
  rewrite hash_id_ok by (auto; unfold nlev in *; lia). cbn [bind].
  rewrite (slot_get_level f PSTRIDE) by (auto; unfold nlev in *; lia).
  destruct (lookup (kof f PSTRIDE id k) h) as [e|] eqn:L; [|easy].
  destruct (pid_eqb id (e_id e)) eqn:Q; [easy|].
  rewrite (lvl_succ f id) by (auto; lia). cbn [bind].
  destruct n as [|n].
  - exfalso. pose proof (last_level_own f PSTRIDE PSTRIDE_nz h id k e I D ltac:(lia) L) as X.
    now rewrite X, pid_eqb_refl in Q.
  - rewrite <- hpath_S.
    rewrite (slots_next f PSTRIDE PSTRIDE_nz h id k e) by auto.
    apply IH; lia.
Qed.

Lemma retrieve_prefix_loop_spec h id : pinv f h -> pdom f id ->
  forall n k fuel, (n + k = nlev id)%nat -> (0 < n)%nat -> (n <= fuel)%nat ->
  retrieve_prefix_loop fuel f h id (p_len id / PSTRIDE) (hpath f id k)
     (slots_at (p_len id) k) (N.of_nat k) =
  Ok (match locate f PSTRIDE n h id k with
      | LHit j e => Some (kof f PSTRIDE id j, e)
      | _ => None end).
Proof.
  intros I D. pose proof (proj1 D) as W. pose proof (nlev_le f id W) as NL.
  induction n as [|n IH]; intros k fuel E P F; [lia|].
  destruct fuel as [|fuel]; [lia|]. cbn [retrieve_prefix_loop locate].
  rewrite hash_id_ok by (auto; unfold nlev in *; lia). cbn [bind].
  rewrite (slot_get_level f PSTRIDE) by (auto; unfold nlev in *; lia).
  assert (N.of_nat k <? 32 = true) as K by (apply N.ltb_lt; lia).
  destruct (lookup (kof f PSTRIDE id k) h) as [e|] eqn:L; [|now rewrite K].
  destruct (pid_eqb id (e_id e)) eqn:Q.
  - rewrite K, <- hpath_S. reflexivity.
  - rewrite (lvl_succ f id) by (auto; lia). cbn [bind].
    destruct n as [|n].
    + exfalso. pose proof (last_level_own f PSTRIDE PSTRIDE_nz h id k e I D ltac:(lia) L) as X.
      now rewrite X, pid_eqb_refl in Q.
    + rewrite <- hpath_S.
      rewrite (slots_next f PSTRIDE PSTRIDE_nz h id k e) by auto.
      apply IH; lia.
Qed.

Lemma retrieve_prefix_mut_loop_spec h id : pinv f h -> pdom f id ->
  forall n k fuel, (n + k = nlev id)%nat -> (0 < n)%nat -> (n <= fuel)%nat ->
  retrieve_prefix_mut_loop fuel f h id (p_len id / PSTRIDE) (hpath f id k)
     (slots_at (p_len id) k) (N.of_nat k) =
  match locate f PSTRIDE n h id k with
  | LHit j e => Ok (h, kof f PSTRIDE id j, e, true)
  | LVac j =>
    let e := Entry id pval_new (slots_at (p_len id) (S j)) in
    Ok (update (kof f PSTRIDE id j) e h, kof f PSTRIDE id j, e, false)
  | LOut => OutOfFuel
  end.
Proof.
  intros I D. pose proof (proj1 D) as W.
  induction n as [|n IH]; intros k fuel E P F; [lia|].
  destruct fuel as [|fuel]; [lia|]. cbn [retrieve_prefix_mut_loop locate].
  rewrite hash_id_ok by (auto; unfold nlev in *; lia). cbn [bind].
  rewrite (slot_get_level f PSTRIDE) by (auto; unfold nlev in *; lia).
  destruct (lookup (kof f PSTRIDE id k) h) as [e|] eqn:L.
  - cbn [bind]. destruct (pid_eqb id (e_id e)) eqn:Q.
    + rewrite <- hpath_S. reflexivity.
    + rewrite (lvl_succ f id) by (auto; lia). cbn [bind].
      destruct n as [|n].
      * exfalso. pose proof (last_level_own f PSTRIDE PSTRIDE_nz h id k e I D ltac:(lia) L) as X.
        now rewrite X, pid_eqb_refl in Q.
      * rewrite <- hpath_S.
        rewrite (slots_next f PSTRIDE PSTRIDE_nz h id k e) by auto.
        apply IH; lia.
  - rewrite (lvl_succ f id) by (auto; lia). cbn [bind].
    rewrite (size_next f) by (auto; lia). cbn [bind].
    rewrite (slot_init_level f PSTRIDE) by (auto; unfold nlev in *; lia).
    rewrite L. cbn [bind e_id e_val e_slots]. rewrite pid_eqb_refl.
    rewrite slots_at_S. rewrite <- hpath_S. reflexivity.
Qed.

(* ---------- the table seen as a map ---------- *)

Definition pfxs (h : heap pval) (id : pid) : option pval :=
  option_map e_val (find f PSTRIDE h id).

Lemma pfxs_wf h id v : pinv f h -> pfxs h id = Some v -> wf_pid f id.
Proof.
  intros I E. unfold pfxs in E. destruct (find f PSTRIDE h id) eqn:F; [|discriminate].
  apply find_dom in F; auto using PSTRIDE_nz. apply F.
Qed.

Lemma get_records_ok c id mui iw bmin : pinv f (pc_heap c) -> wf_pid f id ->
  get_records_for_prefix f c id mui iw bmin =
  Ok (match pfxs (pc_heap c) id with
      | Some v => get_filtered_records (pv_recs v) mui iw bmin
      | None => None end).
Proof.
  intros I W. assert (pdom f id) as D by now apply pdom_wf.
  unfold get_records_for_prefix.
  rewrite (root_for_len_ok f PSTRIDE PSTRIDE_nz) by auto. cbn [bind].
  change root_slots with (slots_at (p_len id) 0).
  change (@nil N) with (hpath f id 0). change 0 with (N.of_nat 0).
  rewrite (get_records_loop_spec _ id mui iw bmin I D (nlev id) 0).
  - unfold pfxs, find. destruct (locate f PSTRIDE (nlev id) (pc_heap c) id 0); easy.
  - lia.
  - apply nlev_pos.
  - pose proof (nlev_le f id W). unfold CHAIN_FUEL. lia.
Qed.

Lemma retrieve_prefix_ok h id : pinv f h -> wf_pid f id ->
  match retrieve_prefix f h id with
  | Ok (Some (k, e)) => lookup k h = Some e /\ e_id e = id /\ pfxs h id = Some (e_val e)
  | Ok None => pfxs h id = None
  | _ => False
  end.
Proof.
  intros I W. assert (pdom f id) as D by now apply pdom_wf.
  unfold retrieve_prefix.
  rewrite (root_for_len_ok f PSTRIDE PSTRIDE_nz) by auto. cbn [bind].
  change root_slots with (slots_at (p_len id) 0).
  change (@nil N) with (hpath f id 0). change 0 with (N.of_nat 0).
  rewrite (retrieve_prefix_loop_spec _ id I D (nlev id) 0).
  - unfold pfxs, find.
    destruct (locate f PSTRIDE (nlev id) h id 0) as [j e|j|] eqn:L; try easy.
    apply locate_hit in L; auto using PSTRIDE_nz. destruct L as [L [E _]]. easy.
  - lia.
  - apply nlev_pos.
  - pose proof (nlev_le f id W). unfold CHAIN_FUEL. lia.
Qed.

Lemma pfxs_write h k e v : pinv f h -> lookup k h = Some e ->
  pinv f (update k (set_val e v) h) /\
  forall id', pfxs (update k (set_val e v) h) id' =
     if pid_eqb id' (e_id e) then Some v else pfxs h id'.
Proof.
  intros I L. split; [now apply inv_set_val|].
  intros id'. unfold pfxs. rewrite find_set_val by (auto using PSTRIDE_nz).
  now destruct (pid_eqb id' (e_id e)).
Qed.

Definition old_or_pval (o : option pval) : pval :=
  match o with Some v => v | None => pval_new end.
Definition is_some {A} (o : option A) : bool := match o with Some _ => true | None => false end.

Lemma retrieve_prefix_mut_ok h id : pinv f h -> wf_pid f id ->
  exists h' k e, retrieve_prefix_mut f h id = Ok (h', k, e, is_some (pfxs h id)) /\
    pinv f h' /\ lookup k h' = Some e /\ e_id e = id /\
    e_val e = old_or_pval (pfxs h id) /\
    (forall id', pfxs h' id' = if pid_eqb id' id then Some (e_val e) else pfxs h id').
Proof.
  intros I W. assert (pdom f id) as D by now apply pdom_wf.
  unfold retrieve_prefix_mut.
  rewrite (root_for_len_ok f PSTRIDE PSTRIDE_nz) by auto. cbn [bind].
  change root_slots with (slots_at (p_len id) 0).
  change (@nil N) with (hpath f id 0). change 0 with (N.of_nat 0).
  rewrite (retrieve_prefix_mut_loop_spec h id I D (nlev id) 0); try lia.
  2: apply nlev_pos.
  2: pose proof (nlev_le f id W); unfold CHAIN_FUEL; lia.
  destruct (locate f PSTRIDE (nlev id) h id 0) as [j e|j|] eqn:L.
  - assert (pfxs h id = Some (e_val e)) as P by (unfold pfxs, find; now rewrite L).
    pose proof (locate_hit f PSTRIDE PSTRIDE_nz h id _ _ _ _ L) as [Lk [Ei _]].
    exists h, (kof f PSTRIDE id j), e. rewrite P.
    split; [reflexivity|]. split; [easy|]. split; [easy|]. split; [easy|].
    split; [reflexivity|]. intros id'. destruct (pid_eqb id' id) eqn:Q; [|easy].
    apply pid_eqb_spec in Q. now subst.
  - assert (pfxs h id = None) as P by (unfold pfxs, find; now rewrite L).
    eexists _, _, _. rewrite P. split; [reflexivity|].
    split; [now apply (inv_insert f PSTRIDE PSTRIDE_nz)|].
    split; [apply lookup_update_same|]. split; [easy|]. split; [easy|].
    intros id'. unfold pfxs. rewrite (find_insert f PSTRIDE PSTRIDE_nz) by auto.
    destruct (pid_eqb id' id); easy.
  - exfalso. pose proof (nlev_pos id).
    apply (locate_not_out f PSTRIDE PSTRIDE_nz h id I D (nlev id) 0); auto; lia.
Qed.

(* ---------- the effect of an upsert ---------- *)

Definition upsert_val (o : option pval) (r : record) (ups : option tbi) : pval :=
  match o with
  | None => PVal [(r_mui r, mmval_of r)] (None, None) false
  | Some v =>
    let v2 := PVal (update (r_mui r) (mmval_of r) (pv_recs v)) (pv_sel v) true in
    match ups with Some t => fst (calculate_and_store_best_backup v2 t) | None => v2 end
  end.

Definition old_rec (o : option pval) (mui : N) : option mmval :=
  match o with Some v => lookup mui (pv_recs v) | None => None end.

Lemma pc_upsert_ok c id r ups : pinv f (pc_heap c) -> wf_pid f id ->
  let o := pfxs (pc_heap c) id in
  exists h', pc_upsert_prefix f c id r ups =
    Ok (PCht h'
         (match o with
          | None => inc_prefixes_count (inc_routes_count (pc_cnt c)) (p_len id)
          | Some _ => match old_rec o (r_mui r) with
                      | None => inc_routes_count (pc_cnt c) | Some _ => pc_cnt c end
          end),
        (Report 0 (negb (is_some o)) true
           (match old_rec o (r_mui r) with
            | Some _ => N.of_nat (length (pv_recs (old_or_pval o)))
            | None => 1 end),
         old_rec o (r_mui r))) /\
    pinv f h' /\
    forall id', pfxs h' id' = if pid_eqb id' id then Some (upsert_val o r ups)
                              else pfxs (pc_heap c) id'.
Proof.
  intros I W o. unfold pc_upsert_prefix.
  destruct (retrieve_prefix_mut_ok (pc_heap c) id I W) as [h1 [k [e [E [I1 [L [Ei [Ev P]]]]]]]].
  rewrite E. cbn [bind]. fold o. fold o in Ev. destruct o as [v|] eqn:O.
  - cbn [is_some negb]. simpl in Ev. rewrite Ev.
    unfold upsert_record. cbn [set_ps_outdated pv_recs set_recs pv_sel pv_out].
    match goal with |- context [set_val e ?v'] =>
      destruct (pfxs_write h1 k e v' I1 L) as [I2 P2] end.
    eexists. split; [|split; [exact I2|]].
    + unfold old_rec, old_or_pval. rewrite update_length.
      destruct (lookup (r_mui r) (pv_recs v)); reflexivity.
    + intros id'. rewrite P2, Ei, P. unfold upsert_val.
      destruct (pid_eqb id' id); reflexivity.
  - cbn [is_some negb]. simpl in Ev. rewrite Ev.
    unfold upsert_record. cbn [pval_new pv_recs lookup update set_recs pv_sel pv_out].
    match goal with |- context [set_val e ?v'] =>
      destruct (pfxs_write h1 k e v' I1 L) as [I2 P2] end.
    eexists. split; [rewrite Ei; reflexivity|]. split; [exact I2|].
    intros id'. rewrite P2, Ei, P. destruct (pid_eqb id' id); reflexivity.
Qed.

End Chain.
