(* One step of set_prefix_exists by a thread that knows a part of the tree. *)
From Coq Require Import Arith NArith List Bool Lia.
From Verif Require Import Word Af BitSpan Maps ChtMath Cht Node Tree ChainProofs TreeProofs
  ConcMarks ConcTree ConcTreeProofs ConcTreeInv ConcTreeStep ConcTreeEnd WeakTree WeakTreeView.
Import ListNotations.
Local Open Scope N_scope.

(* ---------- the same change to a part and to the whole ---------- *)

Lemma hle_modify2 (k : key) g v m e : hle v m -> lookup k v = Some e ->
  (forall e', lookup k m = Some e' -> nle (e_val e) (e_val e') -> nle (g (e_val e)) (g (e_val e'))) ->
  hle (modify k g v) (modify k g m).
Proof.
  intros H L G. destruct (H _ _ L) as (em & Lm & E1 & E2 & N). unfold modify. rewrite L, Lm.
  intros k0 e0 L0. rewrite lookup_update in *. destruct (eqb k0 k); [|now apply H].
  injection L0 as <-. eexists. split; [reflexivity|]. simpl. auto.
Qed.

Lemma hle_update2 (k : key) e v m : hle v m -> hle (update k e v) (update k e m).
Proof.
  intros H k0 e0 L0. rewrite lookup_update in *. destruct (eqb k0 k); [|now apply H].
  injection L0 as <-. exists e. repeat split; auto using bits_in_refl.
Qed.

Lemma nle_rbm2 mui a b : nle a b -> nle (update_rbm_index a mui) (update_rbm_index b mui).
Proof.
  intros (A & B & C). split; [easy|]. split; [easy|]. simpl. intros m.
  rewrite !mem_insert, !orb_true_iff. intros [Q|Q]; auto.
Qed.

Lemma nle_arr2 isptr x a b : nle a b -> nle (set_arr isptr x a) (set_arr isptr x b).
Proof.
  intros (A & B & C). destruct isptr; (split; [|split]); simpl; auto using bits_in_refl.
Qed.

Lemma next_later p s : s mod 4 = 0 -> s + 4 < p_len p -> later p s = later p (s + 4) + 170.
Proof.
  intros M L. unfold later.
  replace ((p_len p - s - 1) / 4) with ((p_len p - (s + 4) - 1) / 4 + 1) by dlia. lia.
Qed.

Section S.
Variable f : af.
Variable ov : bool.
Notation W := (BITS f).

Lemma rstep_le m v id mui r v' o : ninv f m -> ninv f v -> hle v m -> ndom f id -> rI f v id r ->
  match r with RInit w => same_slot f id m v w | _ => True end ->
  rstep f id mui v r = Ok (v', o) -> exists m' o', rstep f id mui m r = Ok (m', o') /\ hle v' m'.
Proof.
  intros Im Iv H D R A E.
  destruct (rstep_ok f m id mui r Im D (rI_grows f v m id r (hle_grows _ _ H) R)) as (m' & o' & Em & _).
  exists m', o'. split; [easy|]. destruct r as [w|w|k]; simpl in R.
  - unfold rstep in E, Em. destruct (hash_id f id (w_level w)) as [ix| |]; cbn [bind] in *; try discriminate.
    assert (v' = v) as ->.
    { destruct (slot_get v _ _ _ _); [destruct (rcheck _ _ _ _); cbn [bind] in E; try discriminate|]; now injection E as <- _. }
    assert (m' = m) as ->.
    { destruct (slot_get m _ _ _ _); [destruct (rcheck _ _ _ _); cbn [bind] in Em; try discriminate|]; now injection Em as <- _. }
    easy.
  - destruct R as (k & K & -> & O). unfold rstep in E, Em. unfold same_slot in A. cbn [w_level w_b w_path w_slots] in *.
    rewrite hash_at in * by auto. cbn [bind] in *.
    specialize (A _ eq_refl). rewrite walk_key in A.
    rewrite (lvl_succ f id) in * by (auto; try apply D; lia). cbn [bind] in *.
    rewrite (size_next f) in * by (auto; try apply D; lia). cbn [bind] in *.
    rewrite (slot_init_level f NSTRIDE) in * by (auto; unfold nlev in K; lia).
    destruct (lookup (kof f NSTRIDE id k) v) as [e|] eqn:Lv.
    + destruct (lookup (kof f NSTRIDE id k) m) as [e'|] eqn:Lm; [|exfalso; discriminate (proj2 A eq_refl)].
      cbn [bind] in *.
      destruct (rcheck id _ _ e); cbn [bind] in E; try discriminate.
      destruct (rcheck id _ _ e'); cbn [bind] in Em; try discriminate.
      injection E as <- _. injection Em as <- _. easy.
    + rewrite (proj1 A eq_refl) in Em. cbn [bind] in *.
      destruct (rcheck id _ _ _); cbn [bind] in *; try discriminate.
      injection E as <- _. injection Em as <- _. now apply hle_update2.
  - simpl in E, Em. injection E as <- _. injection Em as <- _.
    destruct R as (e & L & _). eapply hle_modify2; eauto. intros e' _. apply nle_rbm2.
Qed.

Lemma sstep_le m v id mui s v' o : ninv f m -> ninv f v -> hle v m -> ndom f id -> sI f v id s ->
  match s with SInit w => same_slot f id m v w | _ => True end ->
  sstep f id mui node_new v s = Ok (v', o) -> exists m' o', sstep f id mui node_new m s = Ok (m', o') /\ hle v' m'.
Proof.
  intros Im Iv H D R A E.
  destruct (sstep_ok f m id mui s Im D (sI_grows f v m id s (hle_grows _ _ H) R)) as (m' & o' & Em & _).
  exists m', o'. split; [easy|]. destruct s as [w|w|k todo rc|]; simpl in R; [| | |easy].
  - unfold sstep in E, Em. destruct (hash_id f id (w_level w)) as [ix| |]; cbn [bind] in *; try discriminate.
    assert (Q : forall (h h' : heap nodeval) oo, match slot_get h (w_b w) (w_path w) (w_slots w) ix with
      | Some e =>
        if pid_eqb id (e_id e) then Ok (h, SMore (SRbm (wkey w ix) (merges node_new) 0))
        else
          do level' <- add8 (w_level w) 1;
          do size <- nodeset_size (p_len id) level';
          if 0 <? size
          then Ok (h, SMore (SGet (Walk (w_b w) (w_path w ++ [ix]) (e_slots e) level')))
          else Ok (h, SDone None)
      | None => Ok (h, SMore (SInit w)) end = Ok (h', oo) -> h' = h).
    { intros h h' oo X. destruct (slot_get h _ _ _ _); [|now injection X as <- _].
      destruct (pid_eqb _ _); [now injection X as <- _|].
      destruct (add8 _ _); cbn [bind] in X; try discriminate.
      destruct (nodeset_size _ _); cbn [bind] in X; try discriminate.
      destruct (0 <? _); now injection X as <- _. }
    apply Q in E, Em. now subst.
  - destruct R as (k & K & -> & O). unfold sstep in E, Em. unfold same_slot in A. cbn [w_level w_b w_path w_slots] in *.
    rewrite hash_at in * by auto. cbn [bind] in *.
    specialize (A _ eq_refl). rewrite walk_key in A.
    rewrite (lvl_succ f id) in * by (auto; try apply D; lia). cbn [bind] in *.
    rewrite (size_next f) in * by (auto; try apply D; lia). cbn [bind] in *.
    rewrite (slot_init_level f NSTRIDE) in * by (auto; unfold nlev in K; lia).
    destruct (lookup (kof f NSTRIDE id k) v) as [e|] eqn:Lv.
    + destruct (lookup (kof f NSTRIDE id k) m) as [e'|] eqn:Lm; [|exfalso; discriminate (proj2 A eq_refl)].
      cbn [bind] in *.
      destruct (pid_eqb (e_id e) id); injection E as <- _; destruct (pid_eqb (e_id e') id); injection Em as <- _; easy.
    + rewrite (proj1 A eq_refl) in Em. cbn [bind] in *. cbn [e_id] in *. rewrite pid_eqb_refl in *.
      injection E as <- _. injection Em as <- _. now apply hle_update2.
  - destruct R as ((e & L & _) & -> & ->). simpl in E, Em. injection E as <- _. injection Em as <- _.
    eapply hle_modify2; eauto. intros e' _. apply nle_rbm2.
Qed.

(* ---------- a step on what is known ---------- *)

(* the bitmaps of a part have no other bits than those of the whole *)
Definition small (h : heap nodeval) : Prop := forall id x, nodes f h id = Some x ->
  nv_ptr x < 2 ^ 16 /\ forall i, N.testbit (nv_pfx x) i = true -> In i pfx_pos.

Lemma small_known C m v : hG f C m -> ninv f v -> hle v m -> small v.
Proof.
  intros G I H id x N. destruct (nodes_hle f v m id x I (g_cht _ _ _ G) H N) as (y & Ny & (A & B & _)). split.
  - apply bits_lt. intros i T. apply A in T. destruct (g_node _ _ _ G _ _ Ny) as [_ Y].
    destruct (N.lt_ge_cases i 16); [easy|]. rewrite (testbit_above _ 16) in T by auto. discriminate.
  - intros i T. apply B in T. eapply (pfx_bits f); eauto.
Qed.

Definition vgood (p : pid) (t : tree) (pc : tpc) (x : tree * tpc) : Prop :=
  let '(t', pc') := x in
  ninv f (t_heap t') /\ tI f ov p t' pc' /\ tR t t' /\ tmu p pc' < tmu p pc.

Lemma vgood_same p t pc pc' : ninv f (t_heap t) -> tI f ov p t pc' -> tmu p pc' < tmu p pc -> vgood p t pc (t, pc').
Proof. intros A B D. split; [easy|]. split; [easy|]. split; [apply tR_refl|easy]. Qed.
Lemma vgood_heap p t pc h' pc' : ninv f h' -> hle (t_heap t) h' -> tI f ov p (set_heap t h') pc' -> tmu p pc' < tmu p pc ->
  vgood p t pc (set_heap t h', pc').
Proof.
  intros A H I M. split; [easy|]. split; [easy|]. split; [|easy]. split; [easy|]. split; [auto|]. split; [apply N.le_refl|easy].
Qed.
Lemma vgood_panic p t pc : ninv f (t_heap t) -> ~ acc_safe ov p -> 0 < tmu p pc -> vgood p t pc (t, TPanic).
Proof. intros. now apply vgood_same. Qed.

Lemma tnext_known p mui t pc : wf_pid f p -> ninv f (t_heap t) -> small (t_heap t) -> tI f ov p t pc ->
  ~ ended pc -> vgood p t pc (tnext f ov p mui t pc).
Proof.
  intros Wp NI SM I NF.
  pose proof Wp as [Hl [Hb Hm]]. pose proof (BITS_le f) as B1. pose proof (BITS_ge f) as B2.
  unfold tnext. destruct pc as [|ex r|fr r|fr k|fr k ptr|fr k ptr|fr k cur rc|fr k cur rc|fr rc
    |fr rc nn s0|r|]; try (now elim NF); simpl in I; cbn [tstep].
  - (* TStart *)
    destruct (N.eqb_spec (p_len p) 0) as [L|L].
    + destruct (walk_start_ok NSTRIDE NSTRIDE_nz f (t_heap t) (0, 0) (root_dom f)) as (w & E & O & L0).
      unfold root_node_id. rewrite E. cbn [bind].
      split; [easy|]. split; [simpl; auto|].
      split; [split; [apply hle_refl|]; split; [easy|]; split; [apply N.le_refl|easy]|].
      simpl. rewrite L0. lia.
    + assert (A0 : anc f p 0 = root_node_id).
      { unfold anc, root_node_id. now rewrite trunc_0. }
      destruct (next_turn_ok f (t_heap t) p 0 0 Wp) as (w & E & O & L0); [easy|lia|].
      rewrite A0 in E. rewrite E. cbn [bind]. apply vgood_same; auto; try easy.
      * simpl. split; [|split; [|easy]].
        -- exists 0, 0. split; [easy|]. split; [easy|]. split; [lia|].
           intros _ _. change (2 ^ (0 / 4)) with 1. lia.
        -- intros s0 _ Z. lia.
      * simpl. rewrite L0. lia.
  - (* TDefault *)
    destruct I as (L & DF & R).
    destruct (rstep_ok f (t_heap t) (0, 0) mui r NI (root_dom f) R) as (h' & o & E & NI' & H & Q & RO).
    unfold root_node_id. rewrite E. cbn [bind].
    apply vgood_heap; auto; try easy.
    + destruct o; simpl in *; auto; try easy. unfold inserted. now rewrite L.
    + destruct o; simpl; try lia. apply rstep_mu in E; auto using root_dom. lia.
  - (* TNode *)
    destruct I as ((s & acc & -> & M & Ls & A) & P & R). simpl in P, R. cbn [fr_cur mkframe].
    pose proof (anc_dom f p s Wp M ltac:(lia)) as D.
    destruct (rstep_ok f (t_heap t) (anc f p s) mui r NI D R) as (h' & o & E & NI' & H & Q & RO).
    rewrite E. cbn [bind].
    assert (FO : frame_ok f ov p (mkframe f p s acc)) by (exists s, acc; auto).
    assert (P' : path_done f h' p s) by (now apply (path_done_hle f (t_heap t))).
    apply vgood_heap; auto; try easy.
    + destruct o; [split; [easy|split; easy]|split; [easy|split; easy]|easy].
    + pose proof (rmu_pos r). destruct o; simpl; try lia. apply rstep_mu in E; auto. lia.
  - (* TLoadPtr *)
    destruct I as (FO & P & AT).
    destruct (at_id_lookup _ _ _ AT) as (v & DR & sl & LK). rewrite DR. cbn [bind].
    apply vgood_same; auto; try easy; [|simpl; lia].
    simpl. split; [easy|]. split; [easy|]. split; [easy|].
    exists v. split; [easy|]. apply bits_in_refl.
  - (* TLoadPfx *)
    destruct I as (FO & P & AT & SE). pose proof FO as (s & acc & -> & M & Ls & A).
    simpl in P, AT.
    destruct (at_id_lookup _ _ _ AT) as (v & DR & sl & LK). rewrite DR. cbn [bind].
    pose proof (at_id_nodes f _ _ _ _ _ NI LK) as NV.
    assert (Hnl : 0 < nib_len p s <= 4 /\ s + nib_len p s <= p_len p).
    { unfold nib_len. destruct (N.ltb_spec (p_len p) (s + 4)); lia. }
    change (fr_bs (mkframe f p s acc)) with (BS (slice W (p_bits p) s (nib_len p s)) (nib_len p s)).
    change (fr_last (mkframe f p s acc)) with (p_len p <=? s + 4).
    rewrite into_bit_pos_ok by (apply wf_bs_slice; lia). cbn [bind].
    destruct (N.leb_spec (p_len p) (s + 4)) as [Last|NLast]; cbn [negb].
    + destruct (span_here f p s M Ls Last) as (E1 & E2 & E3). rewrite E1, land_pow2_eq0.
      destruct (N.testbit (nv_pfx v) (bs_bit (span_of f p))) eqn:T; cbn [negb].
      * destruct (finish_ok f ov p s acc 0 true Ls ltac:(lia) A) as [(a & E)|(_ & E & S)].
        -- rewrite E. cbn [bind]. apply vgood_same; auto; try easy; [|simpl; lia].
           simpl. unfold inserted. destruct (N.eqb_spec (p_len p) 0); [lia|].
           split; [now rewrite <- E3|]. unfold stored. now rewrite E2, NV.
        -- rewrite E. cbn [bind]. apply vgood_panic; auto. simpl. lia.
      * apply vgood_same; auto; try easy.
        -- simpl. split; [easy|]. split; [easy|]. split; [easy|].
           split; [exists v; split; [easy|apply bits_in_refl]|].
           split; [now apply N.leb_le|]. pose proof (zeros_len pfx_pos (nv_pfx v)) as Z.
           change (length pfx_pos) with 30%nat in Z. lia.
        -- simpl. pose proof (zeros_len pfx_pos (nv_pfx v)) as Z.
           change (length pfx_pos) with 30%nat in Z. lia.
    + apply vgood_same; auto; try easy; [|simpl; lia]. simpl. repeat (split; [easy|]). now apply N.leb_gt.
  - (* TTestPtr *)
    destruct I as (FO & P & AT & SE & NL). pose proof FO as (s & acc & -> & M & Ls & A).
    simpl in P, AT, NL. apply N.leb_gt in NL.
    destruct (at_id_lookup _ _ _ AT) as (v & DR & sl & LK). rewrite DR. cbn [bind].
    pose proof (at_id_nodes f _ _ _ _ _ NI LK) as NV.
    assert (En : nib_len p s = 4).
    { unfold nib_len. destruct (N.ltb_spec (p_len p) (s + 4)); lia. }
    change (fr_bs (mkframe f p s acc)) with (BS (slice W (p_bits p) s (nib_len p s)) (nib_len p s)).
    change (fr_start (mkframe f p s acc)) with s. rewrite En.
    rewrite into_bit_pos_ok by (apply wf_bs_slice; lia). cbn [bind].
    assert (Hn : slice W (p_bits p) s 4 < 16) by apply slice_lt.
    rewrite stride_test_ok by auto.
    destruct (N.testbit (nv_ptr v) (ptr_bit (slice W (p_bits p) s 4))) eqn:T; cbn [negb].
    + unfold add_to_len, STRIDE_SIZE. simpl p_len. simpl p_bits.
      rewrite add8_ok by lia. cbn [bind].
      unfold node_truncate_to_len, new_with_cleaned_id. simpl p_bits. simpl p_len.
      rewrite truncate_to_len_ok by (auto; lia). fold (anc f p (s + 4)).
      destruct (go_on_ok f ov (t_heap t) p s acc 0 Wp M NL ltac:(lia) A)
        as [(a & w & E & O & L0 & A')|(_ & E & S)].
      * rewrite E. cbn [bind]. apply vgood_same; auto; try easy.
        -- simpl. split; [|split; [|easy]].
           ++ exists (s + 4), a. split; [easy|]. split; [dlia|]. split; [lia|easy].
           ++ eapply path_step; eauto.
        -- simpl. rewrite (next_later p s) by auto. rewrite L0. lia.
      * rewrite E. cbn [bind]. apply vgood_panic; auto. simpl. lia.
    + apply vgood_same; auto; try easy.
      * simpl. repeat (split; [easy|]). split; [now apply N.leb_gt|].
        pose proof (zeros_len ptr_pos ptr) as Z. change (length ptr_pos) with 16%nat in Z. lia.
      * simpl. pose proof (zeros_len ptr_pos ptr) as Z. change (length ptr_pos) with 16%nat in Z. lia.
  - (* TCasPtr *)
    destruct I as (FO & P & AT & SE & NL & RC). pose proof FO as (s & acc & -> & M & Ls & A).
    simpl in P, AT, NL. apply N.leb_gt in NL.
    destruct (at_id_lookup _ _ _ AT) as (v & DR & sl & LK). rewrite DR. cbn [bind].
    pose proof (at_id_nodes f _ _ _ _ _ NI LK) as NV.
    assert (En : nib_len p s = 4).
    { unfold nib_len. destruct (N.ltb_spec (p_len p) (s + 4)); lia. }
    change (fr_bs (mkframe f p s acc)) with (BS (slice W (p_bits p) s (nib_len p s)) (nib_len p s)).
    change (fr_start (mkframe f p s acc)) with s. rewrite En.
    rewrite into_bit_pos_ok by (apply wf_bs_slice; lia). cbn [bind].
    assert (Hn : slice W (p_bits p) s 4 < 16) by apply slice_lt.
    destruct (N.eqb_spec (nv_ptr v) cur) as [E|NE].
    + subst cur. rewrite new_ptr_ok by (auto; now apply (SM _ _ NV)).
      change (slice W (p_bits p) s 4) with (nib f p s).
      destruct (modify_nodes f (t_heap t) k (anc f p s)
        (set_arr true (N.lor (nv_ptr v) (2 ^ ptr_bit (nib f p s)))) NI AT) as [NI' N'].
      assert (H : hle (t_heap t) (modify k (set_arr true (N.lor (nv_ptr v) (2 ^ ptr_bit (nib f p s)))) (t_heap t))).
      { eapply hle_modify_at; [exact LK|]. apply nle_set_arr. apply bits_in_lor_l. }
      specialize (N' (anc f p s)). rewrite pid_eqb_refl, NV in N'.
      apply vgood_heap; auto; try easy.
      * simpl. split; [easy|]. split; [|split; [now apply N.leb_gt|lia]].
        eapply (path_step f (wf_pid f) (fun q H0 => H0)); [exact Wp|exact M| |exact N'|].
        -- now apply (path_done_hle f (t_heap t)).
        -- simpl. rewrite N.lor_spec, testbit_pow2, N.eqb_refl. apply orb_true_r.
      * simpl. lia.
    + destruct SE as (v1 & DR1 & SE). rewrite DR in DR1. injection DR1 as <-. simpl in SE.
      assert (Z : (zeros ptr_pos (nv_ptr v) < zeros ptr_pos cur)%nat).
      { apply zeros_lt; auto. intros i T. destruct (SM _ _ NV) as [S1 _]. destruct (N.lt_ge_cases i 16);
          [unfold ptr_pos; apply in_map_iff; exists (N.to_nat i); split; [lia|]; apply in_seq; lia|].
        rewrite (testbit_above _ 16) in T by auto. discriminate. }
      destruct (add32_safe ov rc 1) as (rc' & E & E').
      { left. change (2 ^ 32) with (2 ^ 28 * 16). lia. }
      rewrite E. cbn [bind].
      assert (rc' = rc + 1) as ->.
      { unfold add32 in E. destruct (N.ltb_spec (rc + 1) (2 ^ 32)); [congruence|].
        change (2 ^ 32) with (2 ^ 28 * 16) in *. lia. }
      apply vgood_same; auto; try easy; [|simpl; lia].
      simpl. split; [easy|]. split; [easy|]. split; [easy|].
      split; [exists v; split; [easy|apply bits_in_refl]|]. split; [now apply N.leb_gt|lia].
  - (* TCasPfx *)
    destruct I as (FO & P & AT & SE & NL & RC). pose proof FO as (s & acc & -> & M & Ls & A).
    simpl in P, AT, NL. apply N.leb_le in NL.
    destruct (at_id_lookup _ _ _ AT) as (v & DR & sl & LK). rewrite DR. cbn [bind].
    pose proof (at_id_nodes f _ _ _ _ _ NI LK) as NV.
    assert (Hnl : 0 < nib_len p s <= 4 /\ s + nib_len p s <= p_len p).
    { unfold nib_len. destruct (N.ltb_spec (p_len p) (s + 4)); lia. }
    change (fr_bs (mkframe f p s acc)) with (BS (slice W (p_bits p) s (nib_len p s)) (nib_len p s)).
    rewrite into_bit_pos_ok by (apply wf_bs_slice; lia). cbn [bind].
    destruct (span_here f p s M Ls NL) as (E1 & E2 & E3).
    destruct (N.eqb_spec (nv_pfx v) cur) as [E|NE].
    + subst cur. rewrite E1.
      assert (AT2 : at_id (t_heap t) k (node_of f p)) by (now rewrite E2).
      destruct (modify_nodes f (t_heap t) k (node_of f p)
        (set_arr false (N.lor (2 ^ bs_bit (span_of f p)) (nv_pfx v))) NI AT2) as [NI' N'].
      assert (H : hle (t_heap t) (modify k (set_arr false (N.lor (2 ^ bs_bit (span_of f p)) (nv_pfx v))) (t_heap t))).
      { eapply hle_modify_at; [exact LK|]. apply nle_set_arr. apply bits_in_lor_r. }
      specialize (N' (node_of f p)). rewrite pid_eqb_refl, E2, NV in N'. rewrite <- E2 in N'.
      assert (ST : stored f (modify k (set_arr false (N.lor (2 ^ bs_bit (span_of f p)) (nv_pfx v))) (t_heap t)) p = true).
      { unfold stored. rewrite N'. simpl. now rewrite N.lor_spec, testbit_pow2, N.eqb_refl. }
      apply vgood_heap; auto; try easy.
      * destruct (finish_ok f ov p s acc rc false Ls ltac:(lia) A) as [(a & E)|(E & _ & S)].
        -- rewrite E. cbn [or_panic].
           simpl. unfold inserted. destruct (N.eqb_spec (p_len p) 0); [lia|].
           split; [|easy]. rewrite <- E3. now apply (path_done_hle f (t_heap t)).
        -- rewrite E. easy.
      * unfold finish. cbn [fr_acc mkframe]. unfold add32.
        destruct (_ <? _); cbn [bind or_panic]; [simpl; lia|]. destruct ov; simpl; lia.
    + destruct SE as (v1 & DR1 & SE). rewrite DR in DR1. injection DR1 as <-. simpl in SE.
      assert (Z : (zeros pfx_pos (nv_pfx v) < zeros pfx_pos cur)%nat).
      { apply zeros_lt; auto. intros i. now apply (SM _ _ NV). }
      destruct (add32_safe ov rc 1) as (rc' & E & E').
      { left. change (2 ^ 32) with (2 ^ 28 * 16). lia. }
      rewrite E. cbn [bind].
      assert (rc' = rc + 1) as ->.
      { unfold add32 in E. destruct (N.ltb_spec (rc + 1) (2 ^ 32)); [congruence|].
        change (2 ^ 32) with (2 ^ 28 * 16) in *. lia. }
      apply vgood_same; auto; try easy; [|simpl; lia].
      simpl. split; [easy|]. split; [easy|]. split; [easy|].
      split; [exists v; split; [easy|apply bits_in_refl]|]. split; [now apply N.leb_le|lia].
  - (* TCount *)
    destruct I as (FO & P & NL & RC). pose proof FO as (s & acc & -> & M & Ls & A).
    simpl in P, NL. apply N.leb_gt in NL.
    rewrite next_id_ok by auto. cbn [bind].
    pose proof (anc_dom f p (s + 4) Wp ltac:(dlia) ltac:(lia)) as D.
    destruct (walk_start_ok NSTRIDE NSTRIDE_nz f (t_heap t) (anc f p (s + 4)) D) as (w & E & O & L0).
    rewrite E. cbn [bind].
    split; [easy|]. split.
    { simpl. split; [easy|]. split; [easy|]. split; [now apply N.leb_gt|]. auto. }
    split; [split; [apply hle_refl|]; split; [easy|]; split; [simpl; lia|easy]|].
    simpl. rewrite L0. lia.
  - (* TStore *)
    destruct I as (FO & P & NL & RC & -> & SI). pose proof FO as (s & acc & -> & M & Ls & A).
    simpl in P, NL, SI. apply N.leb_gt in NL.
    rewrite next_id_ok by auto. cbn [bind].
    pose proof (anc_dom f p (s + 4) Wp ltac:(dlia) ltac:(lia)) as D.
    destruct (sstep_ok f (t_heap t) (anc f p (s + 4)) mui s0 NI D SI) as (h' & o & E & NI' & H & Q & SO).
    rewrite E. cbn [bind].
    assert (P' : path_done f h' p (s + 4)) by (now apply (path_done_hle f (t_heap t))).
    pose proof (smu_pos f _ _ _ SI) as SP.
    destruct (go_on_ok f ov h' p s acc rc Wp M NL RC A) as [(a & w & E' & O & L0 & A')|(E' & _ & S)].
    + apply vgood_heap; auto; try easy.
      * destruct o as [s1|o]; [|simpl in SO; subst o; rewrite E'].
        -- simpl. split; [easy|]. split; [easy|]. split; [now apply N.leb_gt|]. auto.
        -- simpl. split; [|auto].
           exists (s + 4), a. split; [easy|]. split; [dlia|]. split; [lia|easy].
      * destruct o as [s1|o]; [|simpl in SO; subst o; rewrite E'].
        -- simpl. apply sstep_mu in E; auto. lia.
        -- simpl. rewrite (next_later p s) by auto. rewrite L0. lia.
    + apply vgood_heap; auto; try easy.
      * destruct o as [s1|o]; [|simpl in SO; subst o; now rewrite E'].
        simpl. split; [easy|]. split; [easy|]. split; [now apply N.leb_gt|]. auto.
      * destruct o as [s1|o]; [|simpl in SO; subst o; rewrite E'; simpl; lia].
        simpl. apply sstep_mu in E; auto. lia.
Qed.


(* ---------- the same step on the memory ---------- *)

Lemma tI_known p m v pc : known f m v -> ninv f (t_heap m) -> tI f ov p v pc -> tI f ov p m pc.
Proof.
  intros K I T. pose proof (known_ninv f m v K I) as IV.
  assert (R : tR v (Tree (t_heap m) (t_withdrawn v) (t_nodes v) (t_default m))).
  { split; [apply K|]. split; [apply K|]. split; [apply N.le_refl|easy]. }
  pose proof (tI_R f ov p v (Tree (t_heap m) (t_withdrawn v) (t_nodes v) (t_default m)) pc IV I R T) as Q. destruct pc; simpl in *; auto.
Qed.

Lemma tnext_reads p mui t pc :
  match pc with TLoadPtr _ _ | TLoadPfx _ _ _ | TTestPtr _ _ _ | TDone _ | TPanic => True | _ => False end ->
  fst (tnext f ov p mui t pc) = t.
Proof.
  unfold tnext. destruct pc; try easy; intros _; cbn [tstep].
  - destruct (deref _ _); easy.
  - destruct (deref _ _); cbn [bind]; try easy. destruct (into_bit_pos _); cbn [bind]; try easy.
    destruct (negb _); [easy|]. destruct (_ =? 0); [easy|]. destruct (finish _ _ _ _); easy.
  - destruct (deref _ _); cbn [bind]; try easy. destruct (into_bit_pos _); cbn [bind]; try easy.
    destruct (_ =? 0); [easy|]. destruct (add_to_len _ _); cbn [bind]; try easy. destruct (go_on _ _ _ _ _ _ _); easy.
Qed.

Lemma deref_hle k v m x : hle v m -> deref k v = Ok x -> exists y, deref k m = Ok y /\ nle x y.
Proof.
  intros H. unfold deref. destruct (lookup k v) as [e|] eqn:L; [|easy]. intros E. injection E as <-.
  destruct (H _ _ L) as (e' & -> & _ & _ & N). eauto.
Qed.

Lemma cas_le isptr x k v m a : hle v m -> deref k v = Ok a ->
  hle (modify k (set_arr isptr x) v) (modify k (set_arr isptr x) m).
Proof.
  intros H D. unfold deref in D. destruct (lookup k v) as [e|] eqn:L; [|easy].
  eapply hle_modify2; eauto. intros e' _. apply nle_arr2.
Qed.

Lemma tnext_le p mui m v pc : wf_pid f p -> known f m v -> ninv f (t_heap m) -> tI f ov p v pc ->
  agrees f p m v pc ->
  let m' := fst (tnext f ov p mui m pc) in let v' := fst (tnext f ov p mui v pc) in
  hle (t_heap v') (t_heap m') /\ (t_default v' = true -> t_default m' = true).
Proof.
  intros Wp K I T A. pose proof (known_ninv f m v K I) as IV. destruct K as [H Cl DF].
  pose proof Wp as [Hl [Hb Hm]]. pose proof (BITS_le f) as B1.
  cbv zeta.
  assert (RD : match pc with TLoadPtr _ _ | TLoadPfx _ _ _ | TTestPtr _ _ _ | TDone _ | TPanic => True | _ => False end ->
    hle (t_heap (fst (tnext f ov p mui v pc))) (t_heap (fst (tnext f ov p mui m pc))) /\
    (t_default (fst (tnext f ov p mui v pc)) = true -> t_default (fst (tnext f ov p mui m pc)) = true)).
  { intros X. rewrite !tnext_reads by auto. auto. }
  destruct pc as [|ex r|fr r|fr k|fr k ptr|fr k ptr|fr k cur rc|fr k cur rc|fr rc
    |fr rc nn s0|r|]; try (apply RD; exact Logic.I); clear RD; simpl in T; simpl in A; unfold tnext; cbn [tstep].
  - destruct (p_len p =? 0).
    + destruct (walk_start _ _ _); cbn [bind fst]; auto.
    + destruct (next_turn _ _ _ _ _); cbn [bind fst]; auto.
  - destruct T as (L & _ & R).
    destruct (rstep_ok f (t_heap v) (0, 0) mui r IV (root_dom f) R) as (v' & o & E & _).
    destruct (rstep_le (t_heap m) (t_heap v) (0, 0) mui r v' o I IV H (root_dom f) R) as (m' & o' & E' & H'); auto.
    unfold root_node_id. rewrite E, E'. cbn [bind fst]. auto.
  - destruct T as ((s & acc & -> & M & Ls & _) & _ & R). simpl in R. cbn [fr_cur mkframe] in *.
    pose proof (anc_dom f p s Wp M ltac:(lia)) as D.
    destruct (rstep_ok f (t_heap v) (anc f p s) mui r IV D R) as (v' & o & E & _).
    destruct (rstep_le (t_heap m) (t_heap v) (anc f p s) mui r v' o I IV H D R) as (m' & o' & E' & H'); auto.
    rewrite E, E'. cbn [bind fst]. auto.
  - destruct T as (_ & _ & AT & _). destruct (at_id_lookup _ _ _ AT) as (x & DR & _).
    destruct (deref_hle _ _ _ _ H DR) as (y & DR' & NL). rewrite DR, DR'. cbn [bind].
    destruct (into_bit_pos _); cbn [bind fst]; auto.
    specialize (A _ _ DR DR'). simpl in A.
    destruct (N.eqb_spec (nv_ptr x) cur), (N.eqb_spec (nv_ptr y) cur); try (exfalso; tauto).
    + cbn [fst]. simpl. split; [|easy]. eapply cas_le; eauto.
    + destruct (add32 _ _ _); cbn [bind fst]; auto.
  - destruct T as (_ & _ & AT & _). destruct (at_id_lookup _ _ _ AT) as (x & DR & _).
    destruct (deref_hle _ _ _ _ H DR) as (y & DR' & NL). rewrite DR, DR'. cbn [bind].
    destruct (into_bit_pos _); cbn [bind fst]; auto.
    specialize (A _ _ DR DR'). simpl in A.
    destruct (N.eqb_spec (nv_pfx x) cur), (N.eqb_spec (nv_pfx y) cur); try (exfalso; tauto).
    + cbn [fst]. simpl. split; [|easy]. eapply cas_le; eauto.
    + destruct (add32 _ _ _); cbn [bind fst]; auto.
  - destruct (new_id _ _ _); cbn [bind fst]; auto. destruct (walk_start _ _ _); cbn [bind fst]; auto.
  - destruct T as ((s & acc & -> & M & Ls & _) & _ & LF & _ & -> & R). simpl in LF, R.
    apply N.leb_gt in LF.
    rewrite (next_id_ok f p s acc Wp M LF) in *. cbn [bind].
    pose proof (anc_dom f p (s + 4) Wp ltac:(dlia) ltac:(lia)) as D.
    destruct (sstep_ok f (t_heap v) (anc f p (s + 4)) mui s0 IV D R) as (v' & o & E & _).
    destruct (sstep_le (t_heap m) (t_heap v) (anc f p (s + 4)) mui s0 v' o I IV H D R) as (m' & o' & E' & H').
    { destruct s0; auto. }
    { auto. }
    rewrite E, E'. cbn [bind fst]. auto.
Qed.

End S.
