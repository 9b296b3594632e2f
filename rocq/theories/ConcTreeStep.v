(* One step of set_prefix_exists among others: what it keeps, and how many steps
   a call can take. *)
From Coq Require Import Arith NArith List Bool Lia.
From Verif Require Import Word Af BitSpan Maps ChtMath Cht Node Tree ChainProofs TreeProofs
  ConcMarks ConcTree ConcTreeProofs ConcTreeInv.
Import ListNotations.
Local Open Scope N_scope.

(* ---------- how many steps are left ---------- *)

Definition rmu (r : rpc) : N :=
  match r with
  | RGet w => 2 * (32 - w_level w) + 2
  | RInit w => 2 * (32 - w_level w) + 1
  | RRbm _ => 1
  end.

Definition smu (s : spc) : N :=
  match s with
  | SGet w => 2 * (32 - w_level w) + 3
  | SInit w => 2 * (32 - w_level w) + 2
  | SRbm _ _ _ => 1
  | SMerge _ _ _ _ => 0
  end.

Lemma rmu_pos r : 1 <= rmu r.
Proof. destruct r; simpl; lia. Qed.
Lemma smu_pos f h id s : sI f h id s -> 1 <= smu s.
Proof. destruct s; simpl; try easy; lia. Qed.

(* the steps of the turns of the loop after the one at depth s *)
Definition later (p : pid) (s : N) : N := 170 * ((p_len p - s - 1) / 4).

Definition tmu (p : pid) (pc : tpc) : N :=
  match pc with
  | TStart => later p 0 + 170
  | TDefault _ r => 1 + rmu r
  | TNode fr r => later p (fr_start fr) + 102 + rmu r
  | TLoadPtr fr _ => later p (fr_start fr) + 102
  | TLoadPfx fr _ _ => later p (fr_start fr) + 101
  | TTestPtr fr _ _ => later p (fr_start fr) + 100
  | TCasPtr fr _ cur _ => later p (fr_start fr) + 69 + N.of_nat (zeros ptr_pos cur)
  | TCasPfx fr _ cur _ => later p (fr_start fr) + 69 + N.of_nat (zeros pfx_pos cur)
  | TCount fr _ => later p (fr_start fr) + 68
  | TStore fr _ _ s => later p (fr_start fr) + smu s
  | TDone _ | TPanic => 0
  end.

(* no call takes more steps than this *)
Definition TSTEPS : N := 170 * 32.

Lemma start_mu f p : wf_pid f p -> tmu p TStart <= TSTEPS.
Proof.
  intros [L _]. pose proof (BITS_le f). unfold tmu, later, TSTEPS.
  assert ((p_len p - 0 - 1) / 4 <= 31) by dlia. lia.
Qed.

Lemma zeros_len l x : (zeros l x <= length l)%nat.
Proof. unfold zeros. induction l as [|i l IH]; simpl; [lia|]. destruct (negb _); simpl; lia. Qed.

Lemma walk_level f h id w : ndom f id -> walk_ok NSTRIDE f (h : heap nodeval) id w -> w_level w < 32.
Proof.
  intros D (k & K & -> & _). simpl. unfold nlev in K.
  pose proof (nlevels_le f (p_len id) (proj1 (proj1 D))). lia.
Qed.

Lemma rcheck_mu id w index e r : w_level w < 32 -> rcheck id w index e = Ok (RMore r) ->
  rmu r < 2 * (32 - w_level w) + 1.
Proof.
  intros L. unfold rcheck. destruct (pid_eqb id (e_id e)).
  - intros E. injection E as <-. simpl. lia.
  - unfold add8. destruct (w_level w + 1 <=? 255); cbn [bind]; [|discriminate].
    destruct (nodeset_size _ _); cbn [bind]; try discriminate.
    destruct (0 <? _); [|discriminate].
    intros E. injection E as <-. simpl. lia.
Qed.

Lemma rstep_mu f h id mui r h' r' : ndom f id -> rI f h id r ->
  rstep f id mui h r = Ok (h', RMore r') -> rmu r' < rmu r.
Proof.
  intros D R. destruct r as [w|w|k]; simpl in R; unfold rstep.
  - pose proof (walk_level _ _ _ _ D R) as L.
    destruct (hash_id _ _ _); cbn [bind]; try discriminate.
    destruct (slot_get _ _ _ _ _) as [e|].
    + destruct (rcheck _ _ _ _) eqn:X; cbn [bind]; try discriminate.
      intros E. injection E as _ ->. apply rcheck_mu in X; auto. simpl. lia.
    + intros E. injection E as _ <-. simpl. lia.
  - pose proof (walk_level _ _ _ _ D R) as L.
    destruct (hash_id _ _ _); cbn [bind]; try discriminate.
    destruct (add8 _ _); cbn [bind]; try discriminate.
    destruct (nodeset_size _ _); cbn [bind]; try discriminate.
    destruct (slot_get_or_init _ _ _ _ _ _) as [[[h1 e] b]| |]; cbn [bind]; try discriminate.
    destruct (rcheck _ _ _ _) eqn:X; cbn [bind]; try discriminate.
    intros E. injection E as _ ->. apply rcheck_mu in X; auto.
  - discriminate.
Qed.

Lemma sstep_mu f h id mui s h' s' : ndom f id -> sI f h id s ->
  sstep f id mui node_new h s = Ok (h', SMore s') -> smu s' < smu s.
Proof.
  intros D R. destruct s as [w|w|k todo rc|]; simpl in R; unfold sstep; [| | |easy].
  - pose proof (walk_level _ _ _ _ D R) as L.
    destruct (hash_id _ _ _); cbn [bind]; try discriminate.
    destruct (slot_get _ _ _ _ _) as [e|].
    + destruct (pid_eqb id (e_id e)).
      * intros E. injection E as _ <-. simpl. lia.
      * unfold add8. destruct (w_level w + 1 <=? 255); cbn [bind]; [|discriminate].
        destruct (nodeset_size _ _); cbn [bind]; try discriminate.
        destruct (0 <? _); [|discriminate].
        intros E. injection E as _ <-. simpl. lia.
    + intros E. injection E as _ <-. simpl. lia.
  - pose proof (walk_level _ _ _ _ D R) as L.
    destruct (hash_id _ _ _); cbn [bind]; try discriminate.
    destruct (add8 _ _); cbn [bind]; try discriminate.
    destruct (nodeset_size _ _); cbn [bind]; try discriminate.
    destruct (slot_get_or_init _ _ _ _ _ _) as [[[h1 e] b]| |]; cbn [bind]; try discriminate.
    destruct (pid_eqb _ _); [|discriminate].
    intros E. injection E as _ <-. simpl. lia.
  - destruct R as (_ & -> & _). discriminate.
Qed.

(* ---------- one step ---------- *)

(* is the prefix marked as present? *)
Definition present (f : af) (t : tree) (q : pid) : bool :=
  if p_len q =? 0 then t_default t else stored f (t_heap t) q.

(* the thread has made its prefix present, and will say that it is new *)
Definition made (pc : tpc) : Prop :=
  match pc with
  | TDefault existed _ => existed = false
  | TDone (ROk (_, existed)) => existed = false
  | TPanic => True
  | _ => False
  end.

Section S.
Variable f : af.
Variable ov : bool.
Notation W := (BITS f).
Variable C : pid -> Prop.
Hypothesis Cwf : forall p, C p -> wf_pid f p.

Lemma ptr_bits h id v i : hG f C h -> nodes f h id = Some v ->
  N.testbit (nv_ptr v) i = true -> In i ptr_pos.
Proof.
  intros G N T. destruct (g_node _ _ _ G _ _ N) as [_ B].
  destruct (N.lt_ge_cases i 16).
  - unfold ptr_pos. apply in_map_iff. exists (N.to_nat i). split; [lia|]. apply in_seq. lia.
  - rewrite (testbit_above _ 16) in T by auto. discriminate.
Qed.

Lemma pfx_bits h id v i : hG f C h -> nodes f h id = Some v ->
  N.testbit (nv_pfx v) i = true -> In i pfx_pos.
Proof.
  intros G N T. destruct (g_pfx _ _ _ G _ _ _ N T) as (p & _ & L & _ & ->).
  pose proof (span_bit f p L). unfold pfx_pos. apply in_map_iff.
  exists (N.to_nat (bs_bit (span_of f p))). split; [lia|]. apply in_seq. lia.
Qed.

(* no phantoms *)
Lemma present_called t q : tG f C t -> wf_pid f q -> present f t q = true -> C q.
Proof.
  intros [G D] Wq. unfold present. destruct (N.eqb_spec (p_len q) 0) as [L|L].
  - intros P. destruct (D P) as (p & Cp & Lp). assert (p = q); [|congruence].
    destruct (Cwf _ Cp) as (_ & Hb & Hm), Wq as (_ & Hb' & Hm').
    destruct p as [pb pl], q as [qb ql]; simpl in *. subst pl ql.
    rewrite N.sub_0_r in *. rewrite N.mod_small in Hm, Hm' by auto. congruence.
  - unfold stored. destruct (nodes f (t_heap t) (node_of f q)) as [v|] eqn:N; [|easy].
    intros T. destruct (g_pfx _ _ _ G _ _ _ N T) as (p & Cp & Lp & E1 & E2).
    assert (p = q); [|congruence].
    apply (place_inj f); auto.
    apply bs_index_inj; try apply wf_span.
    pose proof (bs_index_lt _ (wf_span f p)). pose proof (bs_index_lt _ (wf_span f q)).
    unfold bs_bit in E2. lia.
Qed.

Lemma stored_quiet h h' id q : quiet f id h h' -> stored f h' q = true -> stored f h q = true.
Proof.
  intros Q. unfold stored. destruct (nodes f h' (node_of f q)) as [v'|] eqn:N; [|easy].
  destruct (Q _ _ N) as [(v & N0 & _ & E)|(_ & _ & E)]; rewrite E.
  - now rewrite N0.
  - now rewrite N.bits_0.
Qed.

(* the outcome of a step *)
Definition good (p : pid) (t : tree) (pc : tpc) (x : tree * tpc) : Prop :=
  let '(t', pc') := x in
  tG f C t' /\ tI f ov p t' pc' /\ tR t t' /\ tmu p pc' < tmu p pc /\
  (made pc -> made pc') /\
  (forall q, wf_pid f q -> present f t' q = true ->
     present f t q = true \/ q = p /\ made pc').

(* steps that leave the tree alone *)
Lemma good_same p t pc pc' : tG f C t -> tI f ov p t pc' -> tmu p pc' < tmu p pc ->
  (made pc -> made pc') -> good p t pc (t, pc').
Proof. intros A B D E. split; [easy|]. split; [easy|]. split; [apply tR_refl|]. auto. Qed.

(* steps that change the nodes only *)
Lemma good_heap p t pc h' pc' : tG f C t -> hG f C h' -> hle (t_heap t) h' ->
  tI f ov p (set_heap t h') pc' -> tmu p pc' < tmu p pc -> (made pc -> made pc') ->
  (forall q, wf_pid f q -> 0 < p_len q -> stored f h' q = true ->
     stored f (t_heap t) q = true \/ q = p /\ made pc') ->
  good p t pc (set_heap t h', pc').
Proof.
  intros [A0 A1] B H I M N P. split; [now split|]. split; [easy|].
  split; [split; [easy|]; split; [auto|]; split; [apply N.le_refl|easy]|].
  split; [easy|]. split; [easy|]. intros q Wq. unfold present.
  destruct (N.eqb_spec (p_len q) 0); [auto|]. intros T. apply P in T; auto. lia.
Qed.

Lemma later_next p s : s mod 4 = 0 -> s + 4 < p_len p -> later p s = later p (s + 4) + 170.
Proof.
  intros M L. unfold later.
  replace ((p_len p - s - 1) / 4) with ((p_len p - (s + 4) - 1) / 4 + 1) by dlia. lia.
Qed.

Lemma root_dom : ndom f (0, 0).
Proof. split; [|easy]. repeat split; simpl; try lia; auto. Qed.

Lemma root_justified h : hG f C h -> p_len ((0, 0) : pid) < W.
Proof. intros _. simpl. apply BITS_pos. Qed.

(* the node of the current turn may be created *)
Lemma cur_justified h p s : wf_pid f p -> s mod 4 = 0 -> s < p_len p -> path_done f h p s ->
  p_len (anc f p s) < W /\
  (0 < p_len (anc f p s) -> exists v', nodes f h (parent f (anc f p s)) = Some v' /\
      N.testbit (nv_ptr v') (ptr_bit (slice W (p_bits (anc f p s)) (p_len (anc f p s) - 4) 4)) = true).
Proof.
  intros Wp M L P. split; [simpl; destruct Wp; lia|]. simpl p_len. intros Z.
  assert (E : s = s - 4 + 4) by dlia.
  destruct (anc_parent f p (s - 4) Wp) as [E1 E2]; try dlia.
  rewrite <- E in E1, E2. rewrite E1. simpl p_len in E2. rewrite E2. apply P; dlia.
Qed.

Lemma span_here p s : s mod 4 = 0 -> s < p_len p -> p_len p <= s + 4 ->
  BS (slice W (p_bits p) s (nib_len p s)) (nib_len p s) = span_of f p /\
  node_of f p = anc f p s /\ s = nlen (p_len p).
Proof.
  intros M L Le. assert (Es : s = nlen (p_len p)) by (now apply nlen_unique).
  assert (En : nib_len p s = p_len p - s).
  { unfold nib_len. destruct (N.ltb_spec (p_len p) (s + 4)); lia. }
  unfold span_of, node_of, anc. now rewrite En, <- Es.
Qed.

Lemma path_step h p s v : wf_pid f p -> s mod 4 = 0 -> path_done f h p s ->
  nodes f h (anc f p s) = Some v -> N.testbit (nv_ptr v) (ptr_bit (nib f p s)) = true ->
  path_done f h p (s + 4).
Proof.
  intros Wp M P N T s0 M0 L0. destruct (N.lt_ge_cases s0 s); [now apply P|].
  assert (s0 = s) as -> by dlia. eauto.
Qed.

Lemma good_panic p t pc : tG f C t -> ~ acc_safe ov p -> 0 < tmu p pc -> good p t pc (t, TPanic).
Proof. intros. apply good_same; simpl; auto. Qed.

Lemma tnext_good p mui t pc : C p -> tG f C t -> tI f ov p t pc ->
  match pc with TDone _ | TPanic => False | _ => True end ->
  good p t pc (tnext f ov p mui t pc).
Proof.
  intros Cp G I NF. pose proof (Cwf _ Cp) as Wp. pose proof G as [GH GD].
  pose proof (g_cht _ _ _ GH) as NI.
  pose proof Wp as [Hl [Hb Hm]]. pose proof (BITS_le f) as B1. pose proof (BITS_ge f) as B2.
  unfold tnext. destruct pc as [|ex r|fr r|fr k|fr k ptr|fr k ptr|fr k cur rc|fr k cur rc|fr rc
    |fr rc nn s0|r|]; try easy; simpl in I; cbn [tstep].
  - (* TStart *)
    destruct (N.eqb_spec (p_len p) 0) as [L|L].
    + destruct (walk_start_ok NSTRIDE NSTRIDE_nz f (t_heap t) (0, 0) root_dom) as (w & E & O & L0).
      unfold root_node_id. rewrite E. cbn [bind].
      split; [split; simpl; eauto|]. split; [simpl; auto|].
      split; [split; [apply hle_refl|]; split; [easy|]; split; [apply N.le_refl|easy]|].
      split; [simpl; rewrite L0; lia|]. split; [easy|].
      intros q Wq. unfold present. simpl. destruct (N.eqb_spec (p_len q) 0) as [Lq|]; [|auto].
      intros _. destruct (t_default t); [auto|]. right. split; [|easy].
      destruct Wq as (_ & Hb' & Hm').
      destruct p as [pb pl], q as [qb ql]; simpl in *. subst pl ql.
      rewrite N.sub_0_r in *. rewrite N.mod_small in Hm, Hm' by auto. congruence.
    + assert (A0 : anc f p 0 = root_node_id).
      { unfold anc, root_node_id. now rewrite trunc_0. }
      destruct (next_turn_ok f (t_heap t) p 0 0 Wp) as (w & E & O & L0); [easy|lia|].
      rewrite A0 in E. rewrite E. cbn [bind]. apply good_same; auto; try easy.
      * simpl. split; [|split; [|easy]].
        -- exists 0, 0. split; [easy|]. split; [easy|]. split; [lia|].
           intros _ _. change (2 ^ (0 / 4)) with 1. lia.
        -- intros s0 _ Z. lia.
      * simpl. rewrite L0. lia.
  - (* TDefault *)
    destruct I as (L & DF & R).
    destruct (rstep_ok f (t_heap t) (0, 0) mui r NI root_dom R) as (h' & o & E & NI' & H & Q & RO).
    unfold root_node_id. rewrite E. cbn [bind].
    assert (HG' : hG f C h').
    { eapply hG_quiet; eauto; simpl; [apply BITS_pos|lia]. }
    apply good_heap; auto; try easy.
    + destruct o; simpl in *; auto; try easy. unfold inserted. now rewrite L.
    + destruct o; simpl; try lia. apply rstep_mu in E; auto using root_dom. lia.
    + destruct o; simpl; auto.
    + intros q _ _ T. left. eapply stored_quiet; eauto.
  - (* TNode *)
    destruct I as ((s & acc & -> & M & Ls & A) & P & R). simpl in P, R. cbn [fr_cur mkframe].
    pose proof (anc_dom f p s Wp M ltac:(lia)) as D.
    destruct (rstep_ok f (t_heap t) (anc f p s) mui r NI D R) as (h' & o & E & NI' & H & Q & RO).
    rewrite E. cbn [bind].
    destruct (cur_justified (t_heap t) p s Wp M Ls P) as [J1 J2].
    assert (HG' : hG f C h').
    { eapply hG_quiet; eauto. }
    assert (FO : frame_ok f ov p (mkframe f p s acc)) by (exists s, acc; auto).
    assert (P' : path_done f h' p s) by (now apply (path_done_hle f (t_heap t))).
    apply good_heap; auto; try easy.
    + destruct o; [split; [easy|split; easy]|split; [easy|split; easy]|easy].
    + pose proof (rmu_pos r). destruct o; simpl; try lia. apply rstep_mu in E; auto. lia.
    + intros q _ _ T. left. eapply stored_quiet; eauto.
  - (* TLoadPtr *)
    destruct I as (FO & P & AT).
    destruct (at_id_lookup _ _ _ AT) as (v & DR & sl & LK). rewrite DR. cbn [bind].
    apply good_same; auto; try easy; [|simpl; lia].
    simpl. split; [easy|]. split; [easy|]. split; [easy|].
    exists v. split; [easy|]. apply bits_in_refl.
  - (* TLoadPfx *)
    destruct I as (FO & P & AT & SE). pose proof FO as (s & acc & -> & M & Ls & A).
    simpl in P, AT.
    destruct (at_id_lookup _ _ _ AT) as (v & DR & sl & LK). rewrite DR. cbn [bind].
    pose proof (at_id_nodes f _ _ _ _ _ NI LK) as NV.
    assert (Hnl : 0 < nib_len p s <= 4 /\ s + nib_len p s <= p_len p).
    { unfold nib_len. destruct (N.ltb_spec (p_len p) (s + 4)); lia. }
    change (fr_bs (mkframe f p s acc)) with (BS (slice W (p_bits p) s (nib_len p s)) (nib_len p s)).
    change (fr_last (mkframe f p s acc)) with (p_len p <=? s + 4).
    rewrite into_bit_pos_ok by (apply wf_bs_slice; lia). cbn [bind].
    destruct (N.leb_spec (p_len p) (s + 4)) as [Last|NLast]; cbn [negb].
    + destruct (span_here p s M Ls Last) as (E1 & E2 & E3). rewrite E1, land_pow2_eq0.
      destruct (N.testbit (nv_pfx v) (bs_bit (span_of f p))) eqn:T; cbn [negb].
      * destruct (finish_ok f ov p s acc 0 true Ls ltac:(lia) A) as [(a & E)|(_ & E & S)].
        -- rewrite E. cbn [bind]. apply good_same; auto; try easy; [|simpl; lia].
           simpl. unfold inserted. destruct (N.eqb_spec (p_len p) 0); [lia|].
           split; [now rewrite <- E3|]. unfold stored. now rewrite E2, NV.
        -- rewrite E. cbn [bind]. apply good_panic; auto. simpl. lia.
      * apply good_same; auto; try easy.
        -- simpl. split; [easy|]. split; [easy|]. split; [easy|].
           split; [exists v; split; [easy|apply bits_in_refl]|].
           split; [now apply N.leb_le|]. pose proof (zeros_len pfx_pos (nv_pfx v)) as Z.
           change (length pfx_pos) with 30%nat in Z. lia.
        -- simpl. pose proof (zeros_len pfx_pos (nv_pfx v)) as Z.
           change (length pfx_pos) with 30%nat in Z. lia.
    + apply good_same; auto; try easy; [|simpl; lia]. simpl. repeat (split; [easy|]). now apply N.leb_gt.
  - (* TTestPtr *)
    destruct I as (FO & P & AT & SE & NL). pose proof FO as (s & acc & -> & M & Ls & A).
    simpl in P, AT, NL. apply N.leb_gt in NL.
    destruct (at_id_lookup _ _ _ AT) as (v & DR & sl & LK). rewrite DR. cbn [bind].
    pose proof (at_id_nodes f _ _ _ _ _ NI LK) as NV.
    assert (En : nib_len p s = 4).
    { unfold nib_len. destruct (N.ltb_spec (p_len p) (s + 4)); lia. }
    change (fr_bs (mkframe f p s acc)) with (BS (slice W (p_bits p) s (nib_len p s)) (nib_len p s)).
    change (fr_start (mkframe f p s acc)) with s. rewrite En.
    rewrite into_bit_pos_ok by (apply wf_bs_slice; lia). cbn [bind].
    assert (Hn : slice W (p_bits p) s 4 < 16) by apply slice_lt.
    rewrite stride_test_ok by auto.
    destruct (N.testbit (nv_ptr v) (ptr_bit (slice W (p_bits p) s 4))) eqn:T; cbn [negb].
    + unfold add_to_len, STRIDE_SIZE. simpl p_len. simpl p_bits.
      rewrite add8_ok by lia. cbn [bind].
      unfold node_truncate_to_len, new_with_cleaned_id. simpl p_bits. simpl p_len.
      rewrite truncate_to_len_ok by (auto; lia). fold (anc f p (s + 4)).
      destruct (go_on_ok f ov (t_heap t) p s acc 0 Wp M NL ltac:(lia) A)
        as [(a & w & E & O & L0 & A')|(_ & E & S)].
      * rewrite E. cbn [bind]. apply good_same; auto; try easy.
        -- simpl. split; [|split; [|easy]].
           ++ exists (s + 4), a. split; [easy|]. split; [dlia|]. split; [lia|easy].
           ++ eapply path_step; eauto.
        -- simpl. rewrite (later_next p s) by auto. rewrite L0. lia.
      * rewrite E. cbn [bind]. apply good_panic; auto. simpl. lia.
    + apply good_same; auto; try easy.
      * simpl. repeat (split; [easy|]). split; [now apply N.leb_gt|].
        pose proof (zeros_len ptr_pos ptr) as Z. change (length ptr_pos) with 16%nat in Z. lia.
      * simpl. pose proof (zeros_len ptr_pos ptr) as Z. change (length ptr_pos) with 16%nat in Z. lia.
  - (* TCasPtr *)
    destruct I as (FO & P & AT & SE & NL & RC). pose proof FO as (s & acc & -> & M & Ls & A).
    simpl in P, AT, NL. apply N.leb_gt in NL.
    destruct (at_id_lookup _ _ _ AT) as (v & DR & sl & LK). rewrite DR. cbn [bind].
    pose proof (at_id_nodes f _ _ _ _ _ NI LK) as NV.
    assert (En : nib_len p s = 4).
    { unfold nib_len. destruct (N.ltb_spec (p_len p) (s + 4)); lia. }
    change (fr_bs (mkframe f p s acc)) with (BS (slice W (p_bits p) s (nib_len p s)) (nib_len p s)).
    change (fr_start (mkframe f p s acc)) with s. rewrite En.
    rewrite into_bit_pos_ok by (apply wf_bs_slice; lia). cbn [bind].
    assert (Hn : slice W (p_bits p) s 4 < 16) by apply slice_lt.
    destruct (N.eqb_spec (nv_ptr v) cur) as [E|NE].
    + subst cur. rewrite new_ptr_ok by (auto; now apply (g_node _ _ _ GH _ _ NV)).
      change (slice W (p_bits p) s 4) with (nib f p (p_len (anc f p s))).
      destruct (hG_ptr f C (t_heap t) k (anc f p s) p GH AT Cp (on_path_anc f p s M Ls) NL v DR)
        as (HG' & H & v' & NV' & T).
      apply good_heap; auto; try easy.
      * simpl. split; [easy|]. split; [|split; [now apply N.leb_gt|lia]].
        eapply path_step; eauto. apply (path_done_hle f (t_heap t)); auto. apply (g_cht _ _ _ HG').
      * simpl. lia.
      * intros q Wq Lq T'. left. revert T'. unfold stored.
        destruct (modify_nodes f (t_heap t) k (anc f p s)
          (set_arr true (N.lor (nv_ptr v) (2 ^ ptr_bit (nib f p (p_len (anc f p s)))))) NI AT)
          as [_ N']. rewrite N'.
        destruct (pid_eqb (node_of f q) (anc f p s)) eqn:X; [|easy].
        apply pid_eqb_spec in X. rewrite X, NV. easy.
    + destruct SE as (v1 & DR1 & SE). rewrite DR in DR1. injection DR1 as <-. simpl in SE.
      assert (Z : (zeros ptr_pos (nv_ptr v) < zeros ptr_pos cur)%nat).
      { apply zeros_lt; auto. intros i. eapply ptr_bits; eauto. }
      destruct (add32_safe ov rc 1) as (rc' & E & E').
      { left. change (2 ^ 32) with (2 ^ 28 * 16). lia. }
      rewrite E. cbn [bind].
      assert (rc' = rc + 1) as ->.
      { unfold add32 in E. destruct (N.ltb_spec (rc + 1) (2 ^ 32)); [congruence|].
        change (2 ^ 32) with (2 ^ 28 * 16) in *. lia. }
      apply good_same; auto; try easy; [|simpl; lia].
      simpl. split; [easy|]. split; [easy|]. split; [easy|].
      split; [exists v; split; [easy|apply bits_in_refl]|]. split; [now apply N.leb_gt|lia].
  - (* TCasPfx *)
    destruct I as (FO & P & AT & SE & NL & RC). pose proof FO as (s & acc & -> & M & Ls & A).
    simpl in P, AT, NL. apply N.leb_le in NL.
    destruct (at_id_lookup _ _ _ AT) as (v & DR & sl & LK). rewrite DR. cbn [bind].
    pose proof (at_id_nodes f _ _ _ _ _ NI LK) as NV.
    assert (Hnl : 0 < nib_len p s <= 4 /\ s + nib_len p s <= p_len p).
    { unfold nib_len. destruct (N.ltb_spec (p_len p) (s + 4)); lia. }
    change (fr_bs (mkframe f p s acc)) with (BS (slice W (p_bits p) s (nib_len p s)) (nib_len p s)).
    rewrite into_bit_pos_ok by (apply wf_bs_slice; lia). cbn [bind].
    destruct (span_here p s M Ls NL) as (E1 & E2 & E3).
    destruct (N.eqb_spec (nv_pfx v) cur) as [E|NE].
    + subst cur. rewrite E1.
      assert (AT2 : at_id (t_heap t) k (node_of f p)) by (now rewrite E2).
      destruct (hG_pfx f C (t_heap t) k p GH AT2 Cp ltac:(lia) v DR) as (HG' & H & ST).
      apply good_heap; auto; try easy.
      * destruct (finish_ok f ov p s acc rc false Ls ltac:(lia) A) as [(a & E)|(E & _ & S)].
        -- rewrite E. cbn [or_panic].
           simpl. unfold inserted. destruct (N.eqb_spec (p_len p) 0); [lia|].
           split; [|easy]. rewrite <- E3. apply (path_done_hle f (t_heap t)); auto. apply (g_cht _ _ _ HG').
        -- rewrite E. easy.
      * unfold finish. cbn [fr_acc mkframe]. unfold add32.
        destruct (_ <? _); cbn [bind or_panic]; [simpl; lia|]. destruct ov; simpl; lia.
      * intros q Wq Lq T'.
        assert (MD : made (or_panic (finish ov (mkframe f p s acc) rc false))).
        { unfold finish, add32. destruct (_ <? _); [easy|]. now destruct ov. }
        revert T'. unfold stored.
        destruct (modify_nodes f (t_heap t) k (node_of f p)
          (set_arr false (N.lor (2 ^ bs_bit (span_of f p)) (nv_pfx v))) NI AT2)
          as [_ N']. rewrite N'.
        destruct (pid_eqb (node_of f q) (node_of f p)) eqn:X; [|auto].
        apply pid_eqb_spec in X. rewrite X, E2, NV. simpl option_map. cbn [set_arr nv_pfx].
        rewrite N.lor_spec, testbit_pow2, orb_true_iff, N.eqb_eq.
        intros [T|T]; [|auto]. right. split; [|easy]. symmetry.
        apply (place_inj f); auto.
        apply bs_index_inj; try apply wf_span.
        pose proof (bs_index_lt _ (wf_span f p)). pose proof (bs_index_lt _ (wf_span f q)).
        unfold bs_bit in T. lia.
    + destruct SE as (v1 & DR1 & SE). rewrite DR in DR1. injection DR1 as <-. simpl in SE.
      assert (Z : (zeros pfx_pos (nv_pfx v) < zeros pfx_pos cur)%nat).
      { apply zeros_lt; auto. intros i. eapply pfx_bits; eauto. }
      destruct (add32_safe ov rc 1) as (rc' & E & E').
      { left. change (2 ^ 32) with (2 ^ 28 * 16). lia. }
      rewrite E. cbn [bind].
      assert (rc' = rc + 1) as ->.
      { unfold add32 in E. destruct (N.ltb_spec (rc + 1) (2 ^ 32)); [congruence|].
        change (2 ^ 32) with (2 ^ 28 * 16) in *. lia. }
      apply good_same; auto; try easy; [|simpl; lia].
      simpl. split; [easy|]. split; [easy|]. split; [easy|].
      split; [exists v; split; [easy|apply bits_in_refl]|]. split; [now apply N.leb_le|lia].
  - (* TCount *)
    destruct I as (FO & P & NL & RC). pose proof FO as (s & acc & -> & M & Ls & A).
    simpl in P, NL. apply N.leb_gt in NL.
    rewrite next_id_ok by auto. cbn [bind].
    pose proof (anc_dom f p (s + 4) Wp ltac:(dlia) ltac:(lia)) as D.
    destruct (walk_start_ok NSTRIDE NSTRIDE_nz f (t_heap t) (anc f p (s + 4)) D) as (w & E & O & L0).
    rewrite E. cbn [bind].
    split; [easy|]. split.
    { simpl. split; [easy|]. split; [easy|]. split; [now apply N.leb_gt|]. auto. }
    split; [split; [apply hle_refl|]; split; [easy|]; split; [simpl; lia|easy]|].
    split; [simpl; rewrite L0; lia|]. split; [easy|]. auto.
  - (* TStore *)
    destruct I as (FO & P & NL & RC & -> & SI). pose proof FO as (s & acc & -> & M & Ls & A).
    simpl in P, NL, SI. apply N.leb_gt in NL.
    rewrite next_id_ok by auto. cbn [bind].
    pose proof (anc_dom f p (s + 4) Wp ltac:(dlia) ltac:(lia)) as D.
    destruct (sstep_ok f (t_heap t) (anc f p (s + 4)) mui s0 NI D SI) as (h' & o & E & NI' & H & Q & SO).
    rewrite E. cbn [bind].
    destruct (cur_justified (t_heap t) p (s + 4) Wp ltac:(dlia) ltac:(lia) P) as [J1 J2].
    assert (HG' : hG f C h').
    { eapply hG_quiet; eauto. }
    assert (P' : path_done f h' p (s + 4)) by (now apply (path_done_hle f (t_heap t))).
    pose proof (smu_pos f _ _ _ SI) as SP.
    destruct (go_on_ok f ov h' p s acc rc Wp M NL RC A) as [(a & w & E' & O & L0 & A')|(E' & _ & S)].
    + apply good_heap; auto; try easy.
      * destruct o as [s1|o]; [|simpl in SO; subst o; rewrite E'].
        -- simpl. split; [easy|]. split; [easy|]. split; [now apply N.leb_gt|]. auto.
        -- simpl. split; [|auto].
           exists (s + 4), a. split; [easy|]. split; [dlia|]. split; [lia|easy].
      * destruct o as [s1|o]; [|simpl in SO; subst o; rewrite E'].
        -- simpl. apply sstep_mu in E; auto. lia.
        -- simpl. rewrite (later_next p s) by auto. rewrite L0. lia.
      * intros q _ _ T. left. eapply stored_quiet; eauto.
    + apply good_heap; auto; try easy.
      * destruct o as [s1|o]; [|simpl in SO; subst o; now rewrite E'].
        simpl. split; [easy|]. split; [easy|]. split; [now apply N.leb_gt|]. auto.
      * destruct o as [s1|o]; [|simpl in SO; subst o; rewrite E'; simpl; lia].
        simpl. apply sstep_mu in E; auto. lia.
      * intros q _ _ T. left. eapply stored_quiet; eauto.
Qed.


End S.
