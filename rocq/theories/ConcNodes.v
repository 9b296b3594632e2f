(* The counter of the nodes of the tree while any number of inserts are under way:
   it is never less than the number of nodes that the inserts that have returned
   rely on, less the inserts under way, and never more than one for the root and
   one for every four bits of every prefix for which insert has been called. *)
From Coq Require Import Arith NArith List Bool Lia.
From Verif Require Import Word Af BitSpan Maps ChtMath Cht Node Tree ChainProofs TreeProofs MultiMap PrefixCht Lsm Rib HistSpec
  Conc ConcMarks ConcTree ConcTreeProofs ConcTreeInv ConcTreeStep ConcTreeEnd ConcStore ConcSpec
  ConcStoreInv ConcStoreStep ConcInsert ConcCalls ConcFacts ConcCount.
Import ListNotations.
Local Open Scope N_scope.

(* ---------- sums over the threads ---------- *)

Definition sumw {A} (w : A -> N) (l : list A) : N := fold_right (fun a n => w a + n) 0 l.

Lemma sumw_app {A} (w : A -> N) l l' : sumw w (l ++ l') = sumw w l + sumw w l'.
Proof. induction l as [|a l IH]; [easy|]. simpl. rewrite IH. lia. Qed.

Lemma sumw_set {A} (w : A -> N) l i a b : nth_error l i = Some a ->
  sumw w (set_nth i b l) + w a = sumw w l + w b.
Proof.
  revert i. induction l as [|y l IH]; intros [|i] E; simpl in E; try discriminate.
  - injection E as ->. simpl. lia.
  - specialize (IH i E). simpl. lia.
Qed.

Lemma sumw_le {A} (w w' : A -> N) l : (forall a, In a l -> w a <= w' a) -> sumw w l <= sumw w' l.
Proof.
  induction l as [|a l IH]; intros H; [simpl; lia|]. simpl.
  specialize (H a (or_introl eq_refl)) as Ha. assert (sumw w l <= sumw w' l); [|lia].
  apply IH. intros b I. apply H. now right.
Qed.

(* ---------- a node and the pointer that leads to it ---------- *)

Definition link (f : af) (id : pid) : pid * N :=
  if p_len id =? 0 then (id, 16)
  else (parent f id, ptr_bit (slice (BITS f) (p_bits id) (p_len id - 4) 4)).

Lemma link_inj f a b : ndom f a -> ndom f b -> link f a = link f b -> a = b.
Proof.
  intros [(La & Ba & Ma) Da] [(Lb & Bb & Mb) Db]. unfold link.
  destruct (N.eqb_spec (p_len a) 0) as [Za|Za], (N.eqb_spec (p_len b) 0) as [Zb|Zb]; intros E.
  - congruence.
  - injection E as _ E. unfold ptr_bit in E. lia.
  - injection E as _ E. unfold ptr_bit in E. lia.
  - injection E as E0 E1 E2.
    assert (La4 : 4 <= p_len a) by (clear - Da Za; unfold NSTRIDE in *; dlia).
    assert (Lb4 : 4 <= p_len b) by (clear - Db Zb; unfold NSTRIDE in *; dlia).
    assert (LL : p_len a = p_len b) by lia.
    destruct a as [xa la], b as [xb lb]. simpl in *. subst lb. f_equal.
    pose proof (slice_lt (BITS f) xa (la - 4) 4) as S1. pose proof (slice_lt (BITS f) xb (la - 4) 4) as S2.
    assert (E3 : slice (BITS f) xa (la - 4) 4 = slice (BITS f) xb (la - 4) 4).
    { unfold ptr_bit in E2. change (2 ^ 4) with 16 in *. lia. }
    unfold trunc in E0. unfold slice in E3.
    replace (BITS f - (la - 4) - 4) with (BITS f - la) in E3 by lia.
    assert (P : 2 ^ (BITS f - (la - 4)) = 2 ^ (BITS f - la) * 2 ^ 4).
    { rewrite <- N.pow_add_r. f_equal. lia. }
    assert (NZ : 2 ^ (BITS f - la) <> 0) by (now apply N.pow_nonzero).
    apply N.mul_cancel_r in E0; [|now apply N.pow_nonzero].
    rewrite P in E0. rewrite <- !N.div_div in E0 by easy.
    pose proof (N.div_mod (xa / 2 ^ (BITS f - la)) (2 ^ 4) ltac:(easy)) as Q1.
    pose proof (N.div_mod (xb / 2 ^ (BITS f - la)) (2 ^ 4) ltac:(easy)) as Q2.
    rewrite E0, E3, <- Q2 in Q1.
    pose proof (N.div_mod xa (2 ^ (BITS f - la)) NZ) as R1.
    pose proof (N.div_mod xb (2 ^ (BITS f - la)) NZ) as R2.
    rewrite Ma, N.add_0_r in R1. rewrite Mb, N.add_0_r in R2. rewrite R1, R2. now f_equal.
Qed.

(* all pointers that are set are among the links, and the root is *)
Definition in_links (f : af) (h : heap nodeval) (A : list (pid * N)) : Prop :=
  In ((0, 0), 16) A /\
  forall id v b, nodes f h id = Some v -> N.testbit (nv_ptr v) b = true -> In (id, b) A.

Lemma links_nodes f C h A l : hG f C h -> in_links f h A -> NoDup l ->
  (forall id, In id l -> nodes f h id <> None) -> (length l <= length A)%nat.
Proof.
  intros G [R I] N S.
  assert (D : forall id, In id l -> ndom f id).
  { intros id J. specialize (S id J). destruct (nodes f h id) as [v|] eqn:Q; [|easy].
    apply nodes_at_id in Q; [|apply (g_cht _ _ _ G)]. destruct Q as (k & s & L).
    destruct (g_cht _ _ _ G _ _ L) as [D _]. exact D. }
  rewrite <- (map_length (link f)). apply NoDup_incl_length.
  - clear S R I G. induction N as [|a l Ni Nd IH]; [constructor|]. simpl. constructor.
    + intros X. apply in_map_iff in X. destruct X as (b & E & J).
      apply link_inj in E; [subst b; easy|apply D; now right|apply D; now left].
    + apply IH. intros. apply D. now right.
  - intros x X. apply in_map_iff in X. destruct X as (id & <- & J). unfold link.
    destruct (N.eqb_spec (p_len id) 0) as [Z|Z].
    + destruct (D id J) as [(_ & Bb & Mb) _]. destruct id as [x n]. simpl in *. subst n.
      rewrite N.sub_0_r, N.mod_small in Mb by auto. now subst x.
    + specialize (S id J). destruct (nodes f h id) as [v|] eqn:Q; [|easy].
      destruct (g_up _ _ _ G _ _ Q) as (v' & Q' & T); [lia|]. eapply I; eauto.
Qed.

Lemma links_quiet f id h h' A : quiet f id h h' -> in_links f h A -> in_links f h' A.
Proof.
  intros Q [R I]. split; [easy|]. intros id' v' b N T.
  destruct (Q _ _ N) as [(v & N0 & E & _)|(_ & E & _)]; rewrite E in T; eauto.
  now rewrite N.bits_0 in T.
Qed.

Lemma links_ptr f h k id x v A : ninv f h -> at_id h k id -> deref k h = Ok v -> in_links f h A ->
  in_links f (modify k (set_arr true (N.lor (nv_ptr v) (2 ^ x))) h) ((id, x) :: A).
Proof.
  intros NI AT DR [R I]. destruct (at_id_lookup _ _ _ AT) as (v0 & DR0 & s & LK).
  rewrite DR in DR0. injection DR0 as <-. pose proof (at_id_nodes f h k id v s NI LK) as NV.
  split; [now right|]. intros id' w b N T.
  destruct (modify_nodes f h k id (set_arr true (N.lor (nv_ptr v) (2 ^ x))) NI AT) as [_ N'].
  rewrite N' in N. destruct (pid_eqb id' id) eqn:X.
  - apply pid_eqb_spec in X. subst id'. rewrite NV in N. injection N as <-. simpl in T.
    rewrite N.lor_spec, testbit_pow2 in T. apply orb_true_iff in T. destruct T as [T|T].
    + right. eauto.
    + apply N.eqb_eq in T. subst b. now left.
  - right. eauto.
Qed.

Lemma links_pfx f h k id x A : ninv f h -> at_id h k id -> in_links f h A ->
  in_links f (modify k (set_arr false x) h) A.
Proof.
  intros NI AT [R I]. split; [easy|]. intros id' w b N T.
  destruct (modify_nodes f h k id (set_arr false x) NI AT) as [_ N'].
  rewrite N' in N. destruct (pid_eqb id' id) eqn:X; [|eauto].
  apply pid_eqb_spec in X. subst id'. destruct (nodes f h id) as [v|] eqn:NV; [|discriminate].
  injection N as <-. simpl in T. eauto.
Qed.

(* ---------- one step of one insert ---------- *)

(* the thread has set a pointer that it has yet to count *)
Definition counting (pc : tpc) : bool := match pc with TCount _ _ => true | _ => false end.
(* how many nodes the thread may have counted *)
Definition turns (p : pid) (pc : tpc) : N :=
  match pc with
  | TStart | TDefault _ _ => 0
  | TNode fr _ | TLoadPtr fr _ | TLoadPfx fr _ _ | TTestPtr fr _ _ | TCasPtr fr _ _ _
  | TCasPfx fr _ _ _ | TCount fr _ => fr_start fr / 4
  | TStore fr _ _ _ => fr_start fr / 4 + 1
  | TDone _ | TPanic => (p_len p - 1) / 4
  end.
(* the thread sets no pointer *)
Definition sets_none (pc : tpc) : bool :=
  match pc with TCasPtr _ _ _ _ | TCount _ _ | TStore _ _ _ _ => false | _ => true end.

Section S.
Variable f : af.
Variable ov : bool.
Notation W := (BITS f).
Variable C : pid -> Prop.
Hypothesis Cwf : forall p, C p -> wf_pid f p.

Definition counts (p : pid) (t : tree) (pc : tpc) (x : tree * tpc) : Prop :=
  let '(t', pc') := x in
  (forall A, in_links f (t_heap t) A -> exists A', in_links f (t_heap t') A' /\
     N.of_nat (length A') + t_nodes t + b2n (counting pc) =
     N.of_nat (length A) + t_nodes t' + b2n (counting pc')) /\
  t_nodes t' + turns p pc <= t_nodes t + turns p pc' /\
  (path_done f (t_heap t) p (nlen (p_len p)) -> sets_none pc = true ->
   sets_none pc' = true /\ t_nodes t' = t_nodes t).

Lemma counts_quiet p t pc h' pc' : (forall A, in_links f (t_heap t) A -> in_links f h' A) ->
  counting pc = false -> counting pc' = false -> turns p pc <= turns p pc' ->
  (path_done f (t_heap t) p (nlen (p_len p)) -> sets_none pc = true -> sets_none pc' = true) ->
  counts p t pc (set_heap t h', pc').
Proof.
  intros Q C1 C2 T S. split; [|split].
  - intros A I. exists A. split; [now apply Q|]. now rewrite C1, C2.
  - simpl. lia.
  - intros P N. split; auto.
Qed.

Lemma counts_same p t pc pc' : counting pc = false -> counting pc' = false ->
  turns p pc <= turns p pc' ->
  (path_done f (t_heap t) p (nlen (p_len p)) -> sets_none pc = true -> sets_none pc' = true) ->
  counts p t pc (t, pc').
Proof.
  intros C1 C2 T S. split; [|split].
  - intros A I. exists A. split; [easy|]. now rewrite C1, C2.
  - simpl. lia.
  - intros P N. split; auto.
Qed.

Lemma turn_le s p : s < p_len p -> s / 4 <= (p_len p - 1) / 4.
Proof. intros L. apply N.div_le_mono; [easy|lia]. Qed.

Lemma nlen_above s p : s mod 4 = 0 -> s + 4 < p_len p -> s < nlen (p_len p).
Proof. intros M L. unfold nlen. dlia. Qed.

Ltac ct := try easy; try (cbn [turns fr_start mkframe]; lia).

Lemma tnext_counts p mui t pc : C p -> tG f C t -> tI f ov p t pc ->
  match pc with TDone _ | TPanic => False | _ => True end ->
  counts p t pc (tnext f ov p mui t pc).
Proof.
  intros Cp G I NF. pose proof (Cwf _ Cp) as Wp. pose proof G as [GH GD].
  pose proof (g_cht _ _ _ GH) as NI.
  pose proof Wp as [Hl [Hb Hm]]. pose proof (BITS_le f) as B1. pose proof (BITS_ge f) as B2.
  unfold tnext. destruct pc as [|ex r|fr r|fr k|fr k ptr|fr k ptr|fr k cur rc|fr k cur rc|fr rc
    |fr rc nn s0|r|]; try easy; simpl in I; cbn [tstep].
  - (* TStart *)
    destruct (N.eqb_spec (p_len p) 0) as [L|L].
    + destruct (walk_start_ok NSTRIDE NSTRIDE_nz f (t_heap t) (0, 0) (root_dom f)) as (w & E & O & L0).
      unfold root_node_id. rewrite E. cbn [bind].
      split; [intros A J; exists A; split; [easy|reflexivity]|]. split; [simpl; lia|]. auto.
    + assert (A0 : anc f p 0 = root_node_id).
      { unfold anc, root_node_id. now rewrite trunc_0. }
      destruct (next_turn_ok f (t_heap t) p 0 0 Wp) as (w & E & O & L0); [easy|lia|].
      rewrite A0 in E. rewrite E. cbn [bind]. apply counts_same; easy.
  - (* TDefault *)
    destruct I as (L & DF & R).
    destruct (rstep_ok f (t_heap t) (0, 0) mui r NI (root_dom f) R) as (h' & o & E & NI' & H & Q & RO).
    unfold root_node_id. rewrite E. cbn [bind].
    apply counts_quiet; [intros A; now apply links_quiet with (id := (0, 0))|easy|now destruct o| |now destruct o].
    destruct o; cbn [turns]; apply N.le_0_l.
  - (* TNode *)
    destruct I as ((s & acc & -> & M & Ls & A) & P & R). simpl in P, R. cbn [fr_cur mkframe].
    pose proof (anc_dom f p s Wp M ltac:(lia)) as D.
    destruct (rstep_ok f (t_heap t) (anc f p s) mui r NI D R) as (h' & o & E & NI' & H & Q & RO).
    rewrite E. cbn [bind].
    apply counts_quiet; [intros B; now apply links_quiet with (id := anc f p s)|easy|now destruct o| |now destruct o].
    pose proof (turn_le s p Ls). destruct o; cbn [turns fr_start mkframe]; lia.
  - (* TLoadPtr *)
    destruct I as (FO & P & AT).
    destruct (at_id_lookup _ _ _ AT) as (v & DR & sl & LK). rewrite DR. cbn [bind].
    apply counts_same; ct.
  - (* TLoadPfx *)
    destruct I as (FO & P & AT & SE). pose proof FO as (s & acc & -> & M & Ls & A).
    simpl in P, AT.
    destruct (at_id_lookup _ _ _ AT) as (v & DR & sl & LK). rewrite DR. cbn [bind].
    assert (Hnl : 0 < nib_len p s <= 4 /\ s + nib_len p s <= p_len p).
    { unfold nib_len. destruct (N.ltb_spec (p_len p) (s + 4)); lia. }
    change (fr_bs (mkframe f p s acc)) with (BS (slice W (p_bits p) s (nib_len p s)) (nib_len p s)).
    rewrite into_bit_pos_ok by (apply wf_bs_slice; lia). cbn [bind].
    pose proof (turn_le s p Ls).
    destruct (negb _); [apply counts_same; ct|].
    destruct (_ =? 0); [apply counts_same; ct|].
    unfold finish. destruct (add32 _ _ _); cbn [bind]; (apply counts_same; ct).
  - (* TTestPtr *)
    destruct I as (FO & P & AT & SE & NL). pose proof FO as (s & acc & -> & M & Ls & A).
    simpl in P, AT, NL. apply N.leb_gt in NL.
    destruct (at_id_lookup _ _ _ AT) as (v & DR & sl & LK). rewrite DR. cbn [bind].
    pose proof (at_id_nodes f _ _ _ _ _ NI LK) as NV.
    assert (En : nib_len p s = 4).
    { unfold nib_len. destruct (N.ltb_spec (p_len p) (s + 4)); lia. }
    change (fr_bs (mkframe f p s acc)) with (BS (slice W (p_bits p) s (nib_len p s)) (nib_len p s)).
    change (fr_start (mkframe f p s acc)) with s. rewrite En.
    rewrite into_bit_pos_ok by (apply wf_bs_slice; lia). cbn [bind].
    assert (Hn : slice W (p_bits p) s 4 < 16) by apply slice_lt.
    rewrite stride_test_ok by auto. pose proof (turn_le s p Ls) as TL.
    destruct (N.testbit (nv_ptr v) (ptr_bit (slice W (p_bits p) s 4))) eqn:T; cbn [negb].
    + unfold add_to_len, STRIDE_SIZE. simpl p_len. simpl p_bits.
      rewrite add8_ok by lia. cbn [bind].
      unfold node_truncate_to_len, new_with_cleaned_id. simpl p_bits. simpl p_len.
      rewrite truncate_to_len_ok by (auto; lia). fold (anc f p (s + 4)).
      destruct (go_on_ok f ov (t_heap t) p s acc 0 Wp M NL ltac:(lia) A)
        as [(a & w & E & O & L0 & A')|(_ & E & S)]; rewrite E; cbn [bind];
        apply counts_same; ct.
      apply N.div_le_mono; [easy|cbn [fr_start mkframe]; lia].
    + apply counts_same; ct. intros PD _.
      destruct (PD s M (nlen_above s p M NL)) as (v' & N' & T'). rewrite NV in N'. injection N' as <-.
      unfold nib in T'. congruence.
  - (* TCasPtr *)
    destruct I as (FO & P & AT & SE & NL & RC). pose proof FO as (s & acc & -> & M & Ls & A).
    simpl in P, AT, NL. apply N.leb_gt in NL.
    destruct (at_id_lookup _ _ _ AT) as (v & DR & sl & LK). rewrite DR. cbn [bind].
    pose proof (at_id_nodes f _ _ _ _ _ NI LK) as NV.
    assert (En : nib_len p s = 4).
    { unfold nib_len. destruct (N.ltb_spec (p_len p) (s + 4)); lia. }
    change (fr_bs (mkframe f p s acc)) with (BS (slice W (p_bits p) s (nib_len p s)) (nib_len p s)).
    change (fr_start (mkframe f p s acc)) with s. rewrite En.
    rewrite into_bit_pos_ok by (apply wf_bs_slice; lia). cbn [bind].
    assert (Hn : slice W (p_bits p) s 4 < 16) by apply slice_lt.
    pose proof (turn_le s p Ls) as TL.
    destruct (N.eqb_spec (nv_ptr v) cur) as [E|NE].
    + subst cur. rewrite new_ptr_ok by (auto; now apply (g_node _ _ _ GH _ _ NV)).
      split; [|split; [cbn [turns fr_start mkframe set_heap t_nodes]; lia|easy]].
      intros B J. exists ((anc f p s, ptr_bit (slice W (p_bits p) s 4)) :: B).
      split; [now apply links_ptr|]. simpl length. cbn [counting b2n set_heap t_nodes]. lia.
    + destruct (add32 ov rc 1) as [rc'| |]; cbn [bind]; apply counts_same; ct.
  - (* TCasPfx *)
    destruct I as (FO & P & AT & SE & NL & RC). pose proof FO as (s & acc & -> & M & Ls & A).
    simpl in P, AT, NL. apply N.leb_le in NL.
    destruct (at_id_lookup _ _ _ AT) as (v & DR & sl & LK). rewrite DR. cbn [bind].
    assert (Hnl : 0 < nib_len p s <= 4 /\ s + nib_len p s <= p_len p).
    { unfold nib_len. destruct (N.ltb_spec (p_len p) (s + 4)); lia. }
    change (fr_bs (mkframe f p s acc)) with (BS (slice W (p_bits p) s (nib_len p s)) (nib_len p s)).
    rewrite into_bit_pos_ok by (apply wf_bs_slice; lia). cbn [bind].
    pose proof (turn_le s p Ls) as TL.
    destruct (N.eqb_spec (nv_pfx v) cur) as [E|NE].
    + unfold finish. apply counts_quiet.
      * intros B. now apply links_pfx with (id := anc f p s).
      * easy.
      * now destruct (add32 _ _ _).
      * destruct (add32 _ _ _); cbn [bind or_panic turns fr_start mkframe]; lia.
      * now destruct (add32 _ _ _).
    + destruct (add32 ov rc 1) as [rc'| |]; cbn [bind]; apply counts_same; ct.
  - (* TCount *)
    destruct I as (FO & P & NL & RC). pose proof FO as (s & acc & -> & M & Ls & A).
    simpl in P, NL. apply N.leb_gt in NL.
    rewrite next_id_ok by auto. cbn [bind].
    pose proof (anc_dom f p (s + 4) Wp ltac:(dlia) ltac:(lia)) as D.
    destruct (walk_start_ok NSTRIDE NSTRIDE_nz f (t_heap t) (anc f p (s + 4)) D) as (w & E & O & L0).
    rewrite E. cbn [bind]. split; [|split; [cbn [turns fr_start mkframe set_heap t_nodes]; lia|easy]].
    intros B J. exists B. split; [easy|]. cbn [counting b2n t_nodes]. lia.
  - (* TStore *)
    destruct I as (FO & P & NL & RC & -> & SI). pose proof FO as (s & acc & -> & M & Ls & A).
    simpl in P, NL, SI. apply N.leb_gt in NL.
    rewrite next_id_ok by auto. cbn [bind].
    pose proof (anc_dom f p (s + 4) Wp ltac:(dlia) ltac:(lia)) as D.
    destruct (sstep_ok f (t_heap t) (anc f p (s + 4)) mui s0 NI D SI) as (h' & o & E & NI' & H & Q & SO).
    rewrite E. cbn [bind].
    assert (D4 : s / 4 + 1 <= (p_len p - 1) / 4) by dlia.
    destruct (go_on_ok f ov h' p s acc rc Wp M NL RC A) as [(a & w & E' & O & L0 & A')|(E' & _ & S)];
      (apply counts_quiet; [intros B; now apply links_quiet with (id := anc f p (s + 4))|easy|..]);
      try (destruct o as [s1|o]; [|simpl in SO; subst o; rewrite E']; cbn [or_panic turns fr_start mkframe]; try easy; try lia).
    replace (s + 4) with (s + 1 * 4) by lia. rewrite N.div_add by easy. lia.
Qed.

End S.

(* ---------- the whole store ---------- *)

Definition tcounting (t : scall * cpc) : bool :=
  match snd t with LIns (ITree q) | LIns (ITree2 _ q) => counting q | _ => false end.
(* one for every four bits of the prefix below the last four *)
Definition depth_of (c : scall) : N :=
  match c with CInsert p _ _ => (p_len p - 1) / 4 | _ => 0 end.
Definition tturns (t : scall * cpc) : N :=
  match t with
  | (CInsert p _ _, LIns (ITree q)) => turns p q
  | (c, _) => depth_of c
  end.
Definition second_quiet (l : cpc) : Prop :=
  match l with LIns (ITree2 _ q) => sets_none q = true | _ => True end.

Definition nodes_at (s : sstate) : N := t_nodes (stree s).

Lemma not_tree_begin f rb p b : let pc := or_ipanic (begin_upsert f rb p b) in
  (forall c, tcounting (c, LIns pc) = false) /\ second_quiet (LIns pc) /\
  forall r ups, tturns (CInsert p r ups, LIns pc) = (p_len p - 1) / 4.
Proof.
  unfold begin_upsert. destruct (rb_strat rb); try destruct (walk_start f PSTRIDE p);
    destruct (rb_lsm rb); repeat split; intros; reflexivity.
Qed.

(* the steps outside the tree *)
Definition calm (pc : ipc) : bool := match pc with ITree _ | ITree2 _ _ => false | _ => true end.

Lemma calm_route b rep : calm (after_route b rep) = true.
Proof. unfold after_route. now destruct (snd b). Qed.
Lemma calm_upsert b rep : calm (after_upsert b rep) = true.
Proof. unfold after_upsert. destruct (rp_mui_new rep); [easy|apply calm_route]. Qed.
Lemma calm_cht st b o pn mn : calm (after_cht st b o pn mn) = true.
Proof. unfold after_cht. destruct st, o as [[? ?]|]; try apply calm_upsert; easy. Qed.
Lemma calm_count st ups b k o : calm (after_count st ups b k o) = true.
Proof. unfold after_count. destruct ups; [easy|apply calm_cht]. Qed.

Lemma calm_istep f ov i s p r ups pc s' pc' : calm pc = true ->
  istep f ov i s p r ups pc = Some (s', pc') -> calm pc' = true /\ stree s' = stree s.
Proof.
  intros J E. unfold istep in E. destruct pc; cbv zeta in E; try discriminate J.
  - destruct (rb_lsm (ss_rib s)); injection E as <- <-; [|easy].
    destruct (walk_start f PSTRIDE p); easy.
  - destruct (pstep f p (pheap s) p0) as [[h o]| |]; injection E as <- <-; [|easy..].
    destruct o as [|? []]; easy.
  - injection E as <- <-. easy.
  - destruct (deref k (pheap s)) as [v| |]; [|injection E as <- <-; easy..].
    destruct (upsert_record (pv_recs v) r) as [m o]. injection E as <- <-.
    destruct o, found; try easy; (split; [apply calm_count || apply calm_cht|easy]).
  - injection E as <- <-. destruct found; [|easy]. split; [apply calm_count|easy].
  - injection E as <- <-. split; [apply calm_cht|easy].
  - destruct (deref k (pheap s)) as [v| |]; [destruct ups|..]; injection E as <- <-; easy.
  - destruct (deref k (pheap s)) as [v| |]; injection E as <- <-; [|easy..].
    destruct (sel_eqb (pv_sel v) sel); [|easy]. split; [apply calm_cht|easy].
  - destruct (deref k (pheap s)) as [v| |]; [|injection E as <- <-; easy..].
    destruct (_ && _); injection E as <- <-; [|easy]. split; [apply calm_cht|easy].
  - injection E as <- <-. split; [apply calm_upsert|]. destruct (rb_lsm (ss_rib s)); easy.
  - destruct (rb_lsm (ss_rib s)); injection E as <- <-; [|easy].
    split; [apply calm_upsert|easy].
  - injection E as <- <-. split; [apply calm_route|easy].
  - injection E as <- <-. easy.
  - discriminate.
  - discriminate.
Qed.

Lemma calm_kstep f i s sm p mui lt pc s' pc' : kstep f i s sm p mui lt pc = Some (s', pc') ->
  stree s' = stree s.
Proof.
  intros E. unfold kstep in E. destruct pc; cbv zeta in E.
  - destruct (rb_strat (ss_rib s)); try (injection E as <- <-; easy).
    destruct (rb_lsm (ss_rib s)); injection E as <- <-; easy.
  - destruct (pstep f p (pheap s) p0) as [[h o]| |]; injection E as <- <-; easy.
  - injection E as <- <-. easy.
  - destruct (deref k (pheap s)); injection E as <- <-; easy.
  - destruct (rb_lsm (ss_rib s)); injection E as <- <-; easy.
  - destruct recs as [|b recs]; [injection E as <- <-; easy|].
    destruct (rb_lsm (ss_rib s)); [|injection E as <- <-; easy].
    destruct (rewrite_header_for_record _ _ _ _ _); injection E as <- <-; easy.
  - discriminate.
  - discriminate.
Qed.

(* a step of a thread, as far as the nodes go *)
Definition nstep (f : af) (s : sstate) (c : scall) (l : cpc) (s' : sstate) (l' : cpc) : Prop :=
  (forall A, in_links f (t_heap (stree s)) A -> exists A', in_links f (t_heap (stree s')) A' /\
     N.of_nat (length A') + nodes_at s + b2n (tcounting (c, l)) =
     N.of_nat (length A) + nodes_at s' + b2n (tcounting (c, l'))) /\
  nodes_at s' + tturns (c, l) <= nodes_at s + tturns (c, l') /\
  (second_quiet l -> second_quiet l').

Lemma nstep_still f s c l s' l' : stree s' = stree s -> tcounting (c, l) = false ->
  tcounting (c, l') = false -> tturns (c, l) <= tturns (c, l') -> (second_quiet l -> second_quiet l') ->
  nstep f s c l s' l'.
Proof.
  intros T C1 C2 L S. unfold nstep, nodes_at. rewrite T, C1, C2. split; [|split; [lia|easy]].
  intros A I. exists A. split; [easy|lia].
Qed.

Lemma nstep_ok f ov st n s0 s ts i c l s' l' : sok f ov st n s0 (Conf s ts) ->
  nth_error ts i = Some (c, l) -> ststep f ov i s c l = Some (s', l') -> second_quiet l ->
  nstep f s c l s' l'.
Proof.
  intros [Gs Is] E T SQ. specialize (Is i c l E). cbn [sh] in *.
  destruct (ststep_cases _ _ _ _ _ _ _ _ T) as
    [(p & r & ups & pc & pc' & -> & -> & -> & W)|
     [(sm & p & mui & lt & pc & pc' & -> & -> & -> & W)|[-> [(p & pc & pc' & -> & -> & ->)|
      (p & m & iw & pc & pc' & -> & -> & ->)]]]].
  2: { apply nstep_still; try easy. exact (calm_kstep _ _ _ _ _ _ _ _ _ _ W). }
  2, 3: now apply nstep_still.
  assert (Cp : insp (calls (Conf s ts)) p).
  { exists i, r, ups. exact (calls_nth (Conf s ts) _ _ _ E). }
  assert (Cwf : forall q, insp (calls (Conf s ts)) q -> wf_pid f q).
  { intros q (j & r0 & u0 & Q). pose proof (g_legal _ _ _ _ _ Gs) as L. rewrite Forall_forall in L.
    apply nth_error_In in Q. specialize (L _ Q). simpl in L. tauto. }
  pose proof (g_tree _ _ _ _ _ Gs) as Gt.
  destruct (calm pc) eqn:K.
  { destruct (calm_istep _ _ _ _ _ _ _ _ _ _ K W) as [K' T']. apply nstep_still.
    - exact T'.
    - now destruct pc.
    - now destruct pc'.
    - destruct pc; try discriminate K; destruct pc'; try discriminate K'; apply N.le_refl.
    - now destruct pc'. }
  destruct pc; try discriminate K; cbn [sI iI] in Is.
  - destruct Is as (I1 & I2 & _).
    pose proof (tnext_counts f ov _ Cwf p (r_mui r) (stree s) t Cp Gt I1 I2) as X.
    unfold istep in W. change (rb_tree (ss_rib s)) with (stree s) in W.
    destruct (tnext f ov p (r_mui r) (stree s) t) as [tr t'] eqn:Tn. destruct X as (X1 & X2 & _).
    injection W as <- <-. unfold nstep, nodes_at, stree at 2 5 6. cbn [ss_rib set_tree rb_tree].
    pose proof (not_tree_begin f (ss_rib s) p) as NB.
    assert (R1 : tcounting (CInsert p r ups, LIns (match t' with
              | TDone (ROk b) => or_ipanic (begin_upsert f (ss_rib s) p b)
              | TDone (RErr e) => IDone (RErr e) | TPanic => IPanic | _ => ITree t' end)) = counting t').
    { destruct t' as [| | | | | | | | | |[b|e]|]; try reflexivity. apply NB. }
    assert (R2 : tturns (CInsert p r ups, LIns (match t' with
              | TDone (ROk b) => or_ipanic (begin_upsert f (ss_rib s) p b)
              | TDone (RErr e) => IDone (RErr e) | TPanic => IPanic | _ => ITree t' end)) = turns p t').
    { destruct t' as [| | | | | | | | | |[b|e]|]; try reflexivity. apply NB. }
    rewrite R1, R2. split; [exact X1|]. split; [exact X2|]. intros _.
    destruct t' as [| | | | | | | | | |[b0|e]|]; try easy. apply NB.
  - destruct Is as (_ & I0 & I1 & I2).
    pose proof (tnext_counts f ov _ Cwf p (r_mui r) (stree s) t Cp Gt I1 I2) as X.
    unfold istep in W. change (rb_tree (ss_rib s)) with (stree s) in W.
    destruct (tnext f ov p (r_mui r) (stree s) t) as [tr t'] eqn:Tn. destruct X as (X1 & X2 & X3).
    injection W as <- <-. cbn [second_quiet] in SQ.
    assert (PD : path_done f (t_heap (stree s)) p (nlen (p_len p))).
    { destruct I0 as [I0 _]. unfold inserted in I0. destruct (N.eqb_spec (p_len p) 0) as [Z|Z]; [|apply I0].
      rewrite Z. intros q _ L. change (nlen 0) with 0 in L. lia. }
    destruct (X3 PD SQ) as [X4 X5].
    unfold nstep, nodes_at, stree at 2 5 6. cbn [ss_rib set_rib set_tree rb_tree].
    assert (R1 : tcounting (CInsert p r ups, LIns (match t' with
              | TDone (ROk b2) => IShort b b2
              | TDone (RErr e) => IDone (RErr e) | TPanic => IPanic | _ => ITree2 b t' end)) = counting t').
    { destruct t' as [| | | | | | | | | |[b0|e]|]; reflexivity. }
    assert (R2 : tturns (CInsert p r ups, LIns (match t' with
              | TDone (ROk b2) => IShort b b2
              | TDone (RErr e) => IDone (RErr e) | TPanic => IPanic | _ => ITree2 b t' end)) = (p_len p - 1) / 4).
    { destruct t' as [| | | | | | | | | |[b0|e]|]; reflexivity. }
    rewrite R1, R2. split; [exact X1|]. split; [rewrite X5; apply N.le_refl|]. intros _.
    destruct t' as [| | | | | | | | | |[b0|e]|]; try exact Logic.I; exact X4.
Qed.

Lemma nodes_inv f ov st x : reach f ov st x ->
  (exists A, in_links f (t_heap (tree_of x)) A /\
     N.of_nat (length A) = t_nodes (tree_of x) + cnt tcounting (ths x)) /\
  t_nodes (tree_of x) <= 1 + sumw tturns (ths x) /\
  forall i c l, nth_error (ths x) i = Some (c, l) -> second_quiet l.
Proof.
  revert x. apply reach_ind.
  - intros rb H. unfold rib_init in H. destruct (tree_new f) as [t| |] eqn:T; try discriminate.
    cbn in H. injection H as <-. cbn [sconf0 sh ths tree_of ss_rib rb_tree].
    assert (N1 : t_nodes t = 1).
    { destruct f; vm_compute in T; injection T as <-; reflexivity. }
    split; [|split; [simpl; lia|intros [|i] c l E; discriminate E]].
    exists [((0, 0), 16)]. split; [|unfold tree_of; simpl; rewrite N1; reflexivity].
    destruct (tG_new f (fun _ => False) t T) as ([G _] & _). split; [now left|].
    intros id v b Q B. destruct (g_ptr _ _ _ G _ _ _ Q B) as (p & [] & _).
  - intros s ts c _ (A & B & D) Lc. cbn [sh ths tree_of] in *. split; [|split].
    + destruct A as (A & I & E). exists A. split; [exact I|]. rewrite cnt_app, cnt_one.
      replace (tcounting (c, cstart c)) with false; [cbn [b2n]; change (tree_of (Conf s (ts ++ [(c, cstart c)]))) with (tree_of (Conf s ts)); lia|].
      now destruct c.
    + rewrite sumw_app. change (tree_of (Conf s (ts ++ [(c, cstart c)]))) with (tree_of (Conf s ts)). lia.
    + intros i c0 l E. destruct (Nat.lt_ge_cases i (length ts)) as [H|H].
      * rewrite nth_error_app1 in E by easy. eauto.
      * rewrite nth_error_app2 in E by easy. destruct (i - length ts)%nat as [|n]; simpl in E; [|now destruct n].
        injection E as <- <-. now destruct c.
  - intros s ts i c l s' l' Rx (A & B & D) E T. cbn [sh ths] in *.
    pose proof (nstep_ok _ _ _ _ _ _ _ _ _ _ _ _ (reach_sok _ _ _ _ Rx) E T (D _ _ _ E)) as (X1 & X2 & X3).
    pose proof (cnt_set tcounting ts i (c, l) (c, l') E) as Q1.
    pose proof (sumw_set tturns ts i (c, l) (c, l') E) as Q2.
    unfold tree_of in *. cbn [sh] in *. change (rb_tree (ss_rib s)) with (stree s) in *.
    change (rb_tree (ss_rib s')) with (stree s') in *. unfold nodes_at in *. split; [|split].
    + destruct A as (A & I & EA). destruct (X1 A I) as (A' & I' & EA'). exists A'. split; [easy|]. lia.
    + lia.
    + intros j c0 l0 E0. rewrite nth_set_nth in E0 by (eapply nth_some_lt; eauto).
      destruct (Nat.eqb_spec i j); [|eauto]. injection E0 as <- <-. apply X3. eauto.
Qed.

(* the ids that lie on the path to a prefix *)
Definition on_way (f : af) (p id : pid) : Prop :=
  exists s, s mod 4 = 0 /\ s < p_len p /\ id = (trunc (BITS f) (p_bits p) s, s).

Lemma cnt_le {A} (q q' : A -> bool) l : (forall a, In a l -> q a = true -> q' a = true) -> cnt q l <= cnt q' l.
Proof.
  intros H. unfold cnt. assert ((length (filter q l) <= length (filter q' l))%nat); [|lia].
  induction l as [|a l IH]; [easy|]. simpl.
  assert (L : (length (filter q l) <= length (filter q' l))%nat) by (apply IH; intros; apply H; auto; now right).
  pose proof (H a (or_introl eq_refl)) as Ha.
  destruct (q a) eqn:Q; [rewrite Ha by easy; simpl; lia|]. destruct (q' a); simpl; lia.
Qed.

(* every node that an insert that has returned relies on has been counted *)
Lemma nodes_low f ov st x l : reach f ov st x -> NoDup l ->
  (forall id, In id l -> id = (0, 0) \/ exists i p r ups a,
     returned x i (CInsert p r ups) (RetIns a) /\ on_way f p id) ->
  N.of_nat (length l) <= rib_nodes_count (ss_rib (sh x)) + inserting_now x.
Proof.
  intros Rx ND H. destruct (nodes_inv f ov st x Rx) as ((A & I & E) & _ & _).
  pose proof (reach_sok _ _ _ _ Rx) as Sx. pose proof Sx as [Gs Is].
  pose proof (g_tree _ _ _ _ _ Gs) as [Gt _].
  assert (L : (length l <= length A)%nat).
  { apply (links_nodes f _ _ A l Gt I ND). intros id J. destruct (H id J) as [->|(i & p & r & ups & a & Rt & s & M & Ls & ->)].
    - apply (g_root _ _ _ Gt).
    - pose proof (insert_done _ _ _ _ _ _ _ _ _ _ _ Sx Rt) as D. unfold inserted in D.
      destruct (N.eqb_spec (p_len p) 0) as [Z|Z]; [lia|]. destruct D as [D1 D2].
      destruct (N.lt_ge_cases s (nlen (p_len p))) as [Lt|Ge].
      + destruct (D1 s M Lt) as (v & N & _). unfold anc in N. congruence.
      + assert (s = nlen (p_len p)) as ->.
        { clear - M Ls Ge. unfold nlen in *. dlia. }
        unfold stored, node_of in D2. intros X. rewrite X in D2. discriminate D2. }
  assert (K : cnt tcounting (ths x) <= inserting_now x).
  { apply cnt_le. intros [c l0] J. destruct (In_nth_error _ _ J) as [i Ei]. specialize (Is _ _ _ Ei).
    unfold tcounting. cbn [snd]. destruct l0 as [pc| | |]; try discriminate.
    destruct c; try contradiction. destruct pc; try discriminate; reflexivity. }
  unfold rib_nodes_count. unfold tree_of in *. lia.
Qed.

Lemma nodes_low_idle f ov st x l : reach f ov st x -> idle x -> NoDup l ->
  (forall id, In id l -> id = (0, 0) \/ exists i p r ups a,
     returned x i (CInsert p r ups) (RetIns a) /\ on_way f p id) ->
  N.of_nat (length l) <= rib_nodes_count (ss_rib (sh x)).
Proof.
  intros Rx Id ND H. pose proof (nodes_low f ov st x l Rx ND H) as L.
  rewrite (idle_inserting x Id) in L. lia.
Qed.

(* and it counts at most one node for every four bits of every prefix *)
Lemma nodes_high f ov st x : reach f ov st x ->
  rib_nodes_count (ss_rib (sh x)) <= 1 + sumw depth_of (calls x).
Proof.
  intros Rx. destruct (nodes_inv f ov st x Rx) as (_ & B & _).
  pose proof (reach_sok _ _ _ _ Rx) as Sx. pose proof Sx as [Gs Is].
  assert (Q : sumw tturns (ths x) <= sumw (fun t => depth_of (fst t)) (ths x)).
  { apply sumw_le. intros [c l] J. destruct (In_nth_error _ _ J) as [i Ei]. specialize (Is _ _ _ Ei).
    cbn [fst]. destruct c as [p r ups| | |]; try (cbn; lia). destruct l as [pc| | |]; try contradiction.
    destruct pc; try (cbn [tturns]; apply N.le_refl). cbn [tturns depth_of].
    destruct Is as (I1 & I2 & _).
    assert (TL : forall fr, frame_ok f ov p fr -> fr_start fr / 4 <= (p_len p - 1) / 4).
    { intros fr (s & acc & -> & _ & Ls & _). now apply turn_le. }
    destruct t; cbn [turns]; try apply N.le_0_l; try apply N.le_refl;
      cbn [tI] in I1; try (apply TL; apply I1).
    destruct I1 as (FO & _ & NL & _). destruct FO as (s1 & acc & -> & M & Ls & _).
    cbn [fr_last fr_start mkframe] in *. apply N.leb_gt in NL.
    clear - M NL. dlia. }
  assert (E : sumw (fun t => depth_of (fst t)) (ths x) = sumw depth_of (calls x)).
  { unfold calls. clear. induction (ths x) as [|t ts IH]; [easy|]. simpl. now rewrite IH. }
  unfold rib_nodes_count. unfold tree_of in *. lia.
Qed.
