(* The invariant of the tree while any number of inserts are under way. *)
From Coq Require Import Arith NArith List Bool Lia.
From Verif Require Import Word Af BitSpan Maps ChtMath Cht Node Tree ChainProofs TreeProofs
  ConcMarks ConcTree ConcTreeProofs.
Import ListNotations.
Local Open Scope N_scope.

(* how many of the given positions are zero *)
Definition zeros (l : list N) (x : N) : nat :=
  length (filter (fun i => negb (N.testbit x i)) l).
Definition ptr_pos : list N := List.map N.of_nat (seq 0 16).
Definition pfx_pos : list N := List.map N.of_nat (seq 1 30).

Lemma zeros_le l a b : bits_in a b -> (zeros l b <= zeros l a)%nat.
Proof.
  intros H. unfold zeros. induction l as [|i l IH]; simpl; [lia|].
  specialize (H i). destruct (N.testbit a i), (N.testbit b i); simpl; try lia.
Qed.

Lemma zeros_lt l a b : bits_in a b -> a <> b -> (forall i, N.testbit b i = true -> In i l) ->
  (zeros l b < zeros l a)%nat.
Proof.
  intros H NE P.
  assert (E : exists i, N.testbit b i = true /\ N.testbit a i = false /\ In i l).
  { destruct (existsb (fun i => N.testbit b i && negb (N.testbit a i)) l) eqn:X.
    - apply existsb_exists in X. destruct X as (i & I & T). exists i.
      apply andb_true_iff in T. destruct T as [T1 T2]. apply negb_true_iff in T2. auto.
    - exfalso. apply NE. apply bits_in_antisym; [easy|]. intros i T.
      destruct (N.testbit a i) eqn:A; [easy|]. exfalso.
      assert (existsb (fun i => N.testbit b i && negb (N.testbit a i)) l = true); [|congruence].
      apply existsb_exists. exists i. split; auto. now rewrite T, A. }
  destruct E as (i & T & A & I). clear P. unfold zeros. induction l as [|j l IH]; [easy|].
  simpl. destruct I as [->|I].
  - rewrite T, A. simpl. pose proof (zeros_le l a b H) as Z. unfold zeros in Z. lia.
  - specialize (IH I). specialize (H j).
    destruct (N.testbit a j), (N.testbit b j); simpl; try lia.
Qed.

Section T.
Variable f : af.
Notation W := (BITS f).

(* the prefixes for which an insert has been called *)
Variable C : pid -> Prop.

Record hG (h : heap nodeval) : Prop := {
  g_cht : ninv f h;
  g_root : nodes f h (0, 0) <> None;
  g_node : forall id v, nodes f h id = Some v -> p_len id < W /\ nv_ptr v < 2 ^ 16;
  g_up : forall id v, nodes f h id = Some v -> 0 < p_len id ->
    exists v', nodes f h (parent f id) = Some v' /\
      N.testbit (nv_ptr v') (ptr_bit (slice W (p_bits id) (p_len id - 4) 4)) = true;
  g_ptr : forall id v b, nodes f h id = Some v -> N.testbit (nv_ptr v) b = true ->
    exists p, C p /\ on_path f p id = true /\ p_len id + 4 < p_len p /\
      b = ptr_bit (nib f p (p_len id));
  g_pfx : forall id v b, nodes f h id = Some v -> N.testbit (nv_pfx v) b = true ->
    exists p, C p /\ 0 < p_len p /\ node_of f p = id /\ b = bs_bit (span_of f p)
}.

Definition tG (t : tree) : Prop :=
  hG (t_heap t) /\ (t_default t = true -> exists p, C p /\ p_len p = 0).

Definition tR (t t' : tree) : Prop :=
  hle (t_heap t) (t_heap t') /\ (t_default t = true -> t_default t' = true) /\
  t_nodes t <= t_nodes t' /\ t_withdrawn t' = t_withdrawn t.

Lemma tR_refl t : tR t t.
Proof. split; [apply hle_refl|]. split; [auto|]. split; [lia|easy]. Qed.
Lemma tR_trans a b c : tR a b -> tR b c -> tR a c.
Proof.
  intros (A & B & D & E) (A' & B' & D' & E').
  split; [eapply hle_trans; eauto|]. split; [auto|]. split; [lia|congruence].
Qed.

Lemma bits_nodes_ptr h h' id b : ninv f h -> ninv f h' -> hle h h' ->
  (exists v, nodes f h id = Some v /\ N.testbit (nv_ptr v) b = true) ->
  exists v, nodes f h' id = Some v /\ N.testbit (nv_ptr v) b = true.
Proof.
  intros I I' H (v & N & T). destruct (nodes_hle f h h' id v I I' H N) as (v' & N' & (A & _)).
  exists v'. split; auto.
Qed.

(* an extra node with no bits *)
Lemma hG_quiet h h' id : hG h -> ninv f h' -> hle h h' -> quiet f id h h' ->
  p_len id < W ->
  (0 < p_len id -> exists v', nodes f h (parent f id) = Some v' /\
      N.testbit (nv_ptr v') (ptr_bit (slice W (p_bits id) (p_len id - 4) 4)) = true) ->
  hG h'.
Proof.
  intros [A B D E F G] I' H Q L P. constructor; auto.
  - intros X. destruct (nodes f h (0, 0)) as [v|] eqn:R; [|easy].
    destruct (nodes_hle f h h' _ _ A I' H R) as (v' & R' & _). congruence.
  - intros id' v' N. destruct (Q _ _ N) as [(v & N0 & -> & _)|(-> & -> & _)]; eauto.
  - intros id' v' N Z. apply (bits_nodes_ptr h h'); auto.
    destruct (Q _ _ N) as [(v & N0 & _ & _)|(-> & _ & _)]; eauto.
  - intros id' v' b N T. destruct (Q _ _ N) as [(v & N0 & E1 & _)|(-> & E1 & _)]; rewrite E1 in T.
    + eauto.
    + now rewrite N.bits_0 in T.
  - intros id' v' b N T. destruct (Q _ _ N) as [(v & N0 & _ & E1)|(-> & _ & E1)]; rewrite E1 in T.
    + eauto.
    + now rewrite N.bits_0 in T.
Qed.

(* one more bit in a node *)
Lemma nle_set_arr isptr v x : bits_in (get_arr isptr v) x -> nle v (set_arr isptr x v).
Proof.
  intros B. destruct isptr; simpl in *; (split; [|split]); simpl; auto using bits_in_refl.
Qed.

Lemma hG_ptr h k id p : hG h -> at_id h k id -> C p -> on_path f p id = true ->
  p_len id + 4 < p_len p -> forall v, deref k h = Ok v ->
  let h' := modify k (set_arr true (N.lor (nv_ptr v) (2 ^ ptr_bit (nib f p (p_len id))))) h in
  hG h' /\ hle h h' /\ exists v', nodes f h' id = Some v' /\
    N.testbit (nv_ptr v') (ptr_bit (nib f p (p_len id))) = true.
Proof.
  intros [A B D E F G] AT Cp O L v DR h'.
  destruct (at_id_lookup _ _ _ AT) as (v0 & DR0 & s & LK). rewrite DR in DR0. injection DR0 as <-.
  pose proof (at_id_nodes f h k id v s A LK) as NV.
  assert (H : hle h h').
  { eapply hle_modify_at; [exact LK|]. apply nle_set_arr. apply bits_in_lor_l. }
  destruct (modify_nodes f h k id
    (set_arr true (N.lor (nv_ptr v) (2 ^ ptr_bit (nib f p (p_len id))))) A AT) as [I' N'].
  fold h' in I', N'.
  assert (NID : nodes f h' id = Some (set_arr true (N.lor (nv_ptr v) (2 ^ ptr_bit (nib f p (p_len id)))) v)).
  { rewrite N', pid_eqb_refl, NV. easy. }
  split; [|split; [easy|]].
  2:{ eexists. split; [exact NID|]. simpl. rewrite N.lor_spec, testbit_pow2, N.eqb_refl.
      apply orb_true_r. }
  assert (OLD : forall id' w, nodes f h' id' = Some w -> exists w0, nodes f h id' = Some w0 /\
     nv_pfx w = nv_pfx w0 /\ forall b, N.testbit (nv_ptr w) b = true ->
       N.testbit (nv_ptr w0) b = true \/ id' = id /\ b = ptr_bit (nib f p (p_len id))).
  { intros id' w Q. rewrite N' in Q. destruct (pid_eqb id' id) eqn:X.
    - apply pid_eqb_spec in X. subst id'. rewrite NV in Q. injection Q as <-. exists v.
      split; [easy|]. split; [easy|]. intros b T. simpl in T.
      rewrite N.lor_spec, testbit_pow2 in T. apply orb_true_iff in T.
      destruct T as [T|T]; [auto|]. apply N.eqb_eq in T. auto.
    - exists w. auto. }
  constructor; auto.
  - intros X. destruct (nodes f h (0, 0)) as [w|] eqn:R; [|easy].
    destruct (nodes_hle f h h' _ _ A I' H R) as (w' & R' & _). congruence.
  - intros id' w Q. destruct (OLD _ _ Q) as (w0 & Q0 & _ & T0).
    destruct (D _ _ Q0) as [D1 D2]. split; [easy|].
    rewrite N' in Q. destruct (pid_eqb id' id) eqn:X; [|rewrite Q0 in Q; injection Q as <-; easy].
    rewrite NV in Q. injection Q as <-. simpl. apply lor_lt; [now apply (D id)|].
    apply pow2_lt. unfold ptr_bit. lia.
  - intros id' w Q Z. apply (bits_nodes_ptr h h'); auto.
    destruct (OLD _ _ Q) as (w0 & Q0 & _). eauto.
  - intros id' w b Q T. destruct (OLD _ _ Q) as (w0 & Q0 & _ & T0).
    destruct (T0 b T) as [T1|[-> ->]]; [eauto|]. exists p. auto.
  - intros id' w b Q T. destruct (OLD _ _ Q) as (w0 & Q0 & P0 & _). rewrite P0 in T. eauto.
Qed.

Lemma hG_pfx h k p : hG h -> at_id h k (node_of f p) -> C p -> 0 < p_len p ->
  forall v, deref k h = Ok v ->
  let h' := modify k (set_arr false (N.lor (2 ^ bs_bit (span_of f p)) (nv_pfx v))) h in
  hG h' /\ hle h h' /\ stored f h' p = true.
Proof.
  intros [A B D E F G] AT Cp L v DR h'.
  destruct (at_id_lookup _ _ _ AT) as (v0 & DR0 & s & LK). rewrite DR in DR0. injection DR0 as <-.
  set (id := node_of f p) in *.
  pose proof (at_id_nodes f h k id v s A LK) as NV.
  assert (H : hle h h').
  { eapply hle_modify_at; [exact LK|]. apply nle_set_arr. apply bits_in_lor_r. }
  destruct (modify_nodes f h k id
    (set_arr false (N.lor (2 ^ bs_bit (span_of f p)) (nv_pfx v))) A AT) as [I' N'].
  fold h' in I', N'.
  assert (NID : nodes f h' id = Some (set_arr false (N.lor (2 ^ bs_bit (span_of f p)) (nv_pfx v)) v)).
  { rewrite N', pid_eqb_refl, NV. easy. }
  split; [|split; [easy|]].
  2:{ unfold stored. fold id. rewrite NID. simpl.
      now rewrite N.lor_spec, testbit_pow2, N.eqb_refl. }
  assert (OLD : forall id' w, nodes f h' id' = Some w -> exists w0, nodes f h id' = Some w0 /\
     nv_ptr w = nv_ptr w0 /\ forall b, N.testbit (nv_pfx w) b = true ->
       N.testbit (nv_pfx w0) b = true \/ id' = id /\ b = bs_bit (span_of f p)).
  { intros id' w Q. rewrite N' in Q. destruct (pid_eqb id' id) eqn:X.
    - apply pid_eqb_spec in X. subst id'. rewrite NV in Q. injection Q as <-. exists v.
      split; [easy|]. split; [easy|]. intros b T. simpl in T.
      rewrite N.lor_spec, testbit_pow2 in T. apply orb_true_iff in T.
      destruct T as [T|T]; [|auto]. apply N.eqb_eq in T. auto.
    - exists w. auto. }
  constructor; auto.
  - intros X. destruct (nodes f h (0, 0)) as [w|] eqn:R; [|easy].
    destruct (nodes_hle f h h' _ _ A I' H R) as (w' & R' & _). congruence.
  - intros id' w Q. destruct (OLD _ _ Q) as (w0 & Q0 & -> & _). eauto.
  - intros id' w Q Z. apply (bits_nodes_ptr h h'); auto.
    destruct (OLD _ _ Q) as (w0 & Q0 & _). eauto.
  - intros id' w b Q T. destruct (OLD _ _ Q) as (w0 & Q0 & P0 & _). rewrite P0 in T. eauto.
  - intros id' w b Q T. destruct (OLD _ _ Q) as (w0 & Q0 & _ & T0).
    destruct (T0 b T) as [T1|[-> ->]]; [eauto|]. exists p. auto.
Qed.

End T.

Lemma hG_mono f (C C' : pid -> Prop) h : (forall p, C p -> C' p) -> hG f C h -> hG f C' h.
Proof.
  intros S [A B D E F G]. constructor; auto.
  - intros id v b N T. destruct (F _ _ _ N T) as (p & Cp & R). exists p. auto.
  - intros id v b N T. destruct (G _ _ _ N T) as (p & Cp & R). exists p. auto.
Qed.
Lemma tG_mono f (C C' : pid -> Prop) t : (forall p, C p -> C' p) -> tG f C t -> tG f C' t.
Proof.
  intros S [A B]. split; [eapply hG_mono; eauto|].
  intros D. destruct (B D) as (p & Cp & L). eauto.
Qed.

(* ---------- one insert ---------- *)

Section Ins.
Variable f : af.
Variable ov : bool.
Notation W := (BITS f).

(* prefixes short enough for the retry counter not to overflow *)
Definition acc_safe (p : pid) : Prop := ov = false \/ p_len p <= 108.

Definition nib_len (p : pid) (s : N) : N := if p_len p <? s + 4 then p_len p - s else 4.
Definition anc (p : pid) (s : N) : pid := (trunc W (p_bits p) s, s).
Definition mkframe (p : pid) (s acc : N) : frame :=
  Frame (s + 4) s (BS (slice W (p_bits p) s (nib_len p s)) (nib_len p s))
    (p_len p <=? s + 4) (anc p s) acc.

Definition frame_ok (p : pid) (fr : frame) : Prop :=
  exists s acc, fr = mkframe p s acc /\ s mod 4 = 0 /\ s < p_len p /\
    (acc_safe p -> ov = true -> acc + 16 <= 16 * 2 ^ (s / 4)).

(* down to depth s all pointers towards p are set *)
Definition path_done (h : heap nodeval) (p : pid) (s : N) : Prop :=
  forall s0, s0 mod 4 = 0 -> s0 < s -> exists v, nodes f h (anc p s0) = Some v /\
    N.testbit (nv_ptr v) (ptr_bit (nib f p s0)) = true.

Lemma path_done_hle h h' p s : ninv f h -> ninv f h' -> hle h h' ->
  path_done h p s -> path_done h' p s.
Proof.
  intros I I' H P s0 M L. apply (bits_nodes_ptr f h h'); auto.
Qed.

(* reading a bitmap through a reference, some time ago *)
Definition seen (isptr : bool) (h : heap nodeval) (k : key) (x : N) : Prop :=
  exists v, deref k h = Ok v /\ bits_in x (get_arr isptr v).

Lemma seen_hle isptr h h' k x : hle h h' -> seen isptr h k x -> seen isptr h' k x.
Proof.
  intros H (v & D & B). unfold deref in D. destruct (lookup k h) as [e|] eqn:L; [|discriminate].
  injection D as <-. destruct (H _ _ L) as (e' & L' & _ & _ & (A1 & A2 & _)).
  exists (e_val e'). unfold deref. rewrite L'. split; [easy|].
  destruct isptr; simpl in *; eapply bits_in_trans; eauto.
Qed.

(* what a thread that has inserted p may count on *)
Definition inserted (t : tree) (p : pid) : Prop :=
  if p_len p =? 0 then t_default t = true
  else path_done (t_heap t) p (nlen (p_len p)) /\ stored f (t_heap t) p = true.

Definition tI (p : pid) (t : tree) (pc : tpc) : Prop :=
  let h := t_heap t in
  match pc with
  | TStart => True
  | TDefault _ r => p_len p = 0 /\ t_default t = true /\ rI f h (0, 0) r
  | TNode fr r => frame_ok p fr /\ path_done h p (fr_start fr) /\ rI f h (fr_cur fr) r
  | TLoadPtr fr k => frame_ok p fr /\ path_done h p (fr_start fr) /\ at_id h k (fr_cur fr)
  | TLoadPfx fr k ptr =>
    frame_ok p fr /\ path_done h p (fr_start fr) /\ at_id h k (fr_cur fr) /\ seen true h k ptr
  | TTestPtr fr k ptr =>
    frame_ok p fr /\ path_done h p (fr_start fr) /\ at_id h k (fr_cur fr) /\ seen true h k ptr /\
    fr_last fr = false
  | TCasPtr fr k cur rc =>
    frame_ok p fr /\ path_done h p (fr_start fr) /\ at_id h k (fr_cur fr) /\ seen true h k cur /\
    fr_last fr = false /\ rc + N.of_nat (zeros ptr_pos cur) <= 16
  | TCasPfx fr k cur rc =>
    frame_ok p fr /\ path_done h p (fr_start fr) /\ at_id h k (fr_cur fr) /\ seen false h k cur /\
    fr_last fr = true /\ rc + N.of_nat (zeros pfx_pos cur) <= 30
  | TCount fr rc =>
    frame_ok p fr /\ path_done h p (fr_end fr) /\ fr_last fr = false /\ rc <= 16
  | TStore fr rc nn s =>
    frame_ok p fr /\ path_done h p (fr_end fr) /\ fr_last fr = false /\ rc <= 16 /\
    nn = node_new /\ sI f h (anc p (fr_end fr)) s
  | TDone (ROk _) => inserted t p
  | TDone (RErr _) => False
  | TPanic => ~ acc_safe p
  end.

Lemma stored_hle h h' p : ninv f h -> ninv f h' -> hle h h' -> stored f h p = true ->
  stored f h' p = true.
Proof.
  intros I I' H S. unfold stored in *. destruct (nodes f h (node_of f p)) as [v|] eqn:N; [|easy].
  destruct (nodes_hle f h h' _ _ I I' H N) as (v' & -> & (_ & B & _)). now apply B.
Qed.

Lemma inserted_R t t' p : ninv f (t_heap t) -> ninv f (t_heap t') -> tR t t' ->
  inserted t p -> inserted t' p.
Proof.
  intros I I' (H & D & _). unfold inserted. destruct (p_len p =? 0); [auto|].
  intros [A B]. split.
  - now apply (path_done_hle (t_heap t)).
  - now apply (stored_hle (t_heap t)).
Qed.

Lemma tI_R p t t' pc : ninv f (t_heap t) -> ninv f (t_heap t') -> tR t t' ->
  tI p t pc -> tI p t' pc.
Proof.
  intros I I' R. pose proof R as (H & D & _). pose proof (hle_grows _ _ H) as G.
  assert (PD : forall s, path_done (t_heap t) p s -> path_done (t_heap t') p s).
  { intros s. now apply path_done_hle. }
  assert (IN : inserted t p -> inserted t' p) by (now apply inserted_R).
  destruct pc; simpl; auto; try (destruct r; now auto); intros X; decompose [and] X; clear X;
    repeat match goal with |- _ /\ _ => split end; auto;
    eauto using rI_grows, sI_grows, at_id_grows, seen_hle.
Qed.

Lemma add32_safe a b : a + b < 2 ^ 32 \/ ov = false -> exists c, add32 ov a b = Ok c /\
  (ov = true -> c = a + b).
Proof.
  intros H. unfold add32. destruct (N.ltb_spec (a + b) (2 ^ 32)); [eauto|].
  destruct H as [H|H]; [lia|]. rewrite H. eexists. split; [reflexivity|]. discriminate.
Qed.

Lemma next_turn_ok (h : heap nodeval) p s acc : wf_pid f p -> s mod 4 = 0 -> s < p_len p ->
  exists w, next_turn f p s (anc p s) acc = Ok (TNode (mkframe p s acc) (RGet w)) /\
    walk_ok NSTRIDE f h (anc p s) w /\ w_level w = 0.
Proof.
  intros Wp M L. destruct Wp as [Hl [Hb Hm]].
  pose proof (BITS_le f) as B1. pose proof (BITS_ge f) as B2.
  unfold next_turn, STRIDE_SIZE. rewrite add8_ok by lia. cbn [bind].
  assert (NL : (if p_len p <? s + 4
      then (do a <- add8 4 (p_len p); sub8 a (s + 4)) else Ok 4) = Ok (nib_len p s)).
  { unfold nib_len. destruct (N.ltb_spec (p_len p) (s + 4)); [|easy].
    rewrite add8_ok by lia. cbn [bind]. rewrite sub8_ok by lia. f_equal. lia. }
  rewrite NL; clear NL. cbn [bind].
  rewrite sub8_ok by lia. cbn [bind]. replace (s + 4 - 4) with s by lia.
  assert (Hnl : 0 < nib_len p s <= 4 /\ s + nib_len p s <= p_len p).
  { unfold nib_len. destruct (N.ltb_spec (p_len p) (s + 4)); lia. }
  rewrite into_bit_span_ok by lia. cbn [bind].
  assert (Dc : ndom f (anc p s)).
  { split; [apply wf_trunc; [easy|lia]|easy]. }
  destruct (walk_start_ok NSTRIDE NSTRIDE_nz f h (anc p s) Dc) as (w & E & O & L0).
  rewrite E. cbn [bind]. exists w. auto.
Qed.

Lemma anc_dom p s : wf_pid f p -> s mod 4 = 0 -> s <= p_len p -> ndom f (anc p s).
Proof.
  intros [Hl [Hb Hm]] M L. split; [apply wf_trunc; [easy|lia]|easy].
Qed.

Lemma next_id_ok p s acc : wf_pid f p -> s mod 4 = 0 -> s + 4 < p_len p ->
  new_id f p (mkframe p s acc) = Ok (anc p (s + 4)).
Proof.
  intros Wp M L. destruct Wp as [Hl [Hb Hm]]. pose proof (BITS_le f).
  unfold new_id, mkframe. cbn [fr_start fr_bs bs_len]. unfold nib_len.
  destruct (N.ltb_spec (p_len p) (s + 4)); [lia|]. rewrite add8_ok by lia. cbn [bind].
  unfold new_with_cleaned_id, anc. now rewrite truncate_to_len_ok by (auto; lia).
Qed.

Lemma on_path_anc p s : s mod 4 = 0 -> s < p_len p -> on_path f p (anc p s) = true.
Proof. intros. now apply on_path_at. Qed.

Lemma anc_parent p s : wf_pid f p -> s mod 4 = 0 -> s + 4 <= p_len p ->
  parent f (anc p (s + 4)) = anc p s /\
  slice W (p_bits (anc p (s + 4))) (p_len (anc p (s + 4)) - 4) 4 = nib f p s.
Proof.
  intros Wp M L. destruct Wp as [Hl [Hb Hm]]. unfold parent, anc. simpl.
  replace (s + 4 - 4) with s by lia. split.
  - f_equal. rewrite trunc_trunc by lia. easy.
  - unfold nib. rewrite slice_trunc by lia. easy.
Qed.

Lemma acc_step s acc rc : s mod 4 = 0 -> acc + 16 <= 16 * 2 ^ (s / 4) -> rc <= 16 ->
  acc + (acc + rc) + 16 <= 16 * 2 ^ ((s + 4) / 4).
Proof.
  intros M A R. replace ((s + 4) / 4) with (s / 4 + 1) by dlia.
  rewrite N.pow_add_r. change (2 ^ 1) with 2. lia.
Qed.

Lemma acc_small p s acc : acc_safe p -> ov = true -> s < p_len p ->
  acc + 16 <= 16 * 2 ^ (s / 4) -> acc + 16 <= 2 ^ 30 * 2.
Proof.
  intros [S|S] O L A; [congruence|].
  assert (s / 4 <= 26) by dlia.
  assert (2 ^ (s / 4) <= 2 ^ 26) by (apply pow2_le; lia).
  change (2 ^ 30 * 2) with (16 * (2 ^ 26 * 2)). lia.
Qed.

Lemma go_on_ok (h : heap nodeval) p s acc rc : wf_pid f p -> s mod 4 = 0 -> s + 4 < p_len p -> rc <= 16 ->
  (acc_safe p -> ov = true -> acc + 16 <= 16 * 2 ^ (s / 4)) ->
  let r := go_on f ov p (mkframe p s acc) (anc p (s + 4)) 0 rc in
  (exists acc' w, r = Ok (TNode (mkframe p (s + 4) acc') (RGet w)) /\
     walk_ok NSTRIDE f h (anc p (s + 4)) w /\ w_level w = 0 /\
     (acc_safe p -> ov = true -> acc' + 16 <= 16 * 2 ^ ((s + 4) / 4))) \/
  (or_panic r = TPanic /\ r = Panic /\ ~ acc_safe p).
Proof.
  intros Wp M L R A r. unfold r, go_on. cbn [fr_acc fr_end mkframe].
  destruct (add32 ov acc 0) as [a1| |] eqn:E1; cbn [bind].
  1: destruct (add32 ov a1 rc) as [a2| |] eqn:E2; cbn [bind].
  1: destruct (add32 ov acc a2) as [a3| |] eqn:E3; cbn [bind].
  2-7: right.
  - left.
    destruct (next_turn_ok h p (s + 4) a3) as (w & E & O & L0); auto; try dlia.
    exists a3, w. split; [exact E|]. split; [easy|]. split; [easy|].
    intros S V. specialize (A S V). unfold add32 in E1, E2, E3. rewrite V in *.
    destruct (acc + 0 <? 2 ^ 32); [|discriminate]. injection E1 as <-.
    destruct (acc + 0 + rc <? 2 ^ 32); [|discriminate]. injection E2 as <-.
    destruct (acc + (acc + 0 + rc) <? 2 ^ 32); [|discriminate]. injection E3 as <-.
    pose proof (acc_step s acc rc M A R). lia.
  - split; [easy|]. split; [easy|]. intros S.
    unfold add32 in *. destruct ov eqn:V.
    + pose proof (A S eq_refl) as A1. pose proof (acc_small p s acc S V) as A2.
      destruct (N.ltb_spec (acc + 0) (2 ^ 32)); [|discriminate]. injection E1 as <-.
      destruct (N.ltb_spec (acc + 0 + rc) (2 ^ 32)); [|discriminate]. injection E2 as <-.
      destruct (N.ltb_spec (acc + (acc + 0 + rc)) (2 ^ 32)); [discriminate|].
      pose proof (acc_step s acc rc M A1 R) as A3.
      assert ((s + 4) / 4 <= 27).
      { destruct S as [S|S]; [congruence|]. dlia. }
      assert (2 ^ ((s + 4) / 4) <= 2 ^ 27) by (apply pow2_le; lia).
      change (2 ^ 32) with (16 * 2 ^ 27 * 2) in *. lia.
    + destruct (acc + a2 <? 2 ^ 32); discriminate.
  - unfold add32 in E3. destruct (_ <? _); [discriminate|]. destruct ov; discriminate.
  - split; [easy|]. split; [easy|]. intros S.
    unfold add32 in *. destruct ov eqn:V.
    + pose proof (A S eq_refl) as A1.
      pose proof (acc_small p s acc S V ltac:(lia) A1) as A2.
      destruct (N.ltb_spec (acc + 0) (2 ^ 32)); [|discriminate]. injection E1 as <-.
      destruct (N.ltb_spec (acc + 0 + rc) (2 ^ 32)); [discriminate|].
      change (2 ^ 32) with (2 ^ 30 * 4) in *. lia.
    + destruct (a1 + rc <? 2 ^ 32); discriminate.
  - unfold add32 in E2. destruct (_ <? _); [discriminate|]. destruct ov; discriminate.
  - split; [easy|]. split; [easy|]. intros S.
    unfold add32 in *. destruct ov eqn:V.
    + pose proof (A S eq_refl) as A1.
      pose proof (acc_small p s acc S V ltac:(lia) A1) as A2.
      destruct (N.ltb_spec (acc + 0) (2 ^ 32)); [discriminate|].
      change (2 ^ 32) with (2 ^ 30 * 4) in *. lia.
    + destruct (acc + 0 <? 2 ^ 32); discriminate.
  - unfold add32 in E1. destruct (_ <? _); [discriminate|]. destruct ov; discriminate.
Qed.

Lemma finish_ok p s acc rc ex : s < p_len p -> rc <= 30 ->
  (acc_safe p -> ov = true -> acc + 16 <= 16 * 2 ^ (s / 4)) ->
  let r := finish ov (mkframe p s acc) rc ex in
  (exists a, r = Ok (TDone (ROk (a, ex)))) \/ (or_panic r = TPanic /\ r = Panic /\ ~ acc_safe p).
Proof.
  intros L R A r. unfold r, finish. cbn [fr_acc mkframe]. unfold add32.
  destruct (N.ltb_spec (acc + rc) (2 ^ 32)); cbn [bind]; [left; eauto|].
  destruct ov eqn:V; cbn [bind]; [|left; eauto]. right. split; [easy|]. split; [easy|].
  intros S. pose proof (acc_small p s acc S V L (A S eq_refl)).
  change (2 ^ 32) with (2 ^ 30 * 4) in *. lia.
Qed.

End Ins.
