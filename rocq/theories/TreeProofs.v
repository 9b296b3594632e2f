(* What set_prefix_exists and prefix_exists do to the tree seen as a map from
   node ids to nodes, and the invariant of the tree. *)
From Coq Require Import Arith NArith List Bool Lia.
From Verif Require Import Word Af BitSpan Maps ChtMath Cht Node Tree ChainProofs.
Import ListNotations.
Local Open Scope N_scope.

(* ---------- single bits ---------- *)

Lemma testbit_pow2 b i : N.testbit (2 ^ b) i = (b =? i).
Proof. apply N.pow2_bits_eqb. Qed.

Lemma land_pow2 x b : N.land x (2 ^ b) = if N.testbit x b then 2 ^ b else 0.
Proof.
  apply N.bits_inj. intros i. rewrite N.land_spec, testbit_pow2.
  destruct (N.eqb_spec b i) as [<-|NE].
  - rewrite andb_true_r. destruct (N.testbit x b) eqn:E.
    + now rewrite testbit_pow2, N.eqb_refl.
    + now rewrite N.bits_0.
  - rewrite andb_false_r. destruct (N.testbit x b).
    + rewrite testbit_pow2. symmetry. now apply N.eqb_neq.
    + now rewrite N.bits_0.
Qed.

Lemma land_pow2_gt x b : (0 <? N.land x (2 ^ b)) = N.testbit x b.
Proof.
  rewrite land_pow2. destruct (N.testbit x b); [|easy].
  apply N.ltb_lt. auto.
Qed.

Lemma land_pow2_eq0 x b : (N.land x (2 ^ b) =? 0) = negb (N.testbit x b).
Proof.
  rewrite land_pow2. destruct (N.testbit x b); [|easy].
  apply N.eqb_neq. auto.
Qed.

Lemma lor_pow2_set x b : N.testbit x b = true -> N.lor x (2 ^ b) = x.
Proof.
  intros H. apply N.bits_inj. intros i. rewrite N.lor_spec, testbit_pow2.
  destruct (N.eqb_spec b i) as [<-|]; [now rewrite H|apply orb_false_r].
Qed.

Lemma lor_lt x y w : x < 2 ^ w -> y < 2 ^ w -> N.lor x y < 2 ^ w.
Proof.
  intros Hx Hy.
  destruct (N.eq_dec (N.lor x y) 0) as [->|NZ]; [auto|].
  apply N.log2_lt_pow2; [lia|]. rewrite N.log2_lor.
  destruct (N.eq_dec w 0) as [->|].
  { change (2^0) with 1 in *. replace x with 0 in * by lia.
    replace y with 0 in * by lia. now simpl in NZ. }
  assert (L : forall z, z < 2 ^ w -> N.log2 z < w).
  { intros z Hz. destruct (N.eq_dec z 0) as [->|]; [simpl; lia|].
    apply N.log2_lt_pow2; lia. }
  apply N.max_lub_lt; auto.
Qed.

Lemma testbit_above x w i : x < 2 ^ w -> w <= i -> N.testbit x i = false.
Proof.
  intros Hx Hi. destruct (N.eq_dec x 0) as [->|]; [apply N.bits_0|].
  apply N.bits_above_log2. apply N.log2_lt_pow2 in Hx; lia.
Qed.

Lemma testbit_double x i : 0 < i -> N.testbit (N.shiftl x 1) i = N.testbit x (i - 1).
Proof. intros. now rewrite N.shiftl_spec_high' by lia. Qed.

(* the pointer bit of a nibble, as stored in the 16-bit array *)
Definition ptr_bit (n : N) : N := 15 - n.

Lemma new_ptr_ok p n : p < 2 ^ 16 -> n < 16 ->
  into_ptrbitarr (N.lor (2 ^ bs_bit (BS n 4)) (into_pfxbitarr p)) = N.lor p (2 ^ ptr_bit n).
Proof.
  intros Hp Hn. unfold into_ptrbitarr, into_pfxbitarr, cast, ptr_bit.
  rewrite N.shiftr_lor, N.shiftr_shiftl_l by lia.
  change (1 - 1) with 0. rewrite N.shiftl_0_r.
  assert (N.shiftr (2 ^ bs_bit (BS n 4)) 1 = 2 ^ (15 - n)) as ->.
  { rewrite N.shiftr_div_pow2. unfold bs_bit, bs_index; simpl bs_len; simpl bs_bits.
    change (2 ^ 4) with 16. rewrite (pow2_split 1) by lia.
    rewrite N.mul_comm, N.div_mul by auto. f_equal. lia. }
  rewrite N.lor_comm. apply N.mod_small. apply lor_lt; [easy|].
  apply pow2_lt. lia.
Qed.

Lemma stride_test_ok p n : n < 16 ->
  (N.land (as_stride_size p) (2 ^ bs_bit (BS n 4)) =? 0) = negb (N.testbit p (ptr_bit n)).
Proof.
  intros Hn. rewrite land_pow2_eq0. f_equal. unfold as_stride_size, ptr_bit.
  unfold bs_bit, bs_index; simpl bs_len; simpl bs_bits. change (2 ^ 4) with 16.
  rewrite testbit_double by lia. f_equal. lia.
Qed.

(* ---------- where a prefix lives ---------- *)

Definition nlen (len : N) : N := 4 * ((len - 1) / 4).
Definition node_of (f : af) (p : pid) : pid :=
  (trunc (BITS f) (p_bits p) (nlen (p_len p)), nlen (p_len p)).
Definition span_of (f : af) (p : pid) : bitspan :=
  BS (slice (BITS f) (p_bits p) (nlen (p_len p)) (p_len p - nlen (p_len p)))
     (p_len p - nlen (p_len p)).

Lemma nlen_spec len : nlen len mod 4 = 0 /\ nlen len <= len /\ len - nlen len <= 4 /\
  (0 < len -> nlen len < len).
Proof. unfold nlen. repeat split; intros; dlia. Qed.

Lemma nlen_unique len s : s mod 4 = 0 -> s < len -> len <= s + 4 -> s = nlen len.
Proof. unfold nlen. intros. dlia. Qed.

Section T.
Variable f : af.
Notation W := (BITS f).

Lemma wf_span p : wf_bs (span_of f p).
Proof.
  unfold span_of. apply wf_bs_slice. pose proof (nlen_spec (p_len p)). lia.
Qed.

Lemma node_of_dom p : wf_pid f p -> ndom f (node_of f p).
Proof.
  intros [Hl [Hb _]]. pose proof (nlen_spec (p_len p)). split.
  - apply wf_trunc; [easy|lia].
  - apply H.
Qed.

Lemma node_of_len_lt p : wf_pid f p -> p_len (node_of f p) < W.
Proof.
  intros [Hl [Hb _]]. pose proof (nlen_spec (p_len p)). pose proof (BITS_pos f).
  simpl. unfold p_len in *; simpl. fold (p_len p) in *. lia.
Qed.

Lemma place_inj p q : wf_pid f p -> wf_pid f q ->
  node_of f p = node_of f q -> span_of f p = span_of f q -> p = q.
Proof.
  intros Wp Wq N S. unfold node_of, span_of in *.
  apply pair_equal_spec in N. destruct N as [N1 N2].
  injection S as S1 S2.
  pose proof (nlen_spec (p_len p)) as Lp. pose proof (nlen_spec (p_len q)) as Lq.
  assert (L : p_len p = p_len q) by lia.
  apply (wf_pid_inj f); auto.
  rewrite L in *.
  assert (A : forall x, x / 2 ^ (W - p_len q) =
     x / 2 ^ (W - nlen (p_len q)) * 2 ^ (p_len q - nlen (p_len q)) +
     slice W x (nlen (p_len q)) (p_len q - nlen (p_len q))).
  { intros x. rewrite <- div_slice; [f_equal; f_equal; lia|].
    destruct Wq. lia. }
  rewrite !A, S1. f_equal. f_equal.
  apply (f_equal (fun x => x / 2 ^ (W - nlen (p_len q)))) in N1.
  now rewrite !trunc_div in N1.
Qed.

Lemma node_id_for_prefix_loop_ok p : wf_pid f p ->
  forall fuel s, s mod 4 = 0 -> (s < p_len p \/ s = 0) -> p_len p < 4 * N.of_nat fuel + s ->
  node_id_for_prefix_loop fuel f p s = Ok (node_of f p, span_of f p).
Proof.
  intros [Hl [Hb Hm]]. pose proof (BITS_le f). pose proof (BITS_ge f).
  induction fuel as [|fuel IH]; intros s M S F; [lia|].
  cbn [node_id_for_prefix_loop]. unfold STRIDE_SIZE.
  rewrite add8_ok by lia. cbn [bind].
  destruct (N.leb_spec (p_len p) (s + 4)).
  - assert (s = nlen (p_len p)) as Es.
    { destruct S as [S| ->]; [now apply nlen_unique|].
      unfold nlen. dlia. }
    rewrite sub8_ok by lia. cbn [bind]. replace (s + 4 - 4) with s by lia.
    rewrite shl_ok by lia. cbn [bind].
    rewrite sub8_ok by lia. cbn [bind]. rewrite sub8_ok by lia. cbn [bind].
    unfold new_with_cleaned_id. rewrite truncate_to_len_ok by (auto; lia).
    unfold node_of, span_of. rewrite <- Es.
    unfold checked_shr_or_zero.
    destruct (N.eq_dec (p_len p - s) 0) as [Z|Z].
    + rewrite Z, N.sub_0_r, N.eqb_refl, orb_true_r. cbn [bind].
      unfold slice. change (2^0) with 1. rewrite N.mod_1_r.
      destruct f; reflexivity.
    + replace (W - (p_len p - s) =? 0) with false by (symmetry; apply N.eqb_neq; lia).
      replace (W - (p_len p - s) =? W) with false by (symmetry; apply N.eqb_neq; lia).
      cbn [orb]. rewrite shr_ok by lia. cbn [bind].
      rewrite shl_shr_slice by lia.
      unfold dangerously_truncate_to_u32, cast. destruct f; [easy|].
      rewrite N.mod_small; [easy|].
      eapply N.lt_le_trans; [apply slice_lt|]. apply pow2_le. lia.
  - apply IH; [|lia|lia]. dlia.
Qed.

Lemma node_id_for_prefix_ok p : wf_pid f p ->
  node_id_for_prefix f p = Ok (node_of f p, span_of f p).
Proof.
  intros Wp. apply node_id_for_prefix_loop_ok; auto.
  destruct Wp. pose proof (BITS_le f). unfold DESCENT_FUEL. lia.
Qed.

(* the existence bit of a prefix *)
Definition stored (h : heap nodeval) (p : pid) : bool :=
  match nodes f h (node_of f p) with
  | Some v => N.testbit (nv_pfx v) (bs_bit (span_of f p))
  | None => false
  end.

Lemma prefix_exists_ok t p : ninv f (t_heap t) -> wf_pid f p ->
  prefix_exists f t p = Ok (stored (t_heap t) p).
Proof.
  intros I Wp. unfold prefix_exists. rewrite node_id_for_prefix_ok by auto. cbn [bind].
  rewrite retrieve_node_nodes by (auto using node_of_dom). cbn [bind].
  unfold stored. destruct (nodes f (t_heap t) (node_of f p)); [|easy].
  rewrite into_bit_pos_ok by apply wf_span. cbn [bind].
  now rewrite land_pow2_gt.
Qed.

(* ---------- one insert ---------- *)

(* ids of the nodes on the way to a prefix *)
Definition on_path (p id : pid) : bool :=
  (p_len id mod 4 =? 0) && (p_len id <? p_len p) &&
  (p_bits id =? trunc W (p_bits p) (p_len id)).

Definition nib (p : pid) (s : N) : N := slice W (p_bits p) s 4.

Definition touch (p : pid) (mui : N) (id : pid) (o : option nodeval) : option nodeval :=
  if on_path p id then
    let v := old_or_new o in
    Some (NodeVal
      (if p_len id + 4 <? p_len p then N.lor (nv_ptr v) (2 ^ ptr_bit (nib p (p_len id)))
       else nv_ptr v)
      (if p_len id + 4 <? p_len p then nv_pfx v
       else N.lor (nv_pfx v) (2 ^ bs_bit (span_of f p)))
      (set_insert mui (nv_rbm v)))
  else o.

Definition ptr16 (h : heap nodeval) : Prop :=
  forall id v, nodes f h id = Some v -> nv_ptr v < 2 ^ 16.

(* from depth s on, the pointer bits along the path of p tell which nodes exist *)
Definition path_ok (h : heap nodeval) (p : pid) (s : N) : Prop :=
  forall s0, s <= s0 -> s0 mod 4 = 0 -> s0 + 4 < p_len p ->
    (N.testbit (nv_ptr (old_or_new (nodes f h (trunc W (p_bits p) s0, s0))))
               (ptr_bit (nib p s0)) = true <->
     nodes f h (trunc W (p_bits p) (s0 + 4), s0 + 4) <> None).

Lemma set_insert_idem m s : set_insert m (set_insert m s) = set_insert m s.
Proof.
  unfold set_insert at 1. rewrite mem_insert, N.eqb_refl. easy.
Qed.

Lemma on_path_at p s : s mod 4 = 0 -> s < p_len p ->
  on_path p (trunc W (p_bits p) s, s) = true.
Proof.
  intros. unfold on_path. simpl.
  rewrite !andb_true_iff, N.eqb_eq, N.ltb_lt, N.eqb_eq. easy.
Qed.

Lemma on_path_inv p id : on_path p id = true ->
  p_len id mod 4 = 0 /\ p_len id < p_len p /\ id = (trunc W (p_bits p) (p_len id), p_len id).
Proof.
  unfold on_path. rewrite !andb_true_iff, N.eqb_eq, N.ltb_lt, N.eqb_eq.
  destruct id as [b l]; simpl. intros [[A B] C]. now rewrite <- C.
Qed.

Lemma mod4_next s l : s mod 4 = 0 -> l mod 4 = 0 -> (s <=? l) = (s =? l) || (s + 4 <=? l).
Proof.
  intros. destruct (N.leb_spec s l), (N.eqb_spec s l), (N.leb_spec (s + 4) l); try easy; dlia.
Qed.

Lemma set_prefix_exists_loop_ok p mui : wf_pid f p ->
  forall fuel h cnt s acc,
  ninv f h -> ptr16 h -> s mod 4 = 0 -> s < p_len p -> p_len p <= 4 * N.of_nat fuel + s ->
  exists h' cnt' acc', set_prefix_exists_loop fuel f h cnt p mui s (trunc W (p_bits p) s, s) acc
      = Ok (h', cnt', ROk (acc', stored h p)) /\
    ninv f h' /\ (acc = 0 -> acc' = 0) /\
    (forall id, nodes f h' id =
       if s <=? p_len id then touch p mui id (nodes f h id) else nodes f h id) /\
    (path_ok h p s -> nodes f h (trunc W (p_bits p) s, s) <> None ->
      cnt' + N.of_nat (length h) = cnt + N.of_nat (length h')).
Proof.
  intros Wp. destruct Wp as [Hl [Hb Hm]].
  pose proof (BITS_le f) as B1. pose proof (BITS_ge f) as B2.
  induction fuel as [|fuel IH]; intros h cnt s acc I P16 M S F; [lia|].
  cbn [set_prefix_exists_loop]. unfold STRIDE_SIZE.
  rewrite add8_ok by lia. cbn [bind].
  set (nl := if p_len p <? s + 4 then p_len p - s else 4).
  assert (NL : (if p_len p <? s + 4
      then (do a <- add8 4 (p_len p); sub8 a (s + 4)) else Ok 4) = Ok nl).
  { unfold nl. destruct (N.ltb_spec (p_len p) (s + 4)); [|easy].
    rewrite add8_ok by lia. cbn [bind]. rewrite sub8_ok by lia. f_equal. lia. }
  rewrite NL; clear NL. cbn [bind].
  rewrite sub8_ok by lia. cbn [bind]. replace (s + 4 - 4) with s by lia.
  assert (Hnl : 0 < nl <= 4 /\ s + nl <= p_len p).
  { unfold nl. destruct (N.ltb_spec (p_len p) (s + 4)); lia. }
  rewrite into_bit_span_ok by lia. cbn [bind].
  set (cur := (trunc W (p_bits p) s, s)).
  assert (Dc : ndom f cur).
  { split; [apply wf_trunc; [easy|lia]|easy]. }
  destruct (retrieve_node_mut_ok f h cur mui I Dc)
    as (h1 & k & e & R & I1 & Lk & Ei & Ev & N1 & Len1).
  rewrite R. cbn [bind]. clear R.
  set (v := e_val e) in *.
  assert (Pv : nv_ptr v < 2 ^ 16).
  { rewrite Ev. unfold update_rbm_index; simpl.
    destruct (nodes f h cur) eqn:Q; [now apply (P16 cur)|simpl; auto]. }
  assert (PTR : nv_ptr v = nv_ptr (old_or_new (nodes f h cur))) by (now rewrite Ev).
  assert (PFX : nv_pfx v = nv_pfx (old_or_new (nodes f h cur))) by (now rewrite Ev).
  assert (RBM : nv_rbm v = set_insert mui (nv_rbm (old_or_new (nodes f h cur)))) by (now rewrite Ev).
  unfold eval_node_or_prefix_at.
  rewrite into_bit_pos_ok by (apply wf_bs_slice; lia). cbn [bind].
  assert (OnC : on_path p cur = true) by (now apply on_path_at).
  destruct (N.leb_spec (p_len p) (s + 4)) as [Last|NLast].
  - (* last stride *)
    cbn [negb].
    assert (Es : s = nlen (p_len p)) by (now apply nlen_unique).
    assert (Enl : nl = p_len p - s).
    { unfold nl. destruct (N.ltb_spec (p_len p) (s + 4)); lia. }
    assert (Esp : BS (slice W (p_bits p) s nl) nl = span_of f p).
    { unfold span_of. now rewrite Enl, <- Es. }
    assert (Eno : node_of f p = cur) by (unfold node_of; now rewrite <- Es).
    rewrite Esp.
    assert (St : stored h p = N.testbit (nv_pfx v) (bs_bit (span_of f p))).
    { unfold stored. rewrite Eno, PFX. destruct (nodes f h cur); [easy|].
      simpl. now rewrite N.bits_0. }
    assert (Lt : (s + 4 <? p_len p) = false) by (apply N.ltb_ge; lia).
    rewrite land_pow2_eq0.
    assert (Fin : forall v', nv_ptr v' = nv_ptr v -> nv_rbm v' = nv_rbm v ->
      nv_pfx v' = N.lor (nv_pfx v) (2 ^ bs_bit (span_of f p)) ->
      ninv f (update k (set_val e v') h1) /\
      (forall id, nodes f (update k (set_val e v') h1) id =
        if s <=? p_len id then touch p mui id (nodes f h id) else nodes f h id) /\
      (nodes f h cur <> None -> length (update k (set_val e v') h1) = length h)).
    { intros v' E1 E2 E3. destruct (nodes_write f h1 k e v' I1 Lk) as [I2 N2].
      split; [easy|]. split.
      2:{ intros NN. rewrite update_length, Lk, Len1.
          destruct (nodes f h cur); [easy|congruence]. }
      intros id. rewrite N2, Ei, N1.
      destruct (pid_eqb id cur) eqn:Q.
      + apply pid_eqb_spec in Q. subst id. simpl p_len. rewrite N.leb_refl.
        unfold touch. rewrite OnC. simpl p_len. rewrite Lt. f_equal.
        rewrite <- PFX, <- RBM, <- PTR, <- E1, <- E2, <- E3. now destruct v'.
      + destruct (N.leb_spec s (p_len id)); [|easy].
        unfold touch. destruct (on_path p id) eqn:O; [|easy]. exfalso.
        apply on_path_inv in O. destruct O as [O1 [O2 O3]].
        assert (p_len id = s) by dlia.
        rewrite O3, H0 in Q. unfold cur in Q. now rewrite pid_eqb_refl in Q. }
    destruct (N.testbit (nv_pfx v) (bs_bit (span_of f p))) eqn:TB; cbn [negb].
    + cbn [bind]. destruct (Fin v) as (F1 & F2 & F3); auto.
      { now rewrite lor_pow2_set. }
      eexists _, _, _. rewrite St. split; [reflexivity|].
      split; [easy|]. split; [easy|]. split; [easy|].
      intros _ NN. rewrite F3 by auto. lia.
    + cbn [bind]. edestruct Fin as (F1 & F2 & F3).
      4:{ eexists _, _, _. rewrite St. split; [reflexivity|].
          split; [exact F1|]. split; [easy|]. split; [exact F2|].
          intros _ NN. rewrite F3 by auto. lia. }
      all: simpl; auto. apply N.lor_comm.
  - (* not the last stride *)
    cbn [negb].
    assert (Enl : nl = 4).
    { unfold nl. destruct (N.ltb_spec (p_len p) (s + 4)); lia. }
    rewrite Enl. cbn [bs_len].
    assert (Hn : slice W (p_bits p) s 4 < 16) by apply slice_lt.
    rewrite stride_test_ok by auto.
    assert (Lt : (s + 4 <? p_len p) = true) by (apply N.ltb_lt; lia).
    set (nxt := (trunc W (p_bits p) (s + 4), s + 4)) in *.
    assert (Dn : ndom f nxt).
    { split; [apply wf_trunc; [easy|lia]|]. simpl. unfold NSTRIDE. dlia. }
    assert (Nxt : node_of f p <> cur).
    { unfold node_of, cur. intros X. apply pair_equal_spec in X. destruct X as [_ X].
      pose proof (nlen_spec (p_len p)). lia. }
    (* after the pointer has been written *)
    assert (Fin : forall v', nv_ptr v' = N.lor (nv_ptr v) (2 ^ ptr_bit (nib p s)) ->
      nv_rbm v' = nv_rbm v -> nv_pfx v' = nv_pfx v ->
      ninv f (update k (set_val e v') h1) /\
      (forall id, nodes f (update k (set_val e v') h1) id =
        if pid_eqb id cur then touch p mui id (nodes f h id) else nodes f h id) /\
      (nodes f h cur <> None -> length (update k (set_val e v') h1) = length h)).
    { intros v' E1 E2 E3. destruct (nodes_write f h1 k e v' I1 Lk) as [I2 N2].
      split; [easy|]. split.
      2:{ intros NN. rewrite update_length, Lk, Len1.
          destruct (nodes f h cur); [easy|congruence]. }
      intros id. rewrite N2, Ei, N1.
      destruct (pid_eqb id cur) eqn:Q; [|easy].
      apply pid_eqb_spec in Q. subst id.
      unfold touch. rewrite OnC. simpl p_len. rewrite Lt. f_equal.
      rewrite <- PFX, <- RBM, <- PTR, <- E1, <- E2, <- E3. now destruct v'. }
    (* gluing the step to the rest of the loop *)
    assert (Glue : forall h2 (new : bool),
      (forall id, nodes f h2 id =
        if pid_eqb id cur then touch p mui id (nodes f h id)
        else if pid_eqb id nxt && new
             then Some (update_rbm_index (old_or_new (nodes f h nxt)) mui)
             else nodes f h id) ->
      ptr16 h2 /\ stored h2 p = stored h p /\
      (path_ok h p s -> path_ok h2 p (s + 4)) /\
      (forall id,
         (if s + 4 <=? p_len id then touch p mui id (nodes f h2 id) else nodes f h2 id) =
         (if s <=? p_len id then touch p mui id (nodes f h id) else nodes f h id))).
    { intros h2 new N2.
      assert (Cn : pid_eqb nxt cur = false).
      { apply pid_eqb_neq. unfold nxt, cur. intros X.
        apply pair_equal_spec in X. lia. }
      repeat split.
      - intros id w Q. rewrite N2 in Q. destruct (pid_eqb id cur) eqn:Qc.
        + apply pid_eqb_spec in Qc. subst id. unfold touch in Q. rewrite OnC in Q.
          simpl p_len in Q. rewrite Lt in Q. injection Q as <-. simpl.
          apply lor_lt; [now rewrite <- PTR|]. apply pow2_lt. unfold ptr_bit. lia.
        + destruct (pid_eqb id nxt && new).
          * injection Q as <-. simpl. destruct (nodes f h nxt) eqn:Q; simpl; auto.
            now apply (P16 nxt).
          * now apply (P16 id).
      - unfold stored. rewrite N2. rewrite (pid_eqb_neq (node_of f p) cur) by auto.
        destruct (pid_eqb (node_of f p) nxt && new) eqn:Q; [|easy].
        apply andb_true_iff in Q. destruct Q as [Q _]. apply pid_eqb_spec in Q. rewrite Q.
        destruct (nodes f h nxt); simpl; [easy|]. now rewrite N.bits_0.
      - intros T. rewrite N2 in T.
        rewrite pid_eqb_neq in T by (unfold cur; intros X; apply pair_equal_spec in X; lia).
        rewrite N2.
        rewrite !pid_eqb_neq by (unfold cur, nxt; intros X; apply pair_equal_spec in X; lia).
        cbn [andb]. apply (H s0); auto; try lia.
        destruct (pid_eqb (trunc W (p_bits p) s0, s0) nxt && new) eqn:Q; [|easy].
        apply andb_true_iff in Q. destruct Q as [Q _]. apply pid_eqb_spec in Q. now rewrite Q.
      - intros T. rewrite N2.
        rewrite pid_eqb_neq by (unfold cur; intros X; apply pair_equal_spec in X; lia).
        rewrite N2 in T.
        rewrite !pid_eqb_neq in T by (unfold cur, nxt; intros X; apply pair_equal_spec in X; lia).
        cbn [andb] in T. apply (H s0) in T; auto; try lia.
        destruct (pid_eqb (trunc W (p_bits p) s0, s0) nxt && new) eqn:Q; [|easy].
        apply andb_true_iff in Q. destruct Q as [Q _]. apply pid_eqb_spec in Q. now rewrite <- Q.
      - intros id. rewrite N2. destruct (pid_eqb id cur) eqn:Qc.
        + apply pid_eqb_spec in Qc. subst id. simpl p_len. rewrite N.leb_refl.
          destruct (N.leb_spec (s + 4) s); [lia|easy].
        + destruct (pid_eqb id nxt && new) eqn:Qn.
          * apply andb_true_iff in Qn. destruct Qn as [Qn _].
            apply pid_eqb_spec in Qn. subst id. simpl p_len.
            rewrite N.leb_refl. destruct (N.leb_spec s (s + 4)); [|lia].
            unfold touch, nxt. rewrite on_path_at by (auto; dlia).
            simpl. now rewrite set_insert_idem.
          * destruct (N.leb_spec (s + 4) (p_len id)), (N.leb_spec s (p_len id)); try easy; try lia.
            unfold touch. destruct (on_path p id) eqn:O; [|easy]. exfalso.
            apply on_path_inv in O. destruct O as [O1 [O2 O3]].
            assert (p_len id = s) by dlia.
            rewrite O3, H1 in Qc. unfold cur in Qc. now rewrite pid_eqb_refl in Qc. }
    destruct (N.testbit (nv_ptr v) (ptr_bit (slice W (p_bits p) s 4))) eqn:TB; cbn [negb].
    + (* the pointer was set *)
      unfold add_to_len, STRIDE_SIZE. simpl p_len. simpl p_bits.
      rewrite add8_ok by lia. cbn [bind].
      destruct (Fin v) as (F1 & F2 & F3); auto.
      { unfold nib. now rewrite lor_pow2_set. }
      destruct (Glue (update k (set_val e v) h1) false) as (G1 & G2 & G3 & G4).
      { intros id. rewrite F2. now rewrite andb_false_r. }
      unfold node_truncate_to_len, new_with_cleaned_id. simpl p_bits. simpl p_len.
      rewrite truncate_to_len_ok by (auto; lia).
      destruct (IH (update k (set_val e v) h1) cnt (s + 4) (acc + acc))
        as (h' & cnt' & acc' & E & I' & A' & N' & C'); auto; try lia; try dlia.
      eexists _, _, _. split; [rewrite E, G2; reflexivity|].
      split; [easy|]. split; [lia|]. split.
      * intros id. rewrite N'. apply G4.
      * intros PO NN. rewrite <- F3 by auto. apply C'; [auto|].
        fold nxt. rewrite F2. rewrite pid_eqb_neq
          by (unfold cur, nxt; intros X; apply pair_equal_spec in X; lia).
        apply (PO s); auto; try lia. fold cur. now rewrite <- PTR.
    + (* a new pointer and a new node *)
      rewrite add8_ok by lia. cbn [bind].
      destruct (Fin (NodeVal (into_ptrbitarr (N.lor (2 ^ bs_bit (BS (slice W (p_bits p) s 4) 4))
         (into_pfxbitarr (nv_ptr v)))) (nv_pfx v) (nv_rbm v))) as (F1 & F2 & F3).
      4:{ unfold new_with_cleaned_id. rewrite truncate_to_len_ok by (auto; lia).
          fold nxt.
          match type of F1 with cht_inv _ _ ?hh => set (h2 := hh) in * end.
          assert (Nn : nodes f h2 nxt = nodes f h nxt).
          { rewrite F2. rewrite pid_eqb_neq; [easy|].
            unfold cur, nxt; intros X; apply pair_equal_spec in X; lia. }
          destruct (store_node_ok f h2 nxt mui F1 Dn) as (h3 & R3 & I3 & N3 & L3).
          rewrite R3. cbn [bind].
          destruct (Glue h3 true) as (G1 & G2 & G3 & G4).
          { intros id. rewrite N3, Nn, F2. rewrite andb_true_r.
            destruct (pid_eqb id nxt) eqn:Q; [|now destruct (pid_eqb id cur)].
            apply pid_eqb_spec in Q. subst id.
            rewrite pid_eqb_neq; [easy|].
            unfold cur, nxt; intros X; apply pair_equal_spec in X; lia. }
          destruct (IH h3 (cnt + 1) (s + 4) (acc + (acc + 0)))
            as (h' & cnt' & acc' & E & I' & A' & N' & C'); auto; try lia; try dlia.
          eexists _, _, _. split; [fold nxt in E; rewrite E, G2; reflexivity|].
          split; [easy|]. split; [lia|]. split.
          - intros id. rewrite N'. apply G4.
          - intros PO NN. rewrite Nn in L3.
            destruct (nodes f h nxt) as [w|] eqn:Qn.
            + exfalso. assert (N.testbit (nv_ptr v) (ptr_bit (slice W (p_bits p) s 4)) = true).
              { rewrite PTR. apply (PO s); auto; try lia. fold nxt. congruence. }
              congruence.
            + rewrite F3 in L3 by auto.
              assert (cnt' + N.of_nat (length h3) = cnt + 1 + N.of_nat (length h')).
              { apply C'; [auto|]. fold nxt. rewrite N3, pid_eqb_refl. easy. }
              lia. }
      all: simpl; auto.
      apply new_ptr_ok; auto.
Qed.

(* ---------- the invariant ---------- *)

Definition child (id : pid) (n : N) : pid :=
  (p_bits id + n * 2 ^ (W - p_len id - 4), p_len id + 4).
Definition parent (id : pid) : pid := (trunc W (p_bits id) (p_len id - 4), p_len id - 4).

Record tree_inv (h : heap nodeval) : Prop := {
  ti_cht : ninv f h;
  ti_root : nodes f h (0, 0) <> None;
  ti_node : forall id v, nodes f h id = Some v ->
    p_len id < W /\ nv_ptr v < 2 ^ 16 /\ nv_pfx v < 2 ^ 31 /\ N.testbit (nv_pfx v) 0 = false;
  ti_up : forall id v, nodes f h id = Some v -> 0 < p_len id ->
    exists v', nodes f h (parent id) = Some v' /\
      N.testbit (nv_ptr v') (ptr_bit (slice W (p_bits id) (p_len id - 4) 4)) = true;
  ti_down : forall id v n, nodes f h id = Some v -> n < 16 ->
    N.testbit (nv_ptr v) (ptr_bit n) = true ->
    p_len id + 4 < W /\ nodes f h (child id n) <> None
}.

Lemma child_trunc x s : s + 4 <= W ->
  child (trunc W x s, s) (slice W x s 4) = (trunc W x (s + 4), s + 4).
Proof.
  intros. unfold child; simpl. f_equal. unfold trunc.
  rewrite (div_slice W x s 4) by lia.
  replace (W - s) with (4 + (W - (s + 4))) at 1 2 by lia.
  replace (W - s - 4) with (W - (s + 4)) by lia.
  replace (W - s) with (4 + (W - (s + 4))) by lia.
  rewrite N.pow_add_r. lia.
Qed.

Lemma touch_some p mui id o : touch p mui id o = None -> o = None.
Proof. unfold touch. destruct (on_path p id); easy. Qed.

Lemma ptr_bit_inj n m : n < 16 -> m < 16 -> ptr_bit n = ptr_bit m -> n = m.
Proof. unfold ptr_bit. lia. Qed.

Lemma span_bit p : 0 < p_len p -> 0 < bs_bit (span_of f p) < 31.
Proof.
  intros H. pose proof (wf_span p) as [A B]. unfold bs_bit, bs_index.
  simpl in *. pose proof (nlen_spec (p_len p)).
  assert (2 ^ 1 <= 2 ^ (p_len p - nlen (p_len p))) by (apply pow2_le; lia).
  assert (2 ^ (p_len p - nlen (p_len p)) <= 2 ^ 4) by (apply pow2_le; lia).
  change (2 ^ 1) with 2 in *. change (2 ^ 4) with 16 in *. lia.
Qed.

Lemma wf_id_trunc h id v : ninv f h -> nodes f h id = Some v ->
  wf_pid f id /\ p_len id mod 4 = 0.
Proof. intros I Q. now apply (nodes_dom f) in Q. Qed.

Lemma tree_inv_touch h h' p mui : wf_pid f p -> 0 < p_len p ->
  tree_inv h -> ninv f h' ->
  (forall id, nodes f h' id = touch p mui id (nodes f h id)) -> tree_inv h'.
Proof.
  intros [Hl [Hb Hm]] L0 [I R ND UP DN] I' N.
  split; auto.
  - rewrite N. intros C. now apply touch_some in C.
  - intros id v. rewrite N. unfold touch. destruct (on_path p id) eqn:O; [|now apply ND].
    apply on_path_inv in O. destruct O as [O1 [O2 O3]].
    intros Q. injection Q as <-. simpl.
    assert (O : nv_ptr (old_or_new (nodes f h id)) < 2 ^ 16 /\
                nv_pfx (old_or_new (nodes f h id)) < 2 ^ 31 /\
                N.testbit (nv_pfx (old_or_new (nodes f h id))) 0 = false).
    { destruct (nodes f h id) eqn:Q; [now apply (ND id)|]. simpl. repeat split; auto. }
    pose proof (span_bit p L0). repeat split.
    + lia.
    + destruct (p_len id + 4 <? p_len p); [|easy].
      apply lor_lt; [easy|]. apply pow2_lt. unfold ptr_bit. lia.
    + destruct (p_len id + 4 <? p_len p); [easy|].
      apply lor_lt; [easy|]. apply pow2_lt. lia.
    + destruct (p_len id + 4 <? p_len p); [easy|].
      rewrite N.lor_spec, testbit_pow2.
      destruct (N.eqb_spec (bs_bit (span_of f p)) 0); [lia|].
      now rewrite orb_false_r.
  - intros id v Q L.
    destruct (wf_id_trunc h' id v I' Q) as [Wid M4].
    assert (L4 : 4 <= p_len id) by dlia.
    rewrite N in Q. rewrite N. unfold touch at 1.
    destruct (on_path p id) eqn:O.
    + apply on_path_inv in O. destruct O as [O1 [O2 O3]].
      assert (Pa : parent id = (trunc W (p_bits p) (p_len id - 4), p_len id - 4)).
      { unfold parent. f_equal. rewrite O3 at 1. simpl p_bits.
        rewrite trunc_trunc; auto; lia. }
      rewrite Pa, on_path_at by (try lia; dlia). eexists. split; [reflexivity|].
      simpl p_len. destruct (N.ltb_spec (p_len id - 4 + 4) (p_len p)); [|lia].
      simpl. rewrite N.lor_spec, testbit_pow2. unfold nib.
      replace (slice W (p_bits id) (p_len id - 4) 4)
        with (slice W (p_bits p) (p_len id - 4) 4).
      2:{ rewrite <- (slice_trunc W (p_bits p) (p_len id)) by lia.
          f_equal. now rewrite O3 at 2. }
      rewrite N.eqb_refl. apply orb_true_r.
    + unfold touch in Q. rewrite O in Q.
      destruct (UP id v Q L) as [v' [Q' T]].
      rewrite Q'. destruct (on_path p (parent id)); [|eauto].
      eexists. split; [reflexivity|]. simpl.
      destruct (p_len id - 4 + 4 <? p_len p); [|easy].
      rewrite N.lor_spec, T. easy.
  - intros id v n Q Hn T. rewrite N in Q.
    assert (E : (exists v0, nodes f h id = Some v0 /\ N.testbit (nv_ptr v0) (ptr_bit n) = true) \/
                (on_path p id = true /\ p_len id + 4 < p_len p /\ n = nib p (p_len id))).
    { unfold touch in Q. destruct (on_path p id) eqn:O; [|left; eauto].
      injection Q as <-. simpl in T.
      assert (OLD : N.testbit (nv_ptr (old_or_new (nodes f h id))) (ptr_bit n) = true ->
        exists v0, nodes f h id = Some v0 /\ N.testbit (nv_ptr v0) (ptr_bit n) = true).
      { destruct (nodes f h id); simpl; [eauto|]. now rewrite N.bits_0. }
      destruct (N.ltb_spec (p_len id + 4) (p_len p)); [|auto].
      rewrite N.lor_spec, orb_true_iff, testbit_pow2 in T.
      destruct T as [T|T]; [auto|]. right. apply N.eqb_eq in T.
      repeat split; auto. symmetry. apply ptr_bit_inj; auto. apply slice_lt. }
    destruct E as [[v0 [Q0 T0]]|[O [L ->]]].
    + destruct (DN id v0 n Q0 Hn T0) as [A B]. split; [easy|].
      rewrite N. intros C. now apply touch_some in C.
    + split; [lia|]. apply on_path_inv in O. destruct O as [O1 [O2 O3]].
      rewrite O3. simpl p_len. unfold nib. rewrite child_trunc by lia.
      rewrite N. unfold touch. rewrite on_path_at by (try lia; dlia). easy.
Qed.

Lemma tree_inv_path h p : tree_inv h -> wf_pid f p -> path_ok h p 0.
Proof.
  intros [I R ND UP DN] [Hl [Hb Hm]] s0 _ M L. split.
  - intros T. destruct (nodes f h (trunc W (p_bits p) s0, s0)) eqn:Q;
      simpl in T; [|now rewrite N.bits_0 in T].
    rewrite <- child_trunc by lia.
    apply (DN _ _ _ Q); [apply slice_lt|easy].
  - intros X. destruct (nodes f h (trunc W (p_bits p) (s0 + 4), s0 + 4)) eqn:Q; [|easy].
    apply UP in Q; [|simpl; lia]. destruct Q as [v' [Q T]].
    unfold parent in Q. simpl p_len in *. simpl p_bits in *.
    replace (s0 + 4 - 4) with s0 in * by lia.
    rewrite trunc_trunc in Q by lia. rewrite Q. simpl.
    rewrite slice_trunc in T by lia. easy.
Qed.

Lemma stored_touch h h' p mui q : wf_pid f p -> wf_pid f q -> 0 < p_len p ->
  (forall id, nodes f h' id = touch p mui id (nodes f h id)) ->
  stored h' q = pid_eqb q p || stored h q.
Proof.
  intros Wp Wq L0 N.
  assert (Old : stored h q = N.testbit (nv_pfx (old_or_new (nodes f h (node_of f q))))
                               (bs_bit (span_of f q))).
  { unfold stored. destruct (nodes f h (node_of f q)); [easy|]. simpl. now rewrite N.bits_0. }
  pose proof (nlen_spec (p_len p)) as NL.
  assert (OnP : on_path p (node_of f p) = true).
  { apply on_path_at; [apply NL|apply NL; auto]. }
  rewrite Old. unfold stored. rewrite N. unfold touch.
  destruct (on_path p (node_of f q)) eqn:O.
  - apply on_path_inv in O. destruct O as [O1 [O2 O3]]. cbn [nv_pfx].
    destruct (N.ltb_spec (p_len (node_of f q) + 4) (p_len p)) as [LT|GE].
    + rewrite pid_eqb_neq; [easy|]. intros ->. unfold node_of in LT. simpl in LT. lia.
    + rewrite N.lor_spec, testbit_pow2, orb_comm. f_equal.
      assert (En : node_of f q = node_of f p).
      { rewrite O3.
        assert (p_len (node_of f q) = nlen (p_len p)) as -> by (apply nlen_unique; lia).
        easy. }
      destruct (pid_eqb q p) eqn:Q.
      * apply pid_eqb_spec in Q. subst. apply N.eqb_refl.
      * apply N.eqb_neq. intros C.
        assert (p = q); [|subst; now rewrite pid_eqb_refl in Q].
        apply place_inj; auto.
        apply bs_index_inj; try apply wf_span.
        pose proof (bs_index_lt _ (wf_span p)). pose proof (bs_index_lt _ (wf_span q)).
        unfold bs_bit in C. lia.
  - rewrite pid_eqb_neq; [|intros ->; congruence].
    unfold stored in Old. destruct (nodes f h (node_of f q)); simpl; [easy|].
    now rewrite N.bits_0.
Qed.

Lemma stored_len0 h q : tree_inv h -> p_len q = 0 -> stored h q = false.
Proof.
  intros I L. unfold stored. destruct (nodes f h (node_of f q)) as [v|] eqn:Q; [|easy].
  assert (bs_bit (span_of f q) = 31) as ->.
  { unfold span_of, bs_bit, bs_index, nlen. rewrite L. simpl bs_len. simpl bs_bits.
    change (4 * ((0 - 1) / 4)) with 0. change (0 - 0) with 0. unfold slice.
    change (2 ^ 0) with 1. now rewrite N.mod_1_r. }
  apply (testbit_above _ 31); [|lia]. now apply (ti_node h I _ _ Q).
Qed.

(* ---------- the tree as a whole ---------- *)

Definition tree_ok (t : tree) : Prop :=
  tree_inv (t_heap t) /\ t_nodes t = N.of_nat (length (t_heap t)).

Lemma tree_new_ok : exists t, tree_new f = Ok t /\ tree_ok t /\
  t_withdrawn t = [] /\ t_default t = false /\ (forall p, stored (t_heap t) p = false) /\
  (forall id, nodes f (t_heap t) id =
     if pid_eqb id (0, 0) then Some (update_rbm_index node_new 0) else None).
Proof.
  destruct (store_node_ok f [] (0, 0) 0) as (h & R & I & N & L).
  { apply inv_empty. }
  { split; [|easy]. repeat split; simpl; try lia; auto. }
  unfold tree_new, root_node_id. rewrite R. cbn [bind].
  assert (Emp : forall id, nodes f [] id = None).
  { intros id. unfold nodes. destruct (find f NSTRIDE [] id) eqn:F; [|easy].
    apply find_spec in F; auto using inv_empty. destruct F as [k [C _]]. discriminate. }
  assert (Only : forall id v, nodes f h id = Some v -> id = (0,0) /\ nv_ptr v = 0 /\ nv_pfx v = 0).
  { intros id v Q. rewrite N in Q. destruct (pid_eqb id (0,0)) eqn:E.
    - apply pid_eqb_spec in E. rewrite Emp in Q. now injection Q as <-.
    - now rewrite Emp in Q. }
  eexists. split; [reflexivity|]. split; [split; [constructor|]|split; [|split; [|split]]]; auto; simpl.
  - rewrite N. simpl. easy.
  - intros id v Q. apply Only in Q. destruct Q as (-> & -> & ->).
    pose proof (BITS_pos f). simpl. repeat split; auto.
  - intros id v Q. apply Only in Q. destruct Q as [-> _]. simpl. lia.
  - intros id v n Q _ T. apply Only in Q. destruct Q as (_ & P & _).
    rewrite P, N.bits_0 in T. discriminate.
  - rewrite L, Emp. easy.
  - intros p. unfold stored. destruct (nodes f h (node_of f p)) eqn:Q; [|easy].
    apply Only in Q. destruct Q as (_ & _ & ->). apply N.bits_0.
  - intros id. rewrite N, !Emp. reflexivity.
Qed.

Lemma set_prefix_exists_ok t p mui : tree_ok t -> wf_pid f p -> 0 < p_len p ->
  exists t', set_prefix_exists f t p mui = Ok (t', ROk (0, stored (t_heap t) p)) /\
    tree_ok t' /\ t_withdrawn t' = t_withdrawn t /\ t_default t' = t_default t /\
    (forall id, nodes f (t_heap t') id = touch p mui id (nodes f (t_heap t) id)) /\
    (forall q, wf_pid f q -> stored (t_heap t') q = pid_eqb q p || stored (t_heap t) q).
Proof.
  intros [I C] Wp L. unfold set_prefix_exists.
  destruct (N.eqb_spec (p_len p) 0); [lia|].
  destruct (set_prefix_exists_loop_ok p mui Wp DESCENT_FUEL (t_heap t) (t_nodes t) 0 0)
    as (h' & cnt' & acc' & E & I' & A & N & Cn).
  - apply I.
  - intros id v Q. now apply (ti_node _ I) in Q.
  - easy.
  - easy.
  - destruct Wp. pose proof (BITS_le f). unfold DESCENT_FUEL. lia.
  - assert (Rt : (trunc W (p_bits p) 0, 0) = (0, 0)).
    { rewrite trunc_0; [easy|]. apply Wp. }
    rewrite Rt in *. unfold root_node_id. rewrite E. cbn [bind].
    rewrite A by easy.
    assert (N' : forall id, nodes f h' id = touch p mui id (nodes f (t_heap t) id)).
    { intros id. rewrite N. destruct (N.leb_spec 0 (p_len id)); [easy|lia]. }
    eexists. split; [reflexivity|]. split; [split|split; [|split; [|split]]]; auto; simpl.
    + now apply (tree_inv_touch (t_heap t) h' p mui).
    + simpl. specialize (Cn (tree_inv_path _ _ I Wp) (ti_root _ I)). lia.
    + intros q Wq. now apply (stored_touch _ _ p mui).
Qed.

Lemma set_default_route_ok t p mui : tree_ok t -> wf_pid f p -> p_len p = 0 ->
  exists t', set_prefix_exists f t p mui = Ok (t', ROk (0, t_default t)) /\
    tree_ok t' /\ t_withdrawn t' = t_withdrawn t /\ t_default t' = true /\
    (forall id, nodes f (t_heap t') id =
       if pid_eqb id (0,0)
       then Some (update_rbm_index (old_or_new (nodes f (t_heap t) (0,0))) mui)
       else nodes f (t_heap t) id) /\
    (forall q, stored (t_heap t') q = stored (t_heap t) q).
Proof.
  intros [I C] Wp L. unfold set_prefix_exists. rewrite L. simpl.
  unfold update_default_route_prefix_meta, root_node_id.
  destruct (retrieve_node_mut_ok f (t_heap t) (0,0) mui)
    as (h1 & k & e & R & I1 & Lk & Ei & Ev & N1 & Len1).
  { apply I. }
  { split; [|easy]. repeat split; simpl; try lia; auto. }
  rewrite R. cbn [bind]. rewrite Ev in N1.
  destruct (nodes f (t_heap t) (0,0)) as [v0|] eqn:Q0; [|now destruct (ti_root _ I)].
  assert (N2 : forall id v, nodes f h1 id = Some v ->
     exists v1, nodes f (t_heap t) id = Some v1 /\ nv_ptr v = nv_ptr v1 /\ nv_pfx v = nv_pfx v1).
  { intros id v Q. rewrite N1 in Q. destruct (pid_eqb id (0,0)) eqn:E; [|eauto].
    apply pid_eqb_spec in E. subst id. injection Q as <-. exists v0. simpl. auto. }
  assert (N3 : forall id v1, nodes f (t_heap t) id = Some v1 ->
     exists v, nodes f h1 id = Some v /\ nv_ptr v = nv_ptr v1 /\ nv_pfx v = nv_pfx v1).
  { intros id v1 Q. rewrite N1. destruct (pid_eqb id (0,0)) eqn:E; [|eauto].
    apply pid_eqb_spec in E. subst id. rewrite Q0 in Q. injection Q as <-.
    eexists. split; [reflexivity|]. easy. }
  eexists. split; [rewrite negb_involutive; reflexivity|].
  split; [split; [constructor|]|split; [|split; [|split]]]; auto; simpl.
  - rewrite N1. easy.
  - intros id v Q. apply N2 in Q. destruct Q as (v1 & Q & -> & ->). now apply (ti_node _ I) in Q.
  - intros id v Q Ln. apply N2 in Q. destruct Q as (v1 & Q & _).
    apply (ti_up _ I) in Q; auto. destruct Q as (v' & Q & T).
    apply N3 in Q. destruct Q as (v2 & Q & P & _). exists v2. now rewrite P.
  - intros id v n Q Hn T. apply N2 in Q. destruct Q as (v1 & Q & P & _). rewrite P in T.
    destruct (ti_down _ I _ _ _ Q Hn T) as [D1 D]. split; [easy|].
    destruct (nodes f (t_heap t) (child id n)) eqn:Z; [|easy].
    apply N3 in Z. destruct Z as (v2 & Z & _). congruence.
  - now rewrite Len1, C.
  - intros q. unfold stored. rewrite N1.
    destruct (pid_eqb (node_of f q) (0,0)) eqn:E; [|easy].
    apply pid_eqb_spec in E. now rewrite E, Q0.
Qed.

End T.
