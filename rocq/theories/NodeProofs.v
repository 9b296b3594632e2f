(* The iterators over a single node. *)
From Coq Require Import Arith NArith List Bool Lia.
From Verif Require Import Word Af BitSpan Spec Maps ChtMath Cht Node Tree ChainProofs TreeProofs.
Import ListNotations.
Local Open Scope N_scope.

(* ---------- set bits, highest first ---------- *)

Fixpoint hb (k : nat) (m : N) : list N :=
  match k with
  | O => []
  | S k' => if N.testbit m (N.of_nat k') then N.of_nat k' :: hb k' m else hb k' m
  end.

Lemma In_hb k m j : In j (hb k m) <-> j < N.of_nat k /\ N.testbit m j = true.
Proof.
  induction k as [|k IH]; simpl.
  - split; [easy|lia].
  - destruct (N.testbit m (N.of_nat k)) eqn:E; simpl; rewrite IH.
    + split.
      * intros [<-|[A B]]; split; auto; lia.
      * intros [A B]. destruct (N.eq_dec (N.of_nat k) j); [auto|right]. split; auto. lia.
    + split.
      * intros [A B]; split; auto; lia.
      * intros [A B]. split; auto.
        destruct (N.eq_dec (N.of_nat k) j) as [<-|]; [congruence|lia].
Qed.

Lemma NoDup_hb k m : NoDup (hb k m).
Proof.
  induction k as [|k IH]; simpl; [constructor|].
  destruct (N.testbit m (N.of_nat k)); [|easy]. constructor; [|easy].
  rewrite In_hb. lia.
Qed.

Lemma hb_ext k m m' : (forall j, j < N.of_nat k -> N.testbit m j = N.testbit m' j) ->
  hb k m = hb k m'.
Proof.
  induction k as [|k IH]; intros H; simpl; [easy|].
  rewrite H by lia. rewrite IH; [easy|]. intros j Hj. apply H. lia.
Qed.

Lemma hb_length k m : (length (hb k m) <= k)%nat.
Proof.
  induction k as [|k IH]; simpl; [lia|]. destruct (N.testbit m (N.of_nat k)); simpl; lia.
Qed.

Lemma hb_0 k : hb k 0 = [].
Proof. induction k as [|k IH]; cbn [hb]; [easy|]. now rewrite N.bits_0. Qed.

(* clearing the highest bit *)
Lemma xor_top_bits m j : N.testbit m j = true ->
  forall i, N.testbit (N.lxor m (2 ^ j)) i = if i =? j then false else N.testbit m i.
Proof.
  intros T i. rewrite N.lxor_spec, testbit_pow2.
  destruct (N.eqb_spec j i) as [<-|].
  - rewrite N.eqb_refl, T. easy.
  - destruct (N.eqb_spec i j); [congruence|]. apply xorb_false_r.
Qed.

Lemma hb_top k m : m <> 0 -> m < 2 ^ N.of_nat k ->
  hb k m = N.log2 m :: hb k (N.lxor m (2 ^ N.log2 m)).
Proof.
  intros NZ. pose proof (N.bit_log2 m NZ) as T.
  induction k as [|k IH]; intros L.
  - change (2 ^ N.of_nat 0) with 1 in L. lia.
  - simpl. rewrite (xor_top_bits _ _ T).
    destruct (N.eqb_spec (N.of_nat k) (N.log2 m)) as [E|NE].
    + rewrite E, T. f_equal. apply hb_ext. intros j Hj.
      rewrite (xor_top_bits _ _ T). destruct (N.eqb_spec j (N.log2 m)); [lia|easy].
    + assert (N.log2 m < N.of_nat (S k)) by (apply N.log2_lt_pow2; lia).
      assert (N.testbit m (N.of_nat k) = false) as ->
        by (apply N.bits_above_log2; lia).
      apply IH. apply N.log2_lt_pow2; lia.
Qed.

Lemma hb_top' k w m : w = N.of_nat k -> m <> 0 -> m < 2 ^ w ->
  hb k m = N.log2 m :: hb k (N.lxor m (2 ^ N.log2 m)).
Proof. intros ->. apply hb_top. Qed.

Lemma xor_top_lt m w : m <> 0 -> m < 2 ^ w -> N.lxor m (2 ^ N.log2 m) < 2 ^ w.
Proof.
  intros NZ L. pose proof (N.bit_log2 m NZ) as T.
  assert (LT : N.lxor m (2 ^ N.log2 m) <= m).
  { assert (N.lxor m (2 ^ N.log2 m) = N.ldiff m (2 ^ N.log2 m)) as ->.
    { apply N.bits_inj. intros i. rewrite (xor_top_bits _ _ T), N.ldiff_spec, testbit_pow2.
      destruct (N.eqb_spec i (N.log2 m)) as [->|].
      - rewrite N.eqb_refl. simpl. now rewrite andb_false_r.
      - destruct (N.eqb_spec (N.log2 m) i); [congruence|]. simpl. now rewrite andb_true_r. }
    rewrite <- N.sub_nocarry_ldiff; [lia|].
    apply N.bits_inj. intros i. rewrite N.ldiff_spec, testbit_pow2, N.bits_0.
    destruct (N.eqb_spec (N.log2 m) i) as [<-|]; [|easy]. now rewrite T. }
  lia.
Qed.

Lemma size_pow2 k : N.size (2 ^ k) = k + 1.
Proof. rewrite N.size_log2 by auto. rewrite N.log2_pow2; lia. Qed.

(* ---------- masks ---------- *)

(* b lies under bs *)
Definition bs_covers (bs b : bitspan) : bool :=
  (bs_len bs <=? bs_len b) && (bs_bits b / 2 ^ (bs_len b - bs_len bs) =? bs_bits bs).

Lemma ms_prefix_mask_ok bs : wf_bs bs ->
  exists m, ms_prefix_mask_arr bs = Ok m /\ m < 2 ^ 31 /\ N.testbit m 0 = false /\
    forall b, wf_bs b -> N.testbit m (bs_bit b) = (1 <=? bs_len b) && bs_covers bs b.
Proof.
  intros H. apply all_bs_complete in H.
  assert (A : forallb (fun bs => match ms_prefix_mask_arr bs with
     | Ok m => (m <? 2 ^ 31) && negb (N.testbit m 0) &&
       forallb (fun b => Bool.eqb (N.testbit m (bs_bit b))
                           ((1 <=? bs_len b) && bs_covers bs b)) all_bs
     | _ => false end) all_bs = true) by (vm_compute; reflexivity).
  rewrite forallb_forall in A. specialize (A _ H).
  destruct (ms_prefix_mask_arr bs) as [m| |]; try discriminate.
  rewrite !andb_true_iff in A. destruct A as [[A1 A2] A3].
  exists m. apply N.ltb_lt in A1. apply negb_true_iff in A2. repeat split; auto.
  intros b Hb. apply all_bs_complete in Hb.
  rewrite forallb_forall in A3. specialize (A3 _ Hb). now apply eqb_prop in A3.
Qed.

Lemma ptr_range_ok p bs : wf_bs bs ->
  exists mask st, ptr_range p bs = Ok (N.land p mask, st) /\
    forall n, n < 16 ->
      N.testbit mask (ptr_bit n) = (n / 2 ^ (4 - bs_len bs) =? bs_bits bs).
Proof.
  intros H. apply all_bs_complete in H.
  set (all16 := List.map N.of_nat (List.seq 0 16)).
  assert (A : forallb (fun bs =>
     match (do sh <- sub8 4 (bs_len bs);
            do st <- shl 32 (bs_bits bs) sh;
            do w <- shl 8 1 sh;
            do stop <- add8 (cast 8 st) w;
            do m <- shl 32 1 (stop - cast 8 st);
            Ok (cast 16 (N.shiftr (rotr 32 (m - 1) stop) 16))) with
     | Ok mask => forallb (fun n => Bool.eqb (N.testbit mask (ptr_bit n))
                     (n / 2 ^ (4 - bs_len bs) =? bs_bits bs)) all16
     | _ => false end) all_bs = true) by (vm_compute; reflexivity).
  rewrite forallb_forall in A. specialize (A _ H).
  unfold ptr_range.
  destruct (sub8 4 (bs_len bs)) as [sh| |]; cbn [bind] in *; try discriminate.
  destruct (shl 32 (bs_bits bs) sh) as [st| |]; cbn [bind] in *; try discriminate.
  destruct (shl 8 1 sh) as [w| |]; cbn [bind] in *; try discriminate.
  destruct (add8 (cast 8 st) w) as [stop| |]; cbn [bind] in *; try discriminate.
  destruct (shl 32 1 (stop - cast 8 st)) as [m| |]; cbn [bind] in *; try discriminate.
  eexists _, _. split; [reflexivity|].
  intros n Hn. rewrite forallb_forall in A. apply eqb_prop, A.
  unfold all16. replace n with (N.of_nat (N.to_nat n)) by lia.
  apply in_map, in_seq. lia.
Qed.

(* ---------- putting a span after a node id ---------- *)

Section P.
Variable f : af.
Notation W := (BITS f).

Definition addspan (id : pid) (bs : bitspan) : pid :=
  (p_bits id + bs_bits bs * 2 ^ (W - p_len id - bs_len bs), p_len id + bs_len bs).

(* node ids *)
Definition nid_ok (id : pid) : Prop := ndom f id /\ p_len id < W.

Lemma nid_ok_len id : nid_ok id -> p_len id + 4 <= W /\ p_len id mod 4 = 0.
Proof.
  intros [[_ M] L]. unfold NSTRIDE in M. pose proof (BITS_mod4 f).
  split; [|easy]. dlia.
Qed.

Lemma node_add_bit_span_ok id bs : nid_ok id -> wf_bs bs -> 0 < bs_len bs ->
  node_add_bit_span f id bs = Ok (addspan id bs).
Proof.
  intros I [L B] P. destruct (nid_ok_len id I) as [L4 _].
  destruct I as [[[I1 [I2 I3]] _] I4]. unfold node_add_bit_span.
  rewrite truncate_to_len_ok by auto. rewrite trunc_id by auto.
  rewrite add_bit_span_ok; auto; lia.
Qed.

Lemma addspan_lt id bs : nid_ok id -> wf_bs bs ->
  p_bits id + bs_bits bs * 2 ^ (W - p_len id - bs_len bs) < 2 ^ W /\
  bs_bits bs * 2 ^ (W - p_len id - bs_len bs) < 2 ^ (W - p_len id).
Proof.
  intros I [L B]. destruct (nid_ok_len id I) as [L4 _].
  destruct I as [[[I1 [I2 I3]] _] I4].
  assert (A : bs_bits bs * 2 ^ (W - p_len id - bs_len bs) < 2 ^ (W - p_len id)).
  { replace (W - p_len id) with (bs_len bs + (W - p_len id - bs_len bs)) at 2 by lia.
    rewrite N.pow_add_r. apply N.mul_lt_mono_pos_r; auto. }
  split; [|easy].
  rewrite <- (trunc_id W (p_bits id) (p_len id)) by auto. unfold trunc.
  assert (p_bits id / 2 ^ (W - p_len id) < 2 ^ p_len id).
  { replace (p_len id) with (W - (W - p_len id)) at 2 by lia. apply div_lt_pow2; auto; lia. }
  assert (2 ^ W = 2 ^ p_len id * 2 ^ (W - p_len id)) as -> by (apply pow2_split; lia).
  nia.
Qed.

Lemma addspan_div id bs : nid_ok id -> wf_bs bs ->
  p_bits (addspan id bs) / 2 ^ (W - p_len id) = p_bits id / 2 ^ (W - p_len id).
Proof.
  intros I B. destruct (addspan_lt id bs I B) as [_ A].
  destruct I as [[[I1 [I2 I3]] _] I4]. simpl.
  rewrite <- (trunc_id W (p_bits id) (p_len id)) at 1 by auto. unfold trunc.
  rewrite N.add_comm, N.div_add by auto. rewrite (N.div_small (_ * _)) by auto. easy.
Qed.

Lemma addspan_slice id bs : nid_ok id -> wf_bs bs ->
  slice W (p_bits (addspan id bs)) (p_len id) (bs_len bs) = bs_bits bs.
Proof.
  intros I B. destruct (nid_ok_len id I) as [L4 _]. pose proof B as [Bl Bb].
  destruct I as [[[I1 [I2 I3]] _] I4]. unfold slice. simpl.
  set (k := W - p_len id - bs_len bs).
  rewrite <- (trunc_id W (p_bits id) (p_len id)) by auto. unfold trunc.
  replace (W - p_len id) with (bs_len bs + k) by lia.
  rewrite N.pow_add_r, N.mul_assoc, <- N.mul_add_distr_r, N.div_mul by auto.
  rewrite N.add_comm, N.mod_add by auto. now apply N.mod_small.
Qed.

Lemma addspan_wf id bs : nid_ok id -> wf_bs bs -> wf_pid f (addspan id bs).
Proof.
  intros I B. destruct (addspan_lt id bs I B) as [A _].
  destruct (nid_ok_len id I) as [L4 _]. pose proof B as [Bl Bb].
  destruct I as [[[I1 [I2 I3]] _] I4]. repeat split; simpl; [lia|easy|].
  replace (W - (p_len id + bs_len bs)) with (W - p_len id - bs_len bs) by lia.
  rewrite N.mod_add by auto.
  rewrite <- (trunc_id W (p_bits id) (p_len id)) by auto. unfold trunc.
  replace (W - p_len id) with (bs_len bs + (W - p_len id - bs_len bs)) at 2 by lia.
  rewrite N.pow_add_r, N.mul_assoc. now apply N.mod_mul.
Qed.

Lemma node_of_addspan id bs : nid_ok id -> wf_bs bs -> 0 < bs_len bs ->
  node_of f (addspan id bs) = id /\ span_of f (addspan id bs) = bs.
Proof.
  intros I B P. destruct (nid_ok_len id I) as [L4 M]. pose proof B as [Bl Bb].
  assert (E : nlen (p_len (addspan id bs)) = p_len id).
  { symmetry. apply nlen_unique; simpl; auto; lia. }
  split.
  - unfold node_of. rewrite E. unfold trunc. rewrite addspan_div by auto.
    change (p_bits id / 2 ^ (W - p_len id) * 2 ^ (W - p_len id))
      with (trunc W (p_bits id) (p_len id)).
    rewrite trunc_id by apply I. now destruct id.
  - unfold span_of. rewrite E.
    replace (p_len (addspan id bs) - p_len id) with (bs_len bs) by (simpl; lia).
    rewrite addspan_slice by auto. now destruct bs.
Qed.

Lemma nid_ok_node_of q : wf_pid f q -> nid_ok (node_of f q).
Proof. intros. split; [now apply node_of_dom|now apply node_of_len_lt]. Qed.

Lemma addspan_node_of q : wf_pid f q -> 0 < p_len q ->
  addspan (node_of f q) (span_of f q) = q.
Proof.
  intros Wq L. pose proof (nlen_spec (p_len q)) as NL.
  assert (P : 0 < bs_len (span_of f q)) by (simpl; lia).
  destruct (node_of_addspan (node_of f q) (span_of f q)) as [A B];
    auto using nid_ok_node_of, wf_span.
  apply (place_inj f); auto. apply addspan_wf; auto using nid_ok_node_of, wf_span.
Qed.

Lemma child_addspan id n : child f id n = addspan id (BS n 4).
Proof. reflexivity. Qed.

Lemma child_ok id n : nid_ok id -> n < 16 -> p_len id + 4 < W -> nid_ok (child f id n).
Proof.
  intros I Hn L. assert (wf_bs (BS n 4)) by (split; simpl; [lia|easy]).
  destruct (nid_ok_len id I) as [L4 M].
  rewrite child_addspan. split; [split|].
  - now apply addspan_wf.
  - simpl. unfold NSTRIDE. dlia.
  - easy.
Qed.

Lemma child_inj id n m : nid_ok id -> n < 16 -> m < 16 -> child f id n = child f id m -> n = m.
Proof.
  intros I Hn Hm E. rewrite !child_addspan in E.
  assert (wf_bs (BS n 4)) by (split; simpl; [lia|easy]).
  assert (wf_bs (BS m 4)) by (split; simpl; [lia|easy]).
  pose proof (addspan_slice id (BS n 4) I H) as A.
  rewrite E in A. pose proof (addspan_slice id (BS m 4) I H0) as B.
  simpl in A, B. congruence.
Qed.

(* ---------- pfx_next ---------- *)

Definition pbits_ok (m : N) : Prop := m < 2 ^ 31 /\ N.testbit m 0 = false.

Lemma pbits_log2 m : m <> 0 -> pbits_ok m -> 1 <= N.log2 m <= 30.
Proof.
  intros NZ [L T]. split.
  - destruct (N.eq_dec (N.log2 m) 0) as [E|]; [|lia].
    pose proof (N.bit_log2 m NZ). rewrite E in H. congruence.
  - assert (N.log2 m < 31); [apply N.log2_lt_pow2; lia|lia].
Qed.

Definition span_at (j : N) : bitspan := bs_of_index (31 - j).

Lemma span_at_ok j : 1 <= j <= 30 ->
  wf_bs (span_at j) /\ bs_bit (span_at j) = j /\ 0 < bs_len (span_at j).
Proof.
  intros H. unfold span_at. destruct (bs_of_index_ok (31 - j)) as [A B]; [lia|].
  split; [easy|]. split; [unfold bs_bit; rewrite B; lia|].
  destruct (N.eq_dec (bs_len (bs_of_index (31 - j))) 0) as [E|]; [|lia].
  destruct A as [_ A]. unfold bs_index in B. rewrite E in *. change (2^0) with 1 in *. lia.
Qed.

Lemma span_at_bit bs : wf_bs bs -> 0 < bs_len bs -> span_at (bs_bit bs) = bs.
Proof.
  intros B P. pose proof (bs_index_lt bs B).
  assert (1 <= bs_index bs).
  { unfold bs_index. assert (2^1 <= 2^bs_len bs) by (apply pow2_le; lia).
    change (2^1) with 2 in *. lia. }
  destruct (span_at_ok (bs_bit bs)) as [A [C _]]; [unfold bs_bit; lia|].
  apply bs_index_inj; auto.
  pose proof (bs_index_lt _ A). unfold bs_bit in *. lia.
Qed.

Lemma pfx_next_ok id m : nid_ok id -> pbits_ok m -> m <> 0 ->
  pfx_next f (PfxIter id m) =
  Ok (Some (addspan id (span_at (N.log2 m)), PfxIter id (N.lxor m (2 ^ N.log2 m)))).
Proof.
  intros I P NZ. unfold pfx_next. cbn [pi_bits pi_base].
  destruct (N.eqb_spec m 0); [easy|].
  pose proof (pbits_log2 m NZ P) as L.
  unfold lzcnt at 1 3. rewrite N.size_log2 by auto.
  replace (32 - N.succ (N.log2 m)) with (31 - N.log2 m) by lia.
  destruct (span_at_ok (N.log2 m) L) as [B [Bb Bl]].
  assert (Bi : bs_index (span_at (N.log2 m)) = 31 - N.log2 m)
    by (apply bs_of_index_ok; lia).
  rewrite <- Bi. rewrite from_bit_pos_index_ok by auto. cbn [bind].
  rewrite into_bit_pos_ok by auto. cbn [bind].
  unfold lzcnt. rewrite size_pow2.
  replace (32 - (bs_bit (span_at (N.log2 m)) + 1)) with (bs_index (span_at (N.log2 m))).
  2:{ unfold bs_bit. lia. }
  rewrite from_bit_pos_index_ok by auto. cbn [bind].
  rewrite node_add_bit_span_ok by auto. cbn [bind].
  unfold bit_pos_from_index. rewrite shr_ok by lia. cbn [bind].
  change (rotr 32 1 1) with (2 ^ 31).
  rewrite (pow2_split (bs_index (span_at (N.log2 m))) 31) by lia.
  rewrite N.mul_comm, N.div_mul by auto.
  replace (31 - bs_index (span_at (N.log2 m))) with (N.log2 m) by lia. easy.
Qed.

Lemma pfx_next_0 id : pfx_next f (PfxIter id 0) = Ok None.
Proof. reflexivity. Qed.

Lemma pbits_ok_step m : m <> 0 -> pbits_ok m -> pbits_ok (N.lxor m (2 ^ N.log2 m)).
Proof.
  intros NZ P. pose proof (pbits_log2 m NZ P). destruct P as [L T]. split.
  - now apply xor_top_lt.
  - rewrite (xor_top_bits _ _ (N.bit_log2 m NZ)). destruct (N.eqb_spec 0 (N.log2 m)); easy.
Qed.

(* all prefixes a prefix iterator will return *)
Definition pl (it : pfxiter) : list pid :=
  List.map (fun j => addspan (pi_base it) (span_at j)) (hb 31 (pi_bits it)).

Lemma In_pl it q : nid_ok (pi_base it) -> pbits_ok (pi_bits it) ->
  In q (pl it) <-> wf_pid f q /\ 0 < p_len q /\ node_of f q = pi_base it /\
    N.testbit (pi_bits it) (bs_bit (span_of f q)) = true.
Proof.
  intros I [P T]. unfold pl. rewrite in_map_iff. split.
  - intros [j [E H]]. apply In_hb in H. destruct H as [H1 H2].
    assert (R : 1 <= j <= 30).
    { destruct (N.eq_dec j 0) as [->|]; [congruence|]. lia. }
    destruct (span_at_ok j R) as [B [Bb Bl]]. subst q.
    destruct (node_of_addspan (pi_base it) (span_at j) I B Bl) as [A1 A2].
    rewrite A1, A2, Bb. split; [apply addspan_wf; auto|].
    split; [change (p_len (addspan (pi_base it) (span_at j)))
              with (p_len (pi_base it) + bs_len (span_at j)); lia|auto].
  - intros (Wq & L & E & H). exists (bs_bit (span_of f q)).
    pose proof (nlen_spec (p_len q)).
    rewrite span_at_bit by (try apply wf_span; simpl; lia).
    rewrite <- E, addspan_node_of by auto. split; [easy|].
    apply In_hb. split; [|easy]. pose proof (span_bit f q L). lia.
Qed.

Lemma NoDup_pl it : nid_ok (pi_base it) -> pbits_ok (pi_bits it) -> NoDup (pl it).
Proof.
  intros I [P T]. unfold pl.
  assert (A : forall l, NoDup l -> (forall j, In j l -> 1 <= j <= 30) ->
    NoDup (List.map (fun j => addspan (pi_base it) (span_at j)) l)).
  { induction l as [|j l IH]; intros ND R; simpl; [constructor|].
    inversion ND as [|? ? NI ND']; subst. constructor.
    - rewrite in_map_iff. intros [i [E Hi]].
      destruct (span_at_ok j) as [B [Bb Bl]]; [apply R; now left|].
      destruct (span_at_ok i) as [B' [Bb' Bl']]; [apply R; now right|].
      apply (f_equal (span_of f)) in E.
      rewrite (proj2 (node_of_addspan _ _ I B' Bl')),
              (proj2 (node_of_addspan _ _ I B Bl)) in E.
      rewrite E in Bb'. rewrite Bb in Bb'. apply NI. now rewrite Bb'.
    - apply IH; auto. intros i Hi. apply R. now right. }
  apply A; [apply NoDup_hb|]. intros j Hj. apply In_hb in Hj. destruct Hj as [H1 H2].
  destruct (N.eq_dec j 0) as [->|]; [congruence|]. lia.
Qed.

Lemma pl_step id m : m <> 0 -> pbits_ok m ->
  pl (PfxIter id m) = addspan id (span_at (N.log2 m)) :: pl (PfxIter id (N.lxor m (2 ^ N.log2 m))).
Proof.
  intros NZ [P _]. unfold pl. cbn [pi_bits pi_base]. rewrite (hb_top' 31 31 m eq_refl NZ P) at 1.
  apply map_cons.
Qed.

(* ---------- child_next ---------- *)

Lemma child_next_ok id r : nid_ok id -> r < 2 ^ 16 -> r <> 0 ->
  child_next f (ChildIter id r) =
  Ok (Some (child f id (15 - N.log2 r), ChildIter id (N.lxor r (2 ^ N.log2 r)))).
Proof.
  intros I R NZ. unfold child_next. cbn [ci_range ci_base].
  destruct (N.eqb_spec r 0); [easy|].
  assert (L : N.log2 r < 16) by (apply N.log2_lt_pow2; lia).
  unfold lzcnt. rewrite N.size_log2 by auto.
  rewrite add8_ok by lia. cbn [bind].
  replace (16 - N.succ (N.log2 r) + 15) with (15 + (15 - N.log2 r)) by lia.
  assert (B : wf_bs (BS (15 - N.log2 r) 4)).
  { split; simpl; [lia|]. change (2^4) with 16. lia. }
  replace (15 + (15 - N.log2 r)) with (bs_index (BS (15 - N.log2 r) 4)).
  2:{ unfold bs_index; simpl. change (2^4) with 16. lia. }
  rewrite from_bit_pos_index_ok by auto. cbn [bind bs_bits].
  unfold STRIDE_SIZE. rewrite node_add_bit_span_ok by (auto; simpl; lia). cbn [bind].
  assert (ptr_bit_pos_from_index (bs_index (BS (15 - N.log2 r) 4)) = 2 ^ N.log2 r) as ->; [|easy].
  unfold bs_index. cbn [bs_len bs_bits].
  assert (C : In (N.log2 r) (List.map N.of_nat (List.seq 0 16))).
  { replace (N.log2 r) with (N.of_nat (N.to_nat (N.log2 r))) by lia. apply in_map, in_seq. lia. }
  assert (A : forallb (fun l => ptr_bit_pos_from_index (2 ^ 4 - 1 + (15 - l)) =? 2 ^ l)
     (List.map N.of_nat (List.seq 0 16)) = true) by (vm_compute; reflexivity).
  rewrite forallb_forall in A. apply N.eqb_eq. now apply A.
Qed.

Lemma child_next_0 id : child_next f (ChildIter id 0) = Ok None.
Proof. reflexivity. Qed.

(* the child ids a child iterator will return *)
Definition chl (it : childiter) : list pid :=
  List.map (fun j => child f (ci_base it) (15 - j)) (hb 16 (ci_range it)).

Lemma In_chl it id : In id (chl it) <->
  exists n, n < 16 /\ N.testbit (ci_range it) (ptr_bit n) = true /\ id = child f (ci_base it) n.
Proof.
  unfold chl. rewrite in_map_iff. split.
  - intros [j [E H]]. apply In_hb in H. destruct H as [H1 H2].
    exists (15 - j). unfold ptr_bit. replace (15 - (15 - j)) with j by lia.
    repeat split; auto; lia.
  - intros [n [H1 [H2 ->]]]. exists (ptr_bit n). unfold ptr_bit in *.
    replace (15 - (15 - n)) with n by lia. split; [easy|]. apply In_hb. split; [lia|easy].
Qed.

Lemma NoDup_chl it : nid_ok (ci_base it) -> NoDup (chl it).
Proof.
  intros I. unfold chl.
  assert (A : forall l, NoDup l -> (forall j, In j l -> j < 16) ->
    NoDup (List.map (fun j => child f (ci_base it) (15 - j)) l)).
  { induction l as [|j l IH]; intros ND R; simpl; [constructor|].
    inversion ND as [|? ? NI ND']; subst. constructor.
    - rewrite in_map_iff. intros [i [E Hi]].
      pose proof (R j (or_introl eq_refl)). pose proof (R i (or_intror Hi)).
      apply child_inj in E; auto; try lia. assert (i = j) by lia. subst i. now apply NI.
    - apply IH; auto. intros i Hi. apply R. now right. }
  apply A; [apply NoDup_hb|]. intros j Hj. apply In_hb in Hj. lia.
Qed.

Lemma chl_step id r : r <> 0 -> r < 2 ^ 16 ->
  chl (ChildIter id r) =
  child f id (15 - N.log2 r) :: chl (ChildIter id (N.lxor r (2 ^ N.log2 r))).
Proof. intros NZ R. unfold chl. cbn [ci_range ci_base].
  rewrite (hb_top' 16 16 r eq_refl NZ R) at 1.
  apply (map_cons (fun j => child f id (15 - j))). Qed.

End P.
