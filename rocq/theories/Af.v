(* types/af.rs: the two address families, and types/prefix_id.rs. *)
From Coq Require Import NArith List Bool Lia.
From Verif Require Import Word.
Local Open Scope N_scope.

(* af.rs:89,170: IPv4 = U32<NetworkEndian>, IPv6 = U128<NetworkEndian>.  An
   address is the host-order value of the integer. *)
Inductive af : Type := IPv4 | IPv6.

(* af.rs:92,174 AddressFamily::BITS *)
Definition BITS (f : af) : N := match f with IPv4 => 32 | IPv6 => 128 end.

(* bit_span.rs:19-22 *)
Record bitspan : Type := BS { bs_bits : N; bs_len : N }.

(* af.rs:130-133 (identity) and 212-215 (`as u32`) *)
Definition dangerously_truncate_to_u32 (f : af) (x : N) : N :=
  match f with IPv4 => x | IPv6 => cast 32 x end.

(* af.rs:112-119 (v4) and 186-194 (v6, with the result cast to u32).
   `32 - len` is a u8 subtraction in the v4 code and a u128 subtraction in the
   v6 code; both panic when len exceeds the width. *)
Definition into_bit_span (f : af) (net start_bit len : N) : res bitspan :=
  do a <- shl (BITS f) net start_bit;
  do d <- sub8 (BITS f) len;
  do b <- shr (BITS f) a (d mod BITS f);
  Ok (BS (dangerously_truncate_to_u32 f b) len).

(* af.rs:121-124 and 196-199.  `32 - len - bs.len` and `len + bs.len` are u8
   operations; the shift is on u32 / u128. *)
Definition add_bit_span (f : af) (self len : N) (bs : bitspan) : res (N * N) :=
  do d1 <- sub8 (BITS f) len;
  do d2 <- sub8 d1 (bs_len bs);
  do s <- shl (BITS f) (bs_bits bs) d2;
  do l <- add8 len (bs_len bs);
  Ok (N.lor self s, l).

(* af.rs:135-140 and 201-206 *)
Definition truncate_to_len (f : af) (self len : N) : N :=
  let w := BITS f in
  N.land self
    (N.lxor (wrapping_sub w (N.lxor (rotr w 1 len) (sat_sub 1 len)) 1) (umax w)).

(* af.rs:142-148 and 217-223 *)
Definition checked_shr_or_zero (f : af) (self rhs : N) : res N :=
  if (rhs =? 0) || (rhs =? BITS f) then Ok 0 else shr (BITS f) self rhs.

(* prefix_id.rs:26-33 and tree_bitmap_node.rs:631-634: PrefixId and NodeId are
   both a pair (bits, len) with derived equality. *)
Definition pid : Type := (N * N)%type.
Definition p_bits (p : pid) : N := fst p.
Definition p_len (p : pid) : N := snd p.

(* derived PartialEq of PrefixId / NodeId *)
Definition pid_eqb (p q : pid) : bool :=
  (fst p =? fst q) && (snd p =? snd q).

(* prefix_id.rs:48-53 *)
Definition pid_truncate_to_len (f : af) (p : pid) (len : N) : pid :=
  (truncate_to_len f (p_bits p) len, len).

(* The prefixes that can reach the store: inetnum::addr::Prefix guarantees
   len <= BITS and zero host bits (external crate, prefix_id.rs:59-82). *)
Definition wf_pid (f : af) (p : pid) : Prop :=
  p_len p <= BITS f /\ p_bits p < 2 ^ BITS f /\
  p_bits p mod 2 ^ (BITS f - p_len p) = 0.

Definition wf_pidb (f : af) (p : pid) : bool :=
  (p_len p <=? BITS f) && (p_bits p <? 2 ^ BITS f) &&
  (p_bits p mod 2 ^ (BITS f - p_len p) =? 0).

Lemma wf_pidb_spec f p : wf_pidb f p = true <-> wf_pid f p.
Proof.
  unfold wf_pidb, wf_pid. rewrite !andb_true_iff, N.leb_le, N.ltb_lt, N.eqb_eq.
  tauto.
Qed.

Lemma pid_eqb_spec p q : pid_eqb p q = true <-> p = q.
Proof.
  unfold pid_eqb. destruct p as [a b], q as [c d]; simpl.
  rewrite andb_true_iff, !N.eqb_eq. split; [intros [-> ->]; easy|].
  intros E; inversion E; easy.
Qed.

Lemma pid_eqb_refl p : pid_eqb p p = true.
Proof. now apply pid_eqb_spec. Qed.
Lemma pid_eqb_neq p q : p <> q -> pid_eqb p q = false.
Proof.
  intros H. destruct (pid_eqb p q) eqn:E; [|easy]. now apply pid_eqb_spec in E.
Qed.
Lemma pid_eq_dec (p q : pid) : {p = q} + {p <> q}.
Proof. destruct (pid_eqb p q) eqn:E; [left|right].
  - now apply pid_eqb_spec.
  - intros ->. now rewrite pid_eqb_refl in E.
Defined.

Lemma BITS_pos f : 0 < BITS f.
Proof. destruct f; reflexivity. Qed.
Lemma BITS_le f : BITS f <= 128.
Proof. destruct f; simpl; lia. Qed.
Lemma BITS_ge f : 32 <= BITS f.
Proof. destruct f; simpl; lia. Qed.
Lemma BITS_mod4 f : BITS f mod 4 = 0.
Proof. destruct f; reflexivity. Qed.

(* ---------- slices: the arithmetic meaning of the shift code ---------- *)

(* bits a .. a+n-1 of a w-bit value, counted from the most significant bit *)
Definition slice (w x a n : N) : N := (x / 2 ^ (w - a - n)) mod 2 ^ n.
(* the value with everything after the first l bits cleared *)
Definition trunc (w x l : N) : N := x / 2 ^ (w - l) * 2 ^ (w - l).

Lemma slice_lt w x a n : slice w x a n < 2 ^ n.
Proof. unfold slice. apply N.mod_lt. auto. Qed.

Lemma shl_shr_slice w x a n :
  a + n <= w ->
  ((x * 2 ^ a) mod 2 ^ w) / 2 ^ (w - n) = slice w x a n.
Proof.
  intros H. unfold slice.
  rewrite (pow2_split a w) by lia.
  rewrite (N.mul_comm x), N.mul_mod_distr_l by auto.
  rewrite (pow2_split a (w - n)) by lia.
  rewrite N.div_mul_cancel_l by auto.
  remember (w - a - n) as k eqn:Ek.
  replace (w - a) with (k + n) by lia.
  replace (w - n - a) with k by lia.
  rewrite N.pow_add_r.
  rewrite N.mod_mul_r by auto.
  rewrite (N.mul_comm (2 ^ k) (_ mod _)).
  rewrite N.div_add by auto.
  rewrite (N.div_small (x mod _)) by (apply N.mod_lt; auto). apply N.add_0_l.
Qed.

Lemma div_lt_pow2 x w k : x < 2 ^ w -> k <= w -> x / 2 ^ k < 2 ^ (w - k).
Proof.
  intros. apply N.div_lt_upper_bound; auto.
  now rewrite <- pow2_split.
Qed.

Lemma truncate_to_len_ok f x l :
  x < 2 ^ BITS f -> l <= BITS f ->
  truncate_to_len f x l = trunc (BITS f) x l.
Proof.
  intros Hx Hl.
  assert (M : N.lxor (wrapping_sub (BITS f)
                (N.lxor (rotr (BITS f) 1 l) (sat_sub 1 l)) 1) (umax (BITS f))
              = N.lxor (N.ones (BITS f - l)) (N.ones (BITS f))).
  { f_equal.
    2:{ unfold umax. now rewrite N.ones_equiv, N.sub_1_r. }
    assert (D : l = 0 \/ l = BITS f \/ 0 < l < BITS f) by lia.
    destruct D as [->|[->|D]].
    - destruct f; reflexivity.
    - destruct f; reflexivity.
    - unfold rotr, wrapping_sub, sat_sub.
      rewrite (N.mod_small l) by lia.
      rewrite N.shiftr_div_pow2, N.shiftl_mul_pow2, N.mul_1_l.
      rewrite N.div_small.
      2:{ change 1 with (2^0). apply pow2_lt. lia. }
      rewrite N.lor_0_l. replace (1 - l) with 0 by lia.
      rewrite N.lxor_0_r.
      assert (2 ^ (BITS f - l) < 2 ^ BITS f) by (apply pow2_lt; lia).
      rewrite (N.mod_small (2 ^ (BITS f - l))) by auto.
      rewrite N.ones_equiv.
      pose proof (pow2_pos (BITS f - l)).
      replace (2 ^ (BITS f - l) + (2 ^ BITS f - 1))
        with ((2 ^ (BITS f - l) - 1) + 1 * 2 ^ BITS f) by lia.
      rewrite N.mod_add by auto. rewrite N.mod_small by lia. lia. }
  unfold truncate_to_len. cbv zeta. rewrite M.
  unfold trunc. rewrite <- N.shiftr_div_pow2, <- N.shiftl_mul_pow2.
  apply N.bits_inj. intros i.
  rewrite N.land_spec, N.lxor_spec.
  assert (O : forall k j, N.testbit (N.ones k) j = (j <? k)).
  { intros k j. destruct (N.ltb_spec j k).
    - now apply N.ones_spec_low.
    - now apply N.ones_spec_high. }
  rewrite !O.
  destruct (N.ltb_spec i (BITS f - l)).
  - rewrite N.shiftl_spec_low by auto.
    destruct (N.ltb_spec i (BITS f)); [|lia]. simpl. now rewrite andb_false_r.
  - rewrite N.shiftl_spec_high' by auto.
    rewrite N.shiftr_spec'. replace (i - (BITS f - l) + (BITS f - l)) with i by lia.
    destruct (N.ltb_spec i (BITS f)); simpl.
    + apply andb_true_r.
    + rewrite andb_false_r.
      destruct (N.eq_dec x 0) as [->|]; [now rewrite N.bits_0|].
      rewrite N.bits_above_log2; [easy|].
      apply N.log2_lt_pow2 in Hx; lia.
Qed.

Lemma trunc_le w x l : trunc w x l <= x.
Proof. unfold trunc. rewrite N.mul_comm. apply N.mul_div_le. auto. Qed.

Lemma trunc_lt w x l : x < 2 ^ w -> trunc w x l < 2 ^ w.
Proof. pose proof (trunc_le w x l). lia. Qed.

Lemma trunc_mod w x l : trunc w x l mod 2 ^ (w - l) = 0.
Proof. unfold trunc. apply N.mod_mul. auto. Qed.

Lemma trunc_id w x l : x mod 2 ^ (w - l) = 0 -> trunc w x l = x.
Proof.
  intros H. unfold trunc.
  rewrite (N.div_mod x (2 ^ (w - l))) at 2 by auto. rewrite H. lia.
Qed.

Lemma trunc_div w x l : trunc w x l / 2 ^ (w - l) = x / 2 ^ (w - l).
Proof. unfold trunc. apply N.div_mul. auto. Qed.

Lemma div_div_pow2 x a b : x / 2 ^ a / 2 ^ b = x / 2 ^ (a + b).
Proof. rewrite N.div_div by auto. now rewrite <- N.pow_add_r. Qed.

(* truncation does not change what lies in the first k <= l bits *)
Lemma trunc_div_le w x l k : k <= l -> l <= w ->
  trunc w x l / 2 ^ (w - k) = x / 2 ^ (w - k).
Proof.
  intros. replace (w - k) with ((w - l) + (l - k)) by lia.
  rewrite <- !div_div_pow2. now rewrite trunc_div.
Qed.

Lemma trunc_trunc w x l k : k <= l -> l <= w ->
  trunc w (trunc w x l) k = trunc w x k.
Proof. intros. unfold trunc at 1. now rewrite trunc_div_le. Qed.

Lemma trunc_0 w x : x < 2 ^ w -> trunc w x 0 = 0.
Proof. intros. unfold trunc. rewrite N.sub_0_r, N.div_small; easy. Qed.

Lemma trunc_full w x : trunc w x w = x.
Proof. unfold trunc. rewrite N.sub_diag. simpl. rewrite N.div_1_r. lia. Qed.

Lemma slice_trunc w x l a n : a + n <= l -> l <= w ->
  slice w (trunc w x l) a n = slice w x a n.
Proof.
  intros. unfold slice. replace (w - a - n) with (w - (a + n)) by lia.
  now rewrite trunc_div_le.
Qed.

(* gluing a slice after a truncated value *)
Lemma div_slice w x a n : a + n <= w ->
  x / 2 ^ (w - (a + n)) = x / 2 ^ (w - a) * 2 ^ n + slice w x a n.
Proof.
  intros. unfold slice.
  replace (w - (a + n)) with (w - a - n) by lia.
  rewrite (N.div_mod (x / 2 ^ (w - a - n)) (2 ^ n)) at 1 by auto.
  rewrite div_div_pow2. replace (w - a - n + n) with (w - a) by lia.
  lia.
Qed.

Lemma wf_trunc f x l : x < 2 ^ BITS f -> l <= BITS f ->
  wf_pid f (trunc (BITS f) x l, l).
Proof.
  intros. unfold wf_pid; simpl. repeat split; auto.
  - now apply trunc_lt.
  - apply trunc_mod.
Qed.

Lemma wf_pid_trunc f p : wf_pid f p -> trunc (BITS f) (p_bits p) (p_len p) = p_bits p.
Proof. intros [_ [_ H]]. now apply trunc_id. Qed.

(* two well-formed ids of the same length agreeing on the first len bits are equal *)
Lemma wf_pid_inj f p q : wf_pid f p -> wf_pid f q -> p_len p = p_len q ->
  p_bits p / 2 ^ (BITS f - p_len p) = p_bits q / 2 ^ (BITS f - p_len p) -> p = q.
Proof.
  intros Hp Hq L E. destruct p as [a l], q as [b m]; simpl in *. subst m. f_equal.
  apply wf_pid_trunc in Hp, Hq. simpl in *. unfold trunc in *. congruence.
Qed.

Lemma into_bit_span_ok f x a n :
  x < 2 ^ BITS f -> a + n <= BITS f -> 0 < n -> n <= 32 ->
  into_bit_span f x a n = Ok (BS (slice (BITS f) x a n) n).
Proof.
  intros Hx Hn H0 H32. unfold into_bit_span.
  rewrite shl_ok by lia. cbn [bind].
  rewrite sub8_ok by lia. cbn [bind].
  rewrite (N.mod_small (BITS f - n)) by lia.
  rewrite shr_ok by lia. cbn [bind].
  rewrite shl_shr_slice by lia.
  unfold dangerously_truncate_to_u32, cast.
  destruct f; [easy|].
  rewrite N.mod_small; [easy|].
  eapply N.lt_le_trans; [apply slice_lt|]. now apply pow2_le.
Qed.

Lemma lor_disjoint a b k : a mod 2 ^ k = 0 -> b < 2 ^ k -> N.lor a b = a + b.
Proof.
  intros Ha Hb.
  rewrite (N.div_mod a (2 ^ k)) at 1 by auto. rewrite Ha, N.add_0_r.
  rewrite N.mul_comm, <- N.shiftl_mul_pow2.
  rewrite <- N.lxor_lor, <- N.add_nocarry_lxor.
  - f_equal. rewrite N.shiftl_mul_pow2.
    rewrite (N.div_mod a (2 ^ k)) at 2 by auto. rewrite Ha. lia.
  - apply N.bits_inj. intros i. rewrite N.land_spec, N.bits_0.
    destruct (N.lt_ge_cases i k).
    + now rewrite N.shiftl_spec_low.
    + assert (N.testbit b i = false) as ->; [|apply andb_false_r].
      destruct (N.eq_dec b 0) as [->|]; [apply N.bits_0|].
      apply N.bits_above_log2. apply N.log2_lt_pow2 in Hb; lia.
  - apply N.bits_inj. intros i. rewrite N.land_spec, N.bits_0.
    destruct (N.lt_ge_cases i k).
    + now rewrite N.shiftl_spec_low.
    + assert (N.testbit b i = false) as ->; [|apply andb_false_r].
      destruct (N.eq_dec b 0) as [->|]; [apply N.bits_0|].
      apply N.bits_above_log2. apply N.log2_lt_pow2 in Hb; lia.
Qed.

Lemma add_bit_span_ok f x l bs :
  x < 2 ^ BITS f -> x mod 2 ^ (BITS f - l) = 0 -> l + bs_len bs <= BITS f ->
  bs_bits bs < 2 ^ bs_len bs -> l < BITS f -> 0 < l + bs_len bs ->
  add_bit_span f x l bs =
    Ok (x + bs_bits bs * 2 ^ (BITS f - l - bs_len bs), l + bs_len bs).
Proof.
  intros Hx Hm Hl Hb Hll H0. pose proof (BITS_le f). unfold add_bit_span.
  rewrite sub8_ok by lia. cbn [bind].
  rewrite sub8_ok by lia. cbn [bind].
  rewrite shl_ok by lia. cbn [bind].
  rewrite add8_ok by lia. cbn [bind].
  assert (B : bs_bits bs * 2 ^ (BITS f - l - bs_len bs) < 2 ^ (BITS f - l)).
  { replace (BITS f - l) with (bs_len bs + (BITS f - l - bs_len bs)) at 2 by lia.
    rewrite N.pow_add_r. apply N.mul_lt_mono_pos_r; auto. }
  assert (2 ^ (BITS f - l) <= 2 ^ BITS f) by (apply pow2_le; lia).
  rewrite N.mod_small by lia.
  rewrite (lor_disjoint _ _ (BITS f - l)) by auto. easy.
Qed.
