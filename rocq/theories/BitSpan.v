(* types/bit_span.rs: bit spans and their positions in the 32-bit bitmaps. *)
From Coq Require Import NArith List Bool Lia.
From Verif Require Import Word Af.
Import ListNotations.
Local Open Scope N_scope.

(* rib/mod.rs STRIDE_SIZE and BIT_SPAN_SIZE *)
Definition STRIDE_SIZE : N := 4.
Definition BIT_SPAN_SIZE : N := 32.

(* bit_span.rs:32-43 *)
Definition from_bit_pos_index (i : N) : res bitspan :=
  let bits := i in
  do i <- add8 i 1;
  let i := N.lor i (N.shiftr i 1) in
  let i := N.lor i (N.shiftr i 2) in
  let i := N.lor i (N.shiftr i 3) in
  let i := popcount (N.shiftr i 1) in
  (* `1 << i` and the two u32 subtractions *)
  do p <- shl 32 1 i;
  if (p - 1) <=? bits then Ok (BS (bits - (p - 1)) i) else Panic.

(* bit_span.rs:45-52; shifting by 32 - 0 is excluded by the first test unless
   bits <> 0, in which case `<< 32` panics in debug mode *)
Definition check (bs : bitspan) : res bool :=
  if (bs_len bs =? 0) && (bs_bits bs =? 0) then Ok true
  else if negb (bs_len bs <? 5) then Ok false
  else if negb (bs_bits bs <? 16) then Ok false
  else
    do a <- shl 32 (bs_bits bs) (32 - bs_len bs);
    do b <- shr 32 a (32 - bs_len bs);
    Ok (b =? bs_bits bs).

(* bit_span.rs:54-59: `1 << (BIT_SPAN_SIZE - ((1 << len) - 1) as u8 - bits as u8 - 1)`;
   the subtractions are on u8, the outer shift on u32 *)
Definition into_bit_pos (bs : bitspan) : res N :=
  do p <- shl 32 1 (bs_len bs);
  do a <- sub8 BIT_SPAN_SIZE (cast 8 (p - 1));
  do b <- sub8 a (cast 8 (bs_bits bs));
  do c <- sub8 b 1;
  shl 32 1 c.

(* bit_span.rs:61-63 *)
Definition cursor_from_bit_span (bs : bitspan) : res N :=
  do p <- into_bit_pos bs; Ok (lzcnt 32 p).

(* ---------- meaning ---------- *)

(* a span of at most 4 bits *)
Definition wf_bs (bs : bitspan) : Prop := bs_len bs <= 4 /\ bs_bits bs < 2 ^ bs_len bs.
(* its index in a 32-bit map counted from the most significant bit *)
Definition bs_index (bs : bitspan) : N := 2 ^ bs_len bs - 1 + bs_bits bs.
(* its bit number counted from the least significant bit *)
Definition bs_bit (bs : bitspan) : N := 31 - bs_index bs.

Definition all_bs : list bitspan :=
  flat_map (fun l => map (fun b => BS b l)
    (map N.of_nat (List.seq 0 (N.to_nat (2 ^ l))))) [0;1;2;3;4].

Lemma all_bs_complete bs : wf_bs bs -> In bs all_bs.
Proof.
  destruct bs as [b l]. intros [Hl Hb]; simpl in Hl, Hb.
  apply in_flat_map. exists l. split.
  - assert (l = 0 \/ l = 1 \/ l = 2 \/ l = 3 \/ l = 4) as D by lia. simpl. intuition.
  - apply (in_map (fun b => BS b l)). replace b with (N.of_nat (N.to_nat b)) by lia.
    apply in_map. apply in_seq. lia.
Qed.

Lemma bs_index_lt bs : wf_bs bs -> bs_index bs < 31.
Proof.
  destruct bs as [b l]. intros [Hl Hb]; unfold bs_index; simpl in *.
  assert (2 ^ l <= 2 ^ 4) by (apply pow2_le; lia). change (2^4) with 16 in *. lia.
Qed.

Lemma into_bit_pos_ok bs : wf_bs bs -> into_bit_pos bs = Ok (2 ^ bs_bit bs).
Proof.
  intros H. apply all_bs_complete in H.
  assert (A : forallb (fun bs => match into_bit_pos bs with
    Ok x => x =? 2 ^ bs_bit bs | _ => false end) all_bs = true)
    by (vm_compute; reflexivity).
  rewrite forallb_forall in A. specialize (A _ H).
  destruct (into_bit_pos bs); try discriminate.
  apply N.eqb_eq in A. now subst.
Qed.

Lemma from_bit_pos_index_ok bs : wf_bs bs ->
  from_bit_pos_index (bs_index bs) = Ok bs.
Proof.
  intros H. apply all_bs_complete in H.
  assert (A : forallb (fun bs => match from_bit_pos_index (bs_index bs) with
    Ok x => (bs_bits x =? bs_bits bs) && (bs_len x =? bs_len bs)
    | _ => false end) all_bs = true)
    by (vm_compute; reflexivity).
  rewrite forallb_forall in A. specialize (A _ H).
  destruct (from_bit_pos_index (bs_index bs)) as [[x y]| |]; try discriminate.
  destruct bs; simpl in *. apply andb_true_iff in A. destruct A as [A B].
  apply N.eqb_eq in A, B. now subst.
Qed.

Lemma check_ok bs : wf_bs bs -> check bs = Ok true.
Proof.
  intros H. apply all_bs_complete in H.
  assert (A : forallb (fun bs => match check bs with
    Ok x => x | _ => false end) all_bs = true)
    by (vm_compute; reflexivity).
  rewrite forallb_forall in A. specialize (A _ H).
  destruct (check bs) as [[]| |]; easy.
Qed.

Lemma bs_index_inj a b : wf_bs a -> wf_bs b -> bs_index a = bs_index b -> a = b.
Proof.
  intros Ha Hb E. pose proof (from_bit_pos_index_ok a Ha) as A.
  rewrite E, from_bit_pos_index_ok in A by auto. congruence.
Qed.

(* every index below 31 is the index of a span *)
Definition bs_of_index (i : N) : bitspan :=
  let l := N.log2 (i + 1) in BS (i + 1 - 2 ^ l) l.

Lemma bs_of_index_ok i : i < 31 ->
  wf_bs (bs_of_index i) /\ bs_index (bs_of_index i) = i.
Proof.
  intros H. unfold bs_of_index, wf_bs, bs_index; simpl.
  assert (L : 0 < i + 1) by lia.
  pose proof (N.log2_spec (i + 1) L) as [A B].
  rewrite N.pow_succ_r' in B.
  assert (N.log2 (i + 1) <= 4).
  { assert (N.log2 (i+1) < 5); [|lia]. apply N.log2_lt_pow2; [lia|]. change (2^5) with 32. lia. }
  lia.
Qed.

Lemma wf_bs_slice w x a n : n <= 4 -> wf_bs (BS (slice w x a n) n).
Proof. intros. split; simpl; [easy|apply slice_lt]. Qed.
