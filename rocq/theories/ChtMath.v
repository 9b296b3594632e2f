(* cht/mod.rs: sizes of the slot arrays, and the hash functions
   hash_node_id (tree_bitmap/mod.rs:1045-1063) and
   hash_prefix_id (prefix_cht/cht.rs:831-851). *)
From Coq Require Import NArith List Bool Lia.
From Verif Require Import Word Af BitSpan.
Import ListNotations.
Local Open Scope N_scope.

(* cht/mod.rs:95-105; `lvl + 1` and `4 * (lvl + 1)` are u8 operations *)
Definition nodeset_size (len lvl : N) : res N :=
  do l1 <- add8 lvl 1;
  do m <- mul8 4 l1;
  Ok (sat_sub 4 (sat_sub m len)).

(* cht/mod.rs:159-169 *)
Definition prev_node_size (len lvl : N) : res N :=
  do m <- mul8 lvl 4;
  do q <- mul8 (sat_sub lvl (N.shiftr len 2)) (sat_sub m len);
  sub8 m q.

(* tree_bitmap/mod.rs:1045-1063 and prefix_cht/cht.rs:831-851 (the two bodies
   are the same computation; `AF::from_u8` and `AF::from_u32` are injections) *)
Definition hash_id (f : af) (id : pid) (level : N) : res N :=
  do last_level <- prev_node_size (p_len id) level;
  do size <- nodeset_size (p_len id) level;
  do a <- shl (BITS f) (p_bits id) last_level;
  do d <- sub8 (BITS f) size;
  do b <- shr (BITS f) a (d mod BITS f);
  Ok (dangerously_truncate_to_u32 f b).

(* node_cht.rs:83-95 and prefix_cht/cht.rs:509-514: number of slots in a set
   created with the given power of two *)
Definition slots_for (p2 : N) : N := if p2 =? 0 then 0 else 2 ^ p2.

(* the naive version in the comment at cht/mod.rs:36-48 and the test at 111-127 *)
Definition nodeset_size_naive (len lvl : N) : N :=
  let r := 4 * (lvl + 1) in
  if r <? len then 4
  else if len + 4 <=? r then 0
  else if len mod 4 =? 0 then 4
  else len mod 4.

(* ---------- meaning ---------- *)

(* number of levels a chain for ids of this length can have *)
Definition nlevels (len : N) : N := if len =? 0 then 1 else (len + 3) / 4.
(* number of bits used at a level *)
Definition lvl_size (len lvl : N) : N := N.min 4 (len - 4 * lvl).
(* slot index of an id at a level *)
Definition hidx (f : af) (id : pid) (lvl : N) : N :=
  slice (BITS f) (p_bits id) (4 * lvl) (lvl_size (p_len id) lvl).

Lemma nlevels_pos len : 0 < nlevels len.
Proof.
  unfold nlevels. destruct (N.eqb_spec len 0); [lia|].
  apply N.div_str_pos. lia.
Qed.

Lemma nlevels_spec len lvl : lvl < nlevels len <-> lvl = 0 \/ 4 * lvl < len.
Proof.
  unfold nlevels. destruct (N.eqb_spec len 0) as [->|].
  - lia.
  - split; intros; dlia.
Qed.

Lemma nlevels_le f len : len <= BITS f -> nlevels len <= 32.
Proof.
  intros. pose proof (BITS_le f).
  destruct (N.le_gt_cases (nlevels len) 32); [easy|].
  apply nlevels_spec in H1. lia.
Qed.

Lemma nodeset_size_ok f len lvl : len <= BITS f -> lvl <= nlevels len ->
  nodeset_size len lvl = Ok (lvl_size len lvl).
Proof.
  intros Hl Hn. pose proof (nlevels_le f len Hl). unfold nodeset_size.
  rewrite add8_ok by lia. cbn [bind]. rewrite mul8_ok by lia. cbn [bind].
  unfold sat_sub, lvl_size. f_equal.
  assert (D : lvl < nlevels len \/ lvl = nlevels len) by lia.
  destruct D as [D|D].
  - apply nlevels_spec in D. lia.
  - assert (~ (lvl < nlevels len)) as E by lia. rewrite nlevels_spec in E.
    destruct (N.eq_dec lvl 0) as [->|]; [|lia].
    pose proof (nlevels_pos len). lia.
Qed.

Lemma prev_node_size_ok f len lvl : len <= BITS f -> lvl < nlevels len ->
  prev_node_size len lvl = Ok (4 * lvl).
Proof.
  intros Hl Hn. pose proof (nlevels_le f len Hl).
  apply nlevels_spec in Hn. pose proof (BITS_le f). unfold prev_node_size.
  rewrite mul8_ok by lia. cbn [bind].
  unfold sat_sub. replace (lvl * 4 - len) with 0 by lia.
  rewrite N.mul_comm || idtac.
  rewrite mul8_ok by lia. cbn [bind].
  rewrite sub8_ok by lia. f_equal. lia.
Qed.

Lemma lvl_size_pos len lvl : lvl < nlevels len -> lvl <> 0 \/ len <> 0 ->
  0 < lvl_size len lvl.
Proof. intros H D. apply nlevels_spec in H. unfold lvl_size. lia. Qed.

Lemma lvl_size_end len : lvl_size len (nlevels len) = 0.
Proof.
  unfold lvl_size. assert (~ nlevels len < nlevels len) as E by lia.
  rewrite nlevels_spec in E. lia.
Qed.

Lemma lvl_size_gt0 len lvl : 0 < lvl <= nlevels len ->
  (0 <? lvl_size len lvl) = (lvl <? nlevels len).
Proof.
  intros H. destruct (N.ltb_spec lvl (nlevels len)).
  - apply N.ltb_lt. apply lvl_size_pos; lia.
  - replace lvl with (nlevels len) by lia. now rewrite lvl_size_end.
Qed.

Lemma hash_id_ok f id lvl : wf_pid f id -> lvl < nlevels (p_len id) ->
  hash_id f id lvl = Ok (hidx f id lvl).
Proof.
  intros [Hl [Hb Hm]] Hn. pose proof (BITS_le f). pose proof (BITS_pos f).
  unfold hash_id.
  rewrite (prev_node_size_ok f) by auto. cbn [bind].
  rewrite (nodeset_size_ok f) by (auto; lia). cbn [bind].
  pose proof Hn as Hn'. apply nlevels_spec in Hn'.
  rewrite shl_ok by lia. cbn [bind].
  assert (lvl_size (p_len id) lvl <= 4) by (unfold lvl_size; lia).
  rewrite sub8_ok by (pose proof (BITS_ge f); lia). cbn [bind].
  rewrite shr_ok by (apply N.mod_lt; lia). cbn [bind].
  unfold hidx. f_equal.
  destruct (N.eq_dec (lvl_size (p_len id) lvl) 0) as [E|E].
  - assert (p_len id = 0 /\ lvl = 0) as [E1 E2] by (unfold lvl_size in E; lia).
    assert (p_bits id = 0) as E3.
    { rewrite E1, N.sub_0_r in Hm. now rewrite N.mod_small in Hm. }
    rewrite E, E2, E3. destruct f; reflexivity.
  - rewrite (N.mod_small (BITS f - _)) by lia.
    assert (4 * lvl + lvl_size (p_len id) lvl <= BITS f).
    { unfold lvl_size in *. lia. }
    rewrite shl_shr_slice by auto.
    unfold dangerously_truncate_to_u32, cast. destruct f; [easy|].
    apply N.mod_small. eapply N.lt_le_trans; [apply slice_lt|].
    apply pow2_le. lia.
Qed.

Lemma hidx_lt f id lvl : hidx f id lvl < 2 ^ lvl_size (p_len id) lvl.
Proof. apply slice_lt. Qed.

Lemma hidx_lt16 f id lvl : hidx f id lvl < 16.
Proof.
  eapply N.lt_le_trans; [apply hidx_lt|].
  change 16 with (2 ^ 4). apply pow2_le. unfold lvl_size. lia.
Qed.

(* the index is inside a slot array created for that level *)
Lemma hidx_slots f id lvl : 0 < lvl < nlevels (p_len id) ->
  hidx f id lvl < slots_for (lvl_size (p_len id) lvl).
Proof.
  intros H. pose proof (lvl_size_pos (p_len id) lvl).
  unfold slots_for. destruct (N.eqb_spec (lvl_size (p_len id) lvl) 0); [lia|].
  apply hidx_lt.
Qed.

(* the indices of all levels together determine the id *)
Lemma hidx_inj f p q : wf_pid f p -> wf_pid f q -> p_len p = p_len q ->
  (forall lvl, lvl < nlevels (p_len p) -> hidx f p lvl = hidx f q lvl) -> p = q.
Proof.
  intros Hp Hq L E. apply (wf_pid_inj f); auto.
  assert (A : forall n : nat, N.of_nat n <= nlevels (p_len p) ->
    p_bits p / 2 ^ (BITS f - N.min (p_len p) (4 * N.of_nat n)) =
    p_bits q / 2 ^ (BITS f - N.min (p_len p) (4 * N.of_nat n))).
  { induction n as [|n IH]; intros Hn.
    - replace (N.min (p_len p) (4 * N.of_nat 0)) with 0 by lia.
      rewrite N.sub_0_r.
      destruct Hp as [_ [Hp _]], Hq as [_ [Hq _]].
      now rewrite !N.div_small.
    - assert (Hn' : N.of_nat n < nlevels (p_len p)) by lia.
      specialize (E _ Hn').
      unfold hidx in E. rewrite <- L in E.
      pose proof Hn' as Hs. apply nlevels_spec in Hs.
      destruct Hp as [Hp1 [Hp2 _]], Hq as [_ [Hq2 _]].
      destruct (N.eq_dec (p_len p) 0) as [Z|Z].
      { rewrite Z. rewrite N.min_0_l, N.sub_0_r. now rewrite !N.div_small. }
      replace (N.min (p_len p) (4 * N.of_nat (S n)))
        with (4 * N.of_nat n + lvl_size (p_len p) (N.of_nat n))
        by (unfold lvl_size; lia).
      rewrite !div_slice by (unfold lvl_size; lia).
      rewrite E. f_equal. f_equal.
      replace (N.min (p_len p) (4 * N.of_nat n)) with (4 * N.of_nat n) in IH by lia.
      apply IH. lia. }
  specialize (A (N.to_nat (nlevels (p_len p)))). rewrite N2Nat.id in A.
  assert (~ nlevels (p_len p) < nlevels (p_len p)) as Z by lia.
  rewrite nlevels_spec in Z.
  replace (N.min (p_len p) (4 * nlevels (p_len p))) with (p_len p) in A.
  - apply A. lia.
  - pose proof (nlevels_pos (p_len p)). lia.
Qed.
