(* The lemmas behind the properties of the store, part 5: addresses, hash
   chains, keys and record sets. *)
From Coq Require Import Arith NArith List Bool Lia Permutation.
From Verif Require Import Word Af BitSpan Spec Maps ChtMath Cht Node Tree ChainProofs TreeProofs
  Iter IterProofs MultiMap PrefixCht PrefixChtProofs Lsm LsmProofs RecordSet Rib StarCast HistSpec
  Ask PropSpec RibProofs RibLsm RibOk Queries Queries2 Disk MuiWalk Facts1 Facts2 Facts3 Facts4.
Import ListNotations.
Local Open Scope N_scope.

(* ---------- where a prefix lives ---------- *)

Lemma place_total f p : wf_pid f p ->
  exists id bs pos c, node_id_for_prefix f p = Ok (id, bs) /\ into_bit_pos bs = Ok pos /\
    cursor_from_bit_span bs = Ok c /\ from_bit_pos_index c = Ok bs /\
    (0 < p_len p -> add_bit_span f (p_bits id) (p_len id) bs = Ok p).
Proof.
  intros W. exists (node_of f p), (span_of f p), (2 ^ bs_bit (span_of f p)), (bs_index (span_of f p)).
  pose proof (wf_span f p) as WS. pose proof (bs_index_lt _ WS) as LT.
  split; [now apply node_id_for_prefix_ok|].
  split; [now apply into_bit_pos_ok|].
  assert (C : lzcnt 32 (2 ^ bs_bit (span_of f p)) = bs_index (span_of f p)).
  { unfold bs_bit. assert (X : forall i, i < 31 -> lzcnt 32 (2 ^ (31 - i)) = i).
    { intros i H. assert (E : forallb (fun k => lzcnt 32 (2 ^ (31 - N.of_nat k)) =? N.of_nat k)
        (seq 0 31) = true) by (vm_compute; reflexivity).
      rewrite forallb_forall in E. specialize (E (N.to_nat i)). rewrite N2Nat.id in E.
      apply N.eqb_eq, E. apply in_seq. lia. }
    now apply X. }
  split; [unfold cursor_from_bit_span; rewrite into_bit_pos_ok by auto; cbn [bind]; now rewrite C|].
  split; [now apply from_bit_pos_index_ok|].
  intros Lp. destruct W as [Hl [Hb Hm]].
  pose proof (nlen_spec (p_len p)) as (N1 & N2 & N3 & N4). specialize (N4 Lp).
  unfold node_of, span_of. cbn [p_bits p_len fst snd].
  rewrite add_bit_span_ok; cbn [bs_bits bs_len].
  - destruct p as [b l]. cbn [p_bits p_len fst snd] in *.
    replace (nlen l + (l - nlen l)) with l by lia. apply (f_equal (fun x => Ok (x, l))).
    transitivity (trunc (BITS f) b l); [|now apply trunc_id]. unfold trunc.
    assert (D : b / 2 ^ (BITS f - l) = b / 2 ^ (BITS f - nlen l) * 2 ^ (l - nlen l) +
              slice (BITS f) b (nlen l) (l - nlen l)).
    { rewrite <- div_slice by lia. f_equal. f_equal. lia. }
    rewrite D. replace (BITS f - nlen l - (l - nlen l)) with (BITS f - l) by lia.
    replace (BITS f - nlen l) with ((l - nlen l) + (BITS f - l)) by lia.
    rewrite N.pow_add_r. lia.
  - now apply trunc_lt.
  - apply trunc_mod.
  - lia.
  - apply slice_lt.
  - lia.
  - lia.
Qed.

Lemma place_injective f p q id bs bs' pos : wf_pid f p -> wf_pid f q ->
  node_id_for_prefix f p = Ok (id, bs) -> into_bit_pos bs = Ok pos ->
  node_id_for_prefix f q = Ok (id, bs') -> into_bit_pos bs' = Ok pos -> p = q.
Proof.
  intros Wp Wq. rewrite !node_id_for_prefix_ok by auto. intros E1 P1 E2 P2.
  injection E1 as E1 <-. injection E2 as E2 <-.
  rewrite into_bit_pos_ok in P1, P2 by apply wf_span.
  apply (place_inj f p q); auto; [congruence|].
  apply bs_index_inj; try apply wf_span.
  pose proof (bs_index_lt _ (wf_span f p)). pose proof (bs_index_lt _ (wf_span f q)).
  assert (E : 2 ^ bs_bit (span_of f p) = 2 ^ bs_bit (span_of f q)) by congruence.
  apply N.pow_inj_r in E; [|lia]. unfold bs_bit in E. lia.
Qed.

(* ---------- truncation ---------- *)

Lemma truncate_bits f x l i : x < 2 ^ BITS f -> l <= BITS f -> i < BITS f ->
  N.testbit (truncate_to_len f x l) (BITS f - 1 - i) =
  if i <? l then N.testbit x (BITS f - 1 - i) else false.
Proof.
  intros Hx Hl Hi. rewrite truncate_to_len_ok by auto. unfold trunc.
  destruct (N.ltb_spec i l).
  - rewrite N.mul_pow2_bits_high by lia. rewrite N.div_pow2_bits. f_equal. lia.
  - rewrite N.mul_pow2_bits_low; [easy|lia].
Qed.

Lemma truncate_range f x l : x < 2 ^ BITS f -> l <= BITS f -> truncate_to_len f x l < 2 ^ BITS f.
Proof. intros. rewrite truncate_to_len_ok by auto. now apply trunc_lt. Qed.

Lemma truncate_compose f x m n : x < 2 ^ BITS f -> n <= m -> m <= BITS f ->
  truncate_to_len f (truncate_to_len f x m) n = truncate_to_len f x n.
Proof.
  intros Hx Hn Hm. rewrite !truncate_to_len_ok by (auto; try lia; now apply truncate_range).
  now apply trunc_trunc.
Qed.

(* ---------- hash chains ---------- *)


Lemma chain_nlevels len : chain_len len = nlevels len.
Proof. unfold chain_len, nlevels. destruct (N.eqb_spec len 0) as [->|]; [easy|]. dlia. Qed.

Lemma slot_in_bounds f id lvl : wf_pid f id -> lvl < chain_len (p_len id) ->
  exists i, hash_id f id lvl = Ok i /\
    (lvl = 0 -> i < root_slots) /\
    (0 < lvl -> exists size, nodeset_size (p_len id) lvl = Ok size /\ i < slots_for size).
Proof.
  intros W L. rewrite chain_nlevels in L. exists (hidx f id lvl).
  split; [now apply hash_id_ok|]. split.
  - intros ->. apply hidx_lt16.
  - intros P. exists (lvl_size (p_len id) lvl). split.
    + apply (nodeset_size_ok f); [apply W|lia].
    + apply hidx_slots. lia.
Qed.

Definition node_heap (st : store) (f : af) : heap nodeval := t_heap (rb_tree (rib_of st f)).
Definition prefix_heap (st : store) (f : af) : heap pval := pc_heap (rb_pcht (rib_of st f)).

Lemma node_chain s h st f id : after s h st -> wf_pid f id -> p_len id mod 4 = 0 ->
  let n := N.to_nat (chain_len (p_len id)) in
  (exists o, retrieve_node_loop n f (node_heap st f) id (p_len id / NSTRIDE) [] root_slots 0 = Ok o /\
     (o <> None <-> node_on_path f h id) /\
     (forall v, o = Some v -> exists k e, lookup k (node_heap st f) = Some e /\ e_id e = id /\ e_val e = v)) /\
  (forall mui, exists hp' k e,
     retrieve_node_mut_loop n f (node_heap st f) id mui (p_len id / NSTRIDE) [] root_slots 0 =
       Ok (hp', Some (k, e)) /\ e_id e = id /\ lookup k hp' = Some e) /\
  (forall k1 k2 e1 e2, lookup k1 (node_heap st f) = Some e1 -> lookup k2 (node_heap st f) = Some e2 ->
     e_id e1 = e_id e2 -> k1 = k2).
Proof.
  intros A W M n. destruct (after_rib _ _ _ f A) as [Wh R].
  pose proof (ro_tree _ _ _ _ R) as T. destruct (tl_ok _ _ _ T) as [[I _ _ _ _] _].
  fold (node_heap st f) in I.
  assert (D : ndom f id) by (split; auto).
  assert (En : n = nlev id) by (unfold n, nlev; now rewrite chain_nlevels).
  pose proof (nlev_pos id) as P.
  split; [|split].
  - pose proof (retrieve_node_loop_spec f _ id I D (nlev id) 0 n) as X.
    change (hpath f id 0) with (@nil N) in X. change (slots_at (p_len id) 0) with root_slots in X.
    change (N.of_nat 0) with 0 in X. rewrite X by lia. eexists. split; [reflexivity|].
    pose proof (tl_nodes _ _ _ T id) as V. fold (node_heap st f) in V.
    rewrite <- visited_spec by auto. rewrite <- V. unfold nodes, find.
    destruct (locate f NSTRIDE (nlev id) (node_heap st f) id 0) as [j e|j|] eqn:L; simpl; split; try easy.
    apply locate_hit in L; [|exact NSTRIDE_nz]. destruct L as (L & E & _).
    intros v E'. injection E' as <-. eauto.
  - intros mui. pose proof (retrieve_node_mut_loop_spec f _ id mui I D (nlev id) 0 n) as X.
    change (hpath f id 0) with (@nil N) in X. change (slots_at (p_len id) 0) with root_slots in X.
    change (N.of_nat 0) with 0 in X. rewrite X by lia.
    destruct (locate f NSTRIDE (nlev id) (node_heap st f) id 0) as [j e|j|] eqn:L.
    + apply locate_hit in L; [|exact NSTRIDE_nz]. destruct L as (L & E & _).
      eexists _, _, _. split; [reflexivity|]. split; [exact E|]. apply lookup_update_same.
    + eexists _, _, _. split; [reflexivity|]. split; [reflexivity|]. apply lookup_update_same.
    + exfalso. apply (locate_not_out f NSTRIDE NSTRIDE_nz _ id I D (nlev id) 0%nat); auto; lia.
  - intros k1 k2 e1 e2 L1 L2 E. now apply (key_unique f NSTRIDE NSTRIDE_nz (node_heap st f) k1 k2 e1 e2).
Qed.

Lemma prefix_chain s h st f id : in_memory s -> after s h st -> wf_pid f id ->
  let n := N.to_nat (chain_len (p_len id)) in
  (exists o, retrieve_prefix_loop n f (prefix_heap st f) id (p_len id) [] root_slots 0 = Ok o /\
     (o <> None <-> touched h (f, id) = true) /\
     (forall k e, o = Some (k, e) -> lookup k (prefix_heap st f) = Some e /\ e_id e = id)) /\
  (exists hp' k e b,
     retrieve_prefix_mut_loop n f (prefix_heap st f) id (p_len id) [] root_slots 0 =
       Ok (hp', k, e, b) /\ e_id e = id /\ lookup k hp' = Some e /\ b = touched h (f, id)) /\
  (forall k1 k2 e1 e2, lookup k1 (prefix_heap st f) = Some e1 ->
     lookup k2 (prefix_heap st f) = Some e2 -> e_id e1 = e_id e2 -> k1 = k2).
Proof.
  intros S A W n. destruct (after_rib _ _ _ f A) as [Wh R].
  assert (Mr : mem_rel f h (rb_pcht (rib_of st f))).
  { pose proof (ro_mem _ _ _ _ R) as X. destruct s; auto. now elim S. }
  pose proof (ml_inv _ _ _ Mr) as I. fold (prefix_heap st f) in I.
  pose proof (ml_pfxs _ _ _ Mr id W) as O. apply opt_rel_touched in O. fold (prefix_heap st f) in O.
  assert (D : pdom f id) by (now apply pdom_wf).
  assert (En : n = nlev id) by (unfold n, nlev; now rewrite chain_nlevels).
  pose proof (nlev_pos id) as P.
  assert (Ed : p_len id / PSTRIDE = p_len id) by apply N.div_1_r.
  split; [|split].
  - pose proof (retrieve_prefix_loop_spec f _ id I D (nlev id) 0 n) as X.
    change (hpath f id 0) with (@nil N) in X. change (slots_at (p_len id) 0) with root_slots in X.
    change (N.of_nat 0) with 0 in X. rewrite Ed in X. rewrite X by lia. eexists. split; [reflexivity|].
    rewrite O. unfold pfxs, find.
    destruct (locate f PSTRIDE (nlev id) (prefix_heap st f) id 0) as [j e|j|] eqn:L; simpl; split; try easy.
    apply locate_hit in L; [|exact PSTRIDE_nz]. destruct L as (L & E & _).
    intros k e' E'. injection E' as <- <-. auto.
  - pose proof (retrieve_prefix_mut_loop_spec f _ id I D (nlev id) 0 n) as X.
    change (hpath f id 0) with (@nil N) in X. change (slots_at (p_len id) 0) with root_slots in X.
    change (N.of_nat 0) with 0 in X. rewrite Ed in X. rewrite X by lia.
    rewrite O. unfold pfxs, find.
    destruct (locate f PSTRIDE (nlev id) (prefix_heap st f) id 0) as [j e|j|] eqn:L.
    + apply locate_hit in L; [|exact PSTRIDE_nz]. destruct L as (L & E & _).
      eexists _, _, _, _. split; [reflexivity|]. split; [exact E|]. auto.
    + eexists _, _, _, _. split; [reflexivity|]. split; [reflexivity|]. split; auto.
      apply lookup_update_same.
    + exfalso. apply (locate_not_out f PSTRIDE PSTRIDE_nz _ id I D (nlev id) 0%nat); auto; lia.
  - intros k1 k2 e1 e2 L1 L2 E. now apply (key_unique f PSTRIDE PSTRIDE_nz (prefix_heap st f) k1 k2 e1 e2).
Qed.

(* ---------- the size formulas ---------- *)

Definition sizes_check (len lvl : N) : bool :=
  match nodeset_size len lvl, prev_node_size len lvl with
  | Ok a, Ok b => (a =? nodeset_size_naive len lvl) && (b =? naive_offset len lvl)
  | _, _ => false
  end.

Lemma sizes_agree f len lvl : len <= BITS f -> lvl <= chain_len len ->
  nodeset_size len lvl = Ok (nodeset_size_naive len lvl) /\
  prev_node_size len lvl = Ok (naive_offset len lvl).
Proof.
  intros L H.
  assert (A : forallb (fun n => forallb (fun k => sizes_check (N.of_nat n) (N.of_nat k))
                         (seq 0 (S (N.to_nat (chain_len (N.of_nat n)))))) (seq 0 129) = true)
    by (vm_compute; reflexivity).
  rewrite forallb_forall in A. specialize (A (N.to_nat len)). rewrite N2Nat.id in A.
  assert (I : In (N.to_nat len) (seq 0 129)) by (apply in_seq; pose proof (BITS_le f); lia).
  specialize (A I). rewrite forallb_forall in A. specialize (A (N.to_nat lvl)).
  rewrite N2Nat.id in A.
  assert (J : In (N.to_nat lvl) (seq 0 (S (N.to_nat (chain_len len))))) by (apply in_seq; lia).
  specialize (A J). unfold sizes_check in A.
  destruct (nodeset_size len lvl), (prev_node_size len lvl); try discriminate.
  apply andb_true_iff in A. destruct A as [E1 E2]. apply N.eqb_eq in E1, E2. now subst.
Qed.

(* ---------- keys ---------- *)

Lemma keys_injective f p q m n t u s s' : wf_pid f p -> wf_pid f q -> m < 2 ^ 32 -> n < 2 ^ 32 ->
  t < 2 ^ 64 -> u < 2 ^ 64 ->
  (short_key f p m = short_key f q n <-> p = q /\ m = n) /\
  (long_key f p m t s = long_key f q n u s' <-> p = q /\ m = n /\ t = u /\ s = s') /\
  length (long_key f p m t s) = match f with IPv4 => 18%nat | IPv6 => 30%nat end.
Proof.
  intros. split; [|split].
  - split; [now apply short_key_inj|]. now intros [-> ->].
  - split; [now apply long_key_inj|]. now intros (-> & -> & -> & ->).
  - rewrite long_key_length. now destruct f.
Qed.

Lemma scans_exact f p q m n t s : wf_pid f p -> wf_pid f q -> m < 2 ^ 32 -> n < 2 ^ 32 ->
  (is_prefix (pid_bytes f p) (short_key f q n) = true <-> p = q) /\
  (is_prefix (pid_bytes f p) (long_key f q n t s) = true <-> p = q) /\
  (is_prefix (short_key f p m) (short_key f q n) = true <-> p = q /\ m = n) /\
  (is_prefix (short_key f p m) (long_key f q n t s) = true <-> p = q /\ m = n).
Proof.
  intros Wp Wq Hm Hn. split; [|split; [|split]].
  - unfold short_key. now apply pid_prefix.
  - unfold long_key, short_key. rewrite <- app_assoc. now apply pid_prefix.
  - rewrite <- (app_nil_r (short_key f q n)). now apply short_prefix.
  - unfold long_key. now apply short_prefix.
Qed.

Lemma round_trip f id r : wf_pid f id -> wf_record r ->
  zc_record f (long_key f id (r_mui r) (r_ltime r) (r_status r) ++ r_meta r) = Some (id, r) /\
  zc_record f (short_key f id (r_mui r) ++ (value_header (r_ltime r) (r_status r) ++ r_meta r)) =
    Some (id, r).
Proof.
  intros W [H1 H2].
  assert (E : zc_record f (long_key f id (r_mui r) (r_ltime r) (r_status r) ++ r_meta r) = Some (id, r)).
  { rewrite zc_record_ok by auto. now destruct r. }
  split; auto. rewrite app_assoc. exact E.
Qed.

(* ---------- record sets ---------- *)


Lemma record_set_laws l :
  exists items, rs_items (rs_from_iter l) = Ok items /\
    items = filter (of_family IPv4) l ++ filter (of_family IPv6) l /\
    Permutation items l /\
    rs_len (rs_from_iter l) = length items /\
    (forall i, rs_index (rs_from_iter l) i =
       match nth_error items i with Some x => Ok x | None => Panic end) /\
    (rs_is_empty (rs_from_iter l) = true <-> items = []) /\
    rs_items (rs_reverse (rs_from_iter l)) =
      Ok (rev (filter (of_family IPv4) l) ++ rev (filter (of_family IPv6) l)).
Proof.
  assert (F4 : filter is_v4 l = filter (of_family IPv4) l).
  { apply filter_ext. intros [[[] p] r]; reflexivity. }
  assert (F6 : filter (fun x => negb (is_v4 x)) l = filter (of_family IPv6) l).
  { apply filter_ext. intros [[[] p] r]; reflexivity. }
  rewrite rs_from_iter_ok, F4, F6. exists (filter (of_family IPv4) l ++ filter (of_family IPv6) l).
  split; [apply rs_items_ok|]. split; auto. split.
  { clear. induction l as [|[[[] p] r] l IH]; simpl; auto.
    symmetry. apply Permutation_cons_app. now symmetry. }
  split; [unfold rs_len; simpl; now rewrite app_length|]. split.
  { intros i. unfold rs_index. cbn [rs_v4 rs_v6].
    destruct (Nat.ltb_spec i (length (filter (of_family IPv4) l))).
    - now rewrite nth_error_app1 by auto.
    - now rewrite nth_error_app2 by auto. }
  split.
  { unfold rs_is_empty. cbn [rs_v4 rs_v6].
    destruct (filter (of_family IPv4) l), (filter (of_family IPv6) l); simpl; easy. }
  apply rs_items_ok.
Qed.

Lemma record_set_push l f p m :
  rs_push (rs_from_iter l) (f, p) m = rs_from_iter (l ++ [((f, p), m)]).
Proof. unfold rs_from_iter. rewrite fold_left_app. now destruct f. Qed.
