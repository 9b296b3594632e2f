(* Properties of addresses, hash chains, keys and record sets. *)
From Coq Require Import Arith NArith List Bool Lia Permutation.
From Verif Require Import Word Af BitSpan Spec Maps ChtMath Cht Node Tree Iter MultiMap PrefixCht Lsm
  LsmProofs RecordSet Rib StarCast HistSpec Ask PropSpec Facts1 Facts2 Facts3 Facts4 Facts5 Facts6
  Examples Refute.
Import ListNotations.
Local Open Scope N_scope.

(* ---------- C01: every prefix owns one existence bit ---------- *)

(* the position is computed without overflow, and the prefix can be read back from it *)
Theorem C01_place_total : forall f p,
  wf_pid f p ->
  exists id bs pos c, node_id_for_prefix f p = Ok (id, bs) /\ into_bit_pos bs = Ok pos /\
    cursor_from_bit_span bs = Ok c /\ from_bit_pos_index c = Ok bs /\
    (0 < p_len p -> add_bit_span f (p_bits id) (p_len id) bs = Ok p).
Proof. exact place_total. Qed.
Print Assumptions C01_place_total.

(* two prefixes never share a position *)
Theorem C01_place_injective : forall f p q id bs bs' pos,
  wf_pid f p -> wf_pid f q ->
  node_id_for_prefix f p = Ok (id, bs) -> into_bit_pos bs = Ok pos ->
  node_id_for_prefix f q = Ok (id, bs') -> into_bit_pos bs' = Ok pos -> p = q.
Proof. exact place_injective. Qed.
Print Assumptions C01_place_injective.

Example C01_example :
  wf_prefix (v4 10 1 2 128 25) /\
  node_id_for_prefix IPv4 (snd (v4 10 1 2 128 25)) = Ok (snd (v4 10 1 2 0 24), BS 1 1) /\
  add_bit_span IPv4 (p_bits (snd (v4 10 1 2 0 24))) 24 (BS 1 1) = Ok (snd (v4 10 1 2 128 25)).
Proof. example. Qed.

(* ---------- C02: truncating an address keeps exactly its first len bits ---------- *)

Theorem C02_truncate_bits : forall f x l i,
  x < 2 ^ BITS f -> l <= BITS f -> i < BITS f ->
  N.testbit (truncate_to_len f x l) (BITS f - 1 - i) =
  if i <? l then N.testbit x (BITS f - 1 - i) else false.
Proof. exact truncate_bits. Qed.
Print Assumptions C02_truncate_bits.

Theorem C02_truncate_range : forall f x l,
  x < 2 ^ BITS f -> l <= BITS f -> truncate_to_len f x l < 2 ^ BITS f.
Proof. exact truncate_range. Qed.
Print Assumptions C02_truncate_range.

Theorem C02_truncate_compose : forall f x m n,
  x < 2 ^ BITS f -> n <= m -> m <= BITS f ->
  truncate_to_len f (truncate_to_len f x m) n = truncate_to_len f x n.
Proof. exact truncate_compose. Qed.
Print Assumptions C02_truncate_compose.

Example C02_example : truncate_to_len IPv4 (p_bits (snd (v4 10 1 2 255 32))) 23 = p_bits (snd (v4 10 1 2 0 24)) /\
  truncate_to_len IPv6 (2 ^ 128 - 1) 128 = 2 ^ 128 - 1 /\ truncate_to_len IPv6 (2 ^ 128 - 1) 0 = 0.
Proof. example. Qed.

(* ---------- C03: a slot index is always inside its slot array ---------- *)

(* for tree nodes and for prefixes alike, at every level a chain can have *)
Theorem C03_slot_in_bounds : forall f id lvl,
  wf_pid f id -> lvl < chain_len (p_len id) ->
  exists i, hash_id f id lvl = Ok i /\
    (lvl = 0 -> i < root_slots) /\
    (0 < lvl -> exists size, nodeset_size (p_len id) lvl = Ok size /\ i < slots_for size).
Proof. exact slot_in_bounds. Qed.
Print Assumptions C03_slot_in_bounds.

Example C03_example : hash_id IPv4 (snd (v4 10 1 2 128 25)) 6 = Ok 1 /\
  nodeset_size 25 6 = Ok 1 /\ slots_for 1 = 2 /\ (6 <? chain_len 25) = true /\
  hash_id IPv4 (snd (v4 10 1 2 128 25)) 5 = Ok 2 /\ nodeset_size 25 5 = Ok 4 /\ slots_for 4 = 16.
Proof. example. Qed.

(* ---------- C04: collision chains never run out of levels ---------- *)

(* the chains of tree nodes: [n] probes always suffice for a lookup and for a creation *)
Theorem C04_node_chain : forall s h st f id,
  after s h st -> wf_pid f id -> p_len id mod 4 = 0 ->
  let n := N.to_nat (chain_len (p_len id)) in
  (exists o, retrieve_node_loop n f (node_heap st f) id (p_len id / NSTRIDE) [] root_slots 0 = Ok o /\
     (o <> None <-> node_on_path f h id) /\
     (forall v, o = Some v -> exists k e, lookup k (node_heap st f) = Some e /\ e_id e = id /\ e_val e = v)) /\
  (forall mui, exists hp' k e,
     retrieve_node_mut_loop n f (node_heap st f) id mui (p_len id / NSTRIDE) [] root_slots 0 =
       Ok (hp', Some (k, e)) /\ e_id e = id /\ lookup k hp' = Some e) /\
  (forall k1 k2 e1 e2, lookup k1 (node_heap st f) = Some e1 -> lookup k2 (node_heap st f) = Some e2 ->
     e_id e1 = e_id e2 -> k1 = k2).
Proof. exact node_chain. Qed.
Print Assumptions C04_node_chain.

(* the chains of prefixes *)
Theorem C04_prefix_chain : forall s h st f id,
  in_memory s -> after s h st -> wf_pid f id ->
  let n := N.to_nat (chain_len (p_len id)) in
  (exists o, retrieve_prefix_loop n f (prefix_heap st f) id (p_len id) [] root_slots 0 = Ok o /\
     (o <> None <-> touched h (f, id) = true) /\
     (forall k e, o = Some (k, e) -> lookup k (prefix_heap st f) = Some e /\ e_id e = id)) /\
  (exists hp' k e b,
     retrieve_prefix_mut_loop n f (prefix_heap st f) id (p_len id) [] root_slots 0 =
       Ok (hp', k, e, b) /\ e_id e = id /\ lookup k hp' = Some e /\ b = touched h (f, id)) /\
  (forall k1 k2 e1 e2, lookup k1 (prefix_heap st f) = Some e1 ->
     lookup k2 (prefix_heap st f) = Some e2 -> e_id e1 = e_id e2 -> k1 = k2).
Proof. exact prefix_chain. Qed.
Print Assumptions C04_prefix_chain.

(* the nodes 10.0.0.0/8 and 11.0.0.0/8 collide at the first level *)
Example C04_example : after MemoryOnly h_collide (ran MemoryOnly h_collide) /\
  hash_id IPv4 (snd (v4 10 0 0 0 8)) 0 = hash_id IPv4 (snd (v4 11 0 0 0 8)) 0 /\
  match retrieve_node_loop 2 IPv4 (node_heap (ran MemoryOnly h_collide) IPv4) (snd (v4 11 0 0 0 8)) 2 []
          root_slots 0 with Ok (Some _) => true | _ => false end = true.
Proof. example. Qed.

(* ---------- C33: keys identify records and scans do not mix prefixes ---------- *)

Theorem C33_keys_injective : forall f p q m n t u s s',
  wf_pid f p -> wf_pid f q -> m < 2 ^ 32 -> n < 2 ^ 32 ->
  t < 2 ^ 64 -> u < 2 ^ 64 ->
  (short_key f p m = short_key f q n <-> p = q /\ m = n) /\
  (long_key f p m t s = long_key f q n u s' <-> p = q /\ m = n /\ t = u /\ s = s') /\
  length (long_key f p m t s) = match f with IPv4 => 18%nat | IPv6 => 30%nat end.
Proof. exact keys_injective. Qed.
Print Assumptions C33_keys_injective.

Theorem C33_scans_exact : forall f p q m n t s,
  wf_pid f p -> wf_pid f q -> m < 2 ^ 32 -> n < 2 ^ 32 ->
  (is_prefix (pid_bytes f p) (short_key f q n) = true <-> p = q) /\
  (is_prefix (pid_bytes f p) (long_key f q n t s) = true <-> p = q) /\
  (is_prefix (short_key f p m) (short_key f q n) = true <-> p = q /\ m = n) /\
  (is_prefix (short_key f p m) (long_key f q n t s) = true <-> p = q /\ m = n).
Proof. exact scans_exact. Qed.
Print Assumptions C33_scans_exact.

Example C33_example : wf_prefix (v4 10 0 0 0 8) /\ wf_prefix (v4 10 0 0 0 9) /\
  is_prefix (pid_bytes IPv4 (snd (v4 10 0 0 0 8))) (long_key IPv4 (snd (v4 10 0 0 0 8)) 7 1 Active) = true /\
  is_prefix (pid_bytes IPv4 (snd (v4 10 0 0 0 9))) (long_key IPv4 (snd (v4 10 0 0 0 8)) 7 1 Active) = false /\
  length (short_key IPv4 (snd (v4 10 0 0 0 8)) 7) = 9%nat.
Proof. example. Qed.

(* ---------- C34: a persisted record decodes to the record that was written ---------- *)

Theorem C34_round_trip : forall f id r,
  wf_pid f id -> wf_record r ->
  zc_record f (long_key f id (r_mui r) (r_ltime r) (r_status r) ++ r_meta r) = Some (id, r) /\
  zc_record f (short_key f id (r_mui r) ++ (value_header (r_ltime r) (r_status r) ++ r_meta r)) =
    Some (id, r).
Proof. exact round_trip. Qed.
Print Assumptions C34_round_trip.

Example C34_example :
  zc_record IPv6 (long_key IPv6 (snd (v6 8193 3512 32)) 4294967295 8 InActive ++ [1; 255]) =
    Some (snd (v6 8193 3512 32), Rec 4294967295 8 InActive [1; 255]).
Proof. example. Qed.

(* ---------- C52: a RecordSet is the concatenation of its two families ---------- *)

Theorem C52_record_set_laws : forall l,
  exists items, rs_items (rs_from_iter l) = Ok items /\
    items = filter (of_family IPv4) l ++ filter (of_family IPv6) l /\
    Permutation items l /\
    rs_len (rs_from_iter l) = length items /\
    (forall i, rs_index (rs_from_iter l) i =
       match nth_error items i with Some x => Ok x | None => Panic end) /\
    (rs_is_empty (rs_from_iter l) = true <-> items = []) /\
    rs_items (rs_reverse (rs_from_iter l)) =
      Ok (rev (filter (of_family IPv4) l) ++ rev (filter (of_family IPv6) l)).
Proof. exact record_set_laws. Qed.
Print Assumptions C52_record_set_laws.

Theorem C52_record_set_push : forall l f p m,
  rs_push (rs_from_iter l) (f, p) m = rs_from_iter (l ++ [((f, p), m)]).
Proof. exact record_set_push. Qed.
Print Assumptions C52_record_set_push.

(* get_record_for_mui gives the first record of the mui, if there is one *)
Theorem C52_record_for_mui : forall p m,
  match pr_get_record_for_mui p m with
  | Some r => r_mui r = m /\ exists l1 l2, snd p = l1 ++ r :: l2 /\ forall r', In r' l1 -> r_mui r' <> m
  | None => forall r, In r (snd p) -> r_mui r <> m
  end.
Proof. exact record_for_mui. Qed.
Print Assumptions C52_record_for_mui.

Example C52_example :
  let x := (v6 8193 3512 32, [act 3 8 [1]]) in let y := (v4 10 0 0 0 8, [act 1 2 [4]]) in
  rs_items (rs_from_iter [x; y]) = Ok [y; x] /\ rs_index (rs_from_iter [x; y]) 1 = Ok x /\
  rs_index (rs_from_iter [x; y]) 2 = Panic /\ rs_len (rs_from_iter [x; y]) = 2%nat /\
  pr_get_record_for_mui (fst x, [act 1 2 [4]; act 3 8 [1]; act 3 9 []]) 3 = Some (act 3 8 [1]) /\ pr_get_record_for_mui x 2 = None.
Proof. cbv zeta. example. Qed.

(* ---------- C54: a pointer bit has its node and a node has its pointer bit ---------- *)

(* the root is there, every other node is below a node, and a pointer bit is set exactly when the child it stands for is stored *)
Theorem C54_tree_shape : forall s h st f,
  after s h st ->
  let node id := retrieve_node f (t_heap (rb_tree (rib_of st f))) id in
  (exists v, node (0, 0) = Ok (Some v)) /\
  (forall c v, wf_pid f c -> p_len c mod 4 = 0 -> 0 < p_len c -> node c = Ok (Some v) ->
     exists id v', wf_pid f id /\ p_len id + 4 = p_len c /\ covers f id c /\ node id = Ok (Some v')) /\
  (forall id c v, wf_pid f id -> wf_pid f c -> p_len id mod 4 = 0 -> p_len c = p_len id + 4 ->
     covers f id c -> node id = Ok (Some v) ->
     (N.testbit (nv_ptr v) (15 - (p_bits c / 2 ^ (BITS f - p_len c)) mod 16) = true <->
      exists v', node c = Ok (Some v'))).
Proof. exact tree_shape. Qed.
Print Assumptions C54_tree_shape.

Example C54_example : after MemoryOnly demo (ran MemoryOnly demo) /\
  let node id := retrieve_node IPv4 (t_heap (rb_tree (rib_of (ran MemoryOnly demo) IPv4))) id in
  match node (snd (v4 10 1 0 0 16)) with
  | Ok (Some v) => N.testbit (nv_ptr v) (15 - 0) && negb (N.testbit (nv_ptr v) (15 - 1))
  | _ => false end = true /\
  match node (snd (v4 10 1 0 0 20)) with Ok (Some _) => true | _ => false end = true /\
  match node (snd (v4 10 1 16 0 20)) with Ok None => true | _ => false end = true.
Proof. cbv zeta. example. Qed.

(* ---------- C56: the size formulas equal their documented versions ---------- *)

Theorem C56_sizes_agree : forall f len lvl,
  len <= BITS f -> lvl <= chain_len len ->
  nodeset_size len lvl = Ok (nodeset_size_naive len lvl) /\
  prev_node_size len lvl = Ok (naive_offset len lvl).
Proof. exact sizes_agree. Qed.
Print Assumptions C56_sizes_agree.

Example C56_example : nodeset_size 9 2 = Ok 1 /\ nodeset_size 9 3 = Ok 0 /\ prev_node_size 9 3 = Ok 9 /\
  nodeset_size 128 31 = Ok 4.
Proof. example. Qed.

(* ---------- C60: nodes_count is the number of nodes of the tree ---------- *)

(* one node for every multiple of four below the length of an inserted prefix, and the root *)
Theorem C60_nodes_count : forall s h st f,
  after s h st ->
  exists l, NoDup l /\ (forall id, In id l <-> node_on_path f h id) /\
    nodes_count_af st f = N.of_nat (length l).
Proof. exact nodes_count_spec. Qed.
Print Assumptions C60_nodes_count.

(* of both families *)
Theorem C60_both : forall s h st,
  after s h st ->
  exists l4 l6, NoDup l4 /\ NoDup l6 /\ (forall id, In id l4 <-> node_on_path IPv4 h id) /\
    (forall id, In id l6 <-> node_on_path IPv6 h id) /\ nodes_count st = N.of_nat (length l4 + length l6).
Proof. exact nodes_count_both. Qed.
Print Assumptions C60_both.

Example C60_example : after MemoryOnly demo (ran MemoryOnly demo) /\
  nodes_count_af (ran MemoryOnly demo) IPv4 = 7 /\ nodes_count_af (ran MemoryOnly demo) IPv6 = 8 /\
  nodes_count (ran MemoryOnly demo) = 15.
Proof. example. Qed.
