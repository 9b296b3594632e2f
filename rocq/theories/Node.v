(* tree_bitmap/tree_bitmap_node.rs and tree_bitmap/atomic_bitmap.rs: a single
   node of the tree bitmap, its two bitmaps and the iterators over them. *)
From Coq Require Import NArith List Bool Lia.
From Verif Require Import Word Af BitSpan Maps.
Import ListNotations.
Local Open Scope N_scope.

(* node_cht.rs:17-37, tree_bitmap_node.rs:31-39: the two bitmaps of a node and
   the mui index kept in the node's NodeSet (rbm). *)
Record nodeval : Type := NodeVal { nv_ptr : N; nv_pfx : N; nv_rbm : nset }.

(* tree_bitmap_node.rs:71-77 together with node_cht.rs:94 (empty bitmap index) *)
Definition node_new : nodeval := NodeVal 0 0 [].

(* node_cht.rs:44-56 *)
Definition update_rbm_index (v : nodeval) (mui : N) : nodeval :=
  NodeVal (nv_ptr v) (nv_pfx v) (set_insert mui (nv_rbm v)).

(* tree_bitmap_node.rs:481-487 *)
Definition into_ptrbitarr (bm : N) : N := cast 16 (N.shiftr bm 1).
Definition into_pfxbitarr (bm : N) : N := N.shiftl bm 1.

(* atomic_bitmap.rs:61-63 *)
Definition as_stride_size (ptr : N) : N := N.shiftl ptr 1.

(* tree_bitmap_node.rs:489-491 *)
Definition bit_pos_from_index (i : N) : res N := shr 32 (rotr 32 1 1) i.
(* tree_bitmap_node.rs:493-498 *)
Definition ptr_bit_pos_from_index (i : N) : N := rotr 16 1 (i + 2).

(* tree_bitmap_node.rs:500-513; (4 - len) is a u8 subtraction, `start + ..` a u8
   addition *)
Definition ptr_range (ptrbitarr : N) (bs : bitspan) : res (N * N) :=
  do sh <- sub8 4 (bs_len bs);
  do st <- shl 32 (bs_bits bs) sh;
  let start := cast 8 st in
  do w <- shl 8 1 sh;
  do stop <- add8 start w;
  do m <- shl 32 1 (stop - start);
  let mask := cast 16 (N.shiftr (rotr 32 (m - 1) stop) 16) in
  Ok (N.land ptrbitarr mask, start).

(* tree_bitmap_node.rs:444-479: the table, in decimal *)
Definition ms_prefix_mask_table : list N := [
  2147483646; (* 01111111111111111111111111111110  bits = 0, len = 0 *)
  1507982848; (* 01011001111000011111111000000000  bits = 0, len = 1 *)
  639500798;  (* 00100110000111100000000111111110  bits = 1, len = 1 *)
  293724160;  (* 00010001100000011110000000000000  bits = 0, len = 2 *)
  140516864;  (* 00001000011000000001111000000000  bits = 1, len = 2 *)
  68682208;   (* 00000100000110000000000111100000  bits = 2, len = 2 *)
  33947678;   (* 00000010000001100000000000011110  bits = 3, len = 2 *)
  16875520;   (* 00000001000000011000000000000000  bits = 0, len = 3 *)
  8413184;    (* 00000000100000000110000000000000  bits = 1, len = 3 *)
  4200448;    (* 00000000010000000001100000000000  bits = 2, len = 3 *)
  2098688;    (* 00000000001000000000011000000000  bits = 3, len = 3 *)
  1048960;    (* 00000000000100000000000110000000  bits = 4, len = 3 *)
  524384;     (* 00000000000010000000000001100000  bits = 5, len = 3 *)
  262168;     (* 00000000000001000000000000011000  bits = 6, len = 3 *)
  131078;     (* 00000000000000100000000000000110  bits = 7, len = 3 *)
  65536; 32768; 16384; 8192; 4096; 2048; 1024; 512;
  256; 128; 64; 32; 16; 8; 4; 2;  (* single bits, bits = 0..15, len = 4 *)
  0 (* padding *) ].

Definition ms_prefix_mask_arr (bs : bitspan) : res N :=
  match nth_error ms_prefix_mask_table
          (N.to_nat (N.shiftl 1 (bs_len bs) - 1 + bs_bits bs)) with
  | Some m => Ok m
  | None => Panic
  end.

(* atomic_bitmap.rs:97-100 *)
Definition ms_pfx_mask (pfxbitarr : N) (bs : bitspan) : res N :=
  do m <- ms_prefix_mask_arr bs; Ok (N.land m pfxbitarr).

(* ---------- NodeId, tree_bitmap_node.rs:636-685 ---------- *)

(* 648-653 *)
Definition new_with_cleaned_id (f : af) (bits len : N) : pid :=
  (truncate_to_len f bits len, len).
(* 663-666 *)
Definition add_to_len (id : pid) (n : N) : res pid :=
  do l <- add8 (p_len id) n; Ok (p_bits id, l).
(* 669-671 *)
Definition node_truncate_to_len (f : af) (id : pid) : pid :=
  new_with_cleaned_id f (p_bits id) (p_len id).
(* 676-684 *)
Definition node_add_bit_span (f : af) (id : pid) (bs : bitspan) : res pid :=
  add_bit_span f (truncate_to_len f (p_bits id) (p_len id)) (p_len id) bs.

(* ---------- iterators over one node ---------- *)

(* tree_bitmap_node.rs:334-339 without start_bs and start_cursor, which are
   used for logging only *)
Record childiter : Type := ChildIter { ci_base : pid; ci_range : N }.
(* tree_bitmap_node.rs:565-568 *)
Record pfxiter : Type := PfxIter { pi_base : pid; pi_bits : N }.

(* tree_bitmap_node.rs:82-92; the debug_assert on start_bs.check() *)
Definition more_specific_pfx_iter (v : nodeval) (base : pid) (bs : bitspan) : res pfxiter :=
  do c <- check bs;
  if c then do m <- ms_pfx_mask (nv_pfx v) bs; Ok (PfxIter base m) else Panic.

(* tree_bitmap_node.rs:96-111 *)
Definition more_specific_ptr_iter (v : nodeval) (base : pid) (bs : bitspan) : res childiter :=
  do c <- check bs;
  if c then do r <- ptr_range (nv_ptr v) bs; Ok (ChildIter base (fst r)) else Panic.

(* tree_bitmap_node.rs:345-404 *)
Definition child_next (f : af) (it : childiter) : res (option (pid * childiter)) :=
  if ci_range it =? 0 then Ok None
  else
    do cursor <- add8 (lzcnt 16 (ci_range it)) 15;
    let range := N.lxor (ci_range it) (ptr_bit_pos_from_index cursor) in
    do bs <- from_bit_pos_index cursor;
    do id <- node_add_bit_span f (ci_base it) (BS (bs_bits bs) STRIDE_SIZE);
    Ok (Some (id, ChildIter (ci_base it) range)).

(* tree_bitmap_node.rs:575-599 *)
Definition pfx_next (f : af) (it : pfxiter) : res (option (pid * pfxiter)) :=
  if pi_bits it =? 0 then Ok None
  else
    let cursor := lzcnt 32 (pi_bits it) in
    do bs <- from_bit_pos_index cursor;
    do bit_pos <- into_bit_pos bs;
    do bs2 <- from_bit_pos_index (lzcnt 32 bit_pos);
    do id <- node_add_bit_span f (pi_base it) bs2;
    do m <- bit_pos_from_index cursor;
    Ok (Some (id, PfxIter (pi_base it) (N.lxor (pi_bits it) m))).

(* tree_bitmap_node.rs:615-620 *)
Inductive evalres : Type :=
| NewNode
| ExistingNode (id : pid)
| NewPrefix
| ExistingPrefix.

(* tree_bitmap_node.rs:126-251 run without interference: the first
   compare_exchange succeeds and retry_count stays 0.  Returns the outcome and
   the node's bitmaps afterwards.  The interleaved version is in Conc*.v. *)
Definition eval_node_or_prefix_at (f : af) (v : nodeval) (bs : bitspan)
    (base_prefix : pid) (is_last_stride : bool) : res (evalres * nodeval) :=
  let ptrbitarr := nv_ptr v in
  let pfxbitarr := nv_pfx v in
  do bit_pos <- into_bit_pos bs;
  if negb is_last_stride then
    if N.land (as_stride_size ptrbitarr) bit_pos =? 0 then
      Ok (NewNode,
          NodeVal (into_ptrbitarr (N.lor bit_pos (into_pfxbitarr ptrbitarr)))
                  pfxbitarr (nv_rbm v))
    else
      do id <- add_to_len base_prefix STRIDE_SIZE;
      Ok (ExistingNode (node_truncate_to_len f id), v)
  else
    if N.land pfxbitarr bit_pos =? 0 then
      Ok (NewPrefix, NodeVal ptrbitarr (N.lor bit_pos pfxbitarr) (nv_rbm v))
    else Ok (ExistingPrefix, v).
