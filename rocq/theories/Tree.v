(* tree_bitmap/mod.rs: the tree bitmap over its chained hash table, run by one
   thread at a time.  Logging and `trace!` calls are left out; lock poisoning
   (update_rbm_index's Err) is not modelled. *)
From Coq Require Import NArith List Bool Lia.
From Verif Require Import Word Af BitSpan Maps ChtMath Cht Node.
Import ListNotations.
Local Open Scope N_scope.

(* types/errors.rs:7-44: the errors the modelled functions return *)
Inductive perr : Type :=
| NodeCreationMaxRetryError
| StoreNotReadyError
| PathSelectionOutdated
| PrefixNotFound
| PrefixLengthInvalid
| BestPathNotFound
| RecordNotInMemory
| PersistFailed
| StatusUnknown
| FatalErr.

(* Rust's Result *)
Inductive result (A : Type) : Type := ROk (a : A) | RErr (e : perr).
Arguments ROk {A} a.
Arguments RErr {A} e.

(* tree_bitmap/mod.rs:250-259.  counters.prefixes and counters.routes of the
   tree are never written by any function, so only counters.nodes is kept. *)
Record tree : Type := Tree {
  t_heap : heap nodeval;
  t_withdrawn : nset;
  t_nodes : N;
  t_default : bool
}.

Definition NSTRIDE : N := 4. (* node_cht.rs:13-14 STRIDES_PER_BUCKET *)

(* bounds the number of probes of one chain; see the loop lemmas *)
Definition CHAIN_FUEL : nat := 64.
(* bounds the number of strides of one tree descent *)
Definition DESCENT_FUEL : nat := 64.

Definition merge (a b : N) : N := N.lor a b. (* atomic_bitmap.rs:34-52 without interference *)

(* tree_bitmap/mod.rs:604-740, the loop of store_node *)
Fixpoint store_node_loop (fuel : nat) (f : af) (h : heap nodeval) (id : pid) (mui : N)
    (new_node : nodeval) (b : N) (path : list N) (slots level : N)
    : res (heap nodeval * option (pid * N)) :=
  match fuel with
  | O => OutOfFuel
  | S fuel' =>
    do index <- hash_id f id level;
    match slot_get h b path slots index with
    | None =>
      do l1 <- add8 level 1;
      do next_level <- nodeset_size (p_len id) l1;
      do r <- slot_get_or_init h b path slots index
                (Entry id new_node (slots_for next_level));
      let '(h1, e, its_us) := r in
      if pid_eqb (e_id e) id then
        let v1 := update_rbm_index (e_val e) mui in
        let m1 := negb its_us && negb (nv_ptr new_node =? 0) in
        let m2 := negb its_us && negb (nv_pfx new_node =? 0) in
        let v2 := NodeVal
          (if m1 then merge (nv_ptr v1) (nv_ptr new_node) else nv_ptr v1)
          (if m2 then merge (nv_pfx v1) (nv_pfx new_node) else nv_pfx v1)
          (nv_rbm v1) in
        Ok (update (b, path ++ [index]) (set_val e v2) h1,
            Some (id, (if m1 then 1 else 0) + (if m2 then 1 else 0)))
      else Ok (h1, Some (id, 0))
    | Some e =>
      if pid_eqb id (e_id e) then
        let v1 := update_rbm_index (e_val e) mui in
        let v2 := NodeVal
          (if nv_ptr new_node =? 0 then nv_ptr v1 else merge (nv_ptr v1) (nv_ptr new_node))
          (if nv_pfx new_node =? 0 then nv_pfx v1 else merge (nv_pfx v1) (nv_pfx new_node))
          (nv_rbm v1) in
        Ok (update (b, path ++ [index]) (set_val e v2) h, Some (id, 0))
      else
        do level' <- add8 level 1;
        do size <- nodeset_size (p_len id) level';
        if 0 <? size then
          store_node_loop fuel' f h id mui new_node b (path ++ [index]) (e_slots e) level'
        else Ok (h, None) (* Err(FatalError) *)
    end
  end.

(* tree_bitmap/mod.rs:583-741; the node counter is bumped by the callers'
   wrapper below (598) *)
Definition store_node (f : af) (h : heap nodeval) (id : pid) (mui : N) (new_node : nodeval)
    : res (heap nodeval * option (pid * N)) :=
  do b <- root_for_len f NSTRIDE (p_len id);
  store_node_loop CHAIN_FUEL f h id mui new_node b [] root_slots 0.

(* tree_bitmap/mod.rs:753-822, the loop of retrieve_node_mut.  Returns the
   address of the node instead of a reference. *)
Fixpoint retrieve_node_mut_loop (fuel : nat) (f : af) (h : heap nodeval) (id : pid) (mui : N)
    (b : N) (path : list N) (slots level : N)
    : res (heap nodeval * option (key * entry nodeval)) :=
  match fuel with
  | O => OutOfFuel
  | S fuel' =>
    do index <- hash_id f id level;
    do r <- match slot_get h b path slots index with
            | None =>
              do l1 <- add8 level 1;
              do next_level <- nodeset_size (p_len id) l1;
              do r <- slot_get_or_init h b path slots index
                        (Entry id node_new (slots_for next_level));
              let '(h1, e, _) := r in Ok (h1, e)
            | Some e => Ok (h, e)
            end;
    let '(h1, e) := r in
    if pid_eqb id (e_id e) then
      let e' := set_val e (update_rbm_index (e_val e) mui) in
      Ok (update (b, path ++ [index]) e' h1, Some ((b, path ++ [index]), e'))
    else
      do level' <- add8 level 1;
      do size <- nodeset_size (p_len id) level';
      if 0 <? size then
        retrieve_node_mut_loop fuel' f h1 id mui b (path ++ [index]) (e_slots e) level'
      else Ok (h1, None)
  end.

(* tree_bitmap/mod.rs:743-823 *)
Definition retrieve_node_mut (f : af) (h : heap nodeval) (id : pid) (mui : N)
    : res (heap nodeval * option (key * entry nodeval)) :=
  do b <- root_for_len f NSTRIDE (p_len id);
  retrieve_node_mut_loop CHAIN_FUEL f h id mui b [] root_slots 0.

(* tree_bitmap/mod.rs:834-864, the loop of retrieve_node *)
Fixpoint retrieve_node_loop (fuel : nat) (f : af) (h : heap nodeval) (id : pid)
    (b : N) (path : list N) (slots level : N) : res (option nodeval) :=
  match fuel with
  | O => OutOfFuel
  | S fuel' =>
    do index <- hash_id f id level;
    match slot_get h b path slots index with
    | None => Ok None
    | Some e =>
      if pid_eqb id (e_id e) then Ok (Some (e_val e))
      else
        do level' <- add8 level 1;
        do size <- nodeset_size (p_len id) level';
        if 0 <? size then
          retrieve_node_loop fuel' f h id b (path ++ [index]) (e_slots e) level'
        else Ok None
    end
  end.

(* tree_bitmap/mod.rs:825-865 *)
Definition retrieve_node (f : af) (h : heap nodeval) (id : pid) : res (option nodeval) :=
  do b <- root_for_len f NSTRIDE (p_len id);
  retrieve_node_loop CHAIN_FUEL f h id b [] root_slots 0.

(* tree_bitmap/mod.rs:877-927, the loop of retrieve_node_for_mui: the mui index
   of every entry on the chain is consulted before its id is compared *)
Fixpoint retrieve_node_for_mui_loop (fuel : nat) (f : af) (h : heap nodeval) (id : pid)
    (mui : N) (b : N) (path : list N) (slots level : N) : res (option nodeval) :=
  match fuel with
  | O => OutOfFuel
  | S fuel' =>
    do index <- hash_id f id level;
    match slot_get h b path slots index with
    | None => Ok None
    | Some e =>
      if negb (mem mui (nv_rbm (e_val e))) then Ok None
      else if pid_eqb id (e_id e) then Ok (Some (e_val e))
      else
        do level' <- add8 level 1;
        do size <- nodeset_size (p_len id) level';
        if 0 <? size then
          retrieve_node_for_mui_loop fuel' f h id mui b (path ++ [index]) (e_slots e) level'
        else Ok None
    end
  end.

(* tree_bitmap/mod.rs:867-928 *)
Definition retrieve_node_for_mui (f : af) (h : heap nodeval) (id : pid) (mui : N)
    : res (option nodeval) :=
  do b <- root_for_len f NSTRIDE (p_len id);
  retrieve_node_for_mui_loop CHAIN_FUEL f h id mui b [] root_slots 0.

(* tree_bitmap/mod.rs:930-935 *)
Definition root_node_id : pid := (0, 0).

(* tree_bitmap/mod.rs:262-286 *)
Definition tree_new (f : af) : res tree :=
  do r <- store_node f [] root_node_id 0 node_new;
  let '(h, o) := r in
  match o with
  | Some _ => Ok (Tree h [] 1 false)
  | None => Panic (* Err("Cannot create root for in memory tree") *)
  end.

(* tree_bitmap/mod.rs:313-441, the loop of set_prefix_exists.  State: the heap,
   the node counter, stride_end, cur_i, acc_retry_count. *)
Fixpoint set_prefix_exists_loop (fuel : nat) (f : af) (h : heap nodeval) (cnt : N)
    (pfx : pid) (mui stride_end : N) (cur_i : pid) (acc : N)
    : res (heap nodeval * N * result (N * bool)) :=
  match fuel with
  | O => OutOfFuel
  | S fuel' =>
    do stride_end <- add8 stride_end STRIDE_SIZE;
    do nibble_len <-
      if p_len pfx <? stride_end
      then (do a <- add8 STRIDE_SIZE (p_len pfx); sub8 a stride_end)
      else Ok STRIDE_SIZE;
    do stride_start <- sub8 stride_end STRIDE_SIZE;
    do bs <- into_bit_span f (p_bits pfx) stride_start nibble_len;
    let is_last_stride := p_len pfx <=? stride_end in
    do r <- retrieve_node_mut f h cur_i mui;
    let '(h1, o) := r in
    match o with
    | None => Ok (h1, cnt, RErr NodeCreationMaxRetryError)
    | Some (k, e) =>
      do ev <- eval_node_or_prefix_at f (e_val e) bs (p_bits pfx, stride_start) is_last_stride;
      let '(ev, v') := ev in
      let h2 := update k (set_val e v') h1 in
      match ev with
      | NewNode =>
        do l <- add8 stride_start (bs_len bs);
        let new_id := new_with_cleaned_id f (p_bits pfx) l in
        do r2 <- store_node f h2 new_id mui node_new;
        let '(h3, o2) := r2 in
        match o2 with
        | Some (node_id, s_retry_count) =>
          set_prefix_exists_loop fuel' f h3 (cnt + 1) pfx mui stride_end node_id
            (acc + (acc + s_retry_count))
        | None => (* logged, the loop goes on with the same cur_i *)
          set_prefix_exists_loop fuel' f h3 (cnt + 1) pfx mui stride_end cur_i acc
        end
      | ExistingNode node_id =>
        set_prefix_exists_loop fuel' f h2 cnt pfx mui stride_end node_id (acc + acc)
      | NewPrefix => Ok (h2, cnt, ROk (acc, false))
      | ExistingPrefix => Ok (h2, cnt, ROk (acc, true))
      end
    end
  end.

(* tree_bitmap/mod.rs:498-513.  The bitmap index of the root NodeSet itself
   (508-509) is written here and read nowhere, so it is not kept. *)
Definition update_default_route_prefix_meta (f : af) (h : heap nodeval) (mui : N)
    : res (heap nodeval * bool) :=
  do r <- retrieve_node_mut f h root_node_id mui;
  let '(h1, o) := r in
  Ok (h1, match o with Some _ => true | None => false end).

(* tree_bitmap/mod.rs:294-444 *)
Definition set_prefix_exists (f : af) (t : tree) (pfx : pid) (mui : N)
    : res (tree * result (N * bool)) :=
  if p_len pfx =? 0 then
    let prefix_new := negb (t_default t) in
    do r <- update_default_route_prefix_meta f (t_heap t) mui;
    let '(h1, ok) := r in
    Ok (Tree h1 (t_withdrawn t) (t_nodes t) true,
        if ok then ROk (0, negb prefix_new) else RErr StoreNotReadyError)
  else
    do r <- set_prefix_exists_loop DESCENT_FUEL f (t_heap t) (t_nodes t) pfx mui 0
              root_node_id 0;
    let '(h1, cnt, o) := r in
    Ok (Tree h1 (t_withdrawn t) cnt (t_default t), o).

(* tree_bitmap/mod.rs:970-992, the loop of node_id_for_prefix *)
Fixpoint node_id_for_prefix_loop (fuel : nat) (f : af) (pfx : pid) (acc : N)
    : res (pid * bitspan) :=
  match fuel with
  | O => OutOfFuel
  | S fuel' =>
    do acc <- add8 acc STRIDE_SIZE;
    if p_len pfx <=? acc then
      do node_len <- sub8 acc STRIDE_SIZE;
      do a <- shl (BITS f) (p_bits pfx) node_len;
      do d <- sub8 (p_len pfx) node_len;
      do s <- sub8 (BITS f) d;
      do b <- checked_shr_or_zero f a s;
      Ok (new_with_cleaned_id f (p_bits pfx) node_len,
          BS (dangerously_truncate_to_u32 f b) d)
    else node_id_for_prefix_loop fuel' f pfx acc
  end.

(* tree_bitmap/mod.rs:961-993 *)
Definition node_id_for_prefix (f : af) (pfx : pid) : res (pid * bitspan) :=
  node_id_for_prefix_loop DESCENT_FUEL f pfx 0.

(* tree_bitmap/mod.rs:446-457 *)
Definition prefix_exists (f : af) (t : tree) (pfx : pid) : res bool :=
  do r <- node_id_for_prefix f pfx;
  let '(node_id, bs) := r in
  do o <- retrieve_node f (t_heap t) node_id;
  match o with
  | Some v => do bp <- into_bit_pos bs; Ok (0 <? N.land (nv_pfx v) bp)
  | None => Ok false
  end.

(* tree_bitmap/mod.rs:459-474 *)
Definition prefix_exists_for_mui (f : af) (t : tree) (pfx : pid) (mui : N) : res bool :=
  do r <- node_id_for_prefix f pfx;
  let '(node_id, bs) := r in
  do o <- retrieve_node_for_mui f (t_heap t) node_id mui;
  match o with
  | Some v => do bp <- into_bit_pos bs; Ok (0 <? N.land (nv_pfx v) bp)
  | None => Ok false
  end.

(* tree_bitmap/mod.rs:526-539 and 557-579 without interference: the first
   compare_exchange succeeds *)
Definition mark_mui_as_active (t : tree) (mui : N) : tree :=
  Tree (t_heap t) (set_remove mui (t_withdrawn t)) (t_nodes t) (t_default t).

(* tree_bitmap/mod.rs:541-555 *)
Definition mark_mui_as_withdrawn (t : tree) (mui : N) : tree :=
  Tree (t_heap t) (set_insert mui (t_withdrawn t)) (t_nodes t) (t_default t).

(* tree_bitmap/mod.rs:948-957; counters.prefixes of the tree is never
   incremented (see [tree]) *)
Definition tree_prefixes_count_for_len (f : af) (len : N) : result N :=
  if len <=? BITS f then ROk 0 else RErr PrefixLengthInvalid.
