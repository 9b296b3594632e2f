(* tree_bitmap/mod.rs and tree_bitmap_node.rs run by many threads: the steps of
   set_prefix_exists and prefix_exists.  One step is one access to shared memory
   (one probe of a once-cell, one load, one compare_exchange, one lock-protected
   update) together with the thread-local computation that follows it.  Steps of
   different threads interleave in any order (sequential consistency); the
   weaker memory orderings of the source are not modelled.  A probe
   (OnceBoxSlice::get, get_or_init) is one step, which ConcOnce.once_refines
   justifies. *)
From Coq Require Import Arith NArith List Bool Lia.
From Verif Require Import Word Af BitSpan Maps ChtMath Cht Node Tree.
Import ListNotations.
Local Open Scope N_scope.

(* writing through a reference to an entry; the entry is always present *)
Definition modify {V} (k : key) (g : V -> V) (h : heap V) : heap V :=
  match lookup k h with
  | Some e => update k (set_val e (g (e_val e))) h
  | None => h
  end.

(* reading through a reference *)
Definition deref {V} (k : key) (h : heap V) : res V :=
  match lookup k h with Some e => Ok (e_val e) | None => Panic end.

(* u32 addition: [ov] tells whether overflow checks are compiled in *)
Definition add32 (ov : bool) (a b : N) : res N :=
  if a + b <? 2 ^ 32 then Ok (a + b) else if ov then Panic else Ok ((a + b) mod 2 ^ 32).

(* the local variables of a walk along a chain: the slot array and the level *)
Record walk : Type := Walk { w_b : N; w_path : list N; w_slots : N; w_level : N }.

(* `let mut nodes = ....root_for_len(id.len()); let mut level = 0` *)
Definition walk_start (f : af) (stride : N) (id : pid) : res walk :=
  do b <- root_for_len f stride (p_len id); Ok (Walk b [] root_slots 0).

(* the slot the walk is looking at *)
Definition wkey (w : walk) (index : N) : key := (w_b w, w_path w ++ [index]).

(* ---------- retrieve_node_mut, mod.rs:743-823 ---------- *)

Inductive rpc : Type :=
| RGet (w : walk)   (* 755: nodes.read().get(index) *)
| RInit (w : walk)  (* 771: nodes.read().get_or_init(index, ..) *)
| RRbm (k : key).   (* 782 and 800: update_rbm_index, under the NodeSet's lock *)

Inductive rout : Type := RMore (r : rpc) | RFound (k : key) | RNone.

(* 779, 789 and 812-821: is it our node?  If not, go one level deeper. *)
Definition rcheck (id : pid) (w : walk) (index : N) (e : entry nodeval) : res rout :=
  if pid_eqb id (e_id e) then Ok (RMore (RRbm (wkey w index)))
  else
    do level' <- add8 (w_level w) 1;
    do size <- nodeset_size (p_len id) level';
    if 0 <? size
    then Ok (RMore (RGet (Walk (w_b w) (w_path w ++ [index]) (e_slots e) level')))
    else Ok RNone.

Definition rstep (f : af) (id : pid) (mui : N) (h : heap nodeval) (r : rpc)
    : res (heap nodeval * rout) :=
  match r with
  | RGet w =>
    do index <- hash_id f id (w_level w);
    match slot_get h (w_b w) (w_path w) (w_slots w) index with
    | None => Ok (h, RMore (RInit w))
    | Some e => do o <- rcheck id w index e; Ok (h, o)
    end
  | RInit w =>
    do index <- hash_id f id (w_level w);
    do l1 <- add8 (w_level w) 1;
    do next_level <- nodeset_size (p_len id) l1;
    do x <- slot_get_or_init h (w_b w) (w_path w) (w_slots w) index
              (Entry id node_new (slots_for next_level));
    let '(h1, e, _) := x in
    do o <- rcheck id w index e; Ok (h1, o)
  | RRbm k => Ok (modify k (fun v => update_rbm_index v mui) h, RFound k)
  end.

(* ---------- store_node, mod.rs:583-741 ---------- *)

(* 650-665 and 692-708: which bitmaps are still to be merged; true is ptrbitarr *)
Definition merges (nn : nodeval) : list (bool * N) :=
  (if nv_ptr nn =? 0 then [] else [(true, nv_ptr nn)]) ++
  (if nv_pfx nn =? 0 then [] else [(false, nv_pfx nn)]).

Inductive spc : Type :=
| SGet (w : walk)   (* 614 *)
| SInit (w : walk)  (* 643 *)
| SRbm (k : key) (todo : list (bool * N)) (rc : N)  (* 651, 693 *)
| SMerge (k : key) (todo : list (bool * N)) (cas : option (N * N)) (rc : N).
    (* merge_with, atomic_bitmap.rs:34-52: None before the load, then
       Some (current, new) *)

(* SDone None is Err(FatalError) *)
Inductive sout : Type := SMore (s : spc) | SDone (o : option (pid * N)).

Definition get_arr (isptr : bool) (v : nodeval) : N := if isptr then nv_ptr v else nv_pfx v.
Definition set_arr (isptr : bool) (x : N) (v : nodeval) : nodeval :=
  if isptr then NodeVal x (nv_pfx v) (nv_rbm v) else NodeVal (nv_ptr v) x (nv_rbm v).

Definition after_merge (id : pid) (k : key) (todo : list (bool * N)) (rc : N) : sout :=
  match todo with [] => SDone (Some (id, rc)) | _ => SMore (SMerge k todo None rc) end.

Definition sstep (f : af) (id : pid) (mui : N) (nn : nodeval) (h : heap nodeval) (s : spc)
    : res (heap nodeval * sout) :=
  match s with
  | SGet w =>
    do index <- hash_id f id (w_level w);
    match slot_get h (w_b w) (w_path w) (w_slots w) index with
    | None => Ok (h, SMore (SInit w))
    | Some e =>
      if pid_eqb id (e_id e) then Ok (h, SMore (SRbm (wkey w index) (merges nn) 0))
      else
        do level' <- add8 (w_level w) 1;
        do size <- nodeset_size (p_len id) level';
        if 0 <? size
        then Ok (h, SMore (SGet (Walk (w_b w) (w_path w ++ [index]) (e_slots e) level')))
        else Ok (h, SDone None)
    end
  | SInit w =>
    do index <- hash_id f id (w_level w);
    do l1 <- add8 (w_level w) 1;
    do next_level <- nodeset_size (p_len id) l1;
    do x <- slot_get_or_init h (w_b w) (w_path w) (w_slots w) index
              (Entry id nn (slots_for next_level));
    let '(h1, e, its_us) := x in
    if pid_eqb (e_id e) id then
      let todo := if its_us then [] else merges nn in
      Ok (h1, SMore (SRbm (wkey w index) todo (N.of_nat (length todo))))
    else Ok (h1, SDone (Some (id, 0))) (* 667: nothing has been stored *)
  | SRbm k todo rc =>
    Ok (modify k (fun v => update_rbm_index v mui) h, after_merge id k todo rc)
  | SMerge k [] _ rc => Ok (h, SDone (Some (id, rc)))
  | SMerge k ((isptr, bits) :: todo) None rc =>
    do v <- deref k h;
    let current := get_arr isptr v in
    Ok (h, SMore (SMerge k ((isptr, bits) :: todo) (Some (current, N.lor current bits)) rc))
  | SMerge k ((isptr, bits) :: todo) (Some (current, new)) rc =>
    do v <- deref k h;
    if get_arr isptr v =? current
    then Ok (modify k (set_arr isptr new) h, after_merge id k todo rc)
    else Ok (h, SMore (SMerge k ((isptr, bits) :: todo)
                         (Some (current, N.lor (get_arr isptr v) bits)) rc))
  end.

(* ---------- set_prefix_exists, mod.rs:294-444 ---------- *)

(* the local variables of one turn of the loop, mod.rs:313-329 *)
Record frame : Type := Frame {
  fr_end : N;       (* stride_end *)
  fr_start : N;     (* stride_start *)
  fr_bs : bitspan;  (* bit_span *)
  fr_last : bool;   (* is_last_stride *)
  fr_cur : pid;     (* cur_i *)
  fr_acc : N        (* acc_retry_count *)
}.

Inductive tpc : Type :=
| TStart
| TDefault (existed : bool) (r : rpc)                 (* 302-305 *)
| TNode (fr : frame) (r : rpc)                        (* 332 *)
| TLoadPtr (fr : frame) (k : key)                     (* tree_bitmap_node.rs:147 *)
| TLoadPfx (fr : frame) (k : key) (ptr : N)           (* 148 *)
| TTestPtr (fr : frame) (k : key) (ptr : N)           (* 163: loads ptrbitarr again *)
| TCasPtr (fr : frame) (k : key) (cur rc : N)         (* 177-196 *)
| TCasPfx (fr : frame) (k : key) (cur rc : N)         (* 214-231 *)
| TCount (fr : frame) (rc : N)                        (* mod.rs:598 *)
| TStore (fr : frame) (rc : N) (nn : nodeval) (s : spc) (* 361 *)
| TDone (r : result (N * bool))
| TPanic.

(* 313-329: the next turn of the loop up to the call of retrieve_node_mut *)
Definition next_turn (f : af) (pfx : pid) (stride_end : N) (cur_i : pid) (acc : N) : res tpc :=
  do stride_end <- add8 stride_end STRIDE_SIZE;
  do nibble_len <-
    if p_len pfx <? stride_end
    then (do a <- add8 STRIDE_SIZE (p_len pfx); sub8 a stride_end)
    else Ok STRIDE_SIZE;
  do stride_start <- sub8 stride_end STRIDE_SIZE;
  do bs <- into_bit_span f (p_bits pfx) stride_start nibble_len;
  do w <- walk_start f NSTRIDE cur_i;
  Ok (TNode (Frame stride_end stride_start bs (p_len pfx <=? stride_end) cur_i acc) (RGet w)).

(* 352-355 *)
Definition new_id (f : af) (pfx : pid) (fr : frame) : res pid :=
  do l <- add8 (fr_start fr) (bs_len (fr_bs fr)); Ok (new_with_cleaned_id f (p_bits pfx) l).

(* 362-367 or 386-391, then 416-420 *)
Definition go_on (f : af) (ov : bool) (pfx : pid) (fr : frame) (next : pid) (s_retry rc : N)
    : res tpc :=
  do a <- add32 ov (fr_acc fr) s_retry;
  do a <- add32 ov a rc;
  do acc <- add32 ov (fr_acc fr) a;
  next_turn f pfx (fr_end fr) next acc.

(* 393-408 *)
Definition finish (ov : bool) (fr : frame) (rc : N) (existed : bool) : res tpc :=
  do a <- add32 ov (fr_acc fr) rc; Ok (TDone (ROk (a, existed))).

(* a panic after a shared access leaves the effect of the access in place *)
Definition or_panic (r : res tpc) : tpc := match r with Ok pc => pc | _ => TPanic end.

Definition set_heap (t : tree) (h : heap nodeval) : tree :=
  Tree h (t_withdrawn t) (t_nodes t) (t_default t).

Definition tstep (f : af) (ov : bool) (pfx : pid) (mui : N) (t : tree) (pc : tpc)
    : res (tree * tpc) :=
  match pc with
  | TStart =>
    if p_len pfx =? 0 then (* 299-301: swap *)
      do w <- walk_start f NSTRIDE root_node_id;
      Ok (Tree (t_heap t) (t_withdrawn t) (t_nodes t) true, TDefault (t_default t) (RGet w))
    else do pc' <- next_turn f pfx 0 root_node_id 0; Ok (t, pc')
  | TDefault existed r =>
    do x <- rstep f root_node_id mui (t_heap t) r;
    let '(h, o) := x in
    Ok (set_heap t h,
        match o with
        | RMore r' => TDefault existed r'
        | RFound _ => TDone (ROk (0, existed))
        | RNone => TDone (RErr StoreNotReadyError)
        end)
  | TNode fr r =>
    do x <- rstep f (fr_cur fr) mui (t_heap t) r;
    let '(h, o) := x in
    Ok (set_heap t h,
        match o with
        | RMore r' => TNode fr r'
        | RFound k => TLoadPtr fr k
        | RNone => TDone (RErr NodeCreationMaxRetryError)
        end)
  | TLoadPtr fr k =>
    do v <- deref k (t_heap t); Ok (t, TLoadPfx fr k (nv_ptr v))
  | TLoadPfx fr k ptr =>
    do v <- deref k (t_heap t);
    do bit_pos <- into_bit_pos (fr_bs fr);
    if negb (fr_last fr) then Ok (t, TTestPtr fr k ptr)
    else if N.land (nv_pfx v) bit_pos =? 0 then Ok (t, TCasPfx fr k (nv_pfx v) 0)
    else do pc' <- finish ov fr 0 true; Ok (t, pc')
  | TTestPtr fr k ptr =>
    do v <- deref k (t_heap t);
    do bit_pos <- into_bit_pos (fr_bs fr);
    if N.land (as_stride_size (nv_ptr v)) bit_pos =? 0 then Ok (t, TCasPtr fr k ptr 0)
    else
      do id <- add_to_len (p_bits pfx, fr_start fr) STRIDE_SIZE;
      do pc' <- go_on f ov pfx fr (node_truncate_to_len f id) 0 0;
      Ok (t, pc')
  | TCasPtr fr k cur rc =>
    do v <- deref k (t_heap t);
    do bit_pos <- into_bit_pos (fr_bs fr);
    if nv_ptr v =? cur
    then Ok (set_heap t (modify k
               (set_arr true (into_ptrbitarr (N.lor bit_pos (into_pfxbitarr cur)))) (t_heap t)),
             TCount fr rc)
    else do rc' <- add32 ov rc 1; Ok (t, TCasPtr fr k (nv_ptr v) rc')
  | TCasPfx fr k cur rc =>
    do v <- deref k (t_heap t);
    do bit_pos <- into_bit_pos (fr_bs fr);
    if nv_pfx v =? cur
    then Ok (set_heap t (modify k (set_arr false (N.lor bit_pos cur)) (t_heap t)),
             or_panic (finish ov fr rc false))
    else do rc' <- add32 ov rc 1; Ok (t, TCasPfx fr k (nv_pfx v) rc')
  | TCount fr rc =>
    do id <- new_id f pfx fr;
    do w <- walk_start f NSTRIDE id;
    Ok (Tree (t_heap t) (t_withdrawn t) (t_nodes t + 1) (t_default t),
        TStore fr rc node_new (SGet w))
  | TStore fr rc nn s =>
    do id <- new_id f pfx fr;
    do x <- sstep f id mui nn (t_heap t) s;
    let '(h, o) := x in
    Ok (set_heap t h,
        match o with
        | SMore s' => TStore fr rc nn s'
        | SDone (Some (node_id, s_retry)) => or_panic (go_on f ov pfx fr node_id s_retry rc)
        | SDone None => (* 421-439: logged; the loop goes on with the same cur_i *)
          or_panic (next_turn f pfx (fr_end fr) (fr_cur fr) (fr_acc fr))
        end)
  | TDone _ | TPanic => Ok (t, pc)
  end.

(* the same with a panic as a state of the thread *)
Definition tnext (f : af) (ov : bool) (p : pid) (mui : N) (t : tree) (pc : tpc) : tree * tpc :=
  match tstep f ov p mui t pc with Ok x => x | _ => (t, TPanic) end.

(* ---------- prefix_exists, mod.rs:446-457 ---------- *)

Inductive xpc : Type :=
| XStart
| XGet (w : walk)  (* 825-865: nodes.read().get(index) *)
| XLoad (k : key)  (* 452 *)
| XDone (b : bool)
| XPanic.

Definition xstep (f : af) (pfx : pid) (h : heap nodeval) (pc : xpc) : res xpc :=
  do nb <- node_id_for_prefix f pfx;
  let '(id, bs) := nb in
  match pc with
  | XStart => do w <- walk_start f NSTRIDE id; Ok (XGet w)
  | XGet w =>
    do index <- hash_id f id (w_level w);
    match slot_get h (w_b w) (w_path w) (w_slots w) index with
    | None => Ok (XDone false)
    | Some e =>
      if pid_eqb id (e_id e) then Ok (XLoad (wkey w index))
      else
        do level' <- add8 (w_level w) 1;
        do size <- nodeset_size (p_len id) level';
        if 0 <? size
        then Ok (XGet (Walk (w_b w) (w_path w ++ [index]) (e_slots e) level'))
        else Ok (XDone false)
    end
  | XLoad k =>
    do v <- deref k h;
    do bp <- into_bit_pos bs;
    Ok (XDone (0 <? N.land (nv_pfx v) bp))
  | XDone _ | XPanic => Ok pc
  end.
