(* The readers of the tree that take many steps, run beside any number of other
   calls: retrieve_node, the more-specifics iterator, the less-specifics iterator
   and the longest match.  As in ConcTree.v a step is one access to shared memory
   with the thread-local computation that follows it.  A reader writes nothing. *)
From Coq Require Import Arith NArith List Bool.
From Verif Require Import Word Af BitSpan Maps ChtMath Cht Node Tree Iter ConcTree.
Import ListNotations.
Local Open Scope N_scope.

(* ---------- retrieve_node, mod.rs:825-865 ---------- *)

Inductive gout : Type := GMore (w : walk) | GFound (k : key) | GNone.

(* one turn of its loop: nodes.read().get(index) *)
Definition gstep (f : af) (id : pid) (h : heap nodeval) (w : walk) : res gout :=
  do index <- hash_id f id (w_level w);
  match slot_get h (w_b w) (w_path w) (w_slots w) index with
  | None => Ok GNone
  | Some e =>
    if pid_eqb id (e_id e) then Ok (GFound (wkey w index))
    else
      do level' <- add8 (w_level w) 1;
      do size <- nodeset_size (p_len id) level';
      if 0 <? size
      then Ok (GMore (Walk (w_b w) (w_path w ++ [index]) (e_slots e) level'))
      else Ok GNone
  end.

(* ---------- MoreSpecificPrefixIter, tree_bitmap_iterators.rs:51-173, 257-322 ---------- *)

Inductive mpc : Type :=
| MStart
| MFirst (w : walk)                       (* 297: retrieve_node(start_node_id) *)
| MFirstPfx (k : key)                     (* 303: loads pfxbitarr *)
| MFirstPtr (k : key) (pi : pfxiter)      (* 307: loads ptrbitarr *)
| MIter (it : msiter)                     (* at the top of the loop, 70 *)
| MGet (id : pid) (st : list childiter) (w : walk)
    (* 99: retrieve_node(next_ptr); [st] is the Vec after the push at 127 *)
| MPtr (id : pid) (st : list childiter) (k : key)   (* 128: loads ptrbitarr *)
| MPfx (id : pid) (st : list childiter) (k : key) (ci : childiter) (* 139: loads pfxbitarr *)
| MDone (whole : bool)
    (* the iterator has returned None; false: at 166-169, "no node here." *)
| MPanic.

(* where it is, and the prefixes it has given so far, the last one first *)
Record mscan : Type := MScan { sc_pc : mpc; sc_out : list pid }.

(* one turn of the loop up to the call of retrieve_node: no shared memory *)
Definition mturn (f : af) (it : msiter) (out : list pid) : res mscan :=
  do np <- pfx_next f (ms_pfx it);
  match np with
  | Some (p, pi) => Ok (MScan (MIter (MsIter (ms_ptr it) pi (ms_stack it))) (p :: out))
  | None =>
    do n1 <- child_next f (ms_ptr it);
    do n2 <- match n1 with
             | Some (id, ci) => Ok (Some (Some id, ci, ms_stack it))
             | None =>
               match ms_stack it with
               | [] => Ok None
               | ci0 :: st =>
                 do n <- child_next f ci0;
                 Ok (Some (match n with Some (id, _) => Some id | None => None end,
                           match n with Some (_, ci) => ci | None => ci0 end, st))
               end
             end;
    match n2 with
    | None => Ok (MScan (MDone true) out)
    | Some (None, ci, st) => Ok (MScan (MIter (MsIter ci (ms_pfx it) st)) out)
    | Some (Some id, ci, st) =>
      do w <- walk_start f NSTRIDE id;
      Ok (MScan (MGet id (ci :: st) w) out)
    end
  end.

Definition mstep (f : af) (p : pid) (h : heap nodeval) (s : mscan) : res mscan :=
  let out := sc_out s in
  match sc_pc s with
  | MStart =>
    if BITS f <=? p_len p then Ok (MScan (MDone true) out)
    else
      do r <- node_id_for_prefix f p;
      do w <- walk_start f NSTRIDE (fst r);
      Ok (MScan (MFirst w) out)
  | MFirst w =>
    do r <- node_id_for_prefix f p;
    do o <- gstep f (fst r) h w;
    Ok (MScan match o with
              | GMore w' => MFirst w'
              | GFound k => MFirstPfx k
              | GNone => MDone true
              end out)
  | MFirstPfx k =>
    do r <- node_id_for_prefix f p;
    do v <- deref k h;
    do pi <- more_specific_pfx_iter v (fst r) (snd r);
    Ok (MScan (MFirstPtr k pi) out)
  | MFirstPtr k pi =>
    do r <- node_id_for_prefix f p;
    do v <- deref k h;
    do ci <- more_specific_ptr_iter v (fst r) (snd r);
    Ok (MScan (MIter (MsIter ci pi [])) out)
  | MIter it => mturn f it out
  | MGet id st w =>
    do o <- gstep f id h w;
    Ok (MScan match o with
              | GMore w' => MGet id st w'
              | GFound k => MPtr id st k
              | GNone => MDone false
              end out)
  | MPtr id st k =>
    do v <- deref k h;
    do ci <- more_specific_ptr_iter v id (BS 0 0);
    Ok (MScan (MPfx id st k ci) out)
  | MPfx id st k ci =>
    do v <- deref k h;
    do pi <- more_specific_pfx_iter v id (BS 0 0);
    Ok (MScan (MIter (MsIter ci pi st)) out)
  | MDone _ | MPanic => Ok s
  end.

(* a panic is a state of the reader *)
Definition mnext (f : af) (p : pid) (t : tree) (s : mscan) : mscan :=
  match mstep f p (t_heap t) s with Ok s' => s' | _ => MScan MPanic (sc_out s) end.

Definition mscan0 : mscan := MScan MStart [].

(* ---------- LessSpecificPrefixIter and LMPrefixIter,
   tree_bitmap_iterators.rs:175-244, 326-351 ---------- *)

(* a series of prefix_exists, for shorter and shorter prefixes.  [once] is
   LMPrefixIter: it stops at the first one it finds.  LMPrefixIter shortens its
   own copy of the prefix bit by bit; here every length is taken from the
   original prefix, which is the same *)
Inductive bpc : Type :=
| BAt (lvl : N) (x : xpc)  (* looking for the prefix of length lvl *)
| BDone
| BPanic.

Record bscan : Type := BScan { bs_pc : bpc; bs_out : list pid }.

(* the loop at 187-199 or 232-243: go on at level lvl *)
Definition bat (lvl : N) (out : list pid) : bscan :=
  if lvl =? 0 then BScan BDone out else BScan (BAt lvl XStart) out.

(* 342-351 begins with the prefix itself; 326-340 then 230 with one bit less *)
Definition bscan0 (once : bool) (p : pid) : bscan :=
  bat (if once then p_len p else sat_sub (p_len p) 1) [].

Definition bstep (f : af) (once : bool) (p : pid) (h : heap nodeval) (s : bscan) : res bscan :=
  match bs_pc s with
  | BAt lvl x =>
    let q := pid_truncate_to_len f p lvl in
    do x' <- xstep f q h x;
    match x' with
    | XDone true =>
      if once then Ok (BScan BDone (q :: bs_out s))
      else Ok (bat (sat_sub lvl 1) (q :: bs_out s))
    | XDone false => Ok (bat (sat_sub lvl 1) (bs_out s))
    | XPanic => Panic
    | _ => Ok (BScan (BAt lvl x') (bs_out s))
    end
  | BDone | BPanic => Ok s
  end.

Definition bnext (f : af) (once : bool) (p : pid) (t : tree) (s : bscan) : bscan :=
  match bstep f once p (t_heap t) s with Ok s' => s' | _ => BScan BPanic (bs_out s) end.
