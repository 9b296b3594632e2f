(* The tree of prefixes on a weak memory: set_prefix_exists and prefix_exists of
   tree_bitmap/mod.rs:294-457 with the bitmaps of atomic_bitmap.rs, when a load may
   give an old value.

   All that is read here only grows: a cell of a slot array is empty and then
   holds its node for good, a bitmap gains bits, the flag of the default route is
   set.  So what a thread knows of the memory is itself a tree, below the one in
   memory.  A load gives what the thread knows; before any step the thread may
   come to know more of one place, up to what is there now.  A compare_exchange
   succeeds only on the present value; under a lock, and for fetch_add and swap,
   the present value is the one that counts.

   No ordering of the atomics is used: a thread learns of one place from another
   only when the threads synchronise outside the store.  Whatever Acquire and
   Release add, they take executions away.  Two simplifications allow more than
   the memory does: a bitmap may be read with any bits between those known and
   those there, in whatever order they were set; and a compare_exchange that fails
   may have read any such value.  One takes executions away: the node that a
   pointer leads to is seen as it was initialised, which with the orderings of
   the code can go wrong (WeakOnce.v, C88). *)
From Coq Require Import Arith NArith List Bool.
From Verif Require Import Word Af BitSpan Maps ChtMath Cht Node Tree Conc ConcMarks ConcTree ConcTreeProofs.
Import ListNotations.
Local Open Scope N_scope.

(* ---------- what a thread knows ---------- *)

(* a slot array is reached through the entry that owns it, which is then known *)
Definition in_reach (v : heap nodeval) (k : key) : Prop :=
  forall path i, snd k = path ++ [i] -> path <> [] -> lookup ((fst k, path) : key) v <> None.

(* one place of the memory m, beyond what is known *)
Inductive learns (m v : tree) : tree -> Prop :=
| ln_node k e x : lookup k (t_heap m) = Some e -> in_reach (t_heap v) k ->
    (forall e0, lookup k (t_heap v) = Some e0 -> nle (e_val e0) x) -> nle x (e_val e) ->
    learns m v (set_heap v (update k (Entry (e_id e) x (e_slots e)) (t_heap v)))
| ln_default : t_default m = true -> learns m v (Tree (t_heap v) (t_withdrawn v) (t_nodes v) true).

(* all that one of two threads knows *)
Definition njoin (a b : nodeval) : nodeval :=
  NodeVal (N.lor (nv_ptr a) (nv_ptr b)) (N.lor (nv_pfx a) (nv_pfx b)) (fold_right set_insert (nv_rbm b) (nv_rbm a)).
Definition add_known (a : heap nodeval) (k : key) (h : heap nodeval) : heap nodeval :=
  match lookup k a with
  | Some e =>
    update k (match lookup k h with Some e' => Entry (e_id e) (njoin (e_val e) (e_val e')) (e_slots e) | None => e end) h
  | None => h
  end.
Definition hjoin (a b : heap nodeval) : heap nodeval := fold_right (add_known a) b (List.map fst a).
Definition tjoin (a b : tree) : tree :=
  Tree (hjoin (t_heap a) (t_heap b)) (t_withdrawn b) (t_nodes b) (t_default a || t_default b).

(* ---------- steps ---------- *)

(* a slot that get_or_init finds empty is empty; for one that it finds taken the
   two agree as it stays so *)
Definition same_slot (f : af) (id : pid) (m v : heap nodeval) (w : walk) : Prop :=
  forall index, hash_id f id (w_level w) = Ok index ->
    (lookup (wkey w index) v = None <-> lookup (wkey w index) m = None).
(* a compare_exchange from cur succeeds when the present value is cur *)
Definition same_arr (isptr : bool) (m v : heap nodeval) (k : key) (cur : N) : Prop :=
  forall x y, deref k v = Ok x -> deref k m = Ok y -> (get_arr isptr x = cur <-> get_arr isptr y = cur).

Definition agrees (f : af) (p : pid) (m v : tree) (pc : tpc) : Prop :=
  match pc with
  | TStart => p_len p = 0 -> t_default v = t_default m
  | TDefault _ (RInit w) => same_slot f root_node_id (t_heap m) (t_heap v) w
  | TNode fr (RInit w) => same_slot f (fr_cur fr) (t_heap m) (t_heap v) w
  | TStore fr _ _ (SInit w) => forall id, new_id f p fr = Ok id -> same_slot f id (t_heap m) (t_heap v) w
  | TCasPtr _ k cur _ => same_arr true (t_heap m) (t_heap v) k cur
  | TCasPfx _ k cur _ => same_arr false (t_heap m) (t_heap v) k cur
  | _ => True
  end.

Inductive wcall : Type :=
| WIdle
| WIns (p : pid) (mui : N) (pc : tpc)
| WHas (p : pid) (pc : xpc).

Record wthread : Type := WThread {
  wt_view : tree;
  wt_call : wcall;
  (* for the statements only: the prefixes whose insert happened before; those of
     which an insert of this thread said that they are new; the steps of the
     present call *)
  wt_past : list pid;
  wt_news : list pid;
  wt_steps : nat
}.
(* the tree, and the prefixes for which an insert has been called *)
Record wtconf : Type := WTConf { wc_mem : tree; wc_called : list pid; wc_ths : list wthread }.

Definition at_call (t : wthread) (v : tree) (c : wcall) : wthread := WThread v c (wt_past t) (wt_news t) (S (wt_steps t)).
Definition ended (pc : tpc) : Prop := match pc with TDone _ | TPanic => True | _ => False end.

Inductive wtstep (f : af) (ov : bool) (m : tree) (t : wthread) : tree -> list pid -> wthread -> Prop :=
| wt_insert p mui : wt_call t = WIdle -> wf_pid f p ->
    wtstep f ov m t m [p] (WThread (wt_view t) (WIns p mui TStart) (wt_past t) (wt_news t) 0)
| wt_contains p : wt_call t = WIdle -> wf_pid f p ->
    wtstep f ov m t m [] (WThread (wt_view t) (WHas p XStart) (wt_past t) (wt_news t) 0)
| wt_learn v : learns m (wt_view t) v ->
    wtstep f ov m t m [] (WThread v (wt_call t) (wt_past t) (wt_news t) (wt_steps t))
(* what the step does to the memory is what it does when run on the memory: it
   reads, and leaves the memory alone, or it replaces a value on which the thread
   and the memory agree, or it is a fetch_add, a swap or under a lock *)
| wt_ins p mui pc : wt_call t = WIns p mui pc -> ~ ended pc -> agrees f p m (wt_view t) pc ->
    wtstep f ov m t (fst (tnext f ov p mui m pc)) []
      (at_call t (fst (tnext f ov p mui (wt_view t) pc)) (WIns p mui (snd (tnext f ov p mui (wt_view t) pc))))
| wt_inserted p mui rc existed : wt_call t = WIns p mui (TDone (ROk (rc, existed))) ->
    wtstep f ov m t m []
      (WThread (wt_view t) WIdle (p :: wt_past t) (if existed then wt_news t else p :: wt_news t) 0)
| wt_has p pc : wt_call t = WHas p pc -> match pc with XDone _ | XPanic => False | _ => True end ->
    wtstep f ov m t m [] (at_call t (wt_view t)
      (WHas p match xstep f p (t_heap (wt_view t)) pc with Ok pc' => pc' | _ => XPanic end))
| wt_told p b : wt_call t = WHas p (XDone b) ->
    wtstep f ov m t m [] (WThread (wt_view t) WIdle (wt_past t) (wt_news t) 0).

(* thread j comes to know what thread i knows: i is joined, sends j a message, .. *)
Definition told (ti tj : wthread) : wthread :=
  WThread (tjoin (wt_view ti) (wt_view tj)) WIdle (wt_past ti ++ wt_past tj) (wt_news tj) (wt_steps tj).

Inductive wtcstep (f : af) (ov : bool) (t0 : tree) : wtconf -> wtconf -> Prop :=
| wc_spawn m c ts : wtcstep f ov t0 (WTConf m c ts) (WTConf m c (ts ++ [WThread t0 WIdle [] [] 0]))
| wc_thread m c ts i t m' c' t' : nth_error ts i = Some t -> wtstep f ov m t m' c' t' ->
    wtcstep f ov t0 (WTConf m c ts) (WTConf m' (c ++ c') (set_nth i t' ts))
| wc_told m c ts i j ti tj : nth_error ts i = Some ti -> nth_error ts j = Some tj ->
    wt_call ti = WIdle -> wt_call tj = WIdle ->
    wtcstep f ov t0 (WTConf m c ts) (WTConf m c (set_nth j (told ti tj) ts)).

(* the store is made before the threads know of it *)
Inductive wtreach (f : af) (ov : bool) : wtconf -> Prop :=
| wr_start t0 : tree_new f = Ok t0 -> wtreach f ov (WTConf t0 [] [])
| wr_step t0 x y : tree_new f = Ok t0 -> wtreach f ov x -> wtcstep f ov t0 x y -> wtreach f ov y.
