(* The readers of the tree that take many steps (ConcScan.v) on a weak memory: the
   more-specifics iterator, the less-specifics iterator and the longest match, of
   tree_bitmap/tree_bitmap_iterators.rs:51-244.  The loads give what the thread that
   runs the iterator knows (WeakTree.v).  The iterators are lazy: between two steps
   of one the other threads may do anything, and so may its own thread, which may
   come to know more, be told of other calls, or insert something. *)
From Coq Require Import Arith NArith List Bool.
From Verif Require Import Word Af BitSpan Maps ChtMath Cht Node Tree ConcTree ConcScan ConcScanSpec WeakTree.
Import ListNotations.
Local Open Scope N_scope.

(* thread i begins to read when all is as in x0; n counts the steps of the reader *)
Inductive wbeside {S : Type} (f : af) (ov : bool) (over : S -> bool) (next : tree -> S -> S) (i : nat)
    (x0 : wtconf) (s0 : S) : nat -> wtconf -> S -> Prop :=
| wb_start : wbeside f ov over next i x0 s0 0 x0 s0
| wb_call n t0 x y s : wbeside f ov over next i x0 s0 n x s -> tree_new f = Ok t0 -> wtcstep f ov t0 x y ->
    wbeside f ov over next i x0 s0 n y s
| wb_own n x s t : wbeside f ov over next i x0 s0 n x s -> over s = false ->
    nth_error (wc_ths x) i = Some t -> wt_call t = WIdle ->
    wbeside f ov over next i x0 s0 (Datatypes.S n) x (next (wt_view t) s).

Definition wscans (f : af) (ov : bool) (p : pid) (i : nat) (x0 : wtconf) : nat -> wtconf -> mscan -> Prop :=
  wbeside f ov scan_over (mnext f p) i x0 mscan0.
Definition wlooks (f : af) (ov once : bool) (p : pid) (i : nat) (x0 : wtconf) : nat -> wtconf -> bscan -> Prop :=
  wbeside f ov look_over (bnext f once p) i x0 (bscan0 once p).
