(* A reader of many steps beside the calls of the store: what the theorems about
   it are stated with. *)
From Coq Require Import Arith NArith List Bool.
From Verif Require Import Word Af Maps Cht Tree Conc ConcTree ConcStore ConcSpec ConcScan.
Import ListNotations.
Local Open Scope N_scope.

(* the reader begins when the store is at x0; from then on a step is a step of
   the store's calls, or one of the reader.  n counts the steps of the reader *)
Inductive beside {S : Type} (f : af) (ov : bool) (over : S -> bool) (next : tree -> S -> S)
    (x0 : cstore) (s0 : S) : nat -> cstore -> S -> Prop :=
| be_start : beside f ov over next x0 s0 0 x0 s0
| be_call n x y s : beside f ov over next x0 s0 n x s ->
    cstep cstart (slegal f) (ststep f ov) x y -> beside f ov over next x0 s0 n y s
| be_own n x s : beside f ov over next x0 s0 n x s -> over s = false ->
    beside f ov over next x0 s0 (Datatypes.S n) x (next (tree_of x) s).

(* the more-specifics iterator for p: what it has given, in order, and whether
   it has returned None *)
Definition scan_over (s : mscan) : bool :=
  match sc_pc s with MDone _ | MPanic => true | _ => false end.
Definition given (s : mscan) : list pid := rev (sc_out s).
Definition scans (f : af) (ov : bool) (p : pid) (x0 : cstore) : nat -> cstore -> mscan -> Prop :=
  beside f ov scan_over (mnext f p) x0 mscan0.

(* the longest match (true) and the less-specifics iterator (false) for p *)
Definition look_over (s : bscan) : bool :=
  match bs_pc s with BAt _ _ => false | _ => true end.
Definition matches (s : bscan) : list pid := rev (bs_out s).
Definition looks (f : af) (ov : bool) (once : bool) (p : pid) (x0 : cstore)
    : nat -> cstore -> bscan -> Prop :=
  beside f ov look_over (bnext f once p) x0 (bscan0 once p).

(* no insert is under way, and none has panicked *)
Definition inserts_done (x : cstore) : Prop :=
  forall i q r ups, started x i (CInsert q r ups) ->
    exists a, returned x i (CInsert q r ups) (RetIns a).
