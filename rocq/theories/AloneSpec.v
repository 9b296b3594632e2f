(* What the theorems about a call that nobody interferes with are stated with. *)
From Coq Require Import Arith NArith List Bool.
From Verif Require Import Word Af Maps Cht Tree MultiMap PrefixCht Lsm Rib Conc ConcTree ConcStore
  ConcSpec.
Import ListNotations.
Local Open Scope N_scope.

(* the call c begins *)
Definition begin (x : cstore) (c : scall) : cstore := Conf (sh x) (ths x ++ [(c, cstart c)]).

(* what the model of the sequential code does for c, on a store rb *)
Definition in_sequence (f : af) (rb : rib) (c : scall) : res (rib * ret) :=
  match c with
  | CInsert p r ups => do x <- rib_insert f rb p r ups; Ok (fst x, RetIns (snd x))
  | CMark Withdrawn p m t =>
    do x <- rib_mark_mui_as_withdrawn_for_prefix f rb p m t; Ok (fst x, RetMark (snd x))
  | CMark _ p m t =>
    do x <- rib_mark_mui_as_active_for_prefix f rb p m t; Ok (fst x, RetMark (snd x))
  | CContains p => do b <- rib_contains f rb p None; Ok (rb, RetHas b)
  | CRecords p mui iw =>
    do o <- get_records_for_prefix f (rb_pcht rb) p mui iw (t_withdrawn (rb_tree rb));
    Ok (rb, RetRecs o)
  end.

(* of the calls of x only call i takes steps, from x to y *)
Definition only (f : af) (ov : bool) (i : nat) (x y : cstore) : Prop :=
  exists n, runs cstart (ststep f ov) n i x = y.

(* a reader takes n steps while the tree stays t *)
Definition still {S : Type} (next : tree -> S -> S) (t : tree) (n : nat) (s : S) : S :=
  Nat.iter n (next t) s.
