(* When two answers of the store are the same: equal, but for the order in which
   records and prefixes are listed. *)
From Coq Require Import Arith NArith List Bool Permutation.
From Verif Require Import Word Af Tree MultiMap RecordSet Rib StarCast Ask.
Import ListNotations.
Local Open Scope N_scope.

Definition same_item (a b : result prefixrecord) : Prop :=
  match a, b with
  | ROk (p, rs), ROk (p', rs') => p = p' /\ Permutation rs rs'
  | RErr e, RErr e' => e = e'
  | _, _ => False
  end.
Definition same_items (l l' : list (result prefixrecord)) : Prop :=
  exists m, Permutation l m /\ Forall2 same_item m l'.
Definition same_set (s s' : option recordset) : Prop :=
  match s, s' with
  | None, None => True
  | Some s, Some s' => exists l l', rs_items s = Ok l /\ rs_items s' = Ok l' /\
      same_items (List.map ROk l) (List.map ROk l')
  | _, _ => False
  end.
Definition same_result (q q' : queryresult) : Prop :=
  qr_type q = qr_type q' /\ qr_prefix q = qr_prefix q' /\
  Permutation (qr_records q) (qr_records q') /\
  same_set (qr_less q) (qr_less q') /\ same_set (qr_more q) (qr_more q').
Definition same_records (o o' : option (list record)) : Prop :=
  match o, o' with
  | None, None => True
  | Some l, Some l' => Permutation l l'
  | _, _ => False
  end.

Definition same_answer (a b : answer) : Prop :=
  match a, b with
  | AMatch (ROk q), AMatch (ROk q') => same_result q q'
  | AItems l, AItems l' => same_items l l'
  | ARecords (ROk o), ARecords (ROk o') => same_records o o'
  | _, _ => a = b
  end.
(* both give an answer, and it is the same *)
Definition answer_alike (a b : res answer) : Prop :=
  exists x y, a = Ok x /\ b = Ok y /\ same_answer x y.

(* the questions for prefixes and records: matching, iteration, look-up, and
   which muis are withdrawn.  Not: contains, more_specifics_from and
   less_specifics_from for one mui, the best path, whether it is outdated,
   counters, and the data on disk. *)
Definition for_records (q : query) : bool :=
  match q with
  | QMatch _ _ | QContains _ None | QMoreFrom _ None _ | QLessFrom _ None _ | QMoreIter _ _ _
  | QLessIter _ _ _ | QGet _ _ _ | QMuiIter _ _ _ | QPrefixes _ | QAllPrefixes | QActive _ _
  | QWithdrawn _ _ | QActiveBoth _ => true
  | _ => false
  end.
