(* tree_bitmap/tree_bitmap_iterators.rs and tree_bitmap/tree_bitmap_query.rs:
   the iterators over the tree, run by one thread. *)
From Coq Require Import NArith PArith List Bool Lia.
From Verif Require Import Word Af BitSpan Maps ChtMath Cht Node Tree Loop.
Import ListNotations.
Local Open Scope N_scope.

(* tree_bitmap_iterators.rs:51-60; the Vec is kept with its last element first *)
Record msiter : Type := MsIter {
  ms_ptr : childiter;
  ms_pfx : pfxiter;
  ms_stack : list childiter
}.

(* one turn of the loop at tree_bitmap_iterators.rs:70-172; [Stop] is a return *)
Definition ms_turn (f : af) (h : heap nodeval) (it : msiter)
    : res (lp msiter (option (pid * msiter))) :=
  do np <- pfx_next f (ms_pfx it);
  match np with
  | Some (p, pi) => Ok (Stop (Some (p, MsIter (ms_ptr it) pi (ms_stack it))))
  | None =>
    do n1 <- child_next f (ms_ptr it);
    do n2 <- match n1 with
             | Some (id, ci) => Ok (Some (Some (id, ci), ci, ms_stack it))
             | None =>
               match ms_stack it with
               | [] => Ok None
               | ci0 :: st =>
                 do n <- child_next f ci0;
                 Ok (Some (n, match n with Some (_, ci) => ci | None => ci0 end, st))
               end
             end;
    match n2 with
    | None => Ok (Stop None) (* no more parents *)
    | Some (None, ci, st) => Ok (Go (MsIter ci (ms_pfx it) st))
    | Some (Some (id, _), ci, st) =>
      do o <- retrieve_node f h id;
      match o with
      | None => Ok (Stop None) (* 166-169 "no node here." *)
      | Some v =>
        do ci' <- more_specific_ptr_iter v id (BS 0 0);
        do pi' <- more_specific_pfx_iter v id (BS 0 0);
        Ok (Go (MsIter ci' pi' (ci :: st)))
      end
    end
  end.

(* bounds the number of turns; the proofs show it is never reached *)
Definition MS_FUEL : positive := 2 ^ 200.

(* tree_bitmap_iterators.rs:67-173 *)
Definition ms_next (f : af) (h : heap nodeval) (it : msiter) : res (option (pid * msiter)) :=
  loop (ms_turn f h) MS_FUEL it.

(* Iterator::collect / next() until the first None *)
Definition ms_collect (f : af) (h : heap nodeval) (it : msiter) : res (list pid) :=
  loop (fun st : msiter * list pid =>
          do n <- ms_next f h (fst st);
          match n with
          | None => Ok (Stop (rev (snd st)))
          | Some (p, it') => Ok (Go (it', p :: snd st))
          end) MS_FUEL (it, []).

(* tree_bitmap_iterators.rs:257-322: the iterator, or None when it is empty *)
Definition more_specific_prefix_iter_from (f : af) (t : tree) (p : pid)
    : res (option msiter) :=
  if BITS f <=? p_len p then Ok None
  else
    do r <- node_id_for_prefix f p;
    let '(id, bs) := r in
    do o <- retrieve_node f (t_heap t) id;
    match o with
    | None => Ok None
    | Some v =>
      do pi <- more_specific_pfx_iter v id bs;
      do ci <- more_specific_ptr_iter v id bs;
      Ok (Some (MsIter ci pi []))
    end.

(* the same iterator run to its end *)
Definition more_specifics (f : af) (t : tree) (p : pid) : res (list pid) :=
  do o <- more_specific_prefix_iter_from f t p;
  match o with None => Ok [] | Some it => ms_collect f (t_heap t) it end.

(* tree_bitmap_iterators.rs:354-360 *)
Definition tree_prefixes_iter (f : af) (t : tree) : res (list pid) :=
  more_specifics f t (0, 0).

(* tree_bitmap_iterators.rs:186-200, with LMPrefixIter's loop; a prefix length
   is at most 128, so [fuel] is the length of the prefix *)
Fixpoint lmp_loop (fuel : nat) (f : af) (t : tree) (p : pid) : res (option pid) :=
  match fuel with
  | O => OutOfFuel
  | S fuel' =>
    if p_len p =? 0 then Ok None
    else
      do e <- prefix_exists f t p;
      if e then Ok (Some p)
      else
        do l <- sub8 (p_len p) 1;
        lmp_loop fuel' f t (pid_truncate_to_len f p l)
  end.

(* tree_bitmap_iterators.rs:342-351 *)
Definition longest_matching_prefix (f : af) (t : tree) (p : pid) : res (option pid) :=
  lmp_loop (S (N.to_nat (p_len p))) f t p.

(* tree_bitmap_iterators.rs:228-244, LessSpecificPrefixIter::next; returns the
   prefix and the new cur_level *)
Fixpoint ls_next_loop (fuel : nat) (f : af) (t : tree) (p : pid) (lvl : N)
    : res (option (pid * N)) :=
  match fuel with
  | O => OutOfFuel
  | S fuel' =>
    if lvl =? 0 then Ok None
    else
      let q := pid_truncate_to_len f p lvl in
      do e <- prefix_exists f t q;
      if e then Ok (Some (q, lvl)) else ls_next_loop fuel' f t p (sat_sub lvl 1)
  end.
Definition ls_next (f : af) (t : tree) (p : pid) (lvl : N) : res (option (pid * N)) :=
  ls_next_loop (S (N.to_nat lvl)) f t p (sat_sub lvl 1).

Fixpoint ls_collect (fuel : nat) (f : af) (t : tree) (p : pid) (lvl : N) : res (list pid) :=
  match fuel with
  | O => OutOfFuel
  | S fuel' =>
    do n <- ls_next f t p lvl;
    match n with
    | None => Ok []
    | Some (q, lvl') => do l <- ls_collect fuel' f t p lvl'; Ok (q :: l)
    end
  end.

(* tree_bitmap_iterators.rs:326-340, run to its end *)
Definition less_specifics (f : af) (t : tree) (p : pid) : res (list pid) :=
  ls_collect (S (N.to_nat (p_len p))) f t p (p_len p).

(* types/match_options.rs:46-55 *)
Inductive matchtype : Type := ExactMatch | LongestMatch | EmptyMatch.

(* types/match_options.rs:20-39 *)
Record matchopts : Type := MatchOpts {
  mo_type : matchtype;
  mo_withdrawn : bool;
  mo_less : bool;
  mo_more : bool;
  mo_mui : option N;
  mo_history : bool (* include_history: IncludeHistory::None or not; read by no query *)
}.

(* rib/starcast_af_query.rs:337-342 TreeQueryResult *)
Record treeresult : Type := TreeResult {
  tr_type : matchtype;
  tr_prefix : option pid;
  tr_less : option (list pid);
  tr_more : option (list pid)
}.

(* tree_bitmap_query.rs:13-58 *)
Definition tree_match_prefix (f : af) (t : tree) (p : pid) (o : matchopts) : res treeresult :=
  do lm <- longest_matching_prefix f t p;
  let '(pfx, mt) :=
    match mo_type o with
    | ExactMatch =>
      match lm with
      | Some q => if pid_eqb q p then (lm, ExactMatch) else (None, EmptyMatch)
      | None => (None, EmptyMatch)
      end
    | _ => (lm, LongestMatch)
    end in
  do ls <- if mo_less o then (do l <- less_specifics f t p; Ok (Some l)) else Ok None;
  do ms <- if mo_more o
           then (do l <- more_specifics f t p;
                 Ok (Some (filter (fun q => negb (pid_eqb q p)) l)))
           else Ok None;
  Ok (TreeResult mt pfx ls ms).
