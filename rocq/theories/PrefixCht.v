(* prefix_cht/cht.rs: the chained hash table of prefixes with their record maps,
   run by one thread at a time. *)
From Coq Require Import Arith NArith List Bool Lia.
From Verif Require Import Word Af BitSpan Maps ChtMath Cht Tree MultiMap.
Import ListNotations.
Local Open Scope N_scope.

(* prefix_cht/cht.rs:526: Cht<PrefixSet, ROOT_SIZE, 1>, one root bucket per
   prefix length *)
Definition PSTRIDE : N := 1.

(* prefix_cht/cht.rs:521-528; counters.nodes is never written *)
Record pcht : Type := PCht { pc_heap : heap pval; pc_cnt : counters }.

(* prefix_cht/cht.rs:533-538 *)
Definition pcht_init : pcht := PCht [] counters_new.

(* prefix_cht/cht.rs:552-586, the loop of get_records_for_prefix *)
Fixpoint get_records_loop (fuel : nat) (f : af) (h : heap pval) (id : pid) (mui : option N)
    (include_withdrawn : bool) (bmin : nset) (b : N) (path : list N) (slots level : N)
    : res (option (list record)) :=
  match fuel with
  | O => OutOfFuel
  | S fuel' =>
    do index <- hash_id f id level;
    match slot_get h b path slots index with
    | Some e =>
      if pid_eqb id (e_id e)
      then Ok (get_filtered_records (pv_recs (e_val e)) mui include_withdrawn bmin)
      else
        do level' <- add8 level 1;
        get_records_loop fuel' f h id mui include_withdrawn bmin b (path ++ [index])
          (e_slots e) level'
    | None => Ok None
    end
  end.

(* prefix_cht/cht.rs:541-587 *)
Definition get_records_for_prefix (f : af) (c : pcht) (id : pid) (mui : option N)
    (include_withdrawn : bool) (bmin : nset) : res (option (list record)) :=
  do b <- root_for_len f PSTRIDE (p_len id);
  get_records_loop CHAIN_FUEL f (pc_heap c) id mui include_withdrawn bmin b [] root_slots 0.

(* prefix_cht/cht.rs:702-761, the loop of non_recursive_retrieve_prefix_mut.
   Returns the address of the StoredPrefix instead of a reference. *)
Fixpoint retrieve_prefix_mut_loop (fuel : nat) (f : af) (h : heap pval) (id : pid)
    (b : N) (path : list N) (slots level : N)
    : res (heap pval * key * entry pval * bool) :=
  match fuel with
  | O => OutOfFuel
  | S fuel' =>
    do index <- hash_id f id level;
    do r <- match slot_get h b path slots index with
            | Some e => Ok (h, e, true)
            | None =>
              do index <- hash_id f id level;
              do l1 <- add8 level 1;
              do next_level <- nodeset_size (p_len id) l1;
              do r <- slot_get_or_init h b path slots index
                        (Entry id pval_new (slots_for next_level));
              let '(h1, e, _) := r in Ok (h1, e, false)
            end;
    let '(h1, e, found) := r in
    if pid_eqb id (e_id e) then Ok (h1, (b, path ++ [index]), e, found)
    else
      do level' <- add8 level 1;
      retrieve_prefix_mut_loop fuel' f h1 id b (path ++ [index]) (e_slots e) level'
  end.

(* prefix_cht/cht.rs:693-762 *)
Definition retrieve_prefix_mut (f : af) (h : heap pval) (id : pid)
    : res (heap pval * key * entry pval * bool) :=
  do b <- root_for_len f PSTRIDE (p_len id);
  retrieve_prefix_mut_loop CHAIN_FUEL f h id b [] root_slots 0.

(* prefix_cht/cht.rs:788-820, the loop of non_recursive_retrieve_prefix; the
   second component of its result (the parents) is used by no caller, only the
   bounds of its array of 32 matter *)
Fixpoint retrieve_prefix_loop (fuel : nat) (f : af) (h : heap pval) (id : pid)
    (b : N) (path : list N) (slots level : N) : res (option (key * entry pval)) :=
  match fuel with
  | O => OutOfFuel
  | S fuel' =>
    do index <- hash_id f id level;
    match slot_get h b path slots index with
    | Some e =>
      if pid_eqb id (e_id e)
      then if level <? 32 then Ok (Some ((b, path ++ [index]), e)) else Panic
      else
        do level' <- add8 level 1;
        retrieve_prefix_loop fuel' f h id b (path ++ [index]) (e_slots e) level'
    | None => if level <? 32 then Ok None else Panic
    end
  end.

(* prefix_cht/cht.rs:770-821 *)
Definition retrieve_prefix (f : af) (h : heap pval) (id : pid)
    : res (option (key * entry pval)) :=
  do b <- root_for_len f PSTRIDE (p_len id);
  retrieve_prefix_loop CHAIN_FUEL f h id b [] root_slots 0.

(* prefix_cht/cht.rs:589-683 *)
Definition pc_upsert_prefix (f : af) (c : pcht) (id : pid) (r : record) (ups : option tbi)
    : res (pcht * (report * option mmval)) :=
  do x <- retrieve_prefix_mut f (pc_heap c) id;
  let '(h1, k, e, exists_) := x in
  let fin c' (o : option (mmval * N)) (prefix_is_new mui_is_new : bool) :=
    Ok (c', (Report 0 prefix_is_new mui_is_new
               (match o with Some (_, n) => n | None => 1 end),
             option_map fst o)) in
  if negb exists_ then
    let '(m', o) := upsert_record (pv_recs (e_val e)) r in
    let h2 := update k (set_val e (set_recs (e_val e) m')) h1 in
    match o with
    | Some _ => fin (PCht h2 (pc_cnt c)) o false false
    | None =>
      fin (PCht h2 (inc_prefixes_count (inc_routes_count (pc_cnt c)) (p_len (e_id e))))
        o true true
    end
  else
    let v1 := set_ps_outdated (e_val e) in
    let '(m', o) := upsert_record (pv_recs v1) r in
    let v2 := set_recs v1 m' in
    let cnt := match o with None => inc_routes_count (pc_cnt c) | Some _ => pc_cnt c end in
    let v3 := match ups with
              | Some t => fst (calculate_and_store_best_backup v2 t)
              | None => v2
              end in
    fin (PCht (update k (set_val e v3) h1) cnt) o false true.

(* prefix_cht/cht.rs:823-825 *)
Definition pc_prefixes_count (c : pcht) : N := sumN (c_prefixes (pc_cnt c)).
(* prefix_cht/cht.rs:827-829: reads counters.nodes, which is never written *)
Definition pc_routes_count (c : pcht) : N := 0.
