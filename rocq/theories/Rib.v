(* rib/starcast_af.rs and rib/starcast_af_query.rs: the store of one address
   family, run by one thread at a time. *)
From Coq Require Import Arith NArith List Bool Lia.
From Verif Require Import Word Af BitSpan Maps ChtMath Cht Node Tree Loop Iter MultiMap PrefixCht
  Lsm RecordSet.
Import ListNotations.
Local Open Scope N_scope.

(* rib/config.rs:23-28 *)
Inductive strategy : Type := WriteAhead | PersistHistory | MemoryOnly | PersistOnly.

(* rib/starcast_af.rs:33-56 *)
Record rib : Type := Rib {
  rb_strat : strategy;
  rb_tree : tree;
  rb_pcht : pcht;
  rb_lsm : option lsm;
  rb_cnt : counters
}.

Definition set_tree (rb : rib) (t : tree) : rib :=
  Rib (rb_strat rb) t (rb_pcht rb) (rb_lsm rb) (rb_cnt rb).
Definition set_pcht (rb : rib) (c : pcht) : rib :=
  Rib (rb_strat rb) (rb_tree rb) c (rb_lsm rb) (rb_cnt rb).
Definition set_lsm (rb : rib) (l : lsm) : rib :=
  Rib (rb_strat rb) (rb_tree rb) (rb_pcht rb) (Some l) (rb_cnt rb).
Definition set_cnt (rb : rib) (c : counters) : rib :=
  Rib (rb_strat rb) (rb_tree rb) (rb_pcht rb) (rb_lsm rb) c.

(* rib/starcast_af.rs:78-112, with a persist path that can be opened and that
   holds no data yet (rib/starcast.rs:86-102 makes a fresh one) *)
Definition rib_init (f : af) (s : strategy) : res rib :=
  do t <- tree_new f;
  Ok (Rib s t pcht_init (match s with MemoryOnly => None | _ => Some [] end) counters_new).

(* rib/starcast_af.rs:146-206 *)
Definition rib_upsert_prefix (f : af) (rb : rib) (id : pid) (r : record) (ups : option tbi)
    : res (rib * result report) :=
  match rb_strat rb with
  | WriteAhead =>
    match rb_lsm rb with
    | Some l =>
      let rb1 := set_lsm rb (persist_record_w_long_key f l id r) in
      do x <- pc_upsert_prefix f (rb_pcht rb1) id r ups;
      let '(c, (rep, _)) := x in Ok (set_pcht rb1 c, ROk rep)
    | None => Ok (rb, RErr StoreNotReadyError)
    end
  | PersistHistory =>
    do x <- pc_upsert_prefix f (rb_pcht rb) id r ups;
    let '(c, (rep, old)) := x in
    let rb1 := set_pcht rb c in
    Ok (match old, rb_lsm rb1 with
        | Some o, Some l => set_lsm rb1 (persist_record_w_long_key f l id (record_of (r_mui r) o))
        | _, _ => rb1
        end, ROk rep)
  | MemoryOnly =>
    do x <- pc_upsert_prefix f (rb_pcht rb) id r ups;
    let '(c, (rep, _)) := x in Ok (set_pcht rb c, ROk rep)
  | PersistOnly =>
    match rb_lsm rb with
    | Some l =>
      do x <- set_prefix_exists f (rb_tree rb) id (r_mui r);
      let '(t, o) := x in
      let rb1 := set_tree rb t in
      match o with
      | RErr e => Ok (rb1, RErr e)
      | ROk (retry_count, exists_) =>
        Ok (set_lsm rb1 (persist_record_w_short_key f l id r),
            ROk (Report retry_count exists_ true 0))
      end
    | None => Ok (rb, RErr PersistFailed)
    end
  end.

(* rib/starcast_af.rs:114-144 *)
Definition rib_insert (f : af) (rb : rib) (id : pid) (r : record) (ups : option tbi)
    : res (rib * result report) :=
  do x <- set_prefix_exists f (rb_tree rb) id (r_mui r);
  let '(t, o) := x in
  let rb1 := set_tree rb t in
  match o with
  | RErr e => Ok (rb1, RErr e)
  | ROk (retry_count, exists_) =>
    do y <- rib_upsert_prefix f rb1 id r ups;
    let '(rb2, o2) := y in
    match o2 with
    | RErr e => Ok (rb2, RErr e)
    | ROk rep =>
      let c1 := if rp_mui_new rep then inc_routes_count (rb_cnt rb2) else rb_cnt rb2 in
      let c2 := if exists_ then c1 else inc_prefixes_count c1 (p_len id) in
      Ok (set_cnt rb2 c2,
          ROk (Report (rp_cas rep + retry_count)
                 (if exists_ then rp_prefix_new rep else true)
                 (rp_mui_new rep) (rp_mui_count rep)))
    end
  end.

(* rib/starcast_af.rs:208-214 *)
Definition rib_contains (f : af) (rb : rib) (id : pid) (mui : option N) : res bool :=
  match mui with
  | Some m => prefix_exists_for_mui f (rb_tree rb) id m
  | None => prefix_exists f (rb_tree rb) id
  end.

(* rib/starcast_af.rs:216-218 *)
Definition rib_nodes_count (rb : rib) : N := t_nodes (rb_tree rb).

(* the in-memory part of the two functions below: retrieve_prefix_mut, which
   creates the entry when it is missing, then mark the record *)
Definition rib_mark_in_memory (f : af) (rb : rib) (id : pid) (mui ltime : N) (s : status)
    : res (rib * option mmap) :=
  do x <- retrieve_prefix_mut f (pc_heap (rb_pcht rb)) id;
  let '(h, k, e, exists_) := x in
  if negb exists_ then Ok (set_pcht rb (PCht h (pc_cnt (rb_pcht rb))), None)
  else
    let m := mark_for_mui s (pv_recs (e_val e)) mui ltime in
    Ok (set_pcht rb (PCht (update k (set_val e (set_recs (e_val e) m)) h)
                          (pc_cnt (rb_pcht rb))), Some m).

Fixpoint rewrite_headers (f : af) (l : lsm) (ltime : N) (s : status) (recs : list bytes)
    : lsm * bool :=
  match recs with
  | [] => (l, true)
  | b :: recs' =>
    match rewrite_header_for_record f l ltime s b with
    | Some l' => rewrite_headers f l' ltime s recs'
    | None => (l, false)
    end
  end.

(* rib/starcast_af.rs:222-297 *)
Definition rib_mark_mui_as_withdrawn_for_prefix (f : af) (rb : rib) (id : pid) (mui ltime : N)
    : res (rib * result unit) :=
  match rb_strat rb with
  | WriteAhead | MemoryOnly =>
    do x <- rib_mark_in_memory f rb id mui ltime Withdrawn;
    let '(rb1, o) := x in
    Ok (rb1, match o with None => RErr PrefixNotFound | Some _ => ROk tt end)
  | PersistOnly =>
    match rb_lsm rb with
    | Some l =>
      let '(l', ok) := rewrite_headers f l ltime Withdrawn
                         (records_with_keys_for_prefix_mui f l id mui) in
      Ok (set_lsm rb l', if ok then ROk tt else RErr StoreNotReadyError)
    | None => Ok (rb, RErr StoreNotReadyError)
    end
  | PersistHistory =>
    do x <- rib_mark_in_memory f rb id mui ltime Withdrawn;
    let '(rb1, o) := x in
    match o with
    | None => Ok (rb1, RErr StoreNotReadyError)
    | Some m =>
      match get_record_for_mui m mui true with
      | Some _ =>
        match rb_lsm rb1 with
        | Some l => Ok (set_lsm rb1 (insert_empty_record f l id mui ltime), ROk tt)
        | None => Ok (rb1, RErr StoreNotReadyError)
        end
      | None => Ok (rb1, ROk tt)
      end
    end
  end.

(* rib/starcast_af.rs:301-364; FatalErr stands for Err(FatalError) *)
Definition rib_mark_mui_as_active_for_prefix (f : af) (rb : rib) (id : pid) (mui ltime : N)
    : res (rib * result unit) :=
  match rb_strat rb with
  | WriteAhead | MemoryOnly =>
    do x <- rib_mark_in_memory f rb id mui ltime Active;
    let '(rb1, o) := x in
    Ok (rb1, match o with None => RErr FatalErr | Some _ => ROk tt end)
  | PersistOnly =>
    match rb_lsm rb with
    | Some l =>
      match most_recent_record_for_prefix_mui f l id mui with
      | Some b =>
        match rewrite_header_for_record f l ltime Active b with
        | Some l' => Ok (set_lsm rb l', ROk tt)
        | None => Ok (rb, RErr FatalErr)
        end
      | None => Ok (rb, ROk tt)
      end
    | None => Ok (rb, RErr FatalErr)
    end
  | PersistHistory =>
    do x <- rib_mark_in_memory f rb id mui ltime Active;
    let '(rb1, o) := x in
    match o with
    | None => Ok (rb1, RErr FatalErr)
    | Some m =>
      match get_record_for_mui m mui true with
      | Some _ =>
        match rb_lsm rb1 with
        | Some l => Ok (set_lsm rb1 (insert_empty_record f l id mui ltime), ROk tt)
        | None => Ok (rb1, RErr FatalErr)
        end
      | None => Ok (rb1, ROk tt)
      end
    end
  end.

(* rib/starcast_af.rs:368-384 *)
Definition rib_mark_mui_as_withdrawn (rb : rib) (mui : N) : rib :=
  set_tree rb (mark_mui_as_withdrawn (rb_tree rb) mui).
Definition rib_mark_mui_as_active (rb : rib) (mui : N) : rib :=
  set_tree rb (mark_mui_as_active (rb_tree rb) mui).

(* rib/starcast_af.rs:389-392 *)
Definition rib_mui_is_withdrawn (rb : rib) (mui : N) : bool := mem mui (t_withdrawn (rb_tree rb)).
(* rib/starcast_af.rs:397-400 *)
Definition rib_is_mui_active (rb : rib) (mui : N) : bool :=
  negb (mem mui (t_withdrawn (rb_tree rb))).

(* types/stats.rs:204-213 *)
Record ucounters : Type := UCounters { uc_memory : N; uc_persisted : N; uc_total : N }.

(* rib/starcast_af.rs:402-411; the counters of the persisted tree are never
   incremented (lsm_tree/mod.rs has no such call) *)
Definition rib_prefixes_count (rb : rib) : ucounters :=
  UCounters (pc_prefixes_count (rb_pcht rb)) 0 (sumN (c_prefixes (rb_cnt rb))).
(* rib/starcast_af.rs:413-422 *)
Definition rib_routes_count (rb : rib) : ucounters :=
  UCounters (pc_routes_count (rb_pcht rb)) 0 (c_routes (rb_cnt rb)).
(* rib/starcast_af.rs:426-444 *)
Definition rib_prefixes_count_for_len (f : af) (rb : rib) (len : N) : res (result ucounters) :=
  if len <=? BITS f then
    match tree_prefixes_count_for_len f len with
    | RErr e => Ok (RErr e)
    | ROk n =>
      match nth_error (c_prefixes (rb_cnt rb)) (N.to_nat len) with
      | Some c => Ok (ROk (UCounters n 0 c))
      | None => Panic
      end
    end
  else Ok (RErr PrefixLengthInvalid).

(* types/stats.rs:154-170 (used by rib/starcast.rs:903-908): the lengths with a
   non-zero count *)
Definition rib_stats (rb : rib) : list (N * N) :=
  filter (fun x => negb (snd x =? 0))
    (combine (List.map N.of_nat (seq 0 129)) (c_prefixes (rb_cnt rb))).

(* rib/starcast_af_query.rs:52-72: decode the bytes of a record *)
Fixpoint decode_all (f : af) (l : list (option bytes)) : result (list record) :=
  match l with
  | [] => ROk []
  | Some b :: l' =>
    match zc_record f b with
    | None => RErr FatalErr
    | Some (_, r) =>
      match decode_all f l' with ROk rs => ROk (r :: rs) | RErr e => RErr e end
    end
  | None :: _ => RErr FatalErr
  end.

(* rib/starcast_af_query.rs:32-84 *)
Definition rib_get_value (f : af) (rb : rib) (id : pid) (mui : option N)
    (include_withdrawn : bool) : res (result (option (list record))) :=
  match rb_strat rb with
  | PersistOnly =>
    match rb_lsm rb with
    | None => Ok (ROk None)
    | Some l =>
      do o <- records_for_prefix f l id mui include_withdrawn (t_withdrawn (rb_tree rb));
      Ok (match o with
          | None => ROk None
          | Some bs => match decode_all f bs with ROk rs => ROk (Some rs) | RErr e => RErr e end
          end)
    end
  | _ =>
    do o <- get_records_for_prefix f (rb_pcht rb) id mui include_withdrawn
              (t_withdrawn (rb_tree rb));
    Ok (ROk o)
  end.

(* types/match_options.rs:97-112 *)
Record queryresult : Type := QueryResult {
  qr_type : matchtype;
  qr_prefix : option prefix;
  qr_records : list record;
  qr_less : option recordset;
  qr_more : option recordset
}.

(* collect::<FatalResult<Option<..>>>: stops at the first Err or None *)
Fixpoint collect_ro {A} (l : list (result (option A))) : result (option (list A)) :=
  match l with
  | [] => ROk (Some [])
  | RErr e :: _ => RErr e
  | ROk None :: _ => ROk None
  | ROk (Some x) :: l' =>
    match collect_ro l' with
    | ROk (Some xs) => ROk (Some (x :: xs))
    | r => r
    end
  end.

(* the closures at rib/starcast_af_query.rs:106-109 and 140-143: the value of
   prefix_id, not of p, is paired with p *)
Definition of_prefix (f : af) (p : pid) (r : result (option (list record)))
    : result (option prefixrecord) :=
  match r with
  | RErr e => RErr e
  | ROk None => ROk None
  | ROk (Some v) => ROk (Some ((f, p), v))
  end.

Definition opt_default {A} (o : option (list A)) : list A := match o with Some l => l | None => [] end.

(* rib/starcast_af_query.rs:86-119 *)
Definition rib_more_specifics_from (f : af) (rb : rib) (id : pid) (mui : option N)
    (include_withdrawn : bool) : res (result queryresult) :=
  do c <- rib_contains f rb id mui;
  let pfx := if negb c then Some (f, id) else None in
  do v <- rib_get_value f rb id mui include_withdrawn;
  match v with
  | RErr e => Ok (RErr e)
  | ROk v =>
    do ps <- more_specifics f (rb_tree rb) id;
    do items <- map_res (fun p =>
      do v <- rib_get_value f rb id mui include_withdrawn; Ok (of_prefix f p v)) ps;
    Ok (match collect_ro items with
        | RErr e => RErr e
        | ROk o => ROk (QueryResult EmptyMatch pfx (opt_default v) None
                          (option_map rs_from_iter o))
        end)
  end.

(* rib/starcast_af_query.rs:121-153 *)
Definition rib_less_specifics_from (f : af) (rb : rib) (id : pid) (mui : option N)
    (include_withdrawn : bool) : res (result queryresult) :=
  do c <- rib_contains f rb id mui;
  let pfx := if negb c then Some (f, id) else None in
  do v <- rib_get_value f rb id mui include_withdrawn;
  match v with
  | RErr e => Ok (RErr e)
  | ROk v =>
    do ps <- less_specifics f (rb_tree rb) id;
    do items <- map_res (fun p =>
      do v <- rib_get_value f rb id mui include_withdrawn; Ok (of_prefix f p v)) ps;
    Ok (match collect_ro items with
        | RErr e => RErr e
        | ROk o => ROk (QueryResult EmptyMatch pfx (opt_default v)
                          (option_map rs_from_iter o) None)
        end)
  end.

(* the filter_map closures at rib/starcast_af_query.rs:174-178 and 195-199:
   the items for p, none or one *)
Definition item_for (f : af) (rb : rib) (mui : option N) (include_withdrawn : bool) (p : pid)
    : res (option (result prefixrecord)) :=
  do v <- rib_get_value f rb p mui include_withdrawn;
  Ok (match v with
      | RErr e => Some (RErr e)
      | ROk None => None
      | ROk (Some v) => Some (ROk ((f, p), v))
      end).

(* rib/starcast_af_query.rs:155-183, run to its end *)
Definition rib_more_specifics_iter_from (f : af) (rb : rib) (id : pid) (mui : option N)
    (include_withdrawn : bool) : res (list (result prefixrecord)) :=
  if match mui with
     | Some m => negb include_withdrawn && rib_mui_is_withdrawn rb m
     | None => false
     end
  then Ok []
  else
    do ps <- more_specifics f (rb_tree rb) id;
    do items <- map_res (item_for f rb mui include_withdrawn) ps;
    Ok (cat_opts items).

(* rib/starcast_af_query.rs:185-200, run to its end *)
Definition rib_less_specifics_iter_from (f : af) (rb : rib) (id : pid) (mui : option N)
    (include_withdrawn : bool) : res (list (result prefixrecord)) :=
  do ps <- less_specifics f (rb_tree rb) id;
  do items <- map_res (item_for f rb mui include_withdrawn) ps;
  Ok (cat_opts items).

(* collect::<FatalResult<..>>: stops at the first Err *)
Fixpoint collect_r {A} (l : list (result A)) : result (list A) :=
  match l with
  | [] => ROk []
  | RErr e :: _ => RErr e
  | ROk x :: l' => match collect_r l' with ROk xs => ROk (x :: xs) | RErr e => RErr e end
  end.

(* rib/starcast_af_query.rs:232-255 and 258-281: fill in the records of a set of
   prefixes; the set is rebuilt from its own iterator *)
Definition fill_set (f : af) (rb : rib) (o : matchopts) (s : option recordset)
    : res (result (option recordset)) :=
  match s with
  | None => Ok (ROk None)
  | Some s =>
    do xs <- rs_items s;
    do items <- map_res (fun x => item_for f rb (mo_mui o) (mo_withdrawn o) (snd (fst x))) xs;
    Ok (match collect_r (cat_opts items) with
        | RErr e => RErr e
        | ROk l => ROk (Some (rs_from_iter l))
        end)
  end.

(* rib/starcast_af_query.rs:344-360 *)
Definition query_of_tree (f : af) (t : treeresult) : queryresult :=
  QueryResult (tr_type t) (option_map (fun p => (f, p)) (tr_prefix t)) []
    (option_map (fun l => rs_from_iter (List.map (fun p => ((f, p), [])) l)) (tr_less t))
    (option_map (fun l => rs_from_iter (List.map (fun p => ((f, p), [])) l)) (tr_more t)).

(* rib/starcast_af_query.rs:202-285 *)
Definition rib_match_prefix (f : af) (rb : rib) (id : pid) (o : matchopts)
    : res (result queryresult) :=
  do t <- tree_match_prefix f (rb_tree rb) id o;
  let q := query_of_tree f t in
  do recs <- match qr_prefix q with
             | None => Ok None
             | Some p =>
               do v <- rib_get_value f rb (snd p) (mo_mui o) (mo_withdrawn o);
               Ok (match v with
                   | ROk (Some (x :: l)) => Some (x :: l)
                   | _ => None
                   end)
             end;
  let q1 := match recs with
            | Some m => QueryResult (qr_type q) (qr_prefix q) m (qr_less q) (qr_more q)
            | None => QueryResult EmptyMatch None (qr_records q) (qr_less q) (qr_more q)
            end in
  do ms <- if mo_more o then fill_set f rb o (qr_more q1) else Ok (ROk (qr_more q1));
  match ms with
  | RErr e => Ok (RErr e)
  | ROk ms =>
    do ls <- if mo_less o then fill_set f rb o (qr_less q1) else Ok (ROk (qr_less q1));
    match ls with
    | RErr e => Ok (RErr e)
    | ROk ls => Ok (ROk (QueryResult (qr_type q1) (qr_prefix q1) (qr_records q1) ls ms))
    end
  end.

(* rib/starcast_af_query.rs:287-306 *)
Definition rib_best_path (f : af) (rb : rib) (id : pid) : res (option (result record)) :=
  do x <- retrieve_prefix f (pc_heap (rb_pcht rb)) id;
  Ok (match x with
      | None => None
      | Some (_, e) =>
        Some (match fst (pv_sel (e_val e)) with
              | None => RErr BestPathNotFound
              | Some mui =>
                match get_record_for_mui (pv_recs (e_val e)) mui false with
                | Some r => ROk r
                | None => RErr StoreNotReadyError
                end
              end)
      end).

(* rib/starcast_af_query.rs:308-320 *)
Definition rib_calculate_best_backup (f : af) (rb : rib) (id : pid) (t : tbi)
    : res (rib * result (option N * option N)) :=
  do x <- retrieve_prefix f (pc_heap (rb_pcht rb)) id;
  Ok (match x with
      | None => (rb, RErr StoreNotReadyError)
      | Some (k, e) =>
        let '(v, s) := calculate_and_store_best_backup (e_val e) t in
        (set_pcht rb (PCht (update k (set_val e v) (pc_heap (rb_pcht rb))) (pc_cnt (rb_pcht rb))),
         ROk s)
      end).

(* rib/starcast_af_query.rs:322-333 *)
Definition rib_is_ps_outdated (f : af) (rb : rib) (id : pid) : res (result bool) :=
  do x <- retrieve_prefix f (pc_heap (rb_pcht rb)) id;
  Ok (match x with
      | None => RErr StoreNotReadyError
      | Some (_, e) => ROk (pv_out (e_val e))
      end).

(* rib/starcast_af.rs:446-458, run to its end *)
Definition rib_prefixes_iter (f : af) (rb : rib) : res (list (result prefixrecord)) :=
  do ps <- tree_prefixes_iter f (rb_tree rb);
  map_res (fun p =>
    do v <- rib_get_value f rb p None true;
    Ok (match v with
        | ROk r => ROk ((f, p), opt_default r)
        | RErr _ => RErr FatalErr
        end)) ps.

(* rib/starcast_af.rs:478-495 *)
Fixpoint persisted_records (f : af) (recs : list (option bytes)) : result (list record) :=
  match recs with
  | [] => ROk []
  | Some b :: recs' =>
    match persisted_records f recs' with
    | RErr e => RErr e
    | ROk l => ROk (match zc_record f b with Some (_, r) => r :: l | None => l end)
    end
  | None :: _ => RErr FatalErr
  end.

(* rib/starcast_af.rs:473-502 *)
Definition persisted_item (f : af) (recs : list (option bytes)) : result prefixrecord :=
  match recs with
  | Some b :: _ =>
    match zc_record f b with
    | Some (p, _) =>
      match persisted_records f recs with
      | ROk l => ROk ((f, p), l)
      | RErr e => RErr e
      end
    | None => RErr FatalErr
    end
  | _ => RErr FatalErr
  end.

(* rib/starcast_af.rs:466-506, run to its end *)
Definition rib_persist_prefixes_iter (f : af) (rb : rib) : res (list (result prefixrecord)) :=
  match rb_lsm rb with
  | None => Ok []
  | Some l =>
    do items <- persisted_prefixes_iter f l;
    Ok (List.map (persisted_item f) items)
  end.

(* rib/starcast_af.rs:508-515; the flush itself succeeds (see Lsm.v) *)
Definition rib_flush_to_disk (rb : rib) : result unit :=
  match rb_lsm rb with Some _ => ROk tt | None => RErr PersistFailed end.
