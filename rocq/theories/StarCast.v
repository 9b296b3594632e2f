(* rib/starcast.rs: the public API of the store, run by one thread at a time. *)
From Coq Require Import Arith NArith List Bool Lia.
From Verif Require Import Word Af BitSpan Maps Node Tree Iter MultiMap PrefixCht Lsm RecordSet Rib.
Import ListNotations.
Local Open Scope N_scope.

(* rib/starcast.rs:57-64 *)
Record store : Type := Store { st_v4 : rib; st_v6 : rib }.

(* the match on the address family of a prefix that every method starts with *)
Definition rib_of (st : store) (f : af) : rib :=
  match f with IPv4 => st_v4 st | IPv6 => st_v6 st end.
Definition set_rib (st : store) (f : af) (rb : rib) : store :=
  match f with IPv4 => Store rb (st_v6 st) | IPv6 => Store (st_v4 st) rb end.

(* rib/starcast.rs:83-110; each rib gets its own fresh directory *)
Definition new_with_config (s : strategy) : res store :=
  do a <- rib_init IPv4 s;
  do b <- rib_init IPv6 s;
  Ok (Store a b).

(* ---------- the methods that change the store ---------- *)

Inductive op : Type :=
| Insert (p : prefix) (r : record) (ups : option tbi)
| MarkWithdrawn (p : prefix) (mui ltime : N)
| MarkActive (p : prefix) (mui ltime : N)
| GlobalWithdrawn (f : af) (mui : N)
| GlobalWithdrawnBoth (mui : N)
| GlobalActive (f : af) (mui : N)
| Calculate (p : prefix) (t : tbi).

Inductive outcome : Type :=
| OReport (r : result report)
| OUnit (r : result unit)
| OSel (r : result (option N * option N)).

(* rib/starcast.rs:532-553 *)
Definition insert (st : store) (p : prefix) (r : record) (ups : option tbi)
    : res (store * result report) :=
  do x <- rib_insert (fst p) (rib_of st (fst p)) (snd p) r ups;
  Ok (set_rib st (fst p) (fst x), snd x).

(* rib/starcast.rs:657-679 *)
Definition mark_mui_as_withdrawn_for_prefix (st : store) (p : prefix) (mui ltime : N)
    : res (store * result unit) :=
  do x <- rib_mark_mui_as_withdrawn_for_prefix (fst p) (rib_of st (fst p)) (snd p) mui ltime;
  Ok (set_rib st (fst p) (fst x), snd x).

(* rib/starcast.rs:685-707 *)
Definition mark_mui_as_active_for_prefix (st : store) (p : prefix) (mui ltime : N)
    : res (store * result unit) :=
  do x <- rib_mark_mui_as_active_for_prefix (fst p) (rib_of st (fst p)) (snd p) mui ltime;
  Ok (set_rib st (fst p) (fst x), snd x).

(* rib/starcast.rs:728-735 and 758-765 *)
Definition mark_mui_as_withdrawn_af (st : store) (f : af) (mui : N) : store :=
  set_rib st f (rib_mark_mui_as_withdrawn (rib_of st f) mui).
(* rib/starcast.rs:713-720 and 742-749 *)
Definition mark_mui_as_active_af (st : store) (f : af) (mui : N) : store :=
  set_rib st f (rib_mark_mui_as_active (rib_of st f) mui).
(* rib/starcast.rs:774-784 *)
Definition mark_mui_as_withdrawn_all (st : store) (mui : N) : store :=
  mark_mui_as_withdrawn_af (mark_mui_as_withdrawn_af st IPv4 mui) IPv6 mui.

(* rib/starcast.rs:202-232 *)
Definition calculate_best_backup (st : store) (p : prefix) (t : tbi)
    : res (store * result (option N * option N)) :=
  do x <- rib_calculate_best_backup (fst p) (rib_of st (fst p)) (snd p) t;
  Ok (set_rib st (fst p) (fst x), snd x).

Definition exec (st : store) (o : op) : res (store * outcome) :=
  match o with
  | Insert p r ups => do x <- insert st p r ups; Ok (fst x, OReport (snd x))
  | MarkWithdrawn p m t =>
    do x <- mark_mui_as_withdrawn_for_prefix st p m t; Ok (fst x, OUnit (snd x))
  | MarkActive p m t =>
    do x <- mark_mui_as_active_for_prefix st p m t; Ok (fst x, OUnit (snd x))
  | GlobalWithdrawn f m => Ok (mark_mui_as_withdrawn_af st f m, OUnit (ROk tt))
  | GlobalWithdrawnBoth m => Ok (mark_mui_as_withdrawn_all st m, OUnit (ROk tt))
  | GlobalActive f m => Ok (mark_mui_as_active_af st f m, OUnit (ROk tt))
  | Calculate p t => do x <- calculate_best_backup st p t; Ok (fst x, OSel (snd x))
  end.

(* the store after a history of calls; the latest call comes first in the list *)
Fixpoint run (s : strategy) (h : list op) : res store :=
  match h with
  | [] => new_with_config s
  | o :: h' => do st <- run s h'; do x <- exec st o; Ok (fst x)
  end.

(* ---------- the methods that only read ---------- *)

(* rib/starcast.rs:120-147 *)
Definition match_prefix (st : store) (p : prefix) (o : matchopts) : res (result queryresult) :=
  rib_match_prefix (fst p) (rib_of st (fst p)) (snd p) o.
(* rib/starcast.rs:149-161 *)
Definition contains (st : store) (p : prefix) (mui : option N) : res bool :=
  rib_contains (fst p) (rib_of st (fst p)) (snd p) mui.
(* rib/starcast.rs:168-194 *)
Definition best_path (st : store) (p : prefix) : res (option (result record)) :=
  rib_best_path (fst p) (rib_of st (fst p)) (snd p).
(* rib/starcast.rs:238-263 *)
Definition is_ps_outdated (st : store) (p : prefix) : res (result bool) :=
  rib_is_ps_outdated (fst p) (rib_of st (fst p)) (snd p).
(* rib/starcast.rs:272-303 *)
Definition more_specifics_from (st : store) (p : prefix) (mui : option N) (iw : bool)
    : res (result queryresult) :=
  rib_more_specifics_from (fst p) (rib_of st (fst p)) (snd p) mui iw.
(* rib/starcast.rs:312-343 *)
Definition less_specifics_from (st : store) (p : prefix) (mui : option N) (iw : bool)
    : res (result queryresult) :=
  rib_less_specifics_from (fst p) (rib_of st (fst p)) (snd p) mui iw.
(* rib/starcast.rs:352-400 *)
Definition less_specifics_iter_from (st : store) (p : prefix) (mui : option N) (iw : bool)
    : res (list (result prefixrecord)) :=
  rib_less_specifics_iter_from (fst p) (rib_of st (fst p)) (snd p) mui iw.
(* rib/starcast.rs:410-455 *)
Definition more_specifics_iter_from (st : store) (p : prefix) (mui : option N) (iw : bool)
    : res (list (result prefixrecord)) :=
  rib_more_specifics_iter_from (fst p) (rib_of st (fst p)) (snd p) mui iw.
(* rib/starcast.rs:464-489 and 498-523 *)
Definition iter_records_for_mui (st : store) (f : af) (mui : N) (iw : bool)
    : res (list (result prefixrecord)) :=
  if rib_mui_is_withdrawn (rib_of st f) mui && negb iw then Ok []
  else rib_more_specifics_iter_from f (rib_of st f) (0, 0) (Some mui) iw.
(* rib/starcast.rs:572-580 and 584-592 *)
Definition prefixes_iter_af (st : store) (f : af) : res (list (result prefixrecord)) :=
  rib_prefixes_iter f (rib_of st f).
(* rib/starcast.rs:555-567 *)
Definition prefixes_iter (st : store) : res (list (result prefixrecord)) :=
  do a <- prefixes_iter_af st IPv4; do b <- prefixes_iter_af st IPv6; Ok (a ++ b).
(* rib/starcast.rs:612-618 and 623-630 *)
Definition persist_prefixes_iter_af (st : store) (f : af) : res (list (result prefixrecord)) :=
  rib_persist_prefixes_iter f (rib_of st f).
(* rib/starcast.rs:597-607 *)
Definition persist_prefixes_iter (st : store) : res (list (result prefixrecord)) :=
  do a <- persist_prefixes_iter_af st IPv4; do b <- persist_prefixes_iter_af st IPv6; Ok (a ++ b).
(* rib/starcast.rs:641-644 and 648-651 *)
Definition is_mui_active_af (st : store) (f : af) (mui : N) : bool :=
  rib_is_mui_active (rib_of st f) mui.
(* rib/starcast.rs:634-637 *)
Definition is_mui_active (st : store) (mui : N) : bool :=
  is_mui_active_af st IPv4 mui || is_mui_active_af st IPv6 mui.
(* rib/starcast.rs:788-792 and 796-800 *)
Definition mui_is_withdrawn (st : store) (f : af) (mui : N) : bool :=
  rib_mui_is_withdrawn (rib_of st f) mui.
(* types/stats.rs:243-253 *)
Definition uc_add (a b : ucounters) : ucounters :=
  UCounters (uc_memory a + uc_memory b) (uc_persisted a + uc_persisted b)
            (uc_total a + uc_total b).
(* rib/starcast.rs:812-814 and 833-835 *)
Definition prefixes_count_af (st : store) (f : af) : ucounters := rib_prefixes_count (rib_of st f).
(* rib/starcast.rs:803-805 *)
Definition prefixes_count (st : store) : ucounters :=
  uc_add (prefixes_count_af st IPv4) (prefixes_count_af st IPv6).
(* rib/starcast.rs:822-827 and 843-848 *)
Definition prefixes_count_for_len (st : store) (f : af) (len : N) : res (result ucounters) :=
  rib_prefixes_count_for_len f (rib_of st f) len.
(* rib/starcast.rs:857-859 and 862-864 *)
Definition routes_count_af (st : store) (f : af) : ucounters := rib_routes_count (rib_of st f).
(* rib/starcast.rs:852-854 *)
Definition routes_count (st : store) : ucounters :=
  uc_add (routes_count_af st IPv4) (routes_count_af st IPv6).
(* rib/starcast.rs:880-882 and 889-891 *)
Definition nodes_count_af (st : store) (f : af) : N := rib_nodes_count (rib_of st f).
(* rib/starcast.rs:871-873 *)
Definition nodes_count (st : store) : N := nodes_count_af st IPv4 + nodes_count_af st IPv6.
(* rib/starcast.rs:903-908 *)
Definition stats (st : store) (f : af) : list (N * N) := rib_stats (rib_of st f).
(* rib/starcast.rs:925-947 *)
Definition get_records_for_prefix (st : store) (p : prefix) (mui : option N) (iw : bool)
    : res (result (option (list record))) :=
  rib_get_value (fst p) (rib_of st (fst p)) (snd p) mui iw.
(* rib/starcast.rs:956-961 *)
Definition flush_to_disk (st : store) : result unit :=
  match rib_flush_to_disk (st_v4 st) with
  | RErr e => RErr e
  | ROk _ => rib_flush_to_disk (st_v6 st)
  end.

(* ---------- the data on disk ---------- *)

(* every key and value in the directory of one family, decoded with the layout
   of types/prefix_record.rs:70-84; no method returns this *)
Definition disk (st : store) (f : af) : list (option (prefix * record)) :=
  match rb_lsm (rib_of st f) with
  | None => []
  | Some l => List.map (fun kv => option_map (fun x => ((f, fst x), snd x))
                                    (zc_record f (fst kv ++ snd kv))) l
  end.
