(* Properties of records, marks, reports and counters. *)
From Coq Require Import Arith NArith List Bool Lia Permutation.
From Verif Require Import Word Af BitSpan Spec Maps ChtMath Cht Node Tree Iter MultiMap PrefixCht Lsm
  LsmProofs RecordSet Rib StarCast HistSpec Ask PropSpec Facts1 Facts2 Facts3 Facts4 Facts5 Facts6
  Examples Refute.
Import ListNotations.
Local Open Scope N_scope.

(* ---------- C17: last write wins per (prefix, mui) and nothing else changes ---------- *)

Theorem C17_last_write : forall s h st p m,
  in_memory s -> after s h st -> wf_prefix p -> m < 2 ^ 32 ->
  get_records_for_prefix st p (Some m) true =
  Ok (ROk (option_map (fun r => [r]) (view_all h p m))).
Proof. exact get_one. Qed.
Print Assumptions C17_last_write.

(* a call that neither sets (p, m) nor changes the global status of m leaves the record of (p, m) alone *)
Theorem C17_frame : forall s h st o st' x p m iw,
  after s h st -> wf_op o -> exec st o = Ok (st', x) ->
  wf_prefix p -> m < 2 ^ 32 -> sets p m o = false -> sets_global (fst p) m o = false ->
  exists a b, get_records_for_prefix st p (Some m) iw = Ok (ROk a) /\
    get_records_for_prefix st' p (Some m) iw = Ok (ROk b) /\ same_records a b.
Proof. exact get_frame. Qed.
Print Assumptions C17_frame.

Example C17_example : after MemoryOnly demo (ran MemoryOnly demo) /\
  get_records_for_prefix (ran MemoryOnly demo) (v4 10 0 0 0 8) (Some 1) true = Ok (ROk (Some [act 1 2 [4; 4]])) /\
  get_records_for_prefix (ran MemoryOnly demo) (v4 10 1 0 0 16) (Some 2) true = Ok (ROk (Some [wdr 2 9 [7]])) /\
  get_records_for_prefix (ran MemoryOnly demo) (v4 10 1 0 0 16) (Some 3) true = Ok (ROk None) /\
  sets (v4 10 0 0 0 8) 1 (MarkWithdrawn (v4 10 1 0 0 16) 2 9) = false /\
  sets_global IPv4 1 (MarkWithdrawn (v4 10 1 0 0 16) 2 9) = false.
Proof. example. Qed.

(* ---------- C18: a record query returns every record once ---------- *)

Theorem C18_all_records : forall s h st p,
  in_memory s -> after s h st -> wf_prefix p ->
  exists o, get_records_for_prefix st p None true = Ok (ROk o) /\ answers (view_all h p) o.
Proof. exact get_all. Qed.
Print Assumptions C18_all_records.

Example C18_example : after WriteAhead demo (ran WriteAhead demo) /\
  get_records_for_prefix (ran WriteAhead demo) (v4 10 1 0 0 16) None true =
    Ok (ROk (Some [act 1 4 [9]; wdr 2 9 [7]])) /\
  get_records_for_prefix (ran WriteAhead demo) (v6 8193 3512 32) None true = Ok (ROk (Some [wdr 3 8 [1]])) /\
  get_records_for_prefix (ran WriteAhead demo) (v4 11 0 0 0 8) None true = Ok (ROk None).
Proof. example. Qed.

(* ---------- C19: default queries show exactly the active records ---------- *)

Theorem C19_active_records : forall s h st p,
  in_memory s -> after s h st -> wf_prefix p ->
  exists o, get_records_for_prefix st p None false = Ok (ROk o) /\ answers (view_active h p) o.
Proof. exact get_active. Qed.
Print Assumptions C19_active_records.

Example C19_example : after WriteAhead demo (ran WriteAhead demo) /\
  get_records_for_prefix (ran WriteAhead demo) (v4 10 1 0 0 16) None false = Ok (ROk (Some [act 1 4 [9]])) /\
  get_records_for_prefix (ran WriteAhead demo) (v6 8193 3512 32) None false = Ok (ROk None).
Proof. example. Qed.

(* ---------- C20: a global withdrawal also hides a mui asked for by name ---------- *)

Theorem C20_named_refuted :
  ~ (forall s h st p m o r, after s h st -> wf_prefix p -> m < 2 ^ 32 ->
  mui_is_withdrawn st (fst p) m = true ->
  get_records_for_prefix st p (Some m) false = Ok (ROk o) -> holds o r -> r_mui r <> m).
Proof. exact named_not_hidden. Qed.
Print Assumptions C20_named_refuted.

(* it hides the mui from queries that name no mui, and from all queries with PersistOnly *)
Theorem C20_hidden_partial : forall s h st p mui,
  after s h st -> wf_prefix p -> wf_mui mui ->
  (mui = None \/ s = PersistOnly) ->
  exists o, get_records_for_prefix st p mui false = Ok (ROk o) /\
    forall r, holds o r -> g_withdrawn h (fst p) (r_mui r) = false.
Proof. exact withdrawn_hidden. Qed.
Print Assumptions C20_hidden_partial.

Example C20_example : after MemoryOnly h_gone (ran MemoryOnly h_gone) /\
  get_records_for_prefix (ran MemoryOnly h_gone) (v4 10 0 0 0 8) None false = Ok (ROk None) /\
  get_records_for_prefix (ran MemoryOnly h_gone) (v4 10 0 0 0 8) (Some 1) false = Ok (ROk (Some [act 1 1 [1]])) /\
  get_records_for_prefix (ran PersistOnly h_gone) (v4 10 0 0 0 8) (Some 1) false = Ok (ROk None).
Proof. example. Qed.

(* ---------- C21: global withdrawal is reversible and keeps local statuses ---------- *)

(* with m active again, records are as if the global marks of m had not happened *)
Theorem C21_reversible : forall s m h st st' p mui iw,
  after s h st -> after s (without_global m h) st' ->
  g_withdrawn h (fst p) m = false -> wf_prefix p -> wf_mui mui ->
  exists a b, get_records_for_prefix st p mui iw = Ok (ROk a) /\
    get_records_for_prefix st' p mui iw = Ok (ROk b) /\ same_records a b.
Proof. exact global_reversible. Qed.
Print Assumptions C21_reversible.

(* the records of other muis never depend on the global marks of m *)
Theorem C21_others : forall s m h st st' p mui iw,
  after s h st -> after s (without_global m h) st' ->
  wf_prefix p -> wf_mui mui ->
  exists a b, get_records_for_prefix st p mui iw = Ok (ROk a) /\
    get_records_for_prefix st' p mui iw = Ok (ROk b) /\
    forall r, r_mui r <> m -> (holds a r <-> holds b r).
Proof. exact global_others. Qed.
Print Assumptions C21_others.

Definition C21_history : list op :=
  [GlobalActive IPv4 1; MarkWithdrawn (v4 10 0 0 0 8) 1 5; GlobalWithdrawn IPv4 1;
   Insert (v4 10 1 0 0 16) (act 1 2 [2]) None; Insert (v4 10 0 0 0 8) (act 1 1 [1]) None].
Example C21_example : after MemoryOnly C21_history (ran MemoryOnly C21_history) /\
  after MemoryOnly (without_global 1 C21_history) (ran MemoryOnly (without_global 1 C21_history)) /\
  g_withdrawn C21_history IPv4 1 = false /\ g_withdrawn (tl C21_history) IPv4 1 = true /\
  get_records_for_prefix (ran MemoryOnly C21_history) (v4 10 0 0 0 8) None true = Ok (ROk (Some [wdr 1 5 [1]])) /\
  get_records_for_prefix (ran MemoryOnly C21_history) (v4 10 1 0 0 16) None true = Ok (ROk (Some [act 1 2 [2]])).
Proof. example. Qed.

(* ---------- C22: local marks change one record only ---------- *)

Theorem C22_mark_withdrawn : forall s h st st' x p m t r,
  in_memory s -> after s h st -> wf_prefix p ->
  m < 2 ^ 32 -> t < 2 ^ 64 ->
  get_records_for_prefix st p (Some m) true = Ok (ROk (Some [r])) ->
  exec st (MarkWithdrawn p m t) = Ok (st', x) ->
  x = OUnit (ROk tt) /\
  get_records_for_prefix st' p (Some m) true = Ok (ROk (Some [Rec m t Withdrawn (r_meta r)])).
Proof. exact mark_withdrawn. Qed.
Print Assumptions C22_mark_withdrawn.

Theorem C22_mark_active : forall s h st st' x p m t r,
  in_memory s -> after s h st -> wf_prefix p ->
  m < 2 ^ 32 -> t < 2 ^ 64 ->
  get_records_for_prefix st p (Some m) true = Ok (ROk (Some [r])) ->
  exec st (MarkActive p m t) = Ok (st', x) ->
  x = OUnit (ROk tt) /\
  get_records_for_prefix st' p (Some m) true =
    Ok (ROk (Some [Rec m t (if mui_is_withdrawn st (fst p) m then Withdrawn else Active) (r_meta r)])).
Proof. exact mark_active. Qed.
Print Assumptions C22_mark_active.

(* a mark leaves the set of stored prefixes alone; C17_frame covers the other records *)
Theorem C22_prefixes_kept : forall st o st' x,
  leaves_tree o = true -> exec st o = Ok (st', x) ->
  forall q mui, contains st' q mui = contains st q mui.
Proof. exact mark_contains. Qed.
Print Assumptions C22_prefixes_kept.

Example C22_example :
  get_records_for_prefix (ran MemoryOnly (tl demo)) (v4 10 0 0 0 8) (Some 1) true =
    Ok (ROk (Some [act 1 2 [4; 4]])) /\
  next MemoryOnly (tl demo) (MarkWithdrawn (v4 10 0 0 0 8) 1 99) = Some (OUnit (ROk tt)) /\
  get_records_for_prefix (ran MemoryOnly (MarkWithdrawn (v4 10 0 0 0 8) 1 99 :: tl demo)) (v4 10 0 0 0 8)
    None true = Ok (ROk (Some [wdr 1 99 [4; 4]; act 2 3 [3]])) /\
  leaves_tree (MarkWithdrawn (v4 10 0 0 0 8) 1 99) = true.
Proof. example. Qed.

(* ---------- C23: marking an unknown prefix fails and has no effect ---------- *)

Theorem C23_error_refuted :
  ~ (forall s h st p m t st' x, in_memory s -> after s h st -> wf_prefix p ->
  m < 2 ^ 32 -> t < 2 ^ 64 -> inserted h p = false ->
  exec st (MarkWithdrawn p m t) = Ok (st', x) -> exists e, x = OUnit (RErr e)).
Proof. exact mark_unknown_ok. Qed.
Print Assumptions C23_error_refuted.

Theorem C23_effect_refuted :
  ~ (forall s h st p m t r u q, in_memory s -> wf_prefix p ->
  m < 2 ^ 32 -> t < 2 ^ 64 -> after s (Insert p r u :: h) st -> inserted h p = false ->
  exists st', after s (Insert p r u :: MarkWithdrawn p m t :: h) st' /\
    ask st' q = ask st q).
Proof. exact mark_unknown_effect. Qed.
Print Assumptions C23_effect_refuted.

(* what holds instead: the first mark fails, the second succeeds; no record query changes *)
Theorem C23_mark_unknown_partial : forall s h st p m t,
  in_memory s -> after s h st -> wf_prefix p ->
  m < 2 ^ 32 -> t < 2 ^ 64 -> touched h p = false ->
  exists st1 st2, exec st (MarkWithdrawn p m t) = Ok (st1, OUnit (RErr (mark_err s))) /\
    exec st1 (MarkWithdrawn p m t) = Ok (st2, OUnit (ROk tt)) /\
    forall q mui iw, wf_prefix q -> wf_mui mui ->
      exists a b, get_records_for_prefix st q mui iw = Ok (ROk a) /\
        get_records_for_prefix st2 q mui iw = Ok (ROk b) /\ same_records a b.
Proof. exact mark_unknown. Qed.
Print Assumptions C23_mark_unknown_partial.

Example C23_example : touched [] p_new = false /\
  next MemoryOnly [] (MarkWithdrawn p_new 1 1) = Some (OUnit (RErr PrefixNotFound)) /\
  next MemoryOnly [MarkWithdrawn p_new 1 1] (MarkWithdrawn p_new 1 1) = Some (OUnit (ROk tt)) /\
  next PersistHistory [] (MarkWithdrawn p_new 1 1) = Some (OUnit (RErr StoreNotReadyError)).
Proof. example. Qed.

(* ---------- C24: IPv4 and IPv6 do not influence each other ---------- *)

Theorem C24_families_apart : forall st o st' x q f g,
  exec st o = Ok (st', x) -> op_af o = Some g ->
  query_af q = Some f -> f <> g -> ask st' q = ask st q.
Proof. exact families_apart. Qed.
Print Assumptions C24_families_apart.

Example C24_example : next MemoryOnly demo (GlobalWithdrawn IPv6 1) = Some (OUnit (ROk tt)) /\
  op_af (GlobalWithdrawn IPv6 1) = Some IPv6 /\ query_af (QPrefixes IPv4) = Some IPv4 /\
  ask (ran MemoryOnly (GlobalWithdrawn IPv6 1 :: demo)) (QPrefixes IPv4) =
  ask (ran MemoryOnly demo) (QPrefixes IPv4) /\
  ask (ran MemoryOnly (GlobalWithdrawn IPv4 1 :: demo)) (QPrefixes IPv4) <>
  ask (ran MemoryOnly demo) (QPrefixes IPv4).
Proof. example. Qed.

(* ---------- C25: is_mui_active means active for both families ---------- *)

Theorem C25_active_refuted :
  ~ (forall s h st m, after s h st ->
  is_mui_active st m = negb (g_withdrawn h IPv4 m) && negb (g_withdrawn h IPv6 m)).
Proof. exact active_not_both. Qed.
Print Assumptions C25_active_refuted.

(* what holds instead: active for at least one family *)
Theorem C25_active_partial : forall s h st m,
  after s h st ->
  is_mui_active st m = negb (g_withdrawn h IPv4 m) || negb (g_withdrawn h IPv6 m).
Proof. exact active_both. Qed.
Print Assumptions C25_active_partial.

Example C25_example : after MemoryOnly h_gone (ran MemoryOnly h_gone) /\
  is_mui_active (ran MemoryOnly h_gone) 1 = true /\ g_withdrawn h_gone IPv4 1 = true.
Proof. example. Qed.

(* ---------- C63: the activity of a mui per family ---------- *)

Theorem C63_active_one : forall s h st f m,
  after s h st ->
  is_mui_active_af st f m = negb (g_withdrawn h f m) /\
  mui_is_withdrawn st f m = g_withdrawn h f m.
Proof. exact active_one. Qed.
Print Assumptions C63_active_one.

Example C63_example : after MemoryOnly h_gone (ran MemoryOnly h_gone) /\
  is_mui_active_af (ran MemoryOnly h_gone) IPv4 1 = false /\ is_mui_active_af (ran MemoryOnly h_gone) IPv6 1 = true /\
  mui_is_withdrawn (ran MemoryOnly h_gone) IPv4 1 = true.
Proof. example. Qed.

(* ---------- C26: insert reports prefix_new exactly for the first insert ---------- *)

Theorem C26_prefix_new : forall s h st p r u,
  in_memory s -> after s h st -> wf_prefix p -> wf_record r ->
  exists st' rep, exec st (Insert p r u) = Ok (st', OReport (ROk rep)) /\
    (rp_prefix_new rep = true <-> forall r' u', ~ In (Insert p r' u') h).
Proof. exact prefix_new_exact. Qed.
Print Assumptions C26_prefix_new.

Example C26_example :
  next MemoryOnly (tl demo) (Insert (v4 12 0 0 0 8) (act 1 1 [1]) None) =
    Some (OReport (ROk (Report 0 true true 1))) /\
  next MemoryOnly (tl demo) (Insert (v4 10 0 0 0 8) (act 1 1 [1]) None) =
    Some (OReport (ROk (Report 0 false true 2))) /\
  next MemoryOnly [] (Insert (v4 0 0 0 0 0) (act 1 1 [1]) None) = Some (OReport (ROk (Report 0 true true 1))).
Proof. example. Qed.

(* ---------- C27: insert reports mui_new and mui_count truthfully ---------- *)

Theorem C27_mui_new_refuted :
  ~ (forall s h st p r u st' rep, in_memory s -> after s h st ->
  wf_prefix p -> wf_record r -> exec st (Insert p r u) = Ok (st', OReport (ROk rep)) ->
  (rp_mui_new rep = true <-> last_rec h p (r_mui r) = None)).
Proof. exact mui_new_wrong. Qed.
Print Assumptions C27_mui_new_refuted.

Theorem C27_mui_count_refuted :
  ~ (forall s h st p r u st' rep, in_memory s -> after s h st ->
  wf_prefix p -> wf_record r -> exec st (Insert p r u) = Ok (st', OReport (ROk rep)) ->
  rp_mui_count rep = n_muis p (Insert p r u :: h)).
Proof. exact mui_count_wrong. Qed.
Print Assumptions C27_mui_count_refuted.

(* what holds instead: mui_new is always true; mui_count is right for an overwrite and 1 otherwise; 0 with PersistOnly *)
Theorem C27_report_partial : forall s h st p r u,
  after s h st -> wf_prefix p -> wf_record r ->
  exists st', exec st (Insert p r u) = Ok (st', OReport (ROk (report_spec s h p r))) /\
    after s (Insert p r u :: h) st'.
Proof. exact insert_report. Qed.
Print Assumptions C27_report_partial.

Example C27_example :
  next MemoryOnly h_one (Insert p_new (act 1 2 [2]) None) = Some (OReport (ROk (Report 0 false true 1))) /\
  next MemoryOnly h_one (Insert p_new (act 2 2 [2]) None) = Some (OReport (ROk (Report 0 false true 1))).
Proof. example. Qed.

(* ---------- C28: prefixes_count is the number of distinct inserted prefixes ---------- *)

Theorem C28_prefix_counts : forall s h st f,
  after s h st ->
  uc_total (prefixes_count_af st f) = n_prefixes f h /\
  uc_total (prefixes_count st) = n_prefixes IPv4 h + n_prefixes IPv6 h /\
  forall len, prefixes_count_for_len st f len =
    Ok (if len <=? BITS f then ROk (UCounters 0 0 (n_prefixes_len f h len))
        else RErr PrefixLengthInvalid).
Proof. exact prefix_counts. Qed.
Print Assumptions C28_prefix_counts.

(* the number that is meant *)
Theorem C28_n_prefixes : forall f h,
  exists l, NoDup l /\
  (forall id, In id l <-> exists r u, In (Insert (f, id) r u) h) /\
  n_prefixes f h = N.of_nat (length l) /\
  forall len, n_prefixes_len f h len = N.of_nat (length (filter (fun p => p_len p =? len) l)).
Proof. exact n_prefixes_spec. Qed.
Print Assumptions C28_n_prefixes.

Example C28_example : after MemoryOnly demo (ran MemoryOnly demo) /\
  uc_total (prefixes_count_af (ran MemoryOnly demo) IPv4) = 4 /\
  uc_total (prefixes_count (ran MemoryOnly demo)) = 5 /\
  prefixes_count_for_len (ran MemoryOnly demo) IPv4 24 = Ok (ROk (UCounters 0 0 1)) /\
  prefixes_count_for_len (ran MemoryOnly demo) IPv4 33 = Ok (RErr PrefixLengthInvalid).
Proof. example. Qed.

(* ---------- C29: routes_count is the number of distinct (prefix, mui) pairs ---------- *)

Theorem C29_routes_refuted :
  ~ (forall s h st f, after s h st ->
  uc_total (routes_count_af st f) = n_routes f h).
Proof. exact routes_wrong. Qed.
Print Assumptions C29_routes_refuted.

Theorem C29_memory_routes_refuted :
  ~ (forall s h st f, in_memory s -> after s h st ->
  uc_memory (routes_count_af st f) = n_routes f h).
Proof. exact memory_routes_wrong. Qed.
Print Assumptions C29_memory_routes_refuted.

Theorem C29_memory_prefixes_refuted :
  ~ (forall s h st f, in_memory s -> after s h st ->
  uc_memory (prefixes_count_af st f) = n_prefixes f h).
Proof. exact memory_prefixes_wrong. Qed.
Print Assumptions C29_memory_prefixes_refuted.

(* what holds instead: total routes count every insert, routes in memory are never counted, prefixes in memory leave out those that were marked before they were inserted *)
Theorem C29_counts_partial : forall s h st f,
  after s h st ->
  routes_count_af st f = UCounters 0 0 (n_inserts f h) /\
  prefixes_count_af st f = UCounters (match s with PersistOnly => 0 | _ => n_fresh f h end) 0
                             (n_prefixes f h).
Proof. exact all_counts. Qed.
Print Assumptions C29_counts_partial.

Theorem C29_route_totals_partial : forall s h st f,
  after s h st ->
  uc_total (routes_count_af st f) = n_inserts f h /\
  uc_total (routes_count st) = n_inserts IPv4 h + n_inserts IPv6 h.
Proof. exact route_counts. Qed.
Print Assumptions C29_route_totals_partial.

(* the number of inserts is the number of routes when no insert overwrites *)
Theorem C29_routes_partial : forall f h,
  NoDup (inserted_pairs f h) -> n_inserts f h = n_routes f h.
Proof. exact routes_no_overwrite. Qed.
Print Assumptions C29_routes_partial.

(* and the prefixes in memory are right when no mark came before the insert of its prefix *)
Theorem C29_memory_partial : forall f h,
  marks_known h -> n_fresh f h = n_prefixes f h.
Proof. exact fresh_known. Qed.
Print Assumptions C29_memory_partial.

Example C29_example : after MemoryOnly h_over (ran MemoryOnly h_over) /\
  routes_count_af (ran MemoryOnly h_over) IPv4 = UCounters 0 0 2 /\ n_routes IPv4 h_over = 1 /\
  prefixes_count_af (ran MemoryOnly demo) IPv4 = UCounters 4 0 4 /\ n_fresh IPv4 demo = 4.
Proof. example. Qed.

(* ---------- C58: PersistOnly: insert reports prefix_new truthfully ---------- *)

Theorem C58_prefix_new_refuted :
  ~ (forall h st p r u st' rep, after PersistOnly h st ->
  wf_prefix p -> wf_record r -> exec st (Insert p r u) = Ok (st', OReport (ROk rep)) ->
  (rp_prefix_new rep = true <-> inserted h p = false)).
Proof. exact persist_only_prefix_new. Qed.
Print Assumptions C58_prefix_new_refuted.

Example C58_example : next PersistOnly h_one (Insert p_new (act 1 2 [2]) None) =
    Some (OReport (ROk (Report 0 true true 0))) /\ inserted h_one p_new = true.
Proof. example. Qed.

(* ---------- C61: prefix statistics per length ---------- *)

Theorem C61_stats : forall s h st f l n,
  after s h st ->
  (In (l, n) (stats st f) <-> l <= 128 /\ n = n_prefixes_len f h l /\ n <> 0).
Proof. exact stats_ok. Qed.
Print Assumptions C61_stats.

(* each length once *)
Theorem C61_stats_once : forall s h st f,
  after s h st ->
  NoDup (List.map fst (stats st f)).
Proof. exact more_stats_sorted. Qed.
Print Assumptions C61_stats_once.

Example C61_example : after MemoryOnly demo (ran MemoryOnly demo) /\
  stats (ran MemoryOnly demo) IPv4 = [(8, 1); (16, 1); (24, 1); (25, 1)] /\
  stats (ran MemoryOnly demo) IPv6 = [(32, 1)].
Proof. example. Qed.
