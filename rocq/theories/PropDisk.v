(* Properties of the persistence strategies, and of every call. *)
From Coq Require Import Arith NArith List Bool Lia Permutation.
From Verif Require Import Word Af BitSpan Spec Maps ChtMath Cht Node Tree Iter MultiMap PrefixCht Lsm
  LsmProofs RecordSet Rib StarCast HistSpec Ask PropSpec Facts1 Facts2 Facts3 Facts4 Facts5 Facts6
  Examples Refute.
Import ListNotations.
Local Open Scope N_scope.

(* ---------- C35: PersistOnly answers from disk like a map ---------- *)

Theorem C35_map : forall h st p mui iw,
  after PersistOnly h st -> existsb local_mark h = false ->
  wf_prefix p -> wf_mui mui ->
  exists o, get_records_for_prefix st p mui iw = Ok (ROk o) /\ answers (view_map h p mui iw) o.
Proof. exact persist_only_map. Qed.
Print Assumptions C35_map.

Definition C35_history : list op := filter (fun o => negb (local_mark o)) demo.
Example C35_example : after PersistOnly C35_history (ran PersistOnly C35_history) /\
  existsb local_mark C35_history = false /\
  get_records_for_prefix (ran PersistOnly C35_history) (v4 10 0 0 0 8) None true =
    Ok (ROk (Some [act 1 2 [4; 4]; act 2 3 [3]])) /\
  get_records_for_prefix (ran PersistOnly C35_history) (v6 8193 3512 32) None false = Ok (ROk None).
Proof. example. Qed.

(* ---------- C36: PersistOnly: local marks keep the meta data and take effect ---------- *)

Theorem C36_withdrawn_refuted :
  ~ (forall h st p m t r st' x, after PersistOnly h st -> wf_prefix p ->
  m < 2 ^ 32 -> t < 2 ^ 64 ->
  get_records_for_prefix st p (Some m) true = Ok (ROk (Some [r])) ->
  exec st (MarkWithdrawn p m t) = Ok (st', x) ->
  get_records_for_prefix st' p (Some m) true = Ok (ROk (Some [Rec m t Withdrawn (r_meta r)]))).
Proof. exact persist_only_mark_drops. Qed.
Print Assumptions C36_withdrawn_refuted.

Theorem C36_active_refuted :
  ~ (forall h st p m t r st' x, after PersistOnly h st ->
  wf_prefix p -> m < 2 ^ 32 -> t < 2 ^ 64 ->
  get_records_for_prefix st p (Some m) true = Ok (ROk (Some [r])) ->
  exec st (MarkActive p m t) = Ok (st', x) ->
  exists r', get_records_for_prefix st' p (Some m) true = Ok (ROk (Some [r'])) /\ r_status r' = Active).
Proof. exact persist_only_mark_active_ignored. Qed.
Print Assumptions C36_active_refuted.

(* a withdrawal takes effect and empties the meta data *)
Theorem C36_withdrawn_partial : forall h st st' x p m t r,
  after PersistOnly h st -> wf_prefix p ->
  m < 2 ^ 32 -> t < 2 ^ 64 -> on_disk st p r -> r_mui r = m ->
  exec st (MarkWithdrawn p m t) = Ok (st', x) ->
  x = OUnit (ROk tt) /\ on_disk st' p (Rec m t Withdrawn []).
Proof. exact persist_only_mark_withdrawn. Qed.
Print Assumptions C36_withdrawn_partial.

(* an activation takes effect only on empty meta data *)
Theorem C36_active_partial : forall h st st' x p m t r,
  after PersistOnly h st -> wf_prefix p ->
  m < 2 ^ 32 -> t < 2 ^ 64 -> on_disk st p r -> r_mui r = m ->
  exec st (MarkActive p m t) = Ok (st', x) ->
  x = OUnit (ROk tt) /\
  on_disk st' p (match r_meta r with [] => Rec m t Active [] | _ => r end).
Proof. exact persist_only_mark_active. Qed.
Print Assumptions C36_active_partial.

Example C36_example : after PersistOnly h_one (ran PersistOnly h_one) /\
  on_disk (ran PersistOnly h_one) p_new (act 1 1 [1]) /\
  on_disk (ran PersistOnly (MarkWithdrawn p_new 1 5 :: h_one)) p_new (wdr 1 5 []) /\
  on_disk (ran PersistOnly (MarkActive p_new 1 6 :: MarkWithdrawn p_new 1 5 :: h_one)) p_new (act 1 6 []) /\
  on_disk (ran PersistOnly (MarkActive p_new 1 6 :: h_one)) p_new (act 1 1 [1]).
Proof. example. Qed.

(* ---------- C37: WriteAhead: everything inserted is on disk, and nothing else ---------- *)

Theorem C37_write_ahead : forall h st p r,
  after WriteAhead h st ->
  (on_disk st p r <-> exists h1 u h2, h = h1 ++ Insert p r u :: h2 /\
     forall r' u', In (Insert p r' u') h1 -> key_of r' <> key_of r).
Proof. exact write_ahead_disk. Qed.
Print Assumptions C37_write_ahead.

Example C37_example : after WriteAhead demo (ran WriteAhead demo) /\
  on_disk (ran WriteAhead demo) (v4 10 0 0 0 8) (act 1 1 [6]) /\
  on_disk (ran WriteAhead demo) (v4 10 0 0 0 8) (act 1 2 [4; 4]) /\
  on_disk (ran WriteAhead demo) (v4 10 1 0 0 16) (act 2 5 [7]) /\
  length (disk (ran WriteAhead demo) IPv4) = 7%nat.
Proof. example. Qed.

(* ---------- C38: PersistHistory: superseded records are on disk ---------- *)

Theorem C38_insert : forall h st st' x p r u,
  after PersistHistory h st -> wf_prefix p -> wf_record r ->
  exec st (Insert p r u) = Ok (st', x) ->
  (forall old, get_records_for_prefix st p (Some (r_mui r)) true = Ok (ROk (Some [old])) ->
     mui_is_withdrawn st (fst p) (r_mui r) = false -> on_disk st' p old) /\
  (get_records_for_prefix st p (Some (r_mui r)) true = Ok (ROk None) ->
     forall q r', on_disk st' q r' <-> on_disk st q r') /\
  (forall q r', on_disk st q r' ->
     ~ (q = p /\ exists old, last_rec h p (r_mui r) = Some old /\ key_of r' = key_of old) ->
     on_disk st' q r').
Proof. exact history_insert. Qed.
Print Assumptions C38_insert.

(* what any call changes on disk *)
Theorem C38_step : forall h st o st' x p r,
  after PersistHistory h st -> wf_op o ->
  exec st o = Ok (st', x) ->
  (on_disk st' p r <->
   match superseded h o with
   | Some w => (p, r) = w \/ (~ (fst w = p /\ key_of (snd w) = key_of r) /\ on_disk st p r)
   | None => on_disk st p r
   end).
Proof. exact history_step. Qed.
Print Assumptions C38_step.

Example C38_example : after PersistHistory demo (ran PersistHistory demo) /\
  disk (ran PersistHistory demo) IPv4 =
    [Some (v4 10 0 0 0 8, act 1 1 [6]); Some (v4 10 1 0 0 16, wdr 2 9 [])].
Proof. example. Qed.

(* ---------- C39: history records carry the right status ---------- *)

Theorem C39_active_refuted :
  ~ (forall h st p m t r st' x, after PersistHistory h st ->
  wf_prefix p -> m < 2 ^ 32 -> t < 2 ^ 64 ->
  get_records_for_prefix st p (Some m) true = Ok (ROk (Some [r])) ->
  exec st (MarkActive p m t) = Ok (st', x) ->
  exists r', on_disk st' p r' /\ r_mui r' = m /\ r_ltime r' = t /\ r_status r' = Active).
Proof. exact history_active_wrong. Qed.
Print Assumptions C39_active_refuted.

(* what holds instead: every mark leaves a Withdrawn history record *)
Theorem C39_mark_partial : forall h st st' x p m t r (w : bool),
  after PersistHistory h st -> wf_prefix p ->
  m < 2 ^ 32 -> t < 2 ^ 64 ->
  get_records_for_prefix st p (Some m) true = Ok (ROk (Some [r])) ->
  exec st (if w then MarkWithdrawn p m t else MarkActive p m t) = Ok (st', x) ->
  on_disk st' p (Rec m t Withdrawn []).
Proof. exact history_mark. Qed.
Print Assumptions C39_mark_partial.

Example C39_example : after PersistHistory h_one (ran PersistHistory h_one) /\
  get_records_for_prefix (ran PersistHistory h_one) p_new (Some 1) true = Ok (ROk (Some [act 1 1 [1]])) /\
  disk (ran PersistHistory (MarkActive p_new 1 5 :: h_one)) IPv4 = [Some (p_new, wdr 1 5 [])].
Proof. example. Qed.

(* ---------- C40: the in-memory strategies answer alike ---------- *)

Theorem C40_queries : forall h s1 s2 st1 st2 q,
  in_memory s1 -> in_memory s2 ->
  after s1 h st1 -> after s2 h st2 -> about_disk q = false -> ask st1 q = ask st2 q.
Proof. exact strategies_alike. Qed.
Print Assumptions C40_queries.

Theorem C40_calls : forall h s1 s2 st1 st2 o,
  in_memory s1 -> in_memory s2 ->
  after s1 h st1 -> after s2 h st2 -> wf_op o ->
  exists st1' x st2' y, exec st1 o = Ok (st1', x) /\ exec st2 o = Ok (st2', y) /\ same_outcome x y.
Proof. exact calls_alike. Qed.
Print Assumptions C40_calls.

Example C40_example : after MemoryOnly demo (ran MemoryOnly demo) /\ after WriteAhead demo (ran WriteAhead demo) /\
  in_memory WriteAhead /\ about_disk (QMatch (v4 10 1 2 3 32) (longest_opts false None)) = false /\
  ask (ran MemoryOnly demo) (QMatch (v4 10 1 2 3 32) (longest_opts false None)) =
  ask (ran WriteAhead demo) (QMatch (v4 10 1 2 3 32) (longest_opts false None)).
Proof. example. Qed.

(* ---------- C41: PersistOnly answers like the in-memory strategies ---------- *)

Theorem C41_alike_refuted :
  ~ (forall h st1 st2 p mui iw a b, after MemoryOnly h st1 ->
  after PersistOnly h st2 -> wf_prefix p -> wf_mui mui ->
  get_records_for_prefix st1 p mui iw = Ok (ROk a) ->
  get_records_for_prefix st2 p mui iw = Ok (ROk b) -> same_records a b).
Proof. exact persist_only_differs. Qed.
Print Assumptions C41_alike_refuted.

(* it does for active records without local marks, unless the query names a mui that is withdrawn globally *)
Theorem C41_alike_partial : forall s h st1 st2 p mui iw,
  in_memory s -> after s h st1 ->
  after PersistOnly h st2 -> all_active h -> not_hidden h (fst p) mui iw -> wf_prefix p ->
  wf_mui mui ->
  exists a b, get_records_for_prefix st1 p mui iw = Ok (ROk a) /\
    get_records_for_prefix st2 p mui iw = Ok (ROk b) /\ same_records a b.
Proof. exact persist_only_alike. Qed.
Print Assumptions C41_alike_partial.

Definition C41_history : list op := filter (fun o => negb (local_mark o)) demo.
Example C41_example : after MemoryOnly C41_history (ran MemoryOnly C41_history) /\
  after PersistOnly C41_history (ran PersistOnly C41_history) /\
  forallb (fun o => match o with Insert _ r _ => status_eqb (r_status r) Active | _ => negb (local_mark o) end)
    C41_history = true /\
  get_records_for_prefix (ran PersistOnly C41_history) (v6 8193 3512 32) None true = Ok (ROk (Some [wdr 3 8 [1]])).
Proof. example. Qed.

(* ---------- C42: iterating persisted prefixes returns every persisted record ---------- *)

Theorem C42_iter_refuted :
  ~ (forall s h st p r, s <> MemoryOnly -> after s h st -> on_disk st p r ->
  exists l rs, persist_prefixes_iter_af st (fst p) = Ok l /\ In (ROk (p, rs)) l /\ In r rs).
Proof. exact persist_iter_fails. Qed.
Print Assumptions C42_iter_refuted.

(* it does if no record on disk has meta data *)
Theorem C42_no_meta_partial : forall s h st f,
  keeps_long s -> after s h st ->
  (forall p r, fst p = f -> on_disk st p r -> r_meta r = []) ->
  exists G, persist_prefixes_iter_af st f = Ok (List.map ROk G) /\
    NoDup (List.map (@fst prefix (list record)) G) /\
    (forall p rs, In (p, rs) G -> rs <> [] /\ fst p = f) /\
    (forall p r, (exists rs, In (p, rs) G /\ In r rs) <-> fst p = f /\ on_disk st p r).
Proof. exact persist_iter_no_meta. Qed.
Print Assumptions C42_no_meta_partial.

(* it yields an error per record if all records on disk have meta data *)
Theorem C42_errors_partial : forall s h st f,
  s <> MemoryOnly -> after s h st ->
  (forall p r, fst p = f -> on_disk st p r -> r_meta r <> []) ->
  persist_prefixes_iter_af st f = Ok (repeat (RErr FatalErr) (length (disk st f))).
Proof. exact persist_iter_all_errors. Qed.
Print Assumptions C42_errors_partial.

(* the same for both families *)
Theorem C42_both_no_meta_partial : forall s h st,
  keeps_long s -> after s h st ->
  (forall p r, on_disk st p r -> r_meta r = []) ->
  exists G, persist_prefixes_iter st = Ok (List.map ROk G) /\
    NoDup (List.map (@fst prefix (list record)) G) /\
    (forall p rs, In (p, rs) G -> rs <> []) /\
    (forall p r, (exists rs, In (p, rs) G /\ In r rs) <-> on_disk st p r).
Proof. exact persist_both_no_meta. Qed.
Print Assumptions C42_both_no_meta_partial.

Theorem C42_both_errors_partial : forall s h st,
  s <> MemoryOnly -> after s h st ->
  (forall p r, on_disk st p r -> r_meta r <> []) ->
  persist_prefixes_iter st = Ok (repeat (RErr FatalErr) (length (disk st IPv4) + length (disk st IPv6))).
Proof. exact persist_both_errors. Qed.
Print Assumptions C42_both_errors_partial.

Example C42_example : after WriteAhead h_one (ran WriteAhead h_one) /\
  on_disk (ran WriteAhead h_one) p_new (act 1 1 [1]) /\
  persist_prefixes_iter_af (ran WriteAhead h_one) IPv4 = Ok [RErr FatalErr] /\
  persist_prefixes_iter_af (ran WriteAhead [Insert p_new (act 1 1 []) None]) IPv4 =
    Ok [ROk (p_new, [act 1 1 []])].
Proof. example. Qed.

(* ---------- C53: no sequential operation panics or fails internally ---------- *)

(* every call returns, with the result that the history dictates *)
Theorem C53_calls : forall s h st o,
  after s h st -> wf_op o ->
  exists st' x, exec st o = Ok (st', x) /\ after s (o :: h) st' /\ outcome_spec s h o x.
Proof. exact exec_total. Qed.
Print Assumptions C53_calls.

(* every query returns *)
Theorem C53_queries : forall s h st q,
  after s h st -> wf_query q -> exists a, ask st q = Ok a.
Proof. exact ask_total. Qed.
Print Assumptions C53_queries.

(* insert returns a report *)
Theorem C53_insert : forall s h st p r u,
  after s h st -> wf_prefix p -> wf_record r ->
  exists st', exec st (Insert p r u) = Ok (st', OReport (ROk (report_spec s h p r))) /\
    after s (Insert p r u :: h) st'.
Proof. exact insert_report. Qed.
Print Assumptions C53_insert.

Example C53_example : after PersistOnly demo (ran PersistOnly demo) /\
  next PersistOnly demo (MarkActive (v4 0 0 0 0 0) 1 1) = Some (OUnit (ROk tt)) /\
  match ask (ran PersistOnly demo) QAllPersisted with Ok _ => true | _ => false end = true.
Proof. example. Qed.

(* ---------- C62: flush_to_disk succeeds iff there is something to flush to ---------- *)

Theorem C62_flush : forall s h st,
  after s h st ->
  flush_to_disk st = match s with MemoryOnly => RErr PersistFailed | _ => ROk tt end.
Proof. exact flush_ok. Qed.
Print Assumptions C62_flush.

Example C62_example : after MemoryOnly demo (ran MemoryOnly demo) /\
  flush_to_disk (ran MemoryOnly demo) = RErr PersistFailed /\ flush_to_disk (ran WriteAhead demo) = ROk tt.
Proof. example. Qed.

(* ---------- C65: the data on disk always decode ---------- *)

(* to records of the right family, each once *)
Theorem C65_decodes : forall s h st f,
  after s h st ->
  exists d, disk st f = List.map Some d /\ NoDup d /\ forall p r, In (p, r) d -> fst p = f.
Proof. exact disk_decodes. Qed.
Print Assumptions C65_decodes.

(* MemoryOnly writes nothing *)
Theorem C65_memory_only : forall h st p r,
  after MemoryOnly h st -> ~ on_disk st p r.
Proof. exact memory_no_disk. Qed.
Print Assumptions C65_memory_only.

(* PersistOnly keeps one record per pair *)
Theorem C65_persist_only : forall h st p r,
  after PersistOnly h st ->
  (on_disk st p r <-> po_rec h p (r_mui r) = Some r).
Proof. exact persist_only_disk. Qed.
Print Assumptions C65_persist_only.

Example C65_example : after PersistOnly demo (ran PersistOnly demo) /\
  disk (ran PersistOnly demo) IPv4 =
    [Some (v4 10 0 0 0 8, act 1 2 [4; 4]); Some (v4 10 0 0 0 8, act 2 3 [3]);
     Some (v4 10 1 0 0 16, act 1 4 [9]); Some (v4 10 1 0 0 16, wdr 2 9 []);
     Some (v4 10 1 2 0 24, act 1 6 [5; 5]); Some (v4 10 1 2 128 25, act 1 7 [8])].
Proof. example. Qed.

(* ---------- C64: every call returns what the history of calls dictates ---------- *)

Theorem C64_results : forall s h st o,
  after s h st -> wf_op o ->
  exists st' x, exec st o = Ok (st', x) /\ after s (o :: h) st' /\ outcome_spec s h o x.
Proof. exact exec_total. Qed.
Print Assumptions C64_results.

Example C64_example : after WriteAhead demo (ran WriteAhead demo) /\
  next WriteAhead demo (MarkActive (v4 99 0 0 0 8) 1 1) = Some (OUnit (RErr FatalErr)) /\
  next WriteAhead demo (Calculate (v4 99 0 0 0 8) by_byte) = Some (OSel (RErr StoreNotReadyError)) /\
  next WriteAhead demo (Insert (v4 10 0 0 0 8) (act 2 9 [1]) None) = Some (OReport (ROk (Report 0 false true 2))).
Proof. example. Qed.
