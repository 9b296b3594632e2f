(* Properties of match_prefix and of the iterators on a weak memory. *)
From Coq Require Import Arith NArith List Bool Lia.
From Verif Require Import Word Af BitSpan Spec Maps Cht Node Tree Iter MultiMap RecordSet PrefixCht Rib StarCast HistSpec
  Conc ConcTree ConcStore ConcTable ConcMarks ConcSpec ConcScan ConcWhole ConcQuery QuerySpec WeakTree WeakTreeRun WeakTable WeakTableFacts
  WeakTableRun WeakScanRun WeakStore WeakStoreInv WeakStoreFacts WeakStoreEnds WeakStoreRun WeakMatch WeakMatchInv WeakMatchFacts WeakMatchEnds WeakMatchReturns
  WeakMatchRun WeakPtr WeakPtrRace WeakPtrFacts WeakPtrRun WeakMatchMarks.
Import ListNotations.
Local Open Scope N_scope.

Definition p16 : pid := (167837696, 16).   (* 10.1.0.0/16 *)
Definition all_of : matchopts := MatchOpts LongestMatch true true true None false.
(* thread 0 inserts 8.0.0.0/6, 10.0.0.0/8 and 10.1.0.0/16 and tells thread 1, which is to ask *)
Definition three_told : list vev :=
  [VSpawn; VSpawn; VLock p8; VLock p10; VLock p16; VLock p172] ++
  vinsert 0 p8 reca ++ vinsert 0 p10 recb ++ vinsert 0 p16 reca ++ [VTold 0 1].
(* beside it thread 0 inserts 172.16.0.0/12, and 10.0.0.0/8 again for another mui *)
Definition in_between : qev := QCalls (vinsert 0 p172 recb ++ vinsert 0 p10 reca).
Definition asks_all : list qev := [QOwn 300; QLook 90; in_between; QOwn 300; QLook 90; QOwn 300; QLook 90; QOwn 300].
Definition goes_on : list qev := [QOwn 300; QLook 90; QOwn 300; in_between; QLook 90; QOwn 300; QLook 90; QOwn 300].
Definition ends_with {Q : Type} (o : option (nat * sconf * Q)) (q : Q) : Prop :=
  match o with Some (_, _, q') => q' = q | None => False end.
(* ---------- C103: on a weak memory match_prefix takes into account what happened before it ---------- *)

(* it neither panics nor fails *)
Theorem C103_ends : forall f ov B p o i x0 n x q,
  store_reach f ov x0 -> wf_pid f p -> smatching f ov B p o i x0 n x q ->
  match_over q = true -> exists r, q = AtEnd (ROk r).
Proof. exact wmatch_ends. Qed.
Print Assumptions C103_ends.

(* it ends: its own steps and its look-ups are bounded whatever the others do; a look-up by C96 *)
Theorem C103_bounded : forall f ov B p o i x0 n x q,
  store_reach f ov x0 -> wf_pid f p -> smatching f ov B p o i x0 n x q ->
  N.of_nat n <= 2 ^ 207.
Proof. exact wmatch_bound. Qed.
Print Assumptions C103_bounded.

(* the match covers the prefix asked for; its records are those after some of the critical sections, among them those of all inserts of it that happened before *)
Theorem C103_main : forall f ov B p o i x0 past0 n x r,
  store_reach f ov x0 -> wf_pid f p ->
  nth_error (sc_sts x0) i = Some (SThread SIdle past0) -> smatching f ov B p o i x0 n x (AtEnd (ROk r)) ->
  match qr_prefix r with
  | None => qr_type r = EmptyMatch /\ qr_records r = []
  | Some a => qr_type r = (match mo_type o with ExactMatch => ExactMatch | _ => LongestMatch end) /\
      qr_records r <> [] /\
      exists c, a = (f, c) /\ 0 < p_len c /\ covers f c p /\ (mo_type o = ExactMatch -> c = p) /\
        read_of B past0 x c (mo_mui o) (mo_withdrawn o) (Some (qr_records r)) /\ known_by x i c
  end.
Proof. exact wmatch_main. Qed.
Print Assumptions C103_main.

(* so it is for every less specific, each given once *)
Theorem C103_less : forall f ov B p o i x0 past0 n x r,
  store_reach f ov x0 -> wf_pid f p ->
  nth_error (sc_sts x0) i = Some (SThread SIdle past0) -> smatching f ov B p o i x0 n x (AtEnd (ROk r)) ->
  if mo_less o then exists rs l, qr_less r = Some rs /\ rs_items rs = Ok l /\ NoDup (List.map fst l) /\
    forall a v, In (a, v) l -> exists c, a = (f, c) /\ 0 < p_len c /\ p_len c < p_len p /\ covers f c p /\
      read_of B past0 x c (mo_mui o) (mo_withdrawn o) (Some v) /\ known_by x i c
  else qr_less r = None.
Proof. exact wmatch_less. Qed.
Print Assumptions C103_less.

(* and for every more specific *)
Theorem C103_more : forall f ov B p o i x0 past0 n x r,
  store_reach f ov x0 -> wf_pid f p ->
  nth_error (sc_sts x0) i = Some (SThread SIdle past0) -> smatching f ov B p o i x0 n x (AtEnd (ROk r)) ->
  if mo_more o then exists rs l, qr_more r = Some rs /\ rs_items rs = Ok l /\ NoDup (List.map fst l) /\
    forall a v, In (a, v) l -> exists c, a = (f, c) /\ 0 < p_len c /\ c <> p /\ covers f p c /\
      read_of B past0 x c (mo_mui o) (mo_withdrawn o) (Some v) /\ known_by x i c
  else qr_more r = None.
Proof. exact wmatch_more. Qed.
Print Assumptions C103_more.

(* no less specific that happened before is left out unless the look-up of its records gives none *)
Theorem C103_less_complete : forall f ov B p o i x0 past0 n x r,
  store_reach f ov x0 -> wf_pid f p ->
  nth_error (sc_sts x0) i = Some (SThread SIdle past0) -> smatching f ov B p o i x0 n x (AtEnd (ROk r)) -> mo_less o = true ->
  forall c rc, In (c, rc) past0 -> 0 < p_len c -> p_len c < p_len p -> covers f c p ->
    exists v, read_of B past0 x c (mo_mui o) (mo_withdrawn o) v /\ forall l, v = Some l -> in_set (qr_less r) ((f, c), l).
Proof. exact wmatch_less_complete. Qed.
Print Assumptions C103_less_complete.

(* the longest match is the one of a prefix no shorter than any that happened before; it is empty if that has no records to show *)
Theorem C103_longest : forall f ov B p o i x0 past0 n x r,
  store_reach f ov x0 -> wf_pid f p ->
  nth_error (sc_sts x0) i = Some (SThread SIdle past0) -> smatching f ov B p o i x0 n x (AtEnd (ROk r)) ->
  forall q rq, In (q, rq) past0 -> 0 < p_len q -> covers f q p -> (mo_type o = ExactMatch -> q = p) ->
    exists c v, In c (wc_called (sc_tree x)) /\ covers f c p /\ p_len q <= p_len c /\
      read_of B past0 x c (mo_mui o) (mo_withdrawn o) v /\
      match v with
      | Some (a :: l) => qr_prefix r = Some (f, c) /\ qr_records r = a :: l
      | _ => qr_prefix r = None
      end.
Proof. exact wmatch_longest. Qed.
Print Assumptions C103_longest.

(* 10.0.0.0/8 is asked for; what is done in between to it comes too late *)
Example C103_example : exists n x r, match_run p10 all_of 1 three_told asks_all = Some (n, x, AtEnd (ROk r)) /\
  store_reach IPv4 true (vend three_told) /\ smatching IPv4 true no_marks p10 all_of 1 (vend three_told) n x (AtEnd (ROk r)) /\
  r = QueryResult LongestMatch (Some (IPv4, p10)) [recb] (Some (RecordSet [((IPv4, p8), [reca])] []))
        (Some (RecordSet [((IPv4, p16), [reca])] [])).
Proof.
  destruct (match_run p10 all_of 1 three_told asks_all) as [[[n x] q]|] eqn:E.
  2:{ vm_compute in E. discriminate E. }
  assert (F : ends_with (match_run p10 all_of 1 three_told asks_all)
    (AtEnd (ROk (QueryResult LongestMatch (Some (IPv4, p10)) [recb] (Some (RecordSet [((IPv4, p8), [reca])] []))
        (Some (RecordSet [((IPv4, p16), [reca])] [])))))) by (vm_compute; reflexivity).
  rewrite E in F. cbn [ends_with] in F. subst q. eexists n, x, _. split; [reflexivity|].
  apply match_run_ok in E; [|vm_compute; reflexivity|vm_compute; reflexivity]. destruct E as (R & M). auto.
Qed.

(* ---------- C104: on a weak memory the more specifics are complete for a thread that knows of every insert; without this more specifics and longest match can miss what is known ---------- *)

(* for a thread that knows of all inserts that were called *)
Theorem C104_more_partial : forall f ov B p o i x0 past0 n x r,
  store_reach f ov x0 -> wf_pid f p ->
  nth_error (sc_sts x0) i = Some (SThread SIdle past0) -> smatching f ov B p o i x0 n x (AtEnd (ROk r)) -> mo_more o = true ->
  (forall c, In c (wc_called (sc_tree x)) -> exists rc, In (c, rc) past0) ->
  forall c rc, In (c, rc) past0 -> 0 < p_len c -> p_len p < p_len c -> covers f p c ->
    exists v, read_of B past0 x c (mo_mui o) (mo_withdrawn o) v /\ forall l, v = Some l -> in_set (qr_more r) ((f, c), l).
Proof. exact wmatch_more_complete. Qed.
Print Assumptions C104_more_partial.

(* otherwise one that is known can be missing, though nothing is under way *)
Theorem C104_more_refuted :
  ~ (forall f ov p o i x0 past0 n x r, store_reach f ov x0 -> at_rest x0 -> all_active x0 -> wf_pid f p ->
    nth_error (sc_sts x0) i = Some (SThread SIdle past0) -> smatching f ov no_marks p o i x0 n x (AtEnd (ROk r)) ->
    wc_called (sc_tree x) = wc_called (sc_tree x0) -> slog x = slog x0 ->
    mo_more o = true -> mo_mui o = None ->
    forall c rc, In (c, rc) past0 -> 0 < p_len c -> p_len p < p_len c -> covers f p c ->
    exists l, in_set (qr_more r) ((f, c), l)).
Proof. exact wmore_missing_refuted. Qed.
Print Assumptions C104_more_refuted.

(* and the longest match can be empty *)
Theorem C104_longest_refuted :
  ~ (forall f ov p o i x0 past0 n x r, store_reach f ov x0 -> at_rest x0 -> all_active x0 -> wf_pid f p ->
    nth_error (sc_sts x0) i = Some (SThread SIdle past0) -> smatching f ov no_marks p o i x0 n x (AtEnd (ROk r)) ->
    wc_called (sc_tree x) = wc_called (sc_tree x0) -> slog x = slog x0 ->
    mo_type o = LongestMatch -> mo_mui o = None ->
    forall q rq, In (q, rq) past0 -> 0 < p_len q -> covers f q p -> qr_prefix r <> None).
Proof. exact wlongest_empty_refuted. Qed.
Print Assumptions C104_longest_refuted.

(* the hypothesis of the first is met by thread 1 above, as long as nothing more is inserted *)
Example C104_more_example : ends_with (match_run p8 more_of 1 three_told [QOwn 300; QLook 90; QOwn 300; QLook 90; QOwn 300; QLook 90; QOwn 300])
  (AtEnd (ROk (QueryResult ExactMatch (Some (IPv4, p8)) [reca] None
    (Some (RecordSet [((IPv4, p10), [recb]); ((IPv4, p16), [reca])] []))))) /\
  List.map fst (match nth_error (sc_sts (vend three_told)) 1 with Some s => st_past s | None => [] end) = [p16; p10; p8] /\
  wc_called (sc_tree (vend three_told)) = [p8; p10; p16].
Proof. split; [vm_compute; reflexivity|]. split; vm_compute; reflexivity. Qed.
(* the longest match of 10.0.0.0/8 with 8.0.0.0/6 known: nothing *)
Example C104_longest_example : ends_with (match_run p10 longest_of 1 bit_only asks_once)
  (AtEnd (ROk (QueryResult EmptyMatch None [] None None))) /\
  nth_error (sc_sts (vend bit_only)) 1 = Some (SThread SIdle [(p8, reca)]).
Proof. split; vm_compute; reflexivity. Qed.

(* ---------- C105: on a weak memory an iterator gives prefixes that are inserted, each once, with records that take into account what happened before it; it gives all for a thread that knows of every insert ---------- *)

(* it neither panics nor fails *)
Theorem C105_ends : forall f ov B k i x0 n x q,
  store_reach f ov x0 -> wf_each f k -> siterating f ov B k i x0 n x q ->
  each_over q = true -> exists g, q = ItEnd g.
Proof. exact weach_ends. Qed.
Print Assumptions C105_ends.

(* it ends: its own steps and its look-ups are bounded whatever the others do *)
Theorem C105_bounded : forall f ov B k i x0 n x q,
  store_reach f ov x0 -> wf_each f k -> siterating f ov B k i x0 n x q ->
  N.of_nat n <= 2 ^ 207.
Proof. exact weach_bound. Qed.
Print Assumptions C105_bounded.

(* what is given *)
Theorem C105_sound : forall f ov B k i x0 past0 n x g,
  store_reach f ov x0 -> wf_each f k ->
  nth_error (sc_sts x0) i = Some (SThread SIdle past0) -> siterating f ov B k i x0 n x (ItEnd g) ->
  NoDup (prefixes_given g) /\
  forall r, In r g -> exists c v l, r = ROk ((f, c), l) /\ 0 < p_len c /\ each_of f k c /\ In c (wc_called (sc_tree x)) /\
    read_of B past0 x c (each_mui k) (each_iw k) v /\ each_gives k v l /\ (v <> None -> known_by x i c).
Proof. exact weach_sound. Qed.
Print Assumptions C105_sound.

(* all that happened before, for the less specifics without more ado; for the others if the thread knows of all inserts that were called *)
Theorem C105_complete_partial : forall f ov B k i x0 past0 n x g,
  store_reach f ov x0 -> wf_each f k ->
  nth_error (sc_sts x0) i = Some (SThread SIdle past0) -> siterating f ov B k i x0 n x (ItEnd g) ->
  match k with EachLess _ _ _ => True | _ => forall c, In c (wc_called (sc_tree x)) -> exists rc, In (c, rc) past0 end ->
  each_looks f k ->
  (g = [] /\ exists m bmin, each_asks k = Some m /\ B bmin /\ In m bmin) \/
  forall c rc, In (c, rc) past0 -> 0 < p_len c -> each_of f k c ->
    exists v, read_of B past0 x c (each_mui k) (each_iw k) v /\ forall l, each_gives k v l -> In (ROk ((f, c), l)) g.
Proof. exact weach_complete. Qed.
Print Assumptions C105_complete_partial.

(* otherwise the iterator over all prefixes can miss one that is known, though nothing is under way *)
Theorem C105_complete_refuted :
  ~ (forall f ov i x0 past0 n x g, store_reach f ov x0 -> at_rest x0 -> all_active x0 ->
    nth_error (sc_sts x0) i = Some (SThread SIdle past0) -> siterating f ov no_marks EachPrefix i x0 n x (ItEnd g) ->
    wc_called (sc_tree x) = wc_called (sc_tree x0) -> slog x = slog x0 ->
    forall c rc, In (c, rc) past0 -> 0 < p_len c -> exists l, In (ROk ((f, c), l)) g).
Proof. exact weach_missing_refuted. Qed.
Print Assumptions C105_complete_refuted.

(* the second record of 10.0.0.0/8 is inserted after the iterator begins; 172.16.0.0/12 too, and is not told *)
Example C105_example : exists n x g, each_run EachPrefix 1 three_told goes_on = Some (n, x, ItEnd g) /\
  store_reach IPv4 true (vend three_told) /\ siterating IPv4 true no_marks EachPrefix 1 (vend three_told) n x (ItEnd g) /\
  g = [ROk ((IPv4, p8), [reca]); ROk ((IPv4, p10), [recb; reca]); ROk ((IPv4, p16), [reca])].
Proof.
  destruct (each_run EachPrefix 1 three_told goes_on) as [[[n x] q]|] eqn:E.
  2:{ vm_compute in E. discriminate E. }
  assert (F : ends_with (each_run EachPrefix 1 three_told goes_on)
    (ItEnd [ROk ((IPv4, p8), [reca]); ROk ((IPv4, p10), [recb; reca]); ROk ((IPv4, p16), [reca])])) by (vm_compute; reflexivity).
  rewrite E in F. cbn [ends_with] in F. subst q. eexists n, x, _. split; [reflexivity|].
  apply each_run_ok in E; [|vm_compute; reflexivity|vm_compute; reflexivity]. destruct E as (R & M). auto.
Qed.
Example C105_less_example : ends_with
    (each_run (EachLess p16 None true) 1 three_told [QOwn 300; QLook 90; QOwn 300; in_between; QLook 90; QOwn 300])
  (ItEnd [ROk ((IPv4, p10), [recb]); ROk ((IPv4, p8), [reca])]).
Proof. vm_compute. reflexivity. Qed.

(* ---------- C106: on a weak memory a call or a query that is left alone returns, whatever the others are in the middle of ---------- *)

(* insert, contains, the marks and the records of a prefix; when an insert returns it has happened before what follows *)
Theorem C106_call : forall f ov x i s past,
  store_reach f ov x -> nth_error (sc_sts x) i = Some (SThread s past) -> ~ is_lock s ->
  (forall p r, s = SIns p r -> no_overflow ov p) ->
  exists y past', store_exec f ov x y /\ by_alone i x y /\ nth_error (sc_sts y) i = Some (SThread SIdle past') /\
    incl past past' /\ incl (its_insert s) past'.
Proof. exact store_returns. Qed.
Print Assumptions C106_call.

(* match_prefix, from wherever it is *)
Theorem C106_match : forall f ov (B : nset -> Prop) p o i x0 n x q s past bmin,
  store_reach f ov x0 -> wf_pid f p -> B bmin -> smatching f ov B p o i x0 n x q ->
  nth_error (sc_sts x) i = Some (SThread s past) -> (forall p r, s = SIns p r -> no_overflow ov p) ->
  exists n' x' r, smatching f ov B p o i x0 n' x' (AtEnd (ROk r)) /\ store_exec f ov x x' /\ by_alone i x x'.
Proof. exact wmatch_returns. Qed.
Print Assumptions C106_match.

(* the iterators *)
Theorem C106_each : forall f ov (B : nset -> Prop) k i x0 n x q s past bmin,
  store_reach f ov x0 -> wf_each f k -> B bmin -> siterating f ov B k i x0 n x q ->
  nth_error (sc_sts x) i = Some (SThread s past) -> (forall p r, s = SIns p r -> no_overflow ov p) ->
  exists n' x' g, siterating f ov B k i x0 n' x' (ItEnd g) /\ store_exec f ov x x' /\ by_alone i x x'.
Proof. exact weach_returns. Qed.
Print Assumptions C106_each.

(* thread 0 is stopped in the tree in the middle of an insert of 172.16.0.0/12; thread 1 inserts and returns *)
Definition stopped_in : list vev := three_told ++ [VIns 0 p172 recb] ++ vsteps 0 5.
Definition half_in : list vev := stopped_in ++ [VIns 1 p16 recb] ++ vsteps 1 7.
Definition goes_alone : list vev := half_in ++ vsteps 1 90 ++ [VRet 1].
Definition pcs_at (x : sconf) : list store_pc := firstn 2 (List.map st_pc (sc_sts x)).
Example C106_call_example : store_reach IPv4 true (vend half_in) /\ pcs_at (vend half_in) = [SIns p172 recb; SIns p16 recb] /\
  store_exec IPv4 true (vend half_in) (vend goes_alone) /\ pcs_at (vend goes_alone) = [SIns p172 recb; SIdle].
Proof.
  split; [apply vend_ok; vm_compute; reflexivity|]. split; [vm_compute; reflexivity|].
  split; [apply vend_exec; vm_compute; reflexivity|vm_compute; reflexivity].
Qed.
(* match_prefix about to look up the records of a more specific, and its end *)
Example C106_match_example :
  match match_run p10 all_of 1 stopped_in [QOwn 300; QLook 90; QOwn 20] with
  | Some (n, x, AtFill true _ _ _ [c] [] WAsk) => c = p16 /\ pcs_at x = [SIns p172 recb; SIdle] | _ => False end /\
  match match_run p10 all_of 1 stopped_in [QOwn 300; QLook 90; QOwn 300; QLook 90; QOwn 300; QLook 90; QOwn 300] with
  | Some (n, x, AtEnd (ROk r)) => qr_more r = Some (RecordSet [((IPv4, p16), [reca])] []) /\ pcs_at x = [SIns p172 recb; SIdle]
  | _ => False end.
Proof. split; vm_compute; split; reflexivity. Qed.

(* ---------- C107: on a weak memory a thread that knows that a mui is withdrawn is shown none of its records as active ---------- *)

(* match_prefix: missing is asking for a mui by name without withdrawn records, see C107_named_refuted *)
Theorem C107_match_partial : forall f ov (B : nset -> Prop) p o i x0 n x r m,
  store_reach f ov x0 -> wf_pid f p ->
  (forall b, B b -> load_after i true m b) -> mo_withdrawn o = true \/ mo_mui o = None ->
  smatching f ov B p o i x0 n x (AtEnd (ROk r)) ->
  forall a, shown r a -> r_mui a = m -> mo_withdrawn o = true /\ r_status a = Withdrawn.
Proof. exact wmatch_withdrawn. Qed.
Print Assumptions C107_match_partial.

(* the iterators: missing is less_specifics_iter_from for a mui by name without withdrawn records *)
Theorem C107_each_partial : forall f ov (B : nset -> Prop) k i x0 n x g m,
  store_reach f ov x0 -> wf_each f k ->
  (forall b, B b -> load_after i true m b) -> match k with EachLess _ (Some _) false => False | _ => True end ->
  siterating f ov B k i x0 n x (ItEnd g) ->
  forall c v a, In (ROk (c, v)) g -> In a v -> r_mui a = m -> each_iw k = true /\ r_status a = Withdrawn.
Proof. exact weach_withdrawn. Qed.
Print Assumptions C107_each_partial.

(* match_prefix by name: the global mark is not looked at *)
Theorem C107_named_refuted :
  ~ (forall f ov (B : nset -> Prop) p o i x0 n x r m, store_reach f ov x0 -> wf_pid f p ->
    (forall b, B b -> load_after i true m b) -> smatching f ov B p o i x0 n x (AtEnd (ROk r)) ->
    forall a, shown r a -> r_mui a = m -> mo_withdrawn o = true /\ r_status a = Withdrawn).
Proof. exact wnamed_withdrawn_refuted. Qed.
Print Assumptions C107_named_refuted.

(* the less specifics by name *)
Theorem C107_less_named_refuted :
  ~ (forall f ov (B : nset -> Prop) k i x0 n x g m, store_reach f ov x0 -> wf_each f k ->
    (forall b, B b -> load_after i true m b) -> siterating f ov B k i x0 n x (ItEnd g) ->
    forall c v a, In (ROk (c, v)) g -> In a v -> r_mui a = m -> each_iw k = true /\ r_status a = Withdrawn).
Proof. exact weach_named_withdrawn_refuted. Qed.
Print Assumptions C107_less_named_refuted.

(* thread 1 knows that mui 1 is withdrawn: the record of mui 2 alone, or the other with its new status *)
Definition all_active_of : matchopts := MatchOpts LongestMatch false true true None false.
Definition two_looks : list qev := [QOwn 300; QLook 90; QOwn 300; QLook 90; QOwn 300].
Example C107_match_example : exists n x r, match_marked [1] p10 all_active_of 1 two_known two_looks = Some (n, x, AtEnd (ROk r)) /\
  store_reach IPv4 true (vend two_known) /\ smatching IPv4 true (fun b => b = [1]) p10 all_active_of 1 (vend two_known) n x (AtEnd (ROk r)) /\
  (forall b, b = [1] -> load_after 1 true 1 b) /\ r = QueryResult LongestMatch (Some (IPv4, p10)) [recb] (Some (RecordSet [] [])) (Some (RecordSet [] [])).
Proof.
  destruct (match_marked [1] p10 all_active_of 1 two_known two_looks) as [[[n x] q]|] eqn:E.
  2:{ vm_compute in E. discriminate E. }
  assert (F : ends_with (match_marked [1] p10 all_active_of 1 two_known two_looks)
    (AtEnd (ROk (QueryResult LongestMatch (Some (IPv4, p10)) [recb] (Some (RecordSet [] [])) (Some (RecordSet [] [])))))) by (vm_compute; reflexivity).
  rewrite E in F. cbn [ends_with] in F. subst q. eexists n, x, _. split; [reflexivity|].
  apply match_marked_ok in E; [|vm_compute; reflexivity|vm_compute; reflexivity]. split; [exact (proj1 E)|]. split; [exact (proj2 E)|].
  split; [intros b ->; exact with_mark_load|reflexivity].
Qed.
Example C107_match_withdrawn_example : ends_with (match_marked [1] p10 all_of 1 two_known two_looks)
  (AtEnd (ROk (QueryResult LongestMatch (Some (IPv4, p10)) [recb; Rec 1 1 Withdrawn [1]]
    (Some (RecordSet [((IPv4, p8), [Rec 1 1 Withdrawn [1]])] [])) (Some (RecordSet [] []))))).
Proof. vm_compute. reflexivity. Qed.
(* the iterators; by name, the more specifics give nothing and the less specifics all *)
Example C107_each_example :
  ends_with (each_marked [1] (EachMore p8 None false) 1 two_known two_looks) (ItEnd [ROk ((IPv4, p10), [recb])]) /\
  ends_with (each_marked [1] (EachMore p8 (Some 1) false) 1 two_known [QOwn 300]) (ItEnd []) /\
  ends_with (each_marked [1] (EachOfMui 1 true) 1 two_known two_looks)
    (ItEnd [ROk ((IPv4, p8), [Rec 1 1 Withdrawn [1]]); ROk ((IPv4, p10), [Rec 1 1 Withdrawn [1]])]) /\
  ends_with (each_marked [1] (EachLess p10 (Some 1) false) 1 two_known asks_once) (ItEnd [ROk ((IPv4, p8), [reca])]).
Proof. split; [vm_compute; reflexivity|]. split; [vm_compute; reflexivity|]. split; vm_compute; reflexivity. Qed.
