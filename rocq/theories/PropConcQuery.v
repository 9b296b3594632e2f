(* Properties of the queries for prefixes with their records, beside any calls of the whole store. *)
From Coq Require Import Arith NArith List Bool Lia.
From Verif Require Import Word Af BitSpan Spec Maps Cht Node Tree Iter MultiMap RecordSet PrefixCht Lsm Rib StarCast
  HistSpec Ask SameSpec Conc ConcTree ConcStore ConcMarks ConcSpec ConcQuiet ConcWhole WholeSpec ConcScan ConcQuery
  QuerySpec ConcQueryFacts ConcQueryAlone ConcQueryEnds Examples ConcDemo ConcRefute ConcScanDemo ConcWholeDemo ConcQueryDemo.
Import ListNotations.
Local Open Scope N_scope.

(* 10.0.0.0/8 and 10.1.0.0/16 are there *)
Definition first : wstore := wgo true (wat0 MemoryOnly) [
  WStart (WStore IPv4 (ins ten8 1 1 [1])); WSteps 0 all; WStart (WStore IPv4 (ins ten16 2 1 [2])); WSteps 1 all].
Definition every : matchopts := MatchOpts LongestMatch true true true None false.
(* 10.1.2.0/24 is inserted and mui 1 marked as withdrawn while the query runs *)
Definition meanwhile : list qact := [Mine 20; Call (WStart (WGlobal IPv4 true 1)); Call (WStart (WStore IPv4 (ins ten24 3 1 [3])));
  Call (WSteps 3 all); Mine 5; Call (WSteps 2 all); Mine all].
Definition beside_match : wstore * atpc := match_play true IPv4 ten16 every first meanwhile.
Definition beside_each (k : each) : wstore * itpc := each_play true IPv4 k first meanwhile.

Ltac query := cbv zeta; repeat match goal with |- _ /\ _ => split end; lazymatch goal with
  | |- exists n, matching _ _ _ _ _ _ _ _ => apply match_play_ok; vm_compute; reflexivity
  | |- exists n, iterating _ _ _ _ _ _ _ => apply each_play_ok; vm_compute; reflexivity
  | |- wreach _ _ _ => apply wgo_reach; vm_compute; reflexivity
  | |- wf_pid _ _ => wf4
  | |- wwf_calls _ => apply wwfb_ok; vm_compute; reflexivity
  | |- only_active _ => apply only_active_ok; vm_compute; reflexivity
  | |- covers _ _ _ => apply coversb_ok; vm_compute; reflexivity
  | |- was_inserted _ _ _ =>
    first [exists 0%nat; do 4 eexists; split; [vm_compute; reflexivity|vm_compute; reflexivity]
          |exists 1%nat; do 4 eexists; split; [vm_compute; reflexivity|vm_compute; reflexivity]]
  | |- wstarted _ _ _ => eexists; vm_compute; reflexivity
  | |- _ => vm_compute; reflexivity
  end.
(* ---------- C83: a query beside concurrent calls gives what was in the store while it ran ---------- *)

(* match_prefix never panics and never fails *)
Theorem C83_no_panic : forall ov st f p o x0 n x q,
  wreach ov st x0 -> wf_pid f p -> wf_mui (mo_mui o) ->
  matching ov f p o x0 n x q -> wwf_calls x -> match_over q = true -> exists r, q = AtEnd (ROk r).
Proof. exact match_no_panic. Qed.
Print Assumptions C83_no_panic.

(* its prefix covers the one asked for, and has the records given at a moment meanwhile (global marks: at an earlier one) *)
Theorem C83_main : forall ov st f p o x0 n x r,
  wreach ov st x0 -> wf_pid f p -> wf_mui (mo_mui o) ->
  matching ov f p o x0 n x (AtEnd (ROk r)) -> wwf_calls x ->
  match qr_prefix r with
  | None => qr_type r = EmptyMatch /\ qr_records r = []
  | Some a => qr_type r = (match mo_type o with ExactMatch => ExactMatch | _ => LongestMatch end) /\
      qr_records r <> [] /\
      exists c, a = (f, c) /\ 0 < p_len c /\ covers f c p /\ (mo_type o = ExactMatch -> c = p) /\
        being_inserted x f c /\ looked_up ov x0 x f c (mo_mui o) (mo_withdrawn o) (Some (qr_records r))
  end.
Proof. exact match_main_sound. Qed.
Print Assumptions C83_main.

Theorem C83_less : forall ov st f p o x0 n x r,
  wreach ov st x0 -> wf_pid f p -> wf_mui (mo_mui o) ->
  matching ov f p o x0 n x (AtEnd (ROk r)) -> wwf_calls x ->
  if mo_less o then exists rs l, qr_less r = Some rs /\ rs_items rs = Ok l /\ NoDup (List.map fst l) /\
    forall a v, In (a, v) l -> exists c, a = (f, c) /\ 0 < p_len c /\ p_len c < p_len p /\ covers f c p /\
      being_inserted x f c /\ looked_up ov x0 x f c (mo_mui o) (mo_withdrawn o) (Some v)
  else qr_less r = None.
Proof. exact match_less_sound. Qed.
Print Assumptions C83_less.

Theorem C83_more : forall ov st f p o x0 n x r,
  wreach ov st x0 -> wf_pid f p -> wf_mui (mo_mui o) ->
  matching ov f p o x0 n x (AtEnd (ROk r)) -> wwf_calls x ->
  if mo_more o then exists rs l, qr_more r = Some rs /\ rs_items rs = Ok l /\ NoDup (List.map fst l) /\
    forall a v, In (a, v) l -> exists c, a = (f, c) /\ 0 < p_len c /\ c <> p /\ covers f p c /\
      being_inserted x f c /\ looked_up ov x0 x f c (mo_mui o) (mo_withdrawn o) (Some v)
  else qr_more r = None.
Proof. exact match_more_sound. Qed.
Print Assumptions C83_more.

(* nor do the iterators panic *)
Theorem C83_each_no_panic : forall ov st f k x0 n x q,
  wreach ov st x0 -> wf_each f k -> iterating ov f k x0 n x q -> wwf_calls x ->
  each_over q = true -> exists g, q = ItEnd g.
Proof. exact each_no_panic. Qed.
Print Assumptions C83_each_no_panic.

Theorem C83_each : forall ov st f k x0 n x g,
  wreach ov st x0 -> wf_each f k -> iterating ov f k x0 n x (ItEnd g) -> wwf_calls x ->
  NoDup (prefixes_given g) /\
  forall r, In r g -> exists c v l, r = ROk ((f, c), l) /\ 0 < p_len c /\ each_of f k c /\ being_inserted x f c /\
    looked_up ov x0 x f c (each_mui k) (each_iw k) v /\ each_gives k v l.
Proof. exact each_sound. Qed.
Print Assumptions C83_each.

Example C83_example : wreach true MemoryOnly first /\ wf_pid IPv4 ten16 /\
  (exists n, matching true IPv4 ten16 every first n (fst beside_match) (snd beside_match)) /\ wwf_calls (fst beside_match) /\
  snd beside_match = AtEnd (ROk (QueryResult LongestMatch (Some (IPv4, ten16)) [act 2 1 [2]]
    (Some (RecordSet [((IPv4, ten8), [Rec 1 1 Withdrawn [1]])] []))
    (Some (RecordSet [((IPv4, ten24), [act 3 1 [3]])] [])))).
Proof. query. Qed.
Example C83_each_example : let z := beside_each (EachMore ten8 None true) in
  (exists n, iterating true IPv4 (EachMore ten8 None true) first n (fst z) (snd z)) /\ wwf_calls (fst z) /\
  snd z = ItEnd [ROk ((IPv4, ten8), [act 1 1 [1]]); ROk ((IPv4, ten16), [act 2 1 [2]])].
Proof. query. Qed.
Example C83_mui_example : let z := beside_each (EachOfMui 1 false) in
  (exists n, iterating true IPv4 (EachOfMui 1 false) first n (fst z) (snd z)) /\ snd z = ItEnd [ROk ((IPv4, ten8), [act 1 1 [1]])].
Proof. query. Qed.

(* ---------- C84: a match beside inserts finds the longest prefix that was there, and the less specifics ---------- *)

(* it may come back empty, though nothing was ever withdrawn and a prefix that covers the one asked for was there all the time *)
Theorem C84_refuted :
  ~ (forall ov st f p o x0 n x r q, wreach ov st x0 -> wf_pid f p -> matching ov f p o x0 n x (AtEnd (ROk r)) -> wwf_calls x ->
     only_active x -> mo_mui o = None -> mo_type o = LongestMatch ->
     was_inserted x0 f q -> 0 < p_len q -> covers f q p -> qr_prefix r <> None).
Proof. exact longest_lost. Qed.
Print Assumptions C84_refuted.

(* and is not that of one moment: it may give b though a, longer, was inserted before the insert of b began *)
Theorem C84_snapshot_refuted :
  ~ (forall ov st f p o x0 x1 n x r a b, wreach ov st x0 -> wf_pid f p -> matching ov f p o x0 n x (AtEnd (ROk r)) -> wwf_calls x ->
     only_active x -> mo_mui o = None -> mo_type o = LongestMatch ->
     wexec ov x0 x1 -> wexec ov x1 x -> was_inserted x1 f a -> 0 < p_len a -> covers f a p ->
     ~ being_inserted x1 f b -> qr_prefix r = Some (f, b) -> p_len a <= p_len b).
Proof. exact match_no_snapshot. Qed.
Print Assumptions C84_snapshot_refuted.

(* it looks up one prefix c that is as long as any that was there before, and gives what that look-up gives *)
Theorem C84_longest_partial : forall ov st f p o x0 n x r,
  wreach ov st x0 -> wf_pid f p -> wf_mui (mo_mui o) ->
  matching ov f p o x0 n x (AtEnd (ROk r)) -> wwf_calls x ->
  forall q, was_inserted x0 f q -> 0 < p_len q -> covers f q p -> (mo_type o = ExactMatch -> q = p) ->
    exists c v, being_inserted x f c /\ covers f c p /\ p_len q <= p_len c /\
      looked_up ov x0 x f c (mo_mui o) (mo_withdrawn o) v /\
      match v with
      | Some (a :: l) => qr_prefix r = Some (f, c) /\ qr_records r = a :: l
      | _ => qr_prefix r = None
      end.
Proof. exact match_longest. Qed.
Print Assumptions C84_longest_partial.

(* all less specifics that were there before are looked up, and given if they have records *)
Theorem C84_less : forall ov st f p o x0 n x r,
  wreach ov st x0 -> wf_pid f p -> wf_mui (mo_mui o) ->
  matching ov f p o x0 n x (AtEnd (ROk r)) -> wwf_calls x -> mo_less o = true ->
  forall c, was_inserted x0 f c -> 0 < p_len c -> p_len c < p_len p -> covers f c p ->
    exists v, looked_up ov x0 x f c (mo_mui o) (mo_withdrawn o) v /\
      forall l, v = Some l -> in_set (qr_less r) ((f, c), l).
Proof. exact match_less_complete. Qed.
Print Assumptions C84_less.

Example C84_example : was_inserted first IPv4 ten16 /\ was_inserted first IPv4 ten8 /\ covers IPv4 ten16 ten16 /\ covers IPv4 ten8 ten16.
Proof. query. Qed.
Example C84_refuted_example : wreach true MemoryOnly had16 /\ only_active (fst unfilled_end) /\
  (exists n, matching true IPv4 ten24 longest had16 n (fst unfilled_end) (snd unfilled_end)) /\
  was_inserted had16 IPv4 ten16 /\ covers IPv4 ten16 ten24 /\
  snd unfilled_end = AtEnd (ROk (QueryResult EmptyMatch None [] None None)).
Proof. query. Qed.
Example C84_snapshot_example : (exists n, matching true IPv4 ten24 longest no16 n (fst behind_end) (snd behind_end)) /\
  was_inserted then24 IPv4 ten24 /\
  snd behind_end = AtEnd (ROk (QueryResult LongestMatch (Some (IPv4, ten8)) [act 3 1 [3]] None None)).
Proof. query. Qed.

(* ---------- C85: a query beside inserts misses no more specific prefix that was there ---------- *)

(* the more specifics may lack a prefix that was there before, though nothing was ever withdrawn *)
Theorem C85_more_refuted :
  ~ (forall ov st f p o x0 n x r q, wreach ov st x0 -> wf_pid f p -> matching ov f p o x0 n x (AtEnd (ROk r)) -> wwf_calls x ->
     only_active x -> mo_mui o = None -> mo_more o = true ->
     was_inserted x0 f q -> p_len p < p_len q -> covers f p q -> exists l, in_set (qr_more r) ((f, q), l)).
Proof. exact more_lost. Qed.
Print Assumptions C85_more_refuted.

(* so may prefixes_iter *)
Theorem C85_each_refuted :
  ~ (forall ov st f x0 n x g q, wreach ov st x0 -> iterating ov f EachPrefix x0 n x (ItEnd g) -> wwf_calls x ->
     only_active x -> was_inserted x0 f q -> 0 < p_len q -> exists l, In (ROk ((f, q), l)) g).
Proof. exact each_lost. Qed.
Print Assumptions C85_each_refuted.

(* which may also give a prefix without records *)
Theorem C85_empty_refuted :
  ~ (forall ov st f x0 n x g a l, wreach ov st x0 -> iterating ov f EachPrefix x0 n x (ItEnd g) -> wwf_calls x ->
     only_active x -> In (ROk (a, l)) g -> l <> []).
Proof. exact each_empty. Qed.
Print Assumptions C85_empty_refuted.

(* without inserts meanwhile all that were there are looked up, and given if they have records *)
Theorem C85_more_partial : forall ov st f p o x0 n x r,
  wreach ov st x0 -> wf_pid f p -> wf_mui (mo_mui o) ->
  matching ov f p o x0 n x (AtEnd (ROk r)) -> wwf_calls x -> mo_more o = true -> no_inserts x0 x f ->
  forall c, was_inserted x0 f c -> 0 < p_len c -> p_len p < p_len c -> covers f p c ->
    exists v, looked_up ov x0 x f c (mo_mui o) (mo_withdrawn o) v /\
      forall l, v = Some l -> in_set (qr_more r) ((f, c), l).
Proof. exact match_more_complete. Qed.
Print Assumptions C85_more_partial.

(* so with the iterators, unless the mui asked for was globally withdrawn at a moment meanwhile *)
Theorem C85_each_partial : forall ov st f k x0 n x g,
  wreach ov st x0 -> wf_each f k -> iterating ov f k x0 n x (ItEnd g) -> wwf_calls x ->
  match k with EachLess _ _ _ => True | _ => no_inserts x0 x f end -> each_looks f k ->
  (g = [] /\ exists m w, each_asks k = Some m /\ wexec ov x0 w /\ wexec ov w x /\
     ask (store_now (sh w)) (QWithdrawn f m) = Ok (ABool true)) \/
  forall c, was_inserted x0 f c -> 0 < p_len c -> each_of f k c ->
    exists v, looked_up ov x0 x f c (each_mui k) (each_iw k) v /\ forall l, each_gives k v l -> In (ROk ((f, c), l)) g.
Proof. exact each_complete. Qed.
Print Assumptions C85_each_partial.

Example C85_example : let z := match_play true IPv4 ten8 every first [Mine 20; Call (WStart (WGlobal IPv4 true 2)); Call (WSteps 2 all); Mine all] in
  (exists n, matching true IPv4 ten8 every first n (fst z) (snd z)) /\
  snd z = AtEnd (ROk (QueryResult LongestMatch (Some (IPv4, ten8)) [act 1 1 [1]] (Some (RecordSet [] []))
    (Some (RecordSet [((IPv4, ten16), [Rec 2 1 Withdrawn [2]])] [])))).
Proof. query. Qed.
Example C85_quiet_example : no_inserts first (fst (match_play true IPv4 ten8 every first
    [Mine 20; Call (WStart (WGlobal IPv4 true 2)); Call (WSteps 2 all); Mine all])) IPv4.
Proof.
  intros i q r ups (l & N). vm_compute in N. destruct i as [|[|[|i]]]; try discriminate N.
  - injection N as <- <- <- _. do 2 eexists. split; [vm_compute; reflexivity|vm_compute; reflexivity].
  - injection N as <- <- <- _. do 2 eexists. split; [vm_compute; reflexivity|vm_compute; reflexivity].
  - now destruct i.
Qed.
(* the mui is withdrawn at once, and the iterator gives nothing *)
Example C85_mui_example : let z := each_play true IPv4 (EachMore root4 (Some 2) false) first
    [Call (WStart (WGlobal IPv4 true 2)); Call (WSteps 2 all); Mine all] in
  (exists n, iterating true IPv4 (EachMore root4 (Some 2) false) first n (fst z) (snd z)) /\ snd z = ItEnd [].
Proof. query. Qed.
Example C85_refuted_example : wreach true MemoryOnly had8 /\ only_active (fst no_node_end) /\
  (exists n, matching true IPv4 root4 within had8 n (fst no_node_end) (snd no_node_end)) /\
  was_inserted had8 IPv4 high8 /\ covers IPv4 root4 high8 /\
  snd no_node_end = AtEnd (ROk (QueryResult EmptyMatch None [] None (Some (RecordSet [] [])))) /\
  (exists n, iterating true IPv4 EachPrefix had8 n (fst no_node_each) (snd no_node_each)) /\ snd no_node_each = ItEnd [] /\
  (exists n, iterating true IPv4 EachPrefix had8 n (fst no_record_end) (snd no_record_end)) /\
  snd no_record_end = ItEnd [ROk ((IPv4, ten8), []); ROk ((IPv4, high8), [act 1 1 [1]])].
Proof. query. Qed.

(* ---------- C86: a query during which no other call makes a step gives what the sequential code gives ---------- *)

Theorem C86_match : forall ov st x f p o,
  wreach ov st x -> wwf_calls x -> wf_pid f p -> wf_mui (mo_mui o) ->
  exists n r, match_prefix (store_now (sh x)) (f, p) o = Ok (ROk r) /\
    Nat.iter n (match_next f p o (sh x)) (match_start p) = AtEnd (ROk r).
Proof. exact match_alone. Qed.
Print Assumptions C86_match.

Theorem C86_each : forall ov st x f k,
  wreach ov st x -> wwf_calls x -> wf_each f k ->
  exists n g, each_in_sequence (store_now (sh x)) f k = Ok g /\
    Nat.iter n (each_next f k (sh x)) (each_start k) = ItEnd g.
Proof. exact each_alone. Qed.
Print Assumptions C86_each.

(* also in the middle of an insert *)
Example C86_example : let x := fst no_record_end in wreach true MemoryOnly x /\ wwf_calls x /\
  Nat.iter all (match_next IPv4 root4 within (sh x)) (match_start root4) =
    AtEnd (ROk (QueryResult EmptyMatch None [] None (Some (RecordSet [((IPv4, high8), [act 1 1 [1]])] [])))) /\
  match_prefix (store_now (sh x)) (IPv4, root4) within =
    Ok (ROk (QueryResult EmptyMatch None [] None (Some (RecordSet [((IPv4, high8), [act 1 1 [1]])] [])))).
Proof.
  cbv zeta. split.
  { unfold no_record_end, each_play. rewrite play_query_calls. cbn [fst calls_of no_record]. unfold had8.
    rewrite <- wgo_app. apply wgo_reach. vm_compute. reflexivity. }
  query.
Qed.

(* ---------- C87: a query ends, whatever the other calls do ---------- *)

(* its own steps are bounded *)
Theorem C87_match_bound : forall ov st x0 n x f p o q,
  wreach ov st x0 -> wf_pid f p -> matching ov f p o x0 n x q ->
  N.of_nat n <= 2 ^ 214.
Proof. exact match_ends. Qed.
Print Assumptions C87_match_bound.

(* and left to itself it comes to an end from wherever it is *)
Theorem C87_match_ends : forall ov st x0 n x f p o q,
  wreach ov st x0 -> wf_pid f p -> wf_mui (mo_mui o) ->
  matching ov f p o x0 n x q -> wwf_calls x -> exists m r, (n <= m)%nat /\ matching ov f p o x0 m x (AtEnd (ROk r)).
Proof. exact match_finishes. Qed.
Print Assumptions C87_match_ends.

Theorem C87_each_bound : forall ov st x0 n x f k q,
  wreach ov st x0 -> wf_each f k -> iterating ov f k x0 n x q ->
  N.of_nat n <= 2 ^ 214.
Proof. exact each_ends. Qed.
Print Assumptions C87_each_bound.

Theorem C87_each_ends : forall ov st x0 n x f k q,
  wreach ov st x0 -> wf_each f k ->
  iterating ov f k x0 n x q -> wwf_calls x -> exists m g, (n <= m)%nat /\ iterating ov f k x0 m x (ItEnd g).
Proof. exact each_finishes. Qed.
Print Assumptions C87_each_ends.

Example C87_example : let z := match_play true IPv4 ten16 every first [Mine 20; Call (WStart (WStore IPv4 (ins ten24 3 1 [3]))); Call (WSteps 2 9); Mine 9] in
  (exists n, matching true IPv4 ten16 every first n (fst z) (snd z)) /\ match_over (snd z) = false /\ wwf_calls (fst z).
Proof. query. Qed.
