(* Properties of the queries over prefixes. *)
From Coq Require Import Arith NArith List Bool Lia Permutation.
From Verif Require Import Word Af BitSpan Spec Maps ChtMath Cht Node Tree Iter MultiMap PrefixCht Lsm
  LsmProofs RecordSet Rib StarCast HistSpec Ask PropSpec Facts1 Facts2 Facts3 Facts4 Facts5 Facts6
  Examples Refute.
Import ListNotations.
Local Open Scope N_scope.

(* ---------- C05: contains(prefix) is exact ---------- *)

Theorem C05_contains : forall s h st p,
  after s h st -> wf_prefix p -> 0 < p_len (snd p) ->
  exists b, contains st p None = Ok b /\ (b = true <-> exists r u, In (Insert p r u) h).
Proof. exact contains_exact. Qed.
Print Assumptions C05_contains.

Example C05_example : after WriteAhead demo (ran WriteAhead demo) /\
  contains (ran WriteAhead demo) (v4 10 1 2 128 25) None = Ok true /\
  contains (ran WriteAhead demo) (v4 10 1 2 0 25) None = Ok false.
Proof. example. Qed.

(* ---------- C06: the default route behaves like any other prefix ---------- *)

Theorem C06_default_contains_refuted :
  ~ (forall s h st f r u, after s h st ->
  In (Insert (f, (0, 0)) r u) h -> contains st (f, (0, 0)) None = Ok true).
Proof. exact default_not_contained. Qed.
Print Assumptions C06_default_contains_refuted.

Theorem C06_default_match_refuted :
  ~ (forall s h st f r u p, after s h st -> wf_prefix p -> fst p = f ->
  In (Insert (f, (0, 0)) r u) h ->
  exists q c, match_prefix st p (MatchOpts LongestMatch true false false None false) = Ok (ROk q) /\
    qr_prefix q = Some c).
Proof. exact default_not_matched. Qed.
Print Assumptions C06_default_match_refuted.

(* what holds instead: no query shows the default route, whatever was inserted *)
Theorem C06_default_invisible : forall s h st f,
  after s h st ->
  contains st (f, (0, 0)) None = Ok false /\
  (forall o, wf_mui (mo_mui o) -> exists q, match_prefix st (f, (0, 0)) o = Ok (ROk q) /\
     qr_type q = EmptyMatch /\ qr_prefix q = None /\ qr_records q = []) /\
  (forall p o q, wf_prefix p -> wf_mui (mo_mui o) -> match_prefix st p o = Ok (ROk q) ->
     qr_prefix q <> Some (f, (0, 0))) /\
  (forall p mui iw l rs, wf_prefix p -> wf_mui mui ->
     less_specifics_iter_from st p mui iw = Ok l -> ~ In (ROk ((f, (0, 0)), rs)) l) /\
  (forall l rs, prefixes_iter_af st f = Ok l -> ~ In (ROk ((f, (0, 0)), rs)) l).
Proof. exact default_invisible. Qed.
Print Assumptions C06_default_invisible.

Example C06_example : after MemoryOnly h_default (ran MemoryOnly h_default) /\
  get_records_for_prefix (ran MemoryOnly h_default) (v4 0 0 0 0 0) None false = Ok (ROk (Some [act 1 1 [1]])) /\
  uc_total (prefixes_count_af (ran MemoryOnly h_default) IPv4) = 1.
Proof. example. Qed.

(* ---------- C07: contains(prefix, mui) is exact ---------- *)

Theorem C07_contains_mui_misses_refuted :
  ~ (forall s h st p r u, after s h st -> In (Insert p r u) h ->
  0 < p_len (snd p) -> contains st p (Some (r_mui r)) = Ok true).
Proof. exact contains_mui_misses. Qed.
Print Assumptions C07_contains_mui_misses_refuted.

Theorem C07_contains_mui_extra_refuted :
  ~ (forall s h st p m, after s h st -> wf_prefix p -> m < 2 ^ 32 ->
  contains st p (Some m) = Ok true -> exists r u, In (Insert p r u) h /\ r_mui r = m).
Proof. exact contains_mui_extra. Qed.
Print Assumptions C07_contains_mui_extra_refuted.

(* what holds instead: true means that p is there and that m occurs below the tree node of p; false although m was inserted for p means that an earlier insert of another mui took the hash slot *)
Theorem C07_contains_mui_partial : forall s h st p m,
  after s h st -> wf_prefix p -> m < 2 ^ 32 ->
  exists b, contains st p (Some m) = Ok b /\
    (b = true -> listed h p /\
       ((exists q r u, In (Insert q r u) h /\ r_mui r = m /\ pcovers (block p) q) \/
        (m = 0 /\ p_len (snd p) <= 4))) /\
    (b = false -> forall r u, In (Insert p r u) h -> r_mui r = m -> 0 < p_len (snd p) ->
       exists q r' u', In (Insert q r' u') h /\ fst q = fst p /\ ~ pcovers (block p) q /\
         p_len (snd (block p)) < p_len (snd q) /\
         trunc (BITS (fst p)) (p_bits (snd q)) 4 = trunc (BITS (fst p)) (p_bits (snd p)) 4 /\
         (forall r'' u'', In (Insert q r'' u'') h -> r_mui r'' <> m)).
Proof. exact contains_mui. Qed.
Print Assumptions C07_contains_mui_partial.

Example C07_example : after MemoryOnly demo (ran MemoryOnly demo) /\
  contains (ran MemoryOnly demo) (v4 10 1 2 0 24) (Some 1) = Ok true /\
  contains (ran MemoryOnly demo) (v4 10 1 2 0 24) (Some 3) = Ok false.
Proof. example. Qed.

(* ---------- C08: exact match ---------- *)

Theorem C08_exact : forall s h st p o,
  after s h st -> wf_prefix p -> wf_mui (mo_mui o) ->
  mo_type o = ExactMatch ->
  exists q, match_prefix st p o = Ok (ROk q) /\
    ((listed h p /\ qr_type q = ExactMatch /\ qr_prefix q = Some p /\
      answers (view s h p (mo_mui o) (mo_withdrawn o)) (Some (qr_records q))) \/
     ((~ listed h p \/ forall m, view s h p (mo_mui o) (mo_withdrawn o) m = None) /\
      qr_type q = EmptyMatch /\ qr_prefix q = None /\ qr_records q = [])).
Proof. exact match_exact. Qed.
Print Assumptions C08_exact.

Example C08_example : after MemoryOnly demo (ran MemoryOnly demo) /\
  found (match_prefix (ran MemoryOnly demo) (v4 10 1 0 0 16) (exact_opts false None)) =
    Some (ExactMatch, Some (v4 10 1 0 0 16), [act 1 4 [9]]) /\
  found (match_prefix (ran MemoryOnly demo) (v4 10 1 0 0 16) (exact_opts true (Some 2))) =
    Some (ExactMatch, Some (v4 10 1 0 0 16), [wdr 2 9 [7]]) /\
  found (match_prefix (ran MemoryOnly demo) (v4 10 1 0 0 17) (exact_opts true None)) =
    Some (EmptyMatch, None, []) /\
  found (match_prefix (ran MemoryOnly demo) (v6 8193 3512 32) (exact_opts false None)) =
    Some (EmptyMatch, None, []).
Proof. example. Qed.

(* ---------- C09: longest match ---------- *)

Theorem C09_longest : forall s h st p o,
  after s h st -> wf_prefix p -> wf_mui (mo_mui o) ->
  mo_type o <> ExactMatch ->
  exists q c, match_prefix st p o = Ok (ROk q) /\ longest_match h p c /\
    match c with
    | Some c =>
      (qr_type q = LongestMatch /\ qr_prefix q = Some c /\
       answers (view s h c (mo_mui o) (mo_withdrawn o)) (Some (qr_records q))) \/
      ((forall m, view s h c (mo_mui o) (mo_withdrawn o) m = None) /\
       qr_type q = EmptyMatch /\ qr_prefix q = None /\ qr_records q = [])
    | None => qr_type q = EmptyMatch /\ qr_prefix q = None /\ qr_records q = []
    end.
Proof. exact match_longest. Qed.
Print Assumptions C09_longest.

Example C09_example : after PersistHistory demo (ran PersistHistory demo) /\
  found (match_prefix (ran PersistHistory demo) (v4 10 1 2 200 32) (longest_opts false None)) =
    Some (LongestMatch, Some (v4 10 1 2 128 25), [act 1 7 [8]]) /\
  found (match_prefix (ran PersistHistory demo) (v4 10 200 0 0 16) (longest_opts false (Some 2))) =
    Some (LongestMatch, Some (v4 10 0 0 0 8), [act 2 3 [3]]) /\
  found (match_prefix (ran PersistHistory demo) (v4 11 0 0 0 8) (longest_opts false None)) =
    Some (EmptyMatch, None, []).
Proof. example. Qed.

(* ---------- C10: longest match falls back to the longest visible route ---------- *)

Theorem C10_fallback_refuted :
  ~ (forall s h st p o, after s h st -> wf_prefix p ->
  wf_mui (mo_mui o) -> mo_type o = LongestMatch ->
  (exists q m, listed h q /\ pcovers q p /\ view_ideal h q (mo_mui o) (mo_withdrawn o) m <> None) ->
  exists r c, match_prefix st p o = Ok (ROk r) /\ qr_prefix r = Some c).
Proof. exact longest_no_fallback. Qed.
Print Assumptions C10_fallback_refuted.

(* it does when the longest covering prefix has a visible record *)
Theorem C10_fallback_partial : forall s h st p o c m,
  after s h st -> wf_prefix p -> wf_mui (mo_mui o) ->
  mo_type o <> ExactMatch -> longest_match h p (Some c) ->
  view s h c (mo_mui o) (mo_withdrawn o) m <> None ->
  exists q, match_prefix st p o = Ok (ROk q) /\ qr_type q = LongestMatch /\ qr_prefix q = Some c /\
    answers (view s h c (mo_mui o) (mo_withdrawn o)) (Some (qr_records q)).
Proof. exact longest_visible. Qed.
Print Assumptions C10_fallback_partial.

Example C10_example : after MemoryOnly h_hidden (ran MemoryOnly h_hidden) /\
  found (match_prefix (ran MemoryOnly h_hidden) (v4 10 1 0 0 24) (longest_opts false None)) =
    Some (EmptyMatch, None, []) /\
  found (match_prefix (ran MemoryOnly h_hidden) (v4 10 1 0 0 24) (longest_opts true None)) =
    Some (LongestMatch, Some (v4 10 1 0 0 16), [wdr 2 2 [1]]).
Proof. example. Qed.

(* ---------- C11: less specifics ---------- *)

Theorem C11_less_all : forall s h st p,
  after s h st -> wf_prefix p ->
  exists l, less_specifics_iter_from st p None true = Ok (List.map ROk l) /\
    (forall q, In q (List.map (@fst prefix (list record)) l) <-> listed h q /\ pless q p) /\
    NoDup (List.map (@fst prefix (list record)) l) /\
    len_desc (List.map (fun x => snd (fst x)) l).
Proof. exact less_iter_all. Qed.
Print Assumptions C11_less_all.

(* with a mui and without withdrawn records: those that have visible records *)
Theorem C11_less_visible : forall s h st p mui iw,
  after s h st -> wf_prefix p -> wf_mui mui ->
  exists l, less_specifics_iter_from st p mui iw = Ok (List.map ROk l) /\
    gives (fun q => listed h q /\ pless q p) (fun q => view s h q mui iw) l /\
    len_desc (List.map (fun x => snd (fst x)) l).
Proof. exact less_iter. Qed.
Print Assumptions C11_less_visible.

Example C11_example : after MemoryOnly demo (ran MemoryOnly demo) /\
  less_specifics_iter_from (ran MemoryOnly demo) (v4 10 1 2 128 26) None true = Ok (List.map ROk
    [(v4 10 1 2 128 25, [act 1 7 [8]]); (v4 10 1 2 0 24, [act 1 6 [5; 5]]);
     (v4 10 1 0 0 16, [act 1 4 [9]; wdr 2 9 [7]]); (v4 10 0 0 0 8, [act 1 2 [4; 4]; act 2 3 [3]])]).
Proof. example. Qed.

(* ---------- C12: more specifics ---------- *)

Theorem C12_more_all : forall s h st p,
  after s h st -> wf_prefix p -> p_len (snd p) < BITS (fst p) ->
  exists l, more_specifics_iter_from st p None true = Ok (List.map ROk l) /\
    (forall q, In q (List.map (@fst prefix (list record)) l) <-> listed h q /\ pcovers p q) /\
    NoDup (List.map (@fst prefix (list record)) l).
Proof. exact more_iter_all. Qed.
Print Assumptions C12_more_all.

(* with a mui and without withdrawn records: those that have visible records; nothing for a mui that is withdrawn globally *)
Theorem C12_more_visible : forall s h st p mui iw,
  after s h st -> wf_prefix p -> wf_mui mui ->
  exists l, more_specifics_iter_from st p mui iw = Ok (List.map ROk l) /\
    gives (fun q => listed h q /\ pcovers p q /\ p_len (snd p) < BITS (fst p))
      (fun q m => if negb iw && match mui with Some n => g_withdrawn h (fst p) n | None => false end
                  then None else view s h q mui iw m) l.
Proof. exact more_iter. Qed.
Print Assumptions C12_more_visible.

Example C12_example : after MemoryOnly demo (ran MemoryOnly demo) /\
  more_specifics_iter_from (ran MemoryOnly demo) (v4 10 1 0 0 16) None true = Ok (List.map ROk
    [(v4 10 1 0 0 16, [act 1 4 [9]; wdr 2 9 [7]]); (v4 10 1 2 0 24, [act 1 6 [5; 5]]);
     (v4 10 1 2 128 25, [act 1 7 [8]])]).
Proof. example. Qed.

(* ---------- C13: iterating all prefixes ---------- *)

Theorem C13_prefixes : forall s h st f,
  after s h st ->
  exists l, prefixes_iter_af st f = Ok (List.map ROk l) /\
    NoDup (List.map (@fst prefix (list record)) l) /\
    (forall q, In q (List.map (@fst prefix (list record)) l) <-> listed h q /\ fst q = f) /\
    (forall q rs, In (q, rs) l -> answers (view s h q None true) (Some rs)).
Proof. exact prefixes_all. Qed.
Print Assumptions C13_prefixes.

(* of both families *)
Theorem C13_both : forall s h st,
  after s h st ->
  exists l, prefixes_iter st = Ok (List.map ROk l) /\
    NoDup (List.map (@fst prefix (list record)) l) /\
    (forall q, In q (List.map (@fst prefix (list record)) l) <-> listed h q) /\
    (forall q rs, In (q, rs) l -> answers (view s h q None true) (Some rs)).
Proof. exact prefixes_both. Qed.
Print Assumptions C13_both.

Example C13_example : after MemoryOnly demo (ran MemoryOnly demo) /\
  prefixes_iter_af (ran MemoryOnly demo) IPv6 = Ok [ROk (v6 8193 3512 32, [wdr 3 8 [1]])] /\
  match prefixes_iter_af (ran MemoryOnly demo) IPv4 with Ok l => length l | _ => 0%nat end = 4%nat /\
  match prefixes_iter (ran MemoryOnly demo) with Ok l => length l | _ => 0%nat end = 5%nat.
Proof. example. Qed.

(* ---------- C14: less and more specifics include the prefix itself ---------- *)

Theorem C14_less_itself_refuted :
  ~ (forall s h st p, after s h st -> wf_prefix p -> listed h p ->
  exists l rs, less_specifics_iter_from st p None true = Ok l /\ In (ROk (p, rs)) l).
Proof. exact less_not_itself. Qed.
Print Assumptions C14_less_itself_refuted.

Theorem C14_more_itself_refuted :
  ~ (forall s h st p, after s h st -> wf_prefix p -> listed h p ->
  exists l rs, more_specifics_iter_from st p None true = Ok l /\ In (ROk (p, rs)) l).
Proof. exact more_not_itself. Qed.
Print Assumptions C14_more_itself_refuted.

(* more_specifics_iter_from does, for prefixes shorter than an address *)
Theorem C14_more_itself_partial : forall s h st p,
  after s h st -> wf_prefix p -> p_len (snd p) < BITS (fst p) ->
  listed h p ->
  exists l rs, more_specifics_iter_from st p None true = Ok l /\ In (ROk (p, rs)) l.
Proof. exact more_itself. Qed.
Print Assumptions C14_more_itself_partial.

Example C14_example : after MemoryOnly h_host (ran MemoryOnly h_host) /\
  more_specifics_iter_from (ran MemoryOnly h_host) (v4 10 1 2 3 32) None true = Ok [] /\
  contains (ran MemoryOnly h_host) (v4 10 1 2 3 32) None = Ok true.
Proof. example. Qed.

(* ---------- C15: the less and more specifics of match_prefix ---------- *)

Theorem C15_sets : forall s h st p o,
  after s h st -> wf_prefix p -> wf_mui (mo_mui o) ->
  exists q, match_prefix st p o = Ok (ROk q) /\
    (if mo_less o then
       exists rs l, qr_less q = Some rs /\ rs_items rs = Ok l /\
         gives (fun q => listed h q /\ pless q p)
           (fun q => view s h q (mo_mui o) (mo_withdrawn o)) l
     else qr_less q = None) /\
    (if mo_more o then
       exists rs l, qr_more q = Some rs /\ rs_items rs = Ok l /\
         gives (fun q => listed h q /\ pcovers p q /\ q <> p)
           (fun q => view s h q (mo_mui o) (mo_withdrawn o)) l
     else qr_more q = None).
Proof. exact match_sets. Qed.
Print Assumptions C15_sets.

Example C15_example : after MemoryOnly demo (ran MemoryOnly demo) /\
  both_sets (match_prefix (ran MemoryOnly demo) (v4 10 1 0 0 16) (longest_opts false None)) =
    (Some [(v4 10 0 0 0 8, [act 1 2 [4; 4]; act 2 3 [3]])],
     Some [(v4 10 1 2 0 24, [act 1 6 [5; 5]]); (v4 10 1 2 128 25, [act 1 7 [8]])]).
Proof. example. Qed.

(* ---------- C16: more_specifics_from and less_specifics_from ---------- *)

Theorem C16_more_records_refuted :
  ~ (forall s h st p q rs x l, after s h st -> wf_prefix p ->
  more_specifics_from st p None true = Ok (ROk x) -> qr_more x = Some rs ->
  rs_items rs = Ok l -> In q l -> answers (view s h (fst q) None true) (Some (snd q))).
Proof. exact more_from_wrong. Qed.
Print Assumptions C16_more_records_refuted.

Theorem C16_less_records_refuted :
  ~ (forall s h st p q rs x l, after s h st -> wf_prefix p ->
  less_specifics_from st p None true = Ok (ROk x) -> qr_less x = Some rs ->
  rs_items rs = Ok l -> In q l -> answers (view s h (fst q) None true) (Some (snd q))).
Proof. exact less_from_wrong. Qed.
Print Assumptions C16_less_records_refuted.

Theorem C16_prefix_refuted :
  ~ (forall s h st p x, after s h st -> wf_prefix p ->
  more_specifics_from st p None true = Ok (ROk x) -> (qr_prefix x = Some p <-> listed h p)).
Proof. exact more_from_inverted. Qed.
Print Assumptions C16_prefix_refuted.

(* what holds instead: the right prefixes, each with the records of the search prefix; no more specifics at all if the search prefix has no visible record; the search prefix reported iff contains denies it *)
Theorem C16_more_from_partial : forall s h st p mui iw,
  after s h st -> wf_prefix p -> wf_mui mui ->
  exists c o L q,
    contains st p mui = Ok c /\ get_records_for_prefix st p mui iw = Ok (ROk o) /\
    more_specifics_from st p mui iw = Ok (ROk q) /\
    NoDup L /\ (forall q, In q L <-> listed h q /\ pcovers p q /\ p_len (snd p) < BITS (fst p)) /\
    qr_type q = EmptyMatch /\ qr_prefix q = (if c then None else Some p) /\
    qr_records q = opt_default o /\ qr_less q = None /\
    match o, L with
    | None, _ :: _ => qr_more q = None
    | _, _ => exists rs, qr_more q = Some rs /\
                rs_items rs = Ok (List.map (fun q => (q, opt_default o)) L)
    end.
Proof. exact more_from_exact. Qed.
Print Assumptions C16_more_from_partial.

(* the same for less specifics *)
Theorem C16_less_from_partial : forall s h st p mui iw,
  after s h st -> wf_prefix p -> wf_mui mui ->
  exists c o L q,
    contains st p mui = Ok c /\ get_records_for_prefix st p mui iw = Ok (ROk o) /\
    less_specifics_from st p mui iw = Ok (ROk q) /\
    NoDup L /\ (forall q, In q L <-> listed h q /\ pless q p) /\
    qr_type q = EmptyMatch /\ qr_prefix q = (if c then None else Some p) /\
    qr_records q = opt_default o /\ qr_more q = None /\
    match o, L with
    | None, _ :: _ => qr_less q = None
    | _, _ => exists rs, qr_less q = Some rs /\
                rs_items rs = Ok (List.map (fun q => (q, opt_default o)) L)
    end.
Proof. exact less_from_exact. Qed.
Print Assumptions C16_less_from_partial.

Example C16_example : after MemoryOnly demo (ran MemoryOnly demo) /\
  both_sets (more_specifics_from (ran MemoryOnly demo) (v4 10 1 2 0 24) None true) =
    (None, Some [(v4 10 1 2 0 24, [act 1 6 [5; 5]]); (v4 10 1 2 128 25, [act 1 6 [5; 5]])]) /\
  both_sets (more_specifics_from (ran MemoryOnly demo) (v4 10 1 2 0 23) None true) = (None, None).
Proof. example. Qed.

(* ---------- C55: iterating the records of one mui ---------- *)

Theorem C55_mui_iter : forall s h st f m iw,
  in_memory s -> after s h st -> m < 2 ^ 32 ->
  exists l, iter_records_for_mui st f m iw = Ok (List.map ROk l) /\
    gives (fun q => listed h q /\ fst q = f) (fun q => view_ideal h q (Some m) iw) l.
Proof. exact mui_iter. Qed.
Print Assumptions C55_mui_iter.

Example C55_example : after MemoryOnly demo (ran MemoryOnly demo) /\
  iter_records_for_mui (ran MemoryOnly demo) IPv4 2 false = Ok [ROk (v4 10 0 0 0 8, [act 2 3 [3]])] /\
  iter_records_for_mui (ran MemoryOnly demo) IPv4 2 true =
    Ok [ROk (v4 10 0 0 0 8, [act 2 3 [3]]); ROk (v4 10 1 0 0 16, [wdr 2 9 [7]])] /\
  iter_records_for_mui (ran MemoryOnly demo) IPv6 3 false = Ok [].
Proof. example. Qed.

(* ---------- C59: include_history returns the history ---------- *)

Theorem C59_history_refuted :
  ~ (forall s h st p r q, after s h st -> on_disk st p r ->
  match_prefix st p (MatchOpts ExactMatch true false false None true) = Ok (ROk q) ->
  In r (qr_records q)).
Proof. exact history_never_returned. Qed.
Print Assumptions C59_history_refuted.

(* what holds instead: the option changes nothing *)
Theorem C59_history_ignored : forall st p ty iw le mo mui b b',
  match_prefix st p (MatchOpts ty iw le mo mui b) = match_prefix st p (MatchOpts ty iw le mo mui b').
Proof. exact history_ignored. Qed.
Print Assumptions C59_history_ignored.

Example C59_example : after PersistHistory h_over (ran PersistHistory h_over) /\
  on_disk (ran PersistHistory h_over) p_new (act 1 1 [1]) /\
  found (match_prefix (ran PersistHistory h_over) p_new (MatchOpts ExactMatch true false false None true)) =
    Some (ExactMatch, Some p_new, [act 1 2 [2]]).
Proof. example. Qed.
