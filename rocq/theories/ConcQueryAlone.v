(* A query that no call interferes with gives what the sequential code gives. *)
From Coq Require Import Arith NArith List Bool Lia.
From Verif Require Import Word Af BitSpan Spec Maps ChtMath Cht Node Tree Iter
  MultiMap RecordSet PrefixCht Lsm Rib StarCast HistSpec Ask
  Conc ConcTree ConcStore ConcMarks ConcStoreInv ConcCalls ConcSpec ConcFacts ConcScan ConcScanSpec ConcScanFacts
  AloneSpec ConcAlone ConcStill
  ConcWhole WholeSpec ConcWholeSim ConcWholeFacts ConcWholeRead ConcQuery QuerySpec ConcQueryProofs ConcQueryInv ConcEachInv
  ConcQueryFacts Queries2.
Import ListNotations.
Local Open Scope N_scope.

Definition until {A} (over : A -> bool) (next : A -> A) (a : A) : option A := if over a then None else Some (next a).
Lemma until_iter {A} over (next : A -> A) a b : star (until over next) a b -> exists n, Nat.iter n next a = b.
Proof.
  induction 1 as [a|a b c E S [n IH]]; [now exists O|]. exists (Datatypes.S n).
  unfold until in E. destruct (over a); [discriminate E|]. injection E as <-. rewrite <- IH. apply iter_r.
Qed.
Lemma iter_until {A} over (next : A -> A) : (forall a, over a = true -> next a = a) ->
  forall n a, star (until over next) a (Nat.iter n next a).
Proof.
  intros H n. induction n as [|n IH]; intros a; [apply star_refl|]. rewrite iter_r. destruct (over a) eqn:O.
  - rewrite (H a O). apply IH.
  - eapply star_step; [|apply IH]. unfold until. now rewrite O.
Qed.
Lemma until_map {A B} over (next : A -> A) over' (next' : B -> B) (u : A -> B) :
  (forall a, over a = false -> over' (u a) = false /\ next' (u a) = u (next a)) ->
  forall a b, star (until over next) a b -> star (until over' next') (u a) (u b).
Proof.
  intros H. apply star_map. intros a b E. unfold until in *. destruct (over a) eqn:O; [discriminate E|].
  injection E as <-. destruct (H a O) as [-> ->]. reflexivity.
Qed.
Lemma until_step {A} over (next : A -> A) a b : over a = false -> next a = b -> star (until over next) a b.
Proof. intros O <-. apply star_one. unfold until. now rewrite O. Qed.

Definition stage_over (sc : scan) : bool := match scan_stage sc with Going => false | _ => true end.

Section Alone.
Variables (ov : bool) (st : strategy) (f : af) (x : wstore).
Hypotheses (R : wreach ov st x) (W : wwf_calls x).
Notation rb := (rib_now (sh x) f).
Notation t := (tree_in (sh x) f).
Notation gsc := (until stage_over (scan_next f t)).

Lemma scan_idle sc : stage_over sc = true -> scan_next f t sc = sc.
Proof.
  unfold stage_over. destruct sc as [p [pc out]|once p [pc out]]; cbn [scan_stage scan_next sc_pc bs_pc].
  - destruct pc; try discriminate; reflexivity.
  - destruct pc; try discriminate; reflexivity.
Qed.
Lemma still_star_more p n : star gsc (more_from p) (SMore p (still (mnext f p) t n mscan0)).
Proof.
  replace (SMore p (still (mnext f p) t n mscan0)) with (Nat.iter n (scan_next f t) (more_from p)).
  - apply iter_until. exact scan_idle.
  - unfold still. induction n as [|n IH]; [reflexivity|]. change (scan_next f t (Nat.iter n (scan_next f t) (more_from p)) = SMore p (mnext f p t (Nat.iter n (mnext f p t) mscan0))). now rewrite IH.
Qed.
Lemma still_star_less once p n : star gsc (less_from once p) (SLess once p (still (bnext f once p) t n (bscan0 once p))).
Proof.
  replace (SLess once p (still (bnext f once p) t n (bscan0 once p))) with (Nat.iter n (scan_next f t) (less_from once p)).
  - apply iter_until. exact scan_idle.
  - unfold still. induction n as [|n IH]; [reflexivity|]. change (scan_next f t (Nat.iter n (scan_next f t) (less_from once p)) =
      SLess once p (bnext f once p t (Nat.iter n (bnext f once p t) (bscan0 once p)))). now rewrite IH.
Qed.

Lemma family : exists z, reach f ov st z /\ sim st f x z /\ tree_of z = t.
Proof.
  destruct (wsim_exec ov st x x R (ex_refl _ _ _ _) f) as (z & Rz & S). exists z. split; [exact Rz|]. split; [exact S|].
  exact (sim_tree st f x z S).
Qed.
(* the sequential code does not look at the heap through rib_now otherwise *)
Lemma more_heap (t1 t2 : tree) p : t_heap t1 = t_heap t2 -> more_specifics f t1 p = more_specifics f t2 p.
Proof. intros E. unfold more_specifics, more_specific_prefix_iter_from. now rewrite E. Qed.
Lemma exists_heap (t1 t2 : tree) p : t_heap t1 = t_heap t2 -> prefix_exists f t1 p = prefix_exists f t2 p.
Proof. intros E. unfold prefix_exists. now rewrite E. Qed.
Lemma longest_heap (t1 t2 : tree) p : t_heap t1 = t_heap t2 -> longest_matching_prefix f t1 p = longest_matching_prefix f t2 p.
Proof.
  intros E. unfold longest_matching_prefix. generalize (S (N.to_nat (p_len p))). intros n. revert p.
  induction n as [|n IH]; intros p; [reflexivity|]. cbn [lmp_loop]. rewrite (exists_heap t1 t2 p E).
  destruct (p_len p =? 0); [reflexivity|]. destruct (prefix_exists f t2 p) as [[]| |]; try reflexivity. cbn [bind].
  destruct (sub8 (p_len p) 1); try reflexivity. cbn [bind]. apply IH.
Qed.
Lemma less_heap (t1 t2 : tree) p : t_heap t1 = t_heap t2 -> less_specifics f t1 p = less_specifics f t2 p.
Proof.
  intros E. unfold less_specifics.
  assert (A : forall n lvl, ls_next_loop n f t1 p lvl = ls_next_loop n f t2 p lvl).
  { induction n as [|n IH]; intros lvl; [reflexivity|]. cbn [ls_next_loop]. rewrite (exists_heap t1 t2 _ E).
    destruct (lvl =? 0); [reflexivity|]. destruct (prefix_exists f t2 _) as [[]| |]; try reflexivity. cbn [bind]. apply IH. }
  generalize (p_len p) at 2 4. generalize (S (N.to_nat (p_len p))). intros n. induction n as [|n IH]; intros lvl; [reflexivity|].
  cbn [ls_collect]. unfold ls_next. rewrite A. destruct (ls_next_loop _ f t2 p _) as [[[q k]|]| |]; try reflexivity.
  cbn [bind]. now rewrite IH.
Qed.
Lemma heap_now : t_heap (rb_tree rb) = t_heap t.
Proof. reflexivity. Qed.

Lemma longest_star p : wf_pid f p -> exists o b, longest_matching_prefix f (rb_tree rb) p = Ok o /\
  star gsc (less_from true p) (SLess true p b) /\ scan_stage (SLess true p b) = Ended /\ hd_error (bs_out b) = o.
Proof.
  intros Wp. destruct family as (z & Rz & _ & E). destruct (still_longest f ov st z p Rz Wp) as (o & n & A & B & C).
  rewrite E in *. exists o. eexists. split; [rewrite <- A; apply longest_heap; reflexivity|]. split; [apply (still_star_less true p n)|].
  split; [cbn [scan_stage]; now rewrite B|]. unfold matches in C.
  rewrite <- (rev_involutive (bs_out _)), C. now destruct o.
Qed.
Lemma less_star p : wf_pid f p -> exists l b, less_specifics f (rb_tree rb) p = Ok l /\
  star gsc (less_from false p) (SLess false p b) /\ scan_stage (SLess false p b) = Ended /\ rev (bs_out b) = l.
Proof.
  intros Wp. destruct family as (z & Rz & _ & E). destruct (still_less f ov st z p Rz Wp) as (l & n & A & B & C).
  rewrite E in *. exists l. eexists. split; [rewrite <- A; apply less_heap; reflexivity|]. split; [apply (still_star_less false p n)|].
  split; [cbn [scan_stage]; now rewrite B|exact C].
Qed.
Lemma more_star p : wf_pid f p -> exists l m, more_specifics f (rb_tree rb) p = Ok l /\
  star gsc (more_from p) (SMore p m) /\ scan_stage (SMore p m) = Ended /\ rev (sc_out m) = l.
Proof.
  intros Wp. destruct family as (z & Rz & _ & E). destruct (still_more f ov st z p Rz Wp) as (l & n & A & B & C & D).
  rewrite E in *. exists l. eexists. split; [rewrite <- A; apply more_heap; reflexivity|]. split; [apply (still_star_more p n)|].
  split; [|exact D]. cbn [scan_stage]. unfold scan_over in B.
  destruct (sc_pc (still (mnext f p) t n mscan0)); try discriminate B; [reflexivity|now elim C].
Qed.

(* ---------- a look-up ---------- *)

Definition look_end (l : wpc) : bool := match l with WAsk | WLook _ _ => false | _ => true end.
Lemma value_star c mui iw : wf_pid f c -> wf_mui mui -> exists o, rib_get_value f rb c mui iw = Ok (ROk o) /\
  star (until look_end (value_next f c mui iw (sh x))) WAsk (WGot (ROk o)).
Proof.
  intros Wc Wm. destruct (whole_get_ok ov st x x x f c mui iw R (ex_refl _ _ _ _) W Wc Wm) as (o & Q).
  rewrite ask_get in Q. fold rb in Q. exists o.
  assert (Q' : rib_get_value f rb c mui iw = Ok (ROk o)).
  { change (with_marks (ss_rib (fam (sh x) f)) (g_set (marks (sh x) f))) with rb in Q.
    destruct (rib_get_value f rb c mui iw) as [u| |]; [|discriminate Q..]. now injection Q as ->. }
  split; [exact Q'|]. clear Q.
  eapply star_trans; [apply until_step; [reflexivity|]; cbn [value_next]; reflexivity|].
  set (bmin := g_set (marks (sh x) f)).
  destruct (rb_strat (ss_rib (fam (sh x) f))) eqn:St.
  4:{ apply until_step; [reflexivity|]. cbn [value_next]. unfold wlook. rewrite St. fold bmin in Q'.
      change (with_marks (ss_rib (fam (sh x) f)) bmin) with rb. now rewrite Q'. }
  all: unfold rib_get_value in Q'; change (rb_strat rb) with (rb_strat (ss_rib (fam (sh x) f))) in Q'; rewrite St in Q';
    destruct (PrefixCht.get_records_for_prefix f (rb_pcht rb) c mui iw (t_withdrawn (rb_tree rb))) as [u| |] eqn:G; try discriminate Q';
    injection Q' as ->;
    pose proof (records_alone f (ConcStore.set_rib (fam (sh x) f) rb) c mui iw o G) as S;
    (* every step of it is a step here *)
    assert (K : forall a b, star (gv f c mui iw) a b -> forall pc, a = (ConcStore.set_rib (fam (sh x) f) rb, pc) ->
      snd b = VDone o -> match pc with VDone o' => o' = o | VPanic => False | _ =>
        star (until look_end (value_next f c mui iw (sh x))) (WLook bmin pc) (WGot (ROk o)) end).
  1,3,5: intros a b Sab; induction Sab as [a|a b d G1 S1 IH]; intros pc -> Eb;
    [cbn [snd] in Eb; subst pc; reflexivity|];
    unfold gv in G1; cbn [fst snd] in G1;
    destruct pc as [|w|k|o'|]; try discriminate G1;
    (destruct b as [s1 pc1]; assert (s1 = ConcStore.set_rib (fam (sh x) f) rb) as ->
       by (cbn [vstep] in G1; congruence);
     specialize (IH pc1 eq_refl Eb);
     assert (V : forall l, match pc1 with VDone o1 => WGot (ROk o1) | VPanic => WPanic | _ => WLook bmin pc1 end = l ->
       star (until look_end (value_next f c mui iw (sh x))) l (WGot (ROk o)))
       by (intros l <-; destruct pc1; try exact IH; [subst; apply star_refl|contradiction]);
     eapply star_trans; [apply until_step; [reflexivity|]; cbn [value_next]; unfold wlook; rewrite St;
       change (with_marks (ss_rib (fam (sh x) f)) bmin) with rb; rewrite G1; reflexivity|];
     apply V; destruct pc1; reflexivity).
  all: exact (K _ _ S VStart eq_refl eq_refl).
Qed.

(* ---------- match_prefix ---------- *)

Section Match.
Variables (p : pid) (o : matchopts).
Hypotheses (Wp : wf_pid f p) (Wm : wf_mui (mo_mui o)).
Notation gmt := (until match_over (match_next f p o (sh x))).

Lemma long_lift sc sc' : star gsc sc sc' -> star gmt (AtLong sc) (AtLong sc').
Proof.
  apply until_map. intros a O. split; [reflexivity|]. cbn [match_next]. unfold stage_over in O. now destruct (scan_stage a).
Qed.
Lemma less_lift lm sc sc' : star gsc sc sc' -> star gmt (AtLess lm sc) (AtLess lm sc').
Proof.
  apply (until_map _ _ _ _ (AtLess lm)). intros a O. split; [reflexivity|]. cbn [match_next]. unfold stage_over in O.
  now destruct (scan_stage a).
Qed.
Lemma more_lift lm ls sc sc' : star gsc sc sc' -> star gmt (AtMore lm ls sc) (AtMore lm ls sc').
Proof.
  apply (until_map _ _ _ _ (AtMore lm ls)). intros a O. split; [reflexivity|]. cbn [match_next]. unfold stage_over in O.
  now destruct (scan_stage a).
Qed.
Lemma main_lift tr c l l' : tr_prefix tr = Some c ->
  star (until look_end (value_next f c (mo_mui o) (mo_withdrawn o) (sh x))) l l' -> star gmt (AtMain tr l) (AtMain tr l').
Proof.
  intros C. apply (until_map _ _ _ _ (AtMain tr)). intros a O. split; [reflexivity|]. cbn [match_next]. rewrite C.
  now destruct a.
Qed.
Lemma fill_lift more tr main ms c todo got l l' :
  star (until look_end (value_next f c (mo_mui o) (mo_withdrawn o) (sh x))) l l' ->
  star gmt (AtFill more tr main ms (c :: todo) got l) (AtFill more tr main ms (c :: todo) got l').
Proof.
  apply (until_map _ _ _ _ (AtFill more tr main ms (c :: todo) got)). intros a O. split; [reflexivity|]. cbn [match_next].
  now destruct a.
Qed.

Lemma fill_star more tr main ms : forall todo got, Forall (wf_pid f) todo ->
  exists items g, map_res (item_for f rb (mo_mui o) (mo_withdrawn o)) todo = Ok items /\
    collect_r (cat_opts items) = ROk g /\
    star gmt (AtFill more tr main ms todo got WAsk) (AtFill more tr main ms [] (got ++ g) WAsk).
Proof.
  induction todo as [|c todo IH]; intros got F.
  - exists [], []. split; [reflexivity|]. split; [reflexivity|]. rewrite app_nil_r. apply star_refl.
  - inversion F as [|? ? Wc F']; subst.
    destruct (value_star c (mo_mui o) (mo_withdrawn o) Wc Wm) as (v & V & S).
    pose proof (fill_lift more tr main ms c todo got _ _ S) as S1. cbn [map_res]. unfold item_for at 1. rewrite V. cbn [bind].
    destruct v as [v|].
    + destruct (IH (got ++ [((f, c), v)]) F') as (items & g & A & B & C). rewrite A. cbn [bind].
      exists (Some (ROk ((f, c), v)) :: items), (((f, c), v) :: g). split; [reflexivity|]. split.
      { change (cat_opts (Some (ROk ((f, c), v)) :: items)) with (ROk ((f, c), v) :: cat_opts items). cbn [collect_r]. now rewrite B. }
      eapply star_trans; [exact S1|]. eapply star_trans; [apply until_step; [reflexivity|]; cbn [match_next]; reflexivity|].
      rewrite <- app_assoc in C. exact C.
    + destruct (IH got F') as (items & g & A & B & C). rewrite A. cbn [bind].
      exists (None :: items), g. split; [reflexivity|]. split; [exact B|].
      eapply star_trans; [exact S1|]. eapply star_trans; [apply until_step; [reflexivity|]; cbn [match_next]; reflexivity|].
      exact C.
Qed.

Lemma fill_seq l items g : map_res (item_for f rb (mo_mui o) (mo_withdrawn o)) l = Ok items ->
  collect_r (cat_opts items) = ROk g ->
  fill_set f rb o (Some (rs_from_iter (List.map (fun p => ((f, p), [])) l))) = Ok (ROk (Some (rs_from_iter g))).
Proof.
  intros E C. unfold fill_set. rewrite (rs_items_family f).
  2:{ intros y I. apply in_map_iff in I. destruct I as (q & <- & _). reflexivity. }
  cbn [bind]. rewrite map_res_map. cbn [fst snd].
  change (fun x1 : pid => item_for f rb (mo_mui o) (mo_withdrawn o) x1) with (item_for f rb (mo_mui o) (mo_withdrawn o)).
  rewrite E. cbn [bind]. now rewrite C.
Qed.

(* the part after the tree *)
Definition seq_tail (tr : treeresult) (recs : option (list record)) : res (result queryresult) :=
  let q := query_of_tree f tr in
  let q1 := match recs with
            | Some m => QueryResult (qr_type q) (qr_prefix q) m (qr_less q) (qr_more q)
            | None => QueryResult EmptyMatch None (qr_records q) (qr_less q) (qr_more q)
            end in
  do ms <- if mo_more o then fill_set f rb o (qr_more q1) else Ok (ROk (qr_more q1));
  match ms with
  | RErr e => Ok (RErr e)
  | ROk ms =>
    do ls <- if mo_less o then fill_set f rb o (qr_less q1) else Ok (ROk (qr_less q1));
    match ls with
    | RErr e => Ok (RErr e)
    | ROk ls => Ok (ROk (QueryResult (qr_type q1) (qr_prefix q1) (qr_records q1) ls ms))
    end
  end.

Lemma tail_star tr recs : 
  match tr_more tr with Some l => mo_more o = true /\ Forall (wf_pid f) l | None => mo_more o = false end ->
  match tr_less tr with Some l => mo_less o = true /\ Forall (wf_pid f) l | None => mo_less o = false end ->
  exists r, seq_tail tr recs = Ok (ROk r) /\ star gmt (at_fill_more f tr recs) (AtEnd (ROk r)).
Proof.
  intros Hm Hl.
  assert (E1 : forall q, q = query_of_tree f tr ->
    qr_more (match recs with
             | Some m => QueryResult (qr_type q) (qr_prefix q) m (qr_less q) (qr_more q)
             | None => QueryResult EmptyMatch None (qr_records q) (qr_less q) (qr_more q) end)
      = option_map (fun l => rs_from_iter (List.map (fun p => ((f, p), [])) l)) (tr_more tr) /\
    qr_less (match recs with
             | Some m => QueryResult (qr_type q) (qr_prefix q) m (qr_less q) (qr_more q)
             | None => QueryResult EmptyMatch None (qr_records q) (qr_less q) (qr_more q) end)
      = option_map (fun l => rs_from_iter (List.map (fun p => ((f, p), [])) l)) (tr_less tr)).
  { intros q ->. destruct recs; split; reflexivity. }
  destruct (E1 _ eq_refl) as [Em El]. unfold seq_tail. rewrite Em, El. clear E1 Em El.
  assert (Fin : forall ms ls, exists r, AtEnd (ROk r) = at_end f tr recs ms ls /\
    QueryResult
      (qr_type (match recs with
             | Some m => QueryResult (qr_type (query_of_tree f tr)) (qr_prefix (query_of_tree f tr)) m (qr_less (query_of_tree f tr)) (qr_more (query_of_tree f tr))
             | None => QueryResult EmptyMatch None (qr_records (query_of_tree f tr)) (qr_less (query_of_tree f tr)) (qr_more (query_of_tree f tr)) end))
      (qr_prefix (match recs with
             | Some m => QueryResult (qr_type (query_of_tree f tr)) (qr_prefix (query_of_tree f tr)) m (qr_less (query_of_tree f tr)) (qr_more (query_of_tree f tr))
             | None => QueryResult EmptyMatch None (qr_records (query_of_tree f tr)) (qr_less (query_of_tree f tr)) (qr_more (query_of_tree f tr)) end))
      (qr_records (match recs with
             | Some m => QueryResult (qr_type (query_of_tree f tr)) (qr_prefix (query_of_tree f tr)) m (qr_less (query_of_tree f tr)) (qr_more (query_of_tree f tr))
             | None => QueryResult EmptyMatch None (qr_records (query_of_tree f tr)) (qr_less (query_of_tree f tr)) (qr_more (query_of_tree f tr)) end))
      (option_map rs_from_iter ls) (option_map rs_from_iter ms) = r).
  { intros ms ls. eexists. split; [|reflexivity]. unfold at_end. destruct recs; reflexivity. }
  assert (L : forall ms, exists r, star gmt (at_fill_less f tr recs ms) (AtEnd (ROk r)) /\
    exists g, (if mo_less o then fill_set f rb o (option_map (fun l => rs_from_iter (List.map (fun p => ((f, p), [])) l)) (tr_less tr))
       else Ok (ROk (option_map (fun l => rs_from_iter (List.map (fun p => ((f, p), [])) l)) (tr_less tr)))) = Ok (ROk (option_map rs_from_iter g)) /\
      AtEnd (ROk r) = at_end f tr recs ms g).
  { intros ms. unfold at_fill_less. destruct (tr_less tr) as [l|] eqn:E.
    - destruct Hl as [-> Fl]. destruct (fill_star false tr recs ms l [] Fl) as (items & g & A & B & C).
      destruct (Fin ms (Some g)) as (r & Fr & _). exists r. split.
      + eapply star_trans; [exact C|]. apply until_step; [reflexivity|]. cbn [match_next app]. now rewrite Fr.
      + exists (Some g). split; [|exact Fr]. cbn [option_map]. exact (fill_seq l items g A B).
    - rewrite Hl. destruct (Fin ms None) as (r & Fr & _). exists r. rewrite <- Fr. split; [apply star_refl|].
      exists None. split; [reflexivity|]. exact Fr. }
  unfold at_fill_more. destruct (tr_more tr) as [l|] eqn:E.
  - destruct Hm as [-> Fl]. destruct (fill_star true tr recs None l [] Fl) as (items & g & A & B & C).
    destruct (L (Some g)) as (r & S & g' & Q & Fr). exists r. split.
    + cbn [option_map]. rewrite (fill_seq l items g A B). cbn [bind]. rewrite Q. cbn [bind].
      destruct (Fin (Some g) g') as (r' & Fr' & <-). rewrite <- Fr in Fr'. injection Fr' as <-. reflexivity.
    + eapply star_trans; [exact C|]. eapply star_trans; [apply until_step; [reflexivity|]; cbn [match_next app]; reflexivity|].
      exact S.
  - rewrite Hm. destruct (L None) as (r & S & g' & Q & Fr). exists r. split; [|exact S].
    cbn [option_map bind]. rewrite Q. cbn [bind].
    destruct (Fin None g') as (r' & Fr' & <-). rewrite <- Fr in Fr'. injection Fr' as <-. reflexivity.
Qed.

Lemma match_seq : exists r, rib_match_prefix f rb p o = Ok (ROk r) /\ star gmt (match_start p) (AtEnd (ROk r)).
Proof.
  destruct (longest_star p Wp) as (lm & b1 & A1 & S1 & G1 & H1).
  destruct (less_star p Wp) as (l2 & b2 & A2 & S2 & G2 & H2).
  destruct (more_star p Wp) as (l3 & m3 & A3 & S3 & G3 & H3).
  set (ls := if mo_less o then Some l2 else None).
  set (ms := if mo_more o then Some (filter (fun q => negb (pid_eqb q p)) l3) else None).
  assert (Pl : ls = if mo_less o then Some l2 else None) by reflexivity.
  assert (Pm : ms = if mo_more o then Some (filter (fun q => negb (pid_eqb q p)) l3) else None) by reflexivity.
  clearbody ls ms.
  set (tr := tree_result p o lm ls ms).
  assert (Tree : tree_match_prefix f (rb_tree rb) p o = Ok tr).
  { unfold tree_match_prefix. rewrite A1. cbn [bind]. unfold tr, tree_result. rewrite Pl, Pm.
    destruct (mo_type o); [destruct lm as [q|]; [destruct (pid_eqb q p)|]| |];
      destruct (mo_less o); rewrite ?A2; cbn [bind]; destruct (mo_more o); rewrite ?A3; reflexivity. }
  assert (ToMain : star gmt (match_start p) (at_main f tr)).
  { unfold match_start. eapply star_trans; [exact (long_lift _ _ S1)|].
    eapply star_trans; [apply until_step; [reflexivity|]; cbn [match_next]; rewrite G1; reflexivity|].
    cbn [scan_out]. rewrite H1.
    assert (M : star gmt (at_more f p o lm ls) (at_main f tr)).
    { unfold at_more. unfold tr. rewrite Pm. destruct (mo_more o); [|apply star_refl].
      eapply star_trans; [exact (more_lift lm ls _ _ S3)|].
      apply until_step; [reflexivity|]. cbn [match_next]. rewrite G3. cbn [scan_out]. now rewrite H3. }
    unfold at_less. destruct (mo_less o); rewrite Pl in M; [|exact M].
    eapply star_trans; [exact (less_lift lm _ _ S2)|].
    eapply star_trans; [apply until_step; [reflexivity|]; cbn [match_next]; rewrite G2; reflexivity|].
    cbn [scan_out]. rewrite H2. exact M. }
  assert (TP : tr_less tr = ls /\ tr_more tr = ms).
  { unfold tr, tree_result. destruct (mo_type o); try (split; reflexivity). destruct lm as [q|]; [|split; reflexivity].
    now destruct (pid_eqb q p). }
  (* the invariant holds for what the steps gave *)
  assert (TO : tree_ok ov st f x p o x tr).
  { destruct (until_iter _ _ _ _ S1) as (n1 & N1). destruct (until_iter _ _ _ _ S2) as (n2 & N2).
    destruct (until_iter _ _ _ _ S3) as (n3 & N3).
    assert (Run : forall sc sc', star gsc sc sc' -> wf_pid f (scan_pfx sc) -> forall n, sub ov st f x x n sc ->
      exists n', sub ov st f x x n' sc').
    { intros sc sc' S. induction S as [sc|sc sc1 sc2 E S IH]; intros Wsc n Sb; [now exists n|].
      unfold until in E. destruct (stage_over sc) eqn:O; [discriminate E|]. injection E as <-.
      apply (IH ltac:(destruct sc; exact Wsc) (Datatypes.S n)). apply sub_own; [exact Wsc|exact Sb|].
      unfold stage_over in O. now destruct (scan_stage sc). }
    exists lm, ls, ms. split; [|split; [|split; [|reflexivity]]].
    - destruct (Run _ _ S1 Wp 0%nat (sub_less ov st f x x true p R (ex_refl _ _ _ _))) as (n & Sb).
      exists n, b1. split; [split; [exact Sb|exact G1]|]. now rewrite H1.
    - unfold less_ok. rewrite Pl. destruct (mo_less o); [|reflexivity].
      destruct (Run _ _ S2 Wp 0%nat (sub_less ov st f x x false p R (ex_refl _ _ _ _))) as (n & Sb).
      exists n, b2. split; [split; [exact Sb|exact G2]|]. now rewrite H2.
    - unfold more_ok. rewrite Pm. destruct (mo_more o); [|reflexivity].
      destruct (Run _ _ S3 Wp 0%nat (sub_more ov st f x x p R (ex_refl _ _ _ _))) as (n & Sb).
      exists n, m3. split; [split; [exact Sb|exact G3]|]. now rewrite H3. }
  destruct (tree_wf ov st f x p o Wp x tr TO) as (W1 & W2 & W3). destruct TP as [TP1 TP2].
  assert (Tail : forall recs, exists r, seq_tail tr recs = Ok (ROk r) /\ star gmt (at_fill_more f tr recs) (AtEnd (ROk r))).
  { intros recs. apply tail_star.
    - rewrite TP2 in W2 |- *. rewrite Pm in W2 |- *. destruct (mo_more o); [|reflexivity]. split; [reflexivity|].
      apply Forall_forall. intros c I. exact (W2 _ c eq_refl I).
    - rewrite TP1 in W3 |- *. rewrite Pl in W3 |- *. destruct (mo_less o); [|reflexivity]. split; [reflexivity|].
      apply Forall_forall. intros c I. exact (W3 _ c eq_refl I). }
  unfold rib_match_prefix. rewrite Tree. cbn [bind]. unfold query_of_tree at 1. cbn [qr_prefix].
  unfold at_main in ToMain. destruct (tr_prefix tr) as [c|] eqn:C; cbn [option_map].
  - destruct (value_star c (mo_mui o) (mo_withdrawn o) (W1 c eq_refl) Wm) as (v & V & S). cbn [snd]. rewrite V. cbn [bind].
    destruct (Tail match v with Some (a :: l) => Some (a :: l) | _ => None end) as (r & Q & Sr). exists r. split.
    + rewrite <- Q. unfold seq_tail. destruct v as [[|a v]|]; reflexivity.
    + eapply star_trans; [exact ToMain|]. eapply star_trans; [exact (main_lift tr c _ _ C S)|].
      eapply star_trans; [apply until_step; [reflexivity|]; cbn [match_next]; rewrite C; reflexivity|].
      destruct v as [[|a v]|]; exact Sr.
  - cbn [bind]. destruct (Tail None) as (r & Q & Sr). exists r. split; [rewrite <- Q; reflexivity|].
    eapply star_trans; [exact ToMain|exact Sr].
Qed.
End Match.

(* ---------- the iterators ---------- *)

Section Each.
Variable k : each.
Hypothesis Wk : wf_each f k.
Notation git := (until each_over (each_next f k (sh x))).
Definition valof (c : pid) : result (option (list record)) :=
  match rib_get_value f rb c (each_mui k) (each_iw k) with Ok r => r | _ => ROk None end.
Definition gives (l : list pid) : list (result prefixrecord) := flat_map (fun c => each_item f k c (valof c)) l.

Lemma cur_lift sc c got l l' : star (until look_end (value_next f c (each_mui k) (each_iw k) (sh x))) l l' ->
  star git (ItScan sc (Some (c, l)) got) (ItScan sc (Some (c, l')) got).
Proof.
  apply (until_map _ _ _ _ (fun l => ItScan sc (Some (c, l)) got)). intros a O. split; [reflexivity|]. cbn [each_next].
  now destruct a.
Qed.

Lemma scan_gives sc sc' : star gsc sc sc' -> forall n got, wf_pid f (scan_pfx sc) -> sub ov st f x x n sc ->
  exists new n', rev (scan_out sc') = rev (scan_out sc) ++ new /\ sub ov st f x x n' sc' /\ Forall (wf_pid f) new /\
    star git (ItScan sc None got) (ItScan sc' None (got ++ gives new)).
Proof.
  intros S. induction S as [sc|sc sc1 sc2 E S IH]; intros n got Wsc Sb.
  - exists [], n. split; [now rewrite app_nil_r|]. split; [exact Sb|]. split; [apply Forall_nil|]. cbn. rewrite app_nil_r.
    apply star_refl.
  - unfold until in E. destruct (stage_over sc) eqn:O; [discriminate E|]. injection E as <-.
    assert (G : scan_stage sc = Going) by (unfold stage_over in O; now destruct (scan_stage sc)).
    pose proof (sub_own ov st f x x n sc Wsc Sb G) as Sb'.
    assert (Wsc' : wf_pid f (scan_pfx (scan_next f t sc))) by (destruct sc; exact Wsc).
    destruct (scan_next_out f t sc) as [Q|(c & Q)].
    + destruct (IH (Datatypes.S n) got Wsc' Sb') as (new & n' & A & B & F & C). exists new, n'. rewrite Q in A.
      split; [exact A|]. split; [exact B|]. split; [exact F|]. eapply star_trans; [|exact C].
      apply until_step; [reflexivity|]. cbn [each_next]. rewrite G, Q.
      destruct (scan_out sc) as [|c l]; [reflexivity|]. cbn [length].
      destruct (Nat.eqb_spec (length l) (Datatypes.S (length l))) as [X|X]; [lia|reflexivity].
    + assert (Wc : wf_pid f c).
      { destruct (sub_sound ov st f x x _ _ Wsc' Sb') as [_ So]. apply (So c). rewrite Q. now left. }
      destruct (value_star c (each_mui k) (each_iw k) Wc (proj1 Wk)) as (v & V & Sv).
      destruct (IH (Datatypes.S n) (got ++ each_item f k c (ROk v)) Wsc' Sb') as (new & n' & A & B & F & C).
      exists (c :: new), n'. rewrite Q in A. cbn [rev] in A. rewrite <- app_assoc in A.
      split; [exact A|]. split; [exact B|]. split; [now apply Forall_cons|].
      eapply star_trans; [apply until_step; [reflexivity|]; cbn [each_next]; rewrite G, Q, Nat.eqb_refl; reflexivity|].
      eapply star_trans; [exact (cur_lift _ c got _ _ Sv)|].
      eapply star_trans; [apply until_step; [reflexivity|]; cbn [each_next]; reflexivity|].
      unfold gives. cbn [flat_map]. unfold valof at 1. rewrite V, app_assoc. exact C.
Qed.

Lemma items_gives l : Forall (wf_pid f) l -> k <> EachPrefix ->
  exists items, map_res (item_for f rb (each_mui k) (each_iw k)) l = Ok items /\ cat_opts items = gives l.
Proof.
  intros F NP. induction l as [|c l IH]; [exists []; split; reflexivity|]. inversion F as [|? ? Wc F']; subst.
  destruct (IH F') as (items & A & B). cbn [map_res]. destruct (value_star c (each_mui k) (each_iw k) Wc (proj1 Wk)) as (v & V & _).
  unfold item_for at 1. rewrite V. cbn [bind]. rewrite A. cbn [bind]. eexists. split; [reflexivity|].
  unfold gives. cbn [flat_map]. fold (gives l). rewrite <- B. unfold valof. rewrite V.
  destruct k; try (now elim NP); destruct v; reflexivity.
Qed.

Lemma from_scan got : forall sc l, star gsc (each_scan k) sc -> scan_stage sc = Ended -> rev (scan_out sc) = l ->
  Forall (wf_pid f) l /\ star git (ItScan (each_scan k) None got) (ItEnd (got ++ gives l)).
Proof.
  intros sc l S G <-.
  assert (Sb : sub ov st f x x 0 (each_scan k)).
  { destruct k; cbn [each_scan]; (apply sub_more || apply sub_less); first [exact R|apply ex_refl]. }
  assert (Wsc : wf_pid f (scan_pfx (each_scan k))).
  { apply (same_pfx f k Wk). destruct k; reflexivity. }
  assert (E0 : scan_out (each_scan k) = []).
  { destruct k; try reflexivity. cbn [each_scan less_from scan_out]. unfold bscan0. now rewrite bat_out. }
  destruct (scan_gives _ _ S 0%nat got Wsc Sb) as (new & n' & A & B & F & C). rewrite E0 in A. cbn [rev app] in A. rewrite A.
  split; [exact F|]. eapply star_trans; [exact C|]. apply until_step; [reflexivity|]. cbn [each_next]. now rewrite G.
Qed.

Lemma each_seq : exists g, each_in_sequence (store_now (sh x)) f k = Ok g /\ star git (each_start k) (ItEnd g).
Proof.
  assert (Er : rib_of (store_now (sh x)) f = rb) by now destruct f.
  assert (Scan : forall l sc, star gsc (each_scan k) sc -> scan_stage sc = Ended -> rev (scan_out sc) = l ->
    star git (ItScan (each_scan k) None []) (ItEnd (gives l)) /\ Forall (wf_pid f) l).
  { intros l sc S G E. destruct (from_scan [] sc l S G E) as [F C]. auto. }
  assert (Items := items_gives).
  unfold each_in_sequence, more_specifics_iter_from, less_specifics_iter_from, prefixes_iter_af, iter_records_for_mui.
  cbn [fst snd]. rewrite Er. clear Er.
  destruct k as [p mui iw|p mui iw| |m iw] eqn:K; cbn [each_scan each_mui each_iw] in *.
  - destruct (more_star p (proj2 Wk)) as (l & sc & A & S & G & H). destruct (Scan l _ S G H) as [C F].
    destruct (Items l F ltac:(discriminate)) as (items & I1 & I2). unfold rib_more_specifics_iter_from.
    assert (E : (do ps <- more_specifics f (rb_tree rb) p; do items <- map_res (item_for f rb mui iw) ps; Ok (cat_opts items))
        = Ok (gives l)).
    { rewrite A. cbn [bind]. rewrite I1. cbn [bind]. now rewrite I2. }
    destruct mui as [m|]; [destruct iw|]; cbn [negb andb each_start]; [now exists (gives l)| |now exists (gives l)].
    destruct (rib_mui_is_withdrawn rb m) eqn:M.
    + exists []. split; [reflexivity|]. apply until_step; [reflexivity|]. cbn [each_next]. now rewrite M.
    + exists (gives l). split; [exact E|]. eapply star_trans; [apply until_step; [reflexivity|]; cbn [each_next]; rewrite M; reflexivity|].
      exact C.
  - destruct (less_star p (proj2 Wk)) as (l & sc & A & S & G & H). destruct (Scan l _ S G H) as [C F].
    destruct (Items l F ltac:(discriminate)) as (items & I1 & I2). unfold rib_less_specifics_iter_from.
    exists (gives l). split; [|exact C]. rewrite A. cbn [bind]. rewrite I1. cbn [bind]. now rewrite I2.
  - destruct (more_star (0, 0) (wf_root f)) as (l & sc & A & S & G & H). destruct (Scan l _ S G H) as [C F].
    unfold rib_prefixes_iter, tree_prefixes_iter. rewrite A. cbn [bind]. exists (gives l). split; [|exact C].
    clear A S G H C. induction l as [|c l IH]; [reflexivity|]. inversion F as [|? ? Wc F']; subst. cbn [map_res].
    destruct (value_star c None true Wc I) as (v & V & _). rewrite V. cbn [bind]. rewrite (IH F'). cbn [bind].
    change (gives (c :: l)) with (each_item f k c (valof c) ++ gives l). unfold valof. rewrite K. cbn [each_mui each_iw].
    rewrite V. reflexivity.
  - destruct (more_star (0, 0) (wf_root f)) as (l & sc & A & S & G & H). destruct (Scan l _ S G H) as [C F].
    destruct (Items l F ltac:(discriminate)) as (items & I1 & I2). unfold rib_more_specifics_iter_from.
    assert (E : (do ps <- more_specifics f (rb_tree rb) (0, 0); do items <- map_res (item_for f rb (Some m) iw) ps; Ok (cat_opts items))
        = Ok (gives l)).
    { rewrite A. cbn [bind]. rewrite I1. cbn [bind]. now rewrite I2. }
    destruct iw; cbn [negb andb each_start].
    + rewrite andb_false_r. now exists (gives l).
    + rewrite andb_true_r. destruct (rib_mui_is_withdrawn rb m) eqn:M.
      * exists []. split; [reflexivity|]. apply until_step; [reflexivity|]. cbn [each_next]. now rewrite M.
      * exists (gives l). split; [exact E|].
        eapply star_trans; [apply until_step; [reflexivity|]; cbn [each_next]; rewrite M; reflexivity|].
        eapply star_trans; [apply until_step; [reflexivity|]; cbn [each_next]; rewrite M; reflexivity|]. exact C.
Qed.
End Each.
End Alone.

Lemma match_alone ov st x f p o : wreach ov st x -> wwf_calls x -> wf_pid f p -> wf_mui (mo_mui o) ->
  exists n r, match_prefix (store_now (sh x)) (f, p) o = Ok (ROk r) /\
    Nat.iter n (match_next f p o (sh x)) (match_start p) = AtEnd (ROk r).
Proof.
  intros R W Wp Wm. destruct (match_seq ov st f x R W p o Wp Wm) as (r & A & S).
  destruct (until_iter _ _ _ _ S) as (n & N). exists n, r. split; [|exact N].
  unfold match_prefix. cbn [fst snd]. now destruct f.
Qed.
Lemma each_alone ov st x f k : wreach ov st x -> wwf_calls x -> wf_each f k ->
  exists n g, each_in_sequence (store_now (sh x)) f k = Ok g /\
    Nat.iter n (each_next f k (sh x)) (each_start k) = ItEnd g.
Proof.
  intros R W Wk. destruct (each_seq ov st f x R W k Wk) as (g & A & S).
  destruct (until_iter _ _ _ _ S) as (n & N). now exists n, g.
Qed.
