(* The lemmas behind the properties of the store, part 6: the properties in the
   form in which they are stated, and what the store does where a property fails. *)
From Coq Require Import Arith NArith List Bool Lia Permutation.
From Verif Require Import Word Af BitSpan Spec Maps ChtMath Cht Node Tree ChainProofs TreeProofs
  Iter IterProofs MultiMap PrefixCht PrefixChtProofs Lsm LsmProofs RecordSet Rib StarCast HistSpec
  Ask PropSpec RibProofs RibLsm RibOk Queries Queries2 Disk MuiWalk Facts1 Facts2 Facts3 Facts4 Facts5.
Import ListNotations.
Local Open Scope N_scope.

(* ---------- the default route ---------- *)

Lemma not_listed_default h f : ~ listed h (f, (0, 0)).
Proof. intros [_ H]. simpl in H. lia. Qed.

Lemma default_invisible s h st f : after s h st ->
  contains st (f, (0, 0)) None = Ok false /\
  (forall o, wf_mui (mo_mui o) -> exists q, match_prefix st (f, (0, 0)) o = Ok (ROk q) /\
     qr_type q = EmptyMatch /\ qr_prefix q = None /\ qr_records q = []) /\
  (forall p o q, wf_prefix p -> wf_mui (mo_mui o) -> match_prefix st p o = Ok (ROk q) ->
     qr_prefix q <> Some (f, (0, 0))) /\
  (forall p mui iw l rs, wf_prefix p -> wf_mui mui ->
     less_specifics_iter_from st p mui iw = Ok l -> ~ In (ROk ((f, (0, 0)), rs)) l) /\
  (forall l rs, prefixes_iter_af st f = Ok l -> ~ In (ROk ((f, (0, 0)), rs)) l).
Proof.
  intros A. pose proof (not_listed_default h f) as NL.
  assert (W0 : wf_prefix (f, (0, 0))).
  { unfold wf_prefix, wf_pid; simpl. destruct f; simpl; repeat split; lia. }
  assert (Hin : forall (l : list prefixrecord) x, In (ROk x) (List.map ROk l) -> In x l).
  { intros l x I. apply in_map_iff in I. destruct I as [y [E I]]. congruence. }
  split; [now apply (contains_default s h)|]. split; [|split; [|split]].
  - intros o Wo. destruct (mo_type o) eqn:T.
    + destruct (match_exact s h st (f, (0, 0)) o A W0 Wo T) as [q [E [(L & _)|(_ & X)]]]; [easy|].
      exists q. split; auto.
    + destruct (match_longest s h st (f, (0, 0)) o A W0 Wo) as (q & c & E & L & X);
        [rewrite T; discriminate|]. exists q. split; auto.
      destruct c as [c|]; auto. destruct L as ([L1 L2] & [_ [L3 _]] & _). simpl in L3. exfalso. lia.
    + destruct (match_longest s h st (f, (0, 0)) o A W0 Wo) as (q & c & E & L & X);
        [rewrite T; discriminate|]. exists q. split; auto.
      destruct c as [c|]; auto. destruct L as ([L1 L2] & [_ [L3 _]] & _). simpl in L3. exfalso. lia.
  - intros p o q Wp Wo E F. destruct (mo_type o) eqn:T.
    1: { destruct (match_exact s h st p o A Wp Wo T) as [q' [E' [(L & _ & X & _)|(_ & _ & X & _)]]];
         rewrite E in E'; injection E' as <-; [|congruence].
         rewrite F in X. injection X as X. subst p. easy. }
    all: destruct (match_longest s h st p o A Wp Wo) as (q' & c & E' & L & X); [rewrite T; discriminate|];
      rewrite E in E'; injection E' as <-; destruct c as [c|];
      [|destruct X as (_ & X & _); congruence];
      destruct X as [(_ & X & _)|(_ & _ & X & _)]; [|congruence];
      rewrite F in X; injection X as X; subst c; destruct L as [L _]; easy.
  - intros p mui iw l rs Wp Wm E I. destruct (less_iter s h st p mui iw A Wp Wm) as (l' & E' & G & _).
    rewrite E in E'. injection E' as ->. apply Hin in I. destruct G as (_ & G & _).
    apply G in I. destruct I as [[I _] _]. easy.
  - intros l rs E I. destruct (prefixes_all s h st f A) as (l' & E' & _ & G & _).
    rewrite E in E'. injection E' as ->. apply Hin in I.
    assert (J : In (f, (0, 0)) (List.map (@fst prefix (list record)) l')).
    { apply in_map_iff. exists ((f, (0, 0)), rs). auto. }
    apply G in J. now destruct J.
Qed.

(* ---------- records of a prefix ---------- *)

Lemma get_all s h st p : in_memory s -> after s h st -> wf_prefix p ->
  exists o, get_records_for_prefix st p None true = Ok (ROk o) /\ answers (view_all h p) o.
Proof.
  intros S A W. destruct (get_records s h st p None true A W I) as (o & E & X).
  rewrite view_in_memory in X by auto. exists o. split; auto.
Qed.

Lemma get_active s h st p : in_memory s -> after s h st -> wf_prefix p ->
  exists o, get_records_for_prefix st p None false = Ok (ROk o) /\ answers (view_active h p) o.
Proof.
  intros S A W. destruct (get_records s h st p None false A W I) as (o & E & X).
  rewrite view_in_memory in X by auto. exists o. split; auto.
Qed.

(* a query that names no mui never shows a globally withdrawn one, nor does
   PersistOnly, nor the iterators *)
Lemma withdrawn_hidden s h st p mui : after s h st -> wf_prefix p -> wf_mui mui ->
  (mui = None \/ s = PersistOnly) ->
  exists o, get_records_for_prefix st p mui false = Ok (ROk o) /\
    forall r, holds o r -> g_withdrawn h (fst p) (r_mui r) = false.
Proof.
  intros A W Wm C. destruct (get_records s h st p mui false A W Wm) as (o & E & X).
  exists o. split; auto. intros r H. apply (answers_holds _ _ _ X) in H.
  destruct C as [->| ->].
  - destruct s; simpl in H; unfold view_memory, view_persist, view_active in H; simpl in H.
    1-3: destruct (last_rec h p (r_mui r)); [|discriminate];
      destruct (g_withdrawn h (fst p) (r_mui r)); auto; now rewrite andb_false_r in H.
    destruct (po_rec h p (r_mui r)); [|discriminate].
    destruct (g_withdrawn h (fst p) (r_mui r)); auto. now rewrite orb_true_r in H.
  - simpl in H. unfold view_persist in H. destruct (named mui (r_mui r)); [|discriminate].
    destruct (po_rec h p (r_mui r)); [|discriminate].
    destruct (g_withdrawn h (fst p) (r_mui r)); auto. now rewrite orb_true_r in H.
Qed.

(* ---------- marks for a prefix that was never inserted ---------- *)

Lemma mark_unknown s h st p m t : in_memory s -> after s h st -> wf_prefix p ->
  m < 2 ^ 32 -> t < 2 ^ 64 -> touched h p = false ->
  exists st1 st2, exec st (MarkWithdrawn p m t) = Ok (st1, OUnit (RErr (mark_err s))) /\
    exec st1 (MarkWithdrawn p m t) = Ok (st2, OUnit (ROk tt)) /\
    forall q mui iw, wf_prefix q -> wf_mui mui ->
      exists a b, get_records_for_prefix st q mui iw = Ok (ROk a) /\
        get_records_for_prefix st2 q mui iw = Ok (ROk b) /\ same_records a b.
Proof.
  intros S A W Hm Ht T.
  assert (Wo : wf_op (MarkWithdrawn p m t)) by (simpl; auto).
  destruct (exec_total s h st _ A Wo) as (st1 & x1 & E1 & A1 & O1).
  destruct (exec_total s _ st1 _ A1 Wo) as (st2 & x2 & E2 & A2 & O2).
  exists st1, st2. simpl in O1, O2. rewrite T in O1. rewrite prefix_eqb_refl in O2. simpl in O2.
  assert (S' : s <> PersistOnly) by exact S.
  split; [rewrite E1; f_equal; f_equal; destruct s; auto; easy|].
  split; [rewrite E2; f_equal; f_equal; destruct s; auto; easy|].
  intros q mui iw Wq Wm.
  destruct (get_records s h st q mui iw A Wq Wm) as (a & Ea & Xa).
  destruct (get_records s _ st2 q mui iw A2 Wq Wm) as (b & Eb & Xb).
  exists a, b. split; auto. split; auto.
  apply (answers_same (view s h q mui iw) (view s (MarkWithdrawn p m t :: MarkWithdrawn p m t :: h) q mui iw));
    auto.
  2: { intros. now apply view_mui in H. }
  intros n. rewrite !view_in_memory by auto.
  assert (L : last_rec (MarkWithdrawn p m t :: MarkWithdrawn p m t :: h) q n = last_rec h q n).
  { simpl. destruct (prefix_eqb q p && (n =? m)) eqn:C; auto.
    apply andb_true_iff in C. destruct C as [C _]. apply prefix_eqb_spec in C. subst q.
    destruct (last_rec h p n) eqn:L; auto. exfalso.
    assert (inserted h p = true) as Hi by (apply (last_rec_inserted h p n); congruence).
    apply inserted_touched in Hi. congruence. }
  unfold view_memory, view_all, view_active, view_local. rewrite L. reflexivity.
Qed.

(* ---------- counters ---------- *)

Lemma all_counts s h st f : after s h st ->
  routes_count_af st f = UCounters 0 0 (n_inserts f h) /\
  prefixes_count_af st f = UCounters (match s with PersistOnly => 0 | _ => n_fresh f h end) 0
                             (n_prefixes f h).
Proof.
  intros A. destruct (after_rib _ _ _ f A) as [Wh R].
  destruct (prefix_counts s h st f A) as (P & _). destruct (route_counts s h st f A) as (Q & _).
  unfold routes_count_af, prefixes_count_af, rib_routes_count, rib_prefixes_count in *.
  cbn [uc_total] in P, Q. rewrite P, Q. split; [reflexivity|]. f_equal.
  pose proof (ro_mem _ _ _ _ R) as M. unfold pc_prefixes_count.
  destruct s; try apply (ml_cnt _ _ _ M).
  rewrite M. reflexivity.
Qed.

Lemma known_touched h p : marks_known h -> touched h p = inserted h p.
Proof.
  induction h as [|o h IH]; [easy|]. intros [K M].
  change (touched (o :: h) p) with
    (match o with Insert q _ _ | MarkWithdrawn q _ _ | MarkActive q _ _ => prefix_eqb p q
     | _ => false end || touched h p).
  change (inserted (o :: h) p) with
    (match o with Insert q _ _ => prefix_eqb p q | _ => false end || inserted h p).
  rewrite (IH M).
  destruct o as [q r u|q n t|q n t|g n|n|g n|q t]; auto.
  - destruct (prefix_eqb p q) eqn:E; auto. apply prefix_eqb_spec in E. subst q. now rewrite K.
  - destruct (prefix_eqb p q) eqn:E; auto. apply prefix_eqb_spec in E. subst q. now rewrite K.
Qed.

Lemma fresh_known f h : marks_known h -> n_fresh f h = n_prefixes f h.
Proof.
  unfold n_prefixes, prefix_set.
  induction h as [|o h IH]; [easy|]. intros [K M].
  destruct o as [[g q] r u|q n t|q n t|g n|n|g n|q t]; try (apply (IH M)).
  cbn [n_fresh inserted_ids fst snd]. rewrite (IH M). destruct (af_eqb f g) eqn:E; [|reflexivity].
  apply af_eqb_spec in E. subst g. rewrite known_touched by auto. cbn [nodup].
  destruct (in_dec pid_eq_dec q (inserted_ids f h)) as [I|I].
  - apply In_inserted_ids in I. rewrite I. reflexivity.
  - destruct (inserted h (f, q)) eqn:C; [now apply In_inserted_ids in C|]. simpl. lia.
Qed.

(* the route counter is right when no pair is inserted twice *)
Lemma routes_no_overwrite f h : NoDup (inserted_pairs f h) -> n_inserts f h = n_routes f h.
Proof.
  intros ND. unfold n_inserts, n_routes. f_equal.
  rewrite nodup_fixed_point by auto. clear ND.
  induction h as [|o h IH]; auto. destruct o; auto. simpl. destruct (af_eqb f (fst p)); simpl; auto.
Qed.

(* ---------- path selection ---------- *)

Lemma best_path_exact s h st p : in_memory s -> after s h st -> wf_prefix p ->
  exists x, best_path st p = Ok x /\
    match x with
    | None => touched h p = false
    | Some y => touched h p = true /\
        exists sel, selected h p sel /\
          y = match fst sel with
              | None => RErr BestPathNotFound
              | Some m => match view_local h p m with
                          | Some r => ROk r
                          | None => RErr StoreNotReadyError
                          end
              end
    end.
Proof.
  intros S A W. destruct p as [f id]. destruct (after_rib _ _ _ f A) as [Wh R].
  destruct (rib_best_path_ok s f h _ R id W) as (x & E & X). exists x. split; [exact E|].
  destruct x as [y|].
  - now destruct X as (_ & T & X).
  - destruct X as [X|X]; auto. now elim S.
Qed.

Lemma best_path_active s h st p r : after s h st -> wf_prefix p ->
  best_path st p = Ok (Some (ROk r)) -> last_rec h p (r_mui r) = Some r /\ r_status r = Active.
Proof.
  intros A W E. destruct p as [f id]. destruct (after_rib _ _ _ f A) as [Wh R].
  destruct (rib_best_path_ok s f h _ R id W) as (x & E' & X).
  unfold best_path in E. cbn [fst snd] in E. rewrite E in E'. injection E' as <-.
  destruct X as (_ & _ & sel & _ & Y). destruct (fst sel) as [m|]; [|discriminate].
  destruct (view_local h (f, id) m) as [r'|] eqn:V; [|discriminate]. injection Y as <-.
  unfold view_local in V. destruct (last_rec h (f, id) m) as [r'|] eqn:L; [|discriminate].
  destruct (status_eqb (r_status r') Active) eqn:C; [|discriminate]. injection V as <-.
  split; [|now apply status_eqb_spec]. now rewrite (last_rec_mui _ _ _ _ L).
Qed.

Lemma outdated_exact s h st p : in_memory s -> after s h st -> wf_prefix p ->
  exists x, is_ps_outdated st p = Ok x /\
    match x with
    | RErr e => e = StoreNotReadyError /\ touched h p = false
    | ROk b => touched h p = true /\ outdated h p b
    end.
Proof.
  intros S A W. destruct p as [f id]. destruct (after_rib _ _ _ f A) as [Wh R].
  destruct (rib_is_ps_outdated_ok s f h _ R id W) as (x & E & X). exists x. split; [exact E|].
  destruct x as [b|e].
  - now destruct X as (_ & X).
  - destruct X as (X & [Y|Y]); auto. now elim S.
Qed.

(* an insert without tie-breaker info for a known prefix makes the selection
   outdated, and it stays so until a selection is made *)
Lemma outdated_after_insert s h st p r : in_memory s -> after s h st -> wf_prefix p -> wf_record r ->
  touched h p = true ->
  exists st', exec st (Insert p r None) = Ok (st', OReport (ROk (report_spec s h p r))) /\
    is_ps_outdated st' p = Ok (ROk true).
Proof.
  intros S A W Wr T. destruct (insert_report s h st p r None A W Wr) as (st' & E & A').
  exists st'. split; auto. destruct (outdated_exact s _ st' p S A' W) as (x & E' & X).
  rewrite E'. destruct x as [b|e].
  - destruct X as [_ X]. simpl in X. rewrite prefix_eqb_refl, T in X. simpl in X. now subst b.
  - destruct X as [_ X]. simpl in X. now rewrite prefix_eqb_refl in X.
Qed.

(* a calculation that changes the selection clears the flag *)
Lemma outdated_cleared s h st p t sel : in_memory s -> after s h st -> wf_prefix p ->
  touched h p = true -> selected h p sel ->
  exists st' sel', exec st (Calculate p t) = Ok (st', OSel (ROk sel')) /\
    (sel' <> sel -> is_ps_outdated st' p = Ok (ROk false)) /\
    (sel' = sel -> is_ps_outdated st' p = is_ps_outdated st p).
Proof.
  intros S A W T Se.
  assert (Wo : wf_op (Calculate p t)) by exact W.
  destruct (exec_total s h st _ A Wo) as (st' & x & E & A' & O).
  simpl in O. destruct x as [|?|[sel'|e]]; try easy.
  2: { destruct O as [_ [O|O]]; [now elim S|congruence]. }
  destruct O as (_ & _ & O). exists st', sel'. split; auto.
  destruct (outdated_exact s _ st' p S A' W) as (x & E' & X). rewrite E'.
  destruct x as [b|e].
  2: { destruct X as [_ X]. change (touched (Calculate p t :: h) p) with (touched h p) in X. congruence. }
  destruct X as [_ X]. cbn [outdated] in X. rewrite prefix_eqb_refl, T in X. cbn [andb] in X.
  destruct X as (s1 & s2 & S1 & S2 & X).
  assert (s1 = sel) by (now apply (selected_unique h p)). subst s1.
  assert (s2 = sel').
  { cbn [selected] in S2. rewrite prefix_eqb_refl, T in S2. cbn [andb] in S2.
    now apply (selection_unique t (last_rec h p)). }
  subst s2. split; intros H.
  - destruct X as [[X _]|[_ X]]; [congruence|]. now subst b.
  - destruct X as [[_ X]|[X _]]; [|congruence].
    destruct (outdated_exact s h st p S A W) as (y & Ey & Y). rewrite Ey. destruct y as [b'|e'].
    + destruct Y as [_ Y]. f_equal. f_equal.
      assert (U : forall h b b', outdated h p b -> outdated h p b' -> b = b').
      { clear. induction h as [|o h IH]; intros b b' H H'; simpl in H, H'; [congruence|].
        destruct o as [q r u|q n t|q n t|g n|n|g n|q t]; eauto.
        - destruct (prefix_eqb p q && touched h p) eqn:C; eauto.
          destruct u as [u|]; [|congruence].
          destruct H as (a1 & a2 & A1 & A2 & A3). destruct H' as (b1 & b2 & B1 & B2 & B3).
          assert (a1 = b1) by (now apply (selected_unique h p)).
          assert (a2 = b2) by (eapply selection_unique; eassumption).
          subst. destruct b, b'; auto; intuition congruence.
        - destruct (prefix_eqb p q && touched h p) eqn:C; eauto.
          destruct H as (a1 & a2 & A1 & A2 & A3). destruct H' as (b1 & b2 & B1 & B2 & B3).
          assert (a1 = b1) by (now apply (selected_unique h p)).
          assert (a2 = b2) by (eapply selection_unique; eassumption).
          subst. destruct A3 as [[N A3]|[N A3]], B3 as [[N' B3]|[N' B3]]; try congruence; eauto. }
      now apply (U h).
    + destruct Y as [_ Y]. congruence.
Qed.

(* ---------- no options for history ---------- *)

Lemma history_ignored st p ty iw le mo mui b b' :
  match_prefix st p (MatchOpts ty iw le mo mui b) = match_prefix st p (MatchOpts ty iw le mo mui b').
Proof. reflexivity. Qed.

(* ---------- PersistHistory ---------- *)

Lemma history_insert h st st' x p r u : after PersistHistory h st -> wf_prefix p -> wf_record r ->
  exec st (Insert p r u) = Ok (st', x) ->
  (forall old, get_records_for_prefix st p (Some (r_mui r)) true = Ok (ROk (Some [old])) ->
     mui_is_withdrawn st (fst p) (r_mui r) = false -> on_disk st' p old) /\
  (get_records_for_prefix st p (Some (r_mui r)) true = Ok (ROk None) ->
     forall q r', on_disk st' q r' <-> on_disk st q r') /\
  (forall q r', on_disk st q r' ->
     ~ (q = p /\ exists old, last_rec h p (r_mui r) = Some old /\ key_of r' = key_of old) ->
     on_disk st' q r').
Proof.
  intros A W Wr E.
  assert (Wo : wf_op (Insert p r u)) by (split; assumption).
  pose proof (fun q r' => history_step h st _ st' x q r' A Wo E) as H. cbn [superseded] in H.
  assert (S : in_memory PersistHistory) by discriminate.
  pose proof (get_one PersistHistory h st p (r_mui r) S A W (proj1 Wr)) as G.
  split; [|split].
  - intros old Eo Gw. rewrite Eo in G. unfold view_all in G.
    rewrite mui_withdrawn_ok with (s := PersistHistory) (h := h) in Gw by auto.
    rewrite Gw in G. destruct (last_rec h p (r_mui r)) as [o|]; [|discriminate].
    cbn [option_map] in G. injection G as <-. apply H. cbn [option_map]. now left.
  - intros Eo q r'. rewrite Eo in G. unfold view_all in G. rewrite H.
    destruct (last_rec h p (r_mui r)); [discriminate|]. simpl. easy.
  - intros q r' D N. apply H. destruct (last_rec h p (r_mui r)) as [o|]; cbn [option_map]; auto.
    right. split; auto. cbn [fst snd]. intros [E1 E2]. apply N. split; auto. eauto.
Qed.

Lemma history_mark h st st' x p m t r (w : bool) : after PersistHistory h st -> wf_prefix p ->
  m < 2 ^ 32 -> t < 2 ^ 64 ->
  get_records_for_prefix st p (Some m) true = Ok (ROk (Some [r])) ->
  exec st (if w then MarkWithdrawn p m t else MarkActive p m t) = Ok (st', x) ->
  on_disk st' p (Rec m t Withdrawn []).
Proof.
  intros A W Hm Ht G E.
  assert (Wo : wf_op (if w then MarkWithdrawn p m t else MarkActive p m t)) by (destruct w; simpl; auto).
  assert (S : in_memory PersistHistory) by discriminate.
  pose proof (get_one PersistHistory h st p m S A W Hm) as G'. rewrite G in G'.
  apply (history_step h st _ st' x p _ A Wo E).
  assert (L : last_rec h p m <> None).
  { intros L. unfold view_all in G'. rewrite L in G'. discriminate. }
  destruct w; simpl; destruct (last_rec h p m); try easy; simpl; auto.
Qed.

(* ---------- the shape of the tree ---------- *)

Lemma tree_shape s h st f : after s h st ->
  let node id := retrieve_node f (t_heap (rb_tree (rib_of st f))) id in
  (exists v, node (0, 0) = Ok (Some v)) /\
  (forall c v, wf_pid f c -> p_len c mod 4 = 0 -> 0 < p_len c -> node c = Ok (Some v) ->
     exists id v', wf_pid f id /\ p_len id + 4 = p_len c /\ covers f id c /\ node id = Ok (Some v')) /\
  (forall id c v, wf_pid f id -> wf_pid f c -> p_len id mod 4 = 0 -> p_len c = p_len id + 4 ->
     covers f id c -> node id = Ok (Some v) ->
     (N.testbit (nv_ptr v) (15 - (p_bits c / 2 ^ (BITS f - p_len c)) mod 16) = true <->
      exists v', node c = Ok (Some v'))).
Proof.
  intros A node. destruct (after_rib _ _ _ f A) as [Wh R].
  pose proof (ro_tree _ _ _ _ R) as T. destruct (tl_ok _ _ _ T) as [[C Rt Nd Up Dn] _].
  set (hp := t_heap (rb_tree (rib_of st f))) in *.
  assert (N0 : forall id, wf_pid f id -> p_len id mod 4 = 0 -> node id = Ok (nodes f hp id)).
  { intros id W M. apply retrieve_node_nodes; auto. now split. }
  assert (Ns : forall id x, wf_pid f id -> p_len id mod 4 = 0 ->
            (node id = Ok (Some x) <-> nodes f hp id = Some x)).
  { intros id x W M. rewrite N0 by auto. split; [now intros [= E]|now intros ->]. }
  split; [|split].
  - destruct (nodes f hp (0, 0)) as [v|] eqn:E; [|easy]. exists v. apply Ns; auto.
    repeat split; simpl; try (apply N.le_0_l); try (apply pow2_pos); try (now rewrite N.mod_0_l by (apply N.pow_nonzero; lia)).
  - intros c v W M P E. apply Ns in E; auto. destruct (Up c v E P) as (v' & E' & _).
    assert (Wp : wf_pid f (parent f c)) by (apply (nodes_dom f hp _ v'); auto).
    assert (4 <= p_len c) by dlia.
    exists (parent f c), v'. split; auto. split; [unfold parent; simpl; lia|]. split.
    + apply covers_trunc; auto. unfold parent. simpl. split; [lia|reflexivity].
    + apply Ns; auto. unfold parent. simpl. dlia.
  - intros id c v Wi Wc M L Co E. apply Ns in E; auto.
    set (n := (p_bits c / 2 ^ (BITS f - p_len c)) mod 16).
    assert (Hn : n < 16) by (apply N.mod_lt; lia).
    assert (Ec : child f id n = c).
    { apply covers_div in Co; auto. destruct Co as [_ Co].
      destruct Wc as (W1 & W2 & W3). destruct Wi as (V1 & V2 & V3).
      unfold child. destruct c as [cb cl]. cbn [p_bits p_len fst snd] in *. subst cl.
      apply (f_equal (fun x => (x, p_len id + 4))).
      assert (X : p_bits id = cb / 2 ^ (BITS f - p_len id) * 2 ^ (BITS f - p_len id)).
      { rewrite Co. pose proof (N.div_mod (p_bits id) (2 ^ (BITS f - p_len id))) as D.
        rewrite V3 in D. assert (2 ^ (BITS f - p_len id) <> 0) by (apply N.pow_nonzero; lia).
        specialize (D H). lia. }
      unfold n. replace (BITS f - p_len id - 4) with (BITS f - (p_len id + 4)) by lia.
      set (k := BITS f - (p_len id + 4)) in *.
      assert (Y : cb = cb / 2 ^ k * 2 ^ k).
      { pose proof (N.div_mod cb (2 ^ k)) as D. rewrite W3 in D.
        assert (2 ^ k <> 0) by (apply N.pow_nonzero; lia). specialize (D H). lia. }
      rewrite X. replace (BITS f - p_len id) with (k + 4) by (unfold k; lia).
      rewrite N.pow_add_r. rewrite <- N.div_div by (try apply N.pow_nonzero; lia).
      rewrite Y at 3. pose proof (N.div_mod (cb / 2 ^ k) 16). change (2 ^ 4) with 16. lia. }
    assert (Es : slice (BITS f) (p_bits c) (p_len c - 4) 4 = n).
    { unfold slice, n. change (2 ^ 4) with 16. f_equal. f_equal. f_equal.
      destruct Wc as (W1 & _). lia. }
    assert (Mc : p_len c mod 4 = 0) by dlia.
    split.
    + intros B. pose proof (Dn id v n E Hn B) as X. rewrite Ec in X.
      destruct (nodes f hp c) as [v'|] eqn:E'; [|easy]. exists v'. now apply Ns.
    + intros (v' & E'). apply Ns in E'; auto. destruct (Up c v' E') as (w & Ew & B); [lia|].
      rewrite Es in B.
      assert (Ep : parent f c = id).
      { unfold parent. apply covers_trunc in Co; auto. destruct Co as [_ Co].
        replace (p_len c - 4) with (p_len id) by lia. now symmetry. }
      rewrite Ep, E in Ew. injection Ew as <-. exact B.
Qed.

(* ---------- longest match with a visible record ---------- *)

Lemma longest_visible s h st p o c m : after s h st -> wf_prefix p -> wf_mui (mo_mui o) ->
  mo_type o <> ExactMatch -> longest_match h p (Some c) ->
  view s h c (mo_mui o) (mo_withdrawn o) m <> None ->
  exists q, match_prefix st p o = Ok (ROk q) /\ qr_type q = LongestMatch /\ qr_prefix q = Some c /\
    answers (view s h c (mo_mui o) (mo_withdrawn o)) (Some (qr_records q)).
Proof.
  intros A W M T L V. destruct (match_longest s h st p o A W M T) as (q & c' & E & L' & X).
  exists q. split; auto. destruct c' as [c'|].
  - assert (c' = c) as ->.
    { destruct L as (L1 & (F & C) & L2), L' as (L1' & (F' & C') & L2').
      assert (Eq : p_len (snd c') = p_len (snd c)).
      { apply N.le_antisymm; [apply L2|apply L2']; auto; now split. }
      assert (Wc : forall d, listed h d -> wf_prefix d).
      { intros d [I _]. apply inserted_iff in I. destruct I as (r & u & I).
        destruct A as [A _]. now apply (hist_insert_wf h d r u). }
      pose proof (Wc _ L1) as W1. pose proof (Wc _ L1') as W2.
      destruct p as [f p], c as [f1 c], c' as [f2 c']. simpl in *. subst f1 f2.
      apply covers_trunc in C; auto. apply covers_trunc in C'; auto.
      destruct C as [_ C], C' as [_ C']. rewrite C, C', Eq. reflexivity. }
    destruct X as [X|[X _]]; [tauto|]. now rewrite X in V.
  - destruct L as (L1 & C & _). exfalso. exact (L' c L1 C).
Qed.

Lemma more_itself s h st p : after s h st -> wf_prefix p -> p_len (snd p) < BITS (fst p) ->
  listed h p ->
  exists l rs, more_specifics_iter_from st p None true = Ok l /\ In (ROk (p, rs)) l.
Proof.
  intros A W L I. destruct (more_iter_all s h st p A W L) as (l & E & X & _).
  assert (J : In p (List.map (@fst prefix (list record)) l)).
  { apply X. split; auto. split; auto. apply covers_div; auto. split; [lia|reflexivity]. }
  apply in_map_iff in J. destruct J as ([q rs] & <- & J). exists (List.map ROk l), rs.
  split; auto. now apply in_map with (f := ROk) in J.
Qed.

(* ---------- both families ---------- *)

Lemma fam_apart (a b : list prefix) : (forall q, In q a -> fst q = IPv4) -> (forall q, In q b -> fst q = IPv6) ->
  NoDup a -> NoDup b -> NoDup (a ++ b).
Proof.
  intros H4 H6 N4 N6. induction a as [|x a IH]; simpl; [easy|]. apply NoDup_cons_iff in N4. destruct N4 as [X N4]. constructor.
  - rewrite in_app_iff. intros [Q|Q]; [easy|]. specialize (H6 _ Q). rewrite H4 in H6; [discriminate H6|now left].
  - apply IH; auto. intros q Q. apply H4. now right.
Qed.

Lemma prefixes_both s h st : after s h st ->
  exists l, prefixes_iter st = Ok (List.map ROk l) /\
    NoDup (List.map (@fst prefix (list record)) l) /\
    (forall q, In q (List.map (@fst prefix (list record)) l) <-> listed h q) /\
    (forall q rs, In (q, rs) l -> answers (view s h q None true) (Some rs)).
Proof.
  intros A. destruct (prefixes_all s h st IPv4 A) as (a & E & N1 & I1 & V1).
  destruct (prefixes_all s h st IPv6 A) as (b & E' & N2 & I2 & V2).
  exists (a ++ b). unfold prefixes_iter. rewrite E, E'. split; [simpl; now rewrite map_app|]. split; [|split].
  - rewrite map_app. apply fam_apart; auto; intros q Q; [now apply I1|now apply I2].
  - intros q. rewrite map_app, in_app_iff, I1, I2. split; [tauto|]. intros L. destruct q as [[|] q]; simpl; auto.
  - intros q rs Q. apply in_app_iff in Q. destruct Q; eauto.
Qed.

Lemma persist_both_no_meta s h st : keeps_long s -> after s h st ->
  (forall p r, on_disk st p r -> r_meta r = []) ->
  exists G, persist_prefixes_iter st = Ok (List.map ROk G) /\
    NoDup (List.map (@fst prefix (list record)) G) /\
    (forall p rs, In (p, rs) G -> rs <> []) /\
    (forall p r, (exists rs, In (p, rs) G /\ In r rs) <-> on_disk st p r).
Proof.
  intros K A M. destruct (persist_iter_no_meta s h st IPv4 K A (fun p r _ => M p r)) as (a & E & N1 & I1 & V1).
  destruct (persist_iter_no_meta s h st IPv6 K A (fun p r _ => M p r)) as (b & E' & N2 & I2 & V2).
  exists (a ++ b). unfold persist_prefixes_iter. rewrite E, E'. split; [simpl; now rewrite map_app|]. split; [|split].
  - rewrite map_app. apply fam_apart; auto; intros q Q; apply in_map_iff in Q; destruct Q as ([q' rs] & <- & Q); simpl; [apply (I1 _ _ Q)|apply (I2 _ _ Q)].
  - intros p rs Q. apply in_app_iff in Q. destruct Q as [Q|Q]; [apply (I1 _ _ Q)|apply (I2 _ _ Q)].
  - intros p r. split.
    + intros (rs & Q & R). apply in_app_iff in Q. destruct Q as [Q|Q].
      * apply (V1 p r). eauto.
      * apply (V2 p r). eauto.
    + intros D. destruct p as [[|] p].
      * destruct (proj2 (V1 (IPv4, p) r)) as (rs & Q & R); auto. exists rs. rewrite in_app_iff. auto.
      * destruct (proj2 (V2 (IPv6, p) r)) as (rs & Q & R); auto. exists rs. rewrite in_app_iff. auto.
Qed.

Lemma persist_both_errors s h st : s <> MemoryOnly -> after s h st ->
  (forall p r, on_disk st p r -> r_meta r <> []) ->
  persist_prefixes_iter st = Ok (repeat (RErr FatalErr) (length (disk st IPv4) + length (disk st IPv6))).
Proof.
  intros K A M. unfold persist_prefixes_iter.
  rewrite (persist_iter_all_errors s h st IPv4 K A (fun p r _ => M p r)), (persist_iter_all_errors s h st IPv6 K A (fun p r _ => M p r)).
  simpl. now rewrite repeat_app.
Qed.

Lemma nodes_count_both s h st : after s h st ->
  exists l4 l6, NoDup l4 /\ NoDup l6 /\ (forall id, In id l4 <-> node_on_path IPv4 h id) /\
    (forall id, In id l6 <-> node_on_path IPv6 h id) /\ nodes_count st = N.of_nat (length l4 + length l6).
Proof.
  intros A. destruct (nodes_count_spec s h st IPv4 A) as (a & N1 & I1 & E1).
  destruct (nodes_count_spec s h st IPv6 A) as (b & N2 & I2 & E2).
  exists a, b. unfold nodes_count. rewrite E1, E2, Nat2N.inj_add. auto.
Qed.

Lemma record_for_mui p m :
  match pr_get_record_for_mui p m with
  | Some r => r_mui r = m /\ exists l1 l2, snd p = l1 ++ r :: l2 /\ forall r', In r' l1 -> r_mui r' <> m
  | None => forall r, In r (snd p) -> r_mui r <> m
  end.
Proof.
  unfold pr_get_record_for_mui. induction (snd p) as [|x l IH]; simpl; [easy|].
  destruct (N.eqb_spec (r_mui x) m) as [E|E].
  - split; [easy|]. exists [], l. split; [easy|]. intros r' [].
  - destruct (List.find _ l) as [r|].
    + destruct IH as (R & l1 & l2 & -> & H). split; [easy|]. exists (x :: l1), l2. split; [easy|]. intros r' [<-|Q]; auto.
    + intros r [<-|Q]; auto.
Qed.
