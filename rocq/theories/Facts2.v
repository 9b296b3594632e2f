(* The lemmas behind the properties of the store, part 2: what single calls do,
   the reports, the counters, path selection and the strategies. *)
From Coq Require Import Arith NArith List Bool Lia Permutation.
From Verif Require Import Word Af BitSpan Spec Maps ChtMath Cht Node Tree ChainProofs TreeProofs
  Iter IterProofs MultiMap PrefixCht PrefixChtProofs Lsm LsmProofs RecordSet Rib StarCast HistSpec
  Ask PropSpec RibProofs RibLsm RibOk Queries Queries2 Disk MuiWalk Facts1.
Import ListNotations.
Local Open Scope N_scope.

(* ---------- local marks ---------- *)

Lemma mui_withdrawn_ok s h st f m : after s h st -> mui_is_withdrawn st f m = g_withdrawn h f m.
Proof.
  intros A. destruct (after_rib _ _ _ f A) as [_ R].
  apply (tl_gw _ _ _ (ro_tree _ _ _ _ R)).
Qed.

Lemma in_memory_touched s h p m r : last_rec h p m = Some r -> touched h p = true /\ in_memory s \/
  s = PersistOnly.
Proof.
  intros E. destruct s; try (now right); left; (split; [|easy]);
    apply inserted_touched; apply (last_rec_inserted h p m); congruence.
Qed.

Lemma mark_withdrawn s h st st' x p m t r : in_memory s -> after s h st -> wf_prefix p ->
  m < 2 ^ 32 -> t < 2 ^ 64 ->
  get_records_for_prefix st p (Some m) true = Ok (ROk (Some [r])) ->
  exec st (MarkWithdrawn p m t) = Ok (st', x) ->
  x = OUnit (ROk tt) /\
  get_records_for_prefix st' p (Some m) true = Ok (ROk (Some [Rec m t Withdrawn (r_meta r)])).
Proof.
  intros S A W Wm Wt G E.
  assert (Wo : wf_op (MarkWithdrawn p m t)) by (simpl; auto).
  pose proof (exec_after _ _ _ _ _ _ A Wo E) as A'.
  rewrite (get_one s h st) in G by auto.
  destruct (exec_total s h st _ A Wo) as (st2 & x2 & E2 & _ & X).
  rewrite E2 in E. inversion E; subst st2 x2. clear E E2.
  assert (L : exists r0, last_rec h p m = Some r0 /\ r_meta r0 = r_meta r).
  { unfold view_all in G. destruct (last_rec h p m) as [r0|]; [|discriminate].
    exists r0. split; auto. simpl in G. destruct (g_withdrawn h (fst p) m); inversion G; easy. }
  destruct L as (r0 & L & M). split.
  - simpl in X. rewrite X.
    destruct (in_memory_touched s h p m r0 L) as [[-> _]| ->]; [|easy].
    now destruct s.
  - rewrite (get_one s (MarkWithdrawn p m t :: h) st') by auto. unfold view_all. cbn [last_rec g_withdrawn].
    rewrite prefix_eqb_refl, N.eqb_refl, L. cbn [andb option_map].
    pose proof (last_rec_mui _ _ _ _ L). subst m.
    unfold marked, with_status. cbn [r_mui r_ltime r_meta]. rewrite M.
    now destruct (g_withdrawn h (fst p) (r_mui r0)).
Qed.

Lemma mark_active s h st st' x p m t r : in_memory s -> after s h st -> wf_prefix p ->
  m < 2 ^ 32 -> t < 2 ^ 64 ->
  get_records_for_prefix st p (Some m) true = Ok (ROk (Some [r])) ->
  exec st (MarkActive p m t) = Ok (st', x) ->
  x = OUnit (ROk tt) /\
  get_records_for_prefix st' p (Some m) true =
    Ok (ROk (Some [Rec m t (if mui_is_withdrawn st (fst p) m then Withdrawn else Active) (r_meta r)])).
Proof.
  intros S A W Wm Wt G E.
  assert (Wo : wf_op (MarkActive p m t)) by (simpl; auto).
  pose proof (exec_after _ _ _ _ _ _ A Wo E) as A'.
  rewrite (get_one s h st) in G by auto.
  destruct (exec_total s h st _ A Wo) as (st2 & x2 & E2 & _ & X).
  rewrite E2 in E. inversion E; subst st2 x2. clear E E2.
  assert (L : exists r0, last_rec h p m = Some r0 /\ r_meta r0 = r_meta r).
  { unfold view_all in G. destruct (last_rec h p m) as [r0|]; [|discriminate].
    exists r0. split; auto. simpl in G. destruct (g_withdrawn h (fst p) m); inversion G; easy. }
  destruct L as (r0 & L & M). split.
  - simpl in X. rewrite X.
    destruct (in_memory_touched s h p m r0 L) as [[-> _]| ->]; [|easy].
    now destruct s.
  - rewrite (get_one s (MarkActive p m t :: h) st') by auto. rewrite (mui_withdrawn_ok s h) by auto.
    unfold view_all. cbn [last_rec g_withdrawn].
    rewrite prefix_eqb_refl, N.eqb_refl, L. cbn [andb option_map].
    pose proof (last_rec_mui _ _ _ _ L). subst m.
    unfold marked, with_status. cbn [r_mui r_ltime r_meta]. rewrite M.
    now destruct (g_withdrawn h (fst p) (r_mui r0)).
Qed.

(* marks and path selection do not touch the tree *)
Definition leaves_tree (o : op) : bool :=
  match o with MarkWithdrawn _ _ _ | MarkActive _ _ _ | Calculate _ _ => true | _ => false end.

Lemma rib_of_set st g rb f : rib_of (set_rib st g rb) f = if af_eqb f g then rb else rib_of st f.
Proof. destruct f, g; reflexivity. Qed.

Lemma mark_tree f rb id m t s x : rib_mark_in_memory f rb id m t s = Ok x ->
  rb_tree (fst x) = rb_tree rb.
Proof.
  unfold rib_mark_in_memory. destruct (retrieve_prefix_mut f _ id) as [[[[h k] e] b]| |]; try discriminate.
  cbn [bind]. destruct b; cbn [negb]; intros E; inversion E; reflexivity.
Qed.

Lemma leaves_tree_ok st o st' x : leaves_tree o = true -> exec st o = Ok (st', x) ->
  forall f, rb_tree (rib_of st' f) = rb_tree (rib_of st f).
Proof.
  intros L E f. destruct o as [| [g p] m t | [g p] m t | | | | [g p] t]; try discriminate; cbn [exec] in E.
  - unfold mark_mui_as_withdrawn_for_prefix in E. cbn [fst snd] in E.
    destruct (rib_mark_mui_as_withdrawn_for_prefix g (rib_of st g) p m t) as [[rb y]| |] eqn:R; try discriminate.
    cbn [bind fst snd] in E. inversion E; subst. rewrite rib_of_set.
    destruct (af_eqb f g) eqn:F; auto. apply af_eqb_spec in F. subst g.
    revert R. unfold rib_mark_mui_as_withdrawn_for_prefix.
    destruct (rb_strat (rib_of st f)).
    + destruct (rib_mark_in_memory _ _ _ _ _ _) as [[rb1 o1]| |] eqn:M; cbn [bind]; intros R; inversion R; subst.
      now apply mark_tree in M.
    + destruct (rib_mark_in_memory _ _ _ _ _ _) as [[rb1 o1]| |] eqn:M; cbn [bind]; try discriminate.
      apply mark_tree in M. cbn [fst] in M. destruct o1 as [mm|]; intros R.
      * destruct (get_record_for_mui mm m true); [destruct (rb_lsm rb1)|]; inversion R; subst; auto.
      * inversion R; subst; auto.
    + destruct (rib_mark_in_memory _ _ _ _ _ _) as [[rb1 o1]| |] eqn:M; cbn [bind]; intros R; inversion R; subst.
      now apply mark_tree in M.
    + destruct (rb_lsm (rib_of st f)) as [l|]; [|intros R; inversion R; reflexivity].
      destruct (rewrite_headers _ _ _ _ _) as [l' ok]. intros R; inversion R; reflexivity.
  - unfold mark_mui_as_active_for_prefix in E. cbn [fst snd] in E.
    destruct (rib_mark_mui_as_active_for_prefix g (rib_of st g) p m t) as [[rb y]| |] eqn:R; try discriminate.
    cbn [bind fst snd] in E. inversion E; subst. rewrite rib_of_set.
    destruct (af_eqb f g) eqn:F; auto. apply af_eqb_spec in F. subst g.
    revert R. unfold rib_mark_mui_as_active_for_prefix.
    destruct (rb_strat (rib_of st f)).
    + destruct (rib_mark_in_memory _ _ _ _ _ _) as [[rb1 o1]| |] eqn:M; cbn [bind]; intros R; inversion R; subst.
      now apply mark_tree in M.
    + destruct (rib_mark_in_memory _ _ _ _ _ _) as [[rb1 o1]| |] eqn:M; cbn [bind]; try discriminate.
      apply mark_tree in M. cbn [fst] in M. destruct o1 as [mm|]; intros R.
      * destruct (get_record_for_mui mm m true); [destruct (rb_lsm rb1)|]; inversion R; subst; auto.
      * inversion R; subst; auto.
    + destruct (rib_mark_in_memory _ _ _ _ _ _) as [[rb1 o1]| |] eqn:M; cbn [bind]; intros R; inversion R; subst.
      now apply mark_tree in M.
    + destruct (rb_lsm (rib_of st f)) as [l|]; [|intros R; inversion R; reflexivity].
      destruct (most_recent_record_for_prefix_mui _ _ _ _) as [b|]; [|intros R; inversion R; reflexivity].
      destruct (rewrite_header_for_record _ _ _ _ _); intros R; inversion R; reflexivity.
  - unfold calculate_best_backup in E. cbn [fst snd] in E.
    destruct (rib_calculate_best_backup g (rib_of st g) p t) as [[rb y]| |] eqn:R; try discriminate.
    cbn [bind fst snd] in E. inversion E; subst. rewrite rib_of_set.
    destruct (af_eqb f g) eqn:F; auto. apply af_eqb_spec in F. subst g.
    revert R. unfold rib_calculate_best_backup.
    destruct (retrieve_prefix f _ p) as [[[k e]|]| |]; cbn [bind]; try discriminate.
    + destruct (calculate_and_store_best_backup (e_val e) t). intros R; inversion R; reflexivity.
    + intros R; inversion R; reflexivity.
Qed.

Lemma mark_contains st o st' x : leaves_tree o = true -> exec st o = Ok (st', x) ->
  forall q mui, contains st' q mui = contains st q mui.
Proof.
  intros L E q mui. unfold contains, rib_contains.
  now rewrite (leaves_tree_ok st o st' x L E).
Qed.

(* ---------- the two families ---------- *)

Lemma exec_other st o st' x g f : exec st o = Ok (st', x) -> op_af o = Some g -> f <> g ->
  rib_of st' f = rib_of st f.
Proof.
  intros E G N.
  assert (X : forall rb, rib_of (set_rib st g rb) f = rib_of st f).
  { intros rb. rewrite rib_of_set. destruct (af_eqb f g) eqn:F; auto. now apply af_eqb_spec in F. }
  destruct o as [p r u|p n t|p n t|g' n|n|g' n|p t]; simpl in G; inversion G; subst; cbn [exec] in E.
  - unfold insert in E.
    destruct (rib_insert _ _ _ _ _) as [[rb y]| |]; try discriminate. inversion E; subst. apply X.
  - unfold mark_mui_as_withdrawn_for_prefix in E.
    destruct (rib_mark_mui_as_withdrawn_for_prefix _ _ _ _ _) as [[rb y]| |]; try discriminate.
    inversion E; subst. apply X.
  - unfold mark_mui_as_active_for_prefix in E.
    destruct (rib_mark_mui_as_active_for_prefix _ _ _ _ _) as [[rb y]| |]; try discriminate.
    inversion E; subst. apply X.
  - inversion E; subst. apply X.
  - inversion E; subst. apply X.
  - unfold calculate_best_backup in E.
    destruct (rib_calculate_best_backup _ _ _ _) as [[rb y]| |]; try discriminate.
    inversion E; subst. apply X.
Qed.

Lemma ask_local st st' q f : query_af q = Some f -> rib_of st' f = rib_of st f ->
  ask st' q = ask st q.
Proof.
  intros Q E. destruct q; simpl in Q; inversion Q; subst; cbn [ask];
    unfold match_prefix, contains, best_path, is_ps_outdated, more_specifics_from,
      less_specifics_from, more_specifics_iter_from, less_specifics_iter_from,
      StarCast.get_records_for_prefix, iter_records_for_mui, prefixes_iter_af,
      persist_prefixes_iter_af, is_mui_active_af, mui_is_withdrawn, prefixes_count_af,
      prefixes_count_for_len, routes_count_af, nodes_count_af, stats, disk;
    now rewrite E.
Qed.

Lemma families_apart st o st' x q f g : exec st o = Ok (st', x) -> op_af o = Some g ->
  query_af q = Some f -> f <> g -> ask st' q = ask st q.
Proof. intros E G Q N. apply (ask_local _ _ _ f Q). now apply (exec_other st o st' x g). Qed.

Lemma active_both s h st m : after s h st ->
  is_mui_active st m = negb (g_withdrawn h IPv4 m) || negb (g_withdrawn h IPv6 m).
Proof.
  intros A. unfold is_mui_active, is_mui_active_af, rib_is_mui_active.
  change (mem m (t_withdrawn (rb_tree (rib_of st IPv4)))) with (mui_is_withdrawn st IPv4 m).
  change (mem m (t_withdrawn (rb_tree (rib_of st IPv6)))) with (mui_is_withdrawn st IPv6 m).
  now rewrite !(mui_withdrawn_ok s h).
Qed.

Lemma active_one s h st f m : after s h st ->
  is_mui_active_af st f m = negb (g_withdrawn h f m) /\
  mui_is_withdrawn st f m = g_withdrawn h f m.
Proof.
  intros A. pose proof (mui_withdrawn_ok s h st f m A) as E. split; auto.
  unfold is_mui_active_af, rib_is_mui_active.
  change (mem m (t_withdrawn (rb_tree (rib_of st f)))) with (mui_is_withdrawn st f m).
  now rewrite E.
Qed.

(* ---------- reports and counters ---------- *)

Lemma insert_report s h st p r u : after s h st -> wf_prefix p -> wf_record r ->
  exists st', exec st (Insert p r u) = Ok (st', OReport (ROk (report_spec s h p r))) /\
    after s (Insert p r u :: h) st'.
Proof.
  intros A W Wr. destruct (exec_total s h st (Insert p r u) A) as (st' & x & E & A' & X).
  - simpl; auto.
  - simpl in X. subst x. eauto.
Qed.

Lemma prefix_new_exact s h st p r u : in_memory s -> after s h st -> wf_prefix p -> wf_record r ->
  exists st' rep, exec st (Insert p r u) = Ok (st', OReport (ROk rep)) /\
    (rp_prefix_new rep = true <-> forall r' u', ~ In (Insert p r' u') h).
Proof.
  intros S A W Wr. destruct (insert_report s h st p r u A W Wr) as (st' & E & _).
  exists st', (report_spec s h p r). split; auto.
  assert (N : rp_prefix_new (report_spec s h p r) = negb (inserted h p)) by (destruct s; easy).
  rewrite N, negb_true_iff. split.
  - intros I r' u' X. apply Bool.not_true_iff_false in I. apply I, inserted_iff. eauto.
  - intros X. apply Bool.not_true_iff_false. rewrite inserted_iff. intros (r' & u' & I).
    now apply (X r' u').
Qed.

Lemma prefix_counts s h st f : after s h st ->
  uc_total (prefixes_count_af st f) = n_prefixes f h /\
  uc_total (prefixes_count st) = n_prefixes IPv4 h + n_prefixes IPv6 h /\
  forall len, prefixes_count_for_len st f len =
    Ok (if len <=? BITS f then ROk (UCounters 0 0 (n_prefixes_len f h len))
        else RErr PrefixLengthInvalid).
Proof.
  intros A.
  assert (X : forall g, uc_total (prefixes_count_af st g) = n_prefixes g h).
  { intros g. destruct (after_rib _ _ _ g A) as [_ R]. unfold prefixes_count_af.
    now rewrite (rib_prefixes_count_ok s g h _ R). }
  split; auto. split.
  - unfold prefixes_count, uc_add. cbn [uc_total]. now rewrite !X.
  - intros len. destruct (after_rib _ _ _ f A) as [_ R].
    apply (rib_count_for_len_ok s f h _ R).
Qed.

(* what the counting functions of the specification count *)
Lemma n_prefixes_spec f h : exists l, NoDup l /\
  (forall id, In id l <-> exists r u, In (Insert (f, id) r u) h) /\
  n_prefixes f h = N.of_nat (length l) /\
  forall len, n_prefixes_len f h len = N.of_nat (length (filter (fun p => p_len p =? len) l)).
Proof.
  exists (prefix_set f h). split; [apply NoDup_nodup|]. split; [|split; reflexivity].
  intros id. unfold prefix_set. rewrite nodup_In, In_inserted_ids. apply inserted_iff.
Qed.

Lemma route_counts s h st f : after s h st ->
  uc_total (routes_count_af st f) = n_inserts f h /\
  uc_total (routes_count st) = n_inserts IPv4 h + n_inserts IPv6 h.
Proof.
  intros A.
  assert (X : forall g, uc_total (routes_count_af st g) = n_inserts g h).
  { intros g. destruct (after_rib _ _ _ g A) as [_ R]. apply (rib_routes_total_ok s g h _ R). }
  split; auto. unfold routes_count, uc_add. cbn [uc_total]. now rewrite !X.
Qed.

(* ---------- path selection ---------- *)

Lemma better_asym t V m n : better t V m n -> ~ better t V n m.
Proof.
  intros (r & r' & A & B & C) (q & q' & A' & B' & C').
  rewrite A in B'. rewrite B in A'. inversion B'; inversion A'; subst. lia.
Qed.

Lemma best_unique t V D m n : best_of t V D m -> best_of t V D n -> m = n.
Proof.
  intros (A & B & C) (A' & B' & C'). destruct (N.eq_dec m n) as [|E]; auto. exfalso.
  apply (better_asym t V m n); auto.
Qed.

Lemma selection_unique t V s s' : selection t V s -> selection t V s' -> s = s'.
Proof.
  destruct s as [[b|] [k|]], s' as [[b'|] [k'|]]; simpl; try easy; intros A B; auto.
  - destruct A as [A1 A2], B as [B1 B2]. pose proof (best_unique _ _ _ _ _ A1 B1). subst b'.
    now rewrite (best_unique _ _ _ _ _ A2 B2).
  - destruct A as [A1 A2], B as [B1 B2]. pose proof (best_unique _ _ _ _ _ A1 B1). subst b'.
    destruct A2 as (N & V2 & _). elim V2. auto.
  - destruct A as [(_ & X & _) _]. elim X. auto.
  - destruct A as [A1 A2], B as [B1 B2]. pose proof (best_unique _ _ _ _ _ A1 B1). subst b'.
    destruct B2 as (N & V2 & _). elim V2. auto.
  - destruct A as [A1 A2], B as [B1 B2]. now rewrite (best_unique _ _ _ _ _ A1 B1).
  - destruct A as [(_ & X & _) _]. elim X. auto.
  - destruct B as [(_ & X & _) _]. elim X. auto.
  - destruct B as [(_ & X & _) _]. elim X. auto.
Qed.

Lemma calculate_best s h st p t r0 u0 : in_memory s -> after s h st -> wf_prefix p ->
  In (Insert p r0 u0) h ->
  exists st' b k, exec st (Calculate p t) = Ok (st', OSel (ROk (Some b, k))) /\
    selection t (last_rec h p) (Some b, k) /\
    forall r, last_rec h p b = Some r -> r_status r = Active ->
      best_path st' p = Ok (Some (ROk r)).
Proof.
  intros S A W I.
  assert (Ip : inserted h p = true) by (apply inserted_iff; eauto).
  destruct (exec_total s h st (Calculate p t) A W) as (st' & x & E & A' & X).
  simpl in X. destruct x as [| |[sel|e]]; try easy.
  2: { destruct X as [_ [X|X]]; [now elim S|]. rewrite (inserted_touched _ _ Ip) in X. easy. }
  destruct X as (_ & T & Sel). destruct sel as [b k]. destruct b as [b|].
  2: { destruct k as [k|]; simpl in Sel; [easy|]. destruct (inserted_last_rec h p Ip) as [m L]. now elim L. }
  exists st', b, k. split; auto. split; auto. intros r L Ac.
  destruct p as [f id]. destruct (after_rib _ _ _ f A') as [_ R].
  destruct (rib_best_path_ok s f _ _ R id W) as (y & Ey & Y).
  unfold best_path. cbn [fst snd]. rewrite Ey. destruct y as [y|].
  - destruct Y as (_ & _ & sel & Se & ->). cbn [selected] in Se. rewrite prefix_eqb_refl, T in Se.
    cbn [andb] in Se. rewrite <- (selection_unique _ _ _ _ Sel Se). cbn [fst].
    unfold view_local. cbn [last_rec]. rewrite L, Ac. reflexivity.
  - destruct Y as [Y|Y]; [now elim S|]. cbn [touched existsb] in Y. unfold touched in T. simpl in Y.
    congruence.
Qed.

Lemma selected_unique h p : forall s s', selected h p s -> selected h p s' -> s = s'.
Proof.
  induction h as [|o h IH]; intros s s'; [simpl; congruence|].
  destruct o as [q r [u|]|q n t|q n t|g n|n|g n|q t]; cbn [selected]; auto;
    destruct (prefix_eqb p q && touched h p); auto; apply selection_unique.
Qed.

(* ---------- the in-memory strategies ---------- *)

Definition alike (a b : rib) : Prop :=
  rb_tree a = rb_tree b /\ rb_pcht a = rb_pcht b /\ rb_cnt a = rb_cnt b.

Definition has_lsm (rb : rib) : Prop :=
  match rb_strat rb with
  | PersistOnly => False
  | MemoryOnly => True
  | _ => rb_lsm rb <> None
  end.

Lemma has_lsm_ok s f h rb : in_memory s -> rib_ok s f h rb -> has_lsm rb.
Proof.
  intros S R. unfold has_lsm. rewrite (ro_strat _ _ _ _ R).
  pose proof (ro_lsm _ _ _ _ R) as L. destruct s; simpl in L; auto;
    destruct (rb_lsm rb); easy.
Qed.

Lemma upsert_mem f rb id r u : has_lsm rb -> exists rb2 o,
  rib_upsert_prefix f rb id r u =
    match pc_upsert_prefix f (rb_pcht rb) id r u with
    | Ok (c, (rep, old)) => Ok (rb2 c old, ROk rep)
    | Panic => Panic
    | OutOfFuel => OutOfFuel
    end /\
  (forall c old, rb_tree (rb2 c old) = rb_tree rb /\ rb_pcht (rb2 c old) = c /\
    rb_cnt (rb2 c old) = rb_cnt rb) /\ o = tt.
Proof.
  intros H. unfold has_lsm in H. unfold rib_upsert_prefix.
  destruct (rb_strat rb) eqn:S.
  - destruct (rb_lsm rb) as [l|] eqn:L; [|easy].
    exists (fun c _ => set_pcht (set_lsm rb (persist_record_w_long_key f l id r)) c), tt.
    split; [|easy].
    change (rb_pcht (set_lsm rb (persist_record_w_long_key f l id r))) with (rb_pcht rb).
    destruct (pc_upsert_prefix f (rb_pcht rb) id r u) as [[c [rep old]]| |]; reflexivity.
  - exists (fun c old => let rb1 := set_pcht rb c in
      match old, rb_lsm rb1 with
      | Some o, Some l => set_lsm rb1 (persist_record_w_long_key f l id (record_of (r_mui r) o))
      | _, _ => rb1
      end), tt.
    split; [|split; auto].
    + destruct (pc_upsert_prefix f (rb_pcht rb) id r u) as [[c [rep old]]| |]; reflexivity.
    + intros c old. cbn. destruct old; [|easy]. destruct (rb_lsm rb); easy.
  - exists (fun c _ => set_pcht rb c), tt. split; [|easy].
    destruct (pc_upsert_prefix f (rb_pcht rb) id r u) as [[c [rep old]]| |]; reflexivity.
  - easy.
Qed.

Lemma insert_alike f a b id r u a' x b' y : alike a b -> has_lsm a -> has_lsm b ->
  rib_insert f a id r u = Ok (a', x) -> rib_insert f b id r u = Ok (b', y) ->
  alike a' b' /\ x = y.
Proof.
  intros (E1 & E2 & E3) Ha Hb. unfold rib_insert. rewrite E1.
  destruct (set_prefix_exists f (rb_tree b) id (r_mui r)) as [[t o]| |]; try discriminate.
  cbn [bind]. destruct o as [[n e]|er].
  2: { intros X Y. inversion X; inversion Y; subst. repeat split; auto. }
  destruct (upsert_mem f (set_tree a t) id r u) as (ga & ta & Ga & Fa & _); [exact Ha|].
  destruct (upsert_mem f (set_tree b t) id r u) as (gb & tb & Gb & Fb & _); [exact Hb|].
  rewrite Ga, Gb. cbn [rb_pcht set_tree]. rewrite E2.
  destruct (pc_upsert_prefix f (rb_pcht b) id r u) as [[c [rep old]]| |]; try discriminate.
  cbn [bind]. specialize (Fa c old). specialize (Fb c old). cbn [rb_tree rb_cnt set_tree] in Fa, Fb.
  destruct Fa as (A1 & A2 & A3), Fb as (B1 & B2 & B3).
  intros X Y. injection X as <- <-. injection Y as <- <-. split; auto.
  unfold alike. cbn [rb_tree rb_pcht rb_cnt set_cnt]. rewrite A1, A2, A3, B1, B2, B3, E3. auto.
Qed.

Lemma mark_memory_alike f a b id m t s : alike a b ->
  match rib_mark_in_memory f a id m t s, rib_mark_in_memory f b id m t s with
  | Ok (a', x), Ok (b', y) => alike a' b' /\ x = y
  | Panic, Panic | OutOfFuel, OutOfFuel => True
  | _, _ => False
  end.
Proof.
  intros (E1 & E2 & E3). unfold rib_mark_in_memory. rewrite E2.
  destruct (retrieve_prefix_mut f (pc_heap (rb_pcht b)) id) as [[[[h k] e] ex]| |]; cbn [bind]; auto.
  destruct ex; cbn [negb]; split; auto; repeat split; auto.
Qed.

Lemma set_lsm_alike a b l : alike a b -> alike (set_lsm a l) b.
Proof. easy. Qed.
Lemma set_lsm_alike' a b l : alike a b -> alike a (set_lsm b l).
Proof. easy. Qed.

Lemma mark_withdrawn_alike f a b id m t a' x b' y : alike a b -> has_lsm a -> has_lsm b ->
  rib_mark_mui_as_withdrawn_for_prefix f a id m t = Ok (a', x) ->
  rib_mark_mui_as_withdrawn_for_prefix f b id m t = Ok (b', y) -> alike a' b'.
Proof.
  intros E Ha Hb. unfold rib_mark_mui_as_withdrawn_for_prefix, has_lsm in *.
  pose proof (mark_memory_alike f a b id m t Withdrawn E) as M.
  destruct (rb_strat a); try easy; destruct (rb_strat b); try easy;
    destruct (rib_mark_in_memory f a id m t Withdrawn) as [[a1 o1]| |]; try discriminate;
    destruct (rib_mark_in_memory f b id m t Withdrawn) as [[b1 o2]| |]; try easy;
    destruct M as [M ->]; cbn [bind];
    repeat match goal with
    | |- context [match o2 with _ => _ end] => destruct o2
    | |- context [match get_record_for_mui ?x ?y ?z with _ => _ end] => destruct (get_record_for_mui x y z)
    | |- context [match rb_lsm ?x with _ => _ end] => destruct (rb_lsm x)
    end; intros X Y; inversion X; inversion Y; subst; auto.
Qed.

Lemma mark_active_alike f a b id m t a' x b' y : alike a b -> has_lsm a -> has_lsm b ->
  rib_mark_mui_as_active_for_prefix f a id m t = Ok (a', x) ->
  rib_mark_mui_as_active_for_prefix f b id m t = Ok (b', y) -> alike a' b'.
Proof.
  intros E Ha Hb. unfold rib_mark_mui_as_active_for_prefix, has_lsm in *.
  pose proof (mark_memory_alike f a b id m t Active E) as M.
  destruct (rb_strat a); try easy; destruct (rb_strat b); try easy;
    destruct (rib_mark_in_memory f a id m t Active) as [[a1 o1]| |]; try discriminate;
    destruct (rib_mark_in_memory f b id m t Active) as [[b1 o2]| |]; try easy;
    destruct M as [M ->]; cbn [bind];
    repeat match goal with
    | |- context [match o2 with _ => _ end] => destruct o2
    | |- context [match get_record_for_mui ?x ?y ?z with _ => _ end] => destruct (get_record_for_mui x y z)
    | |- context [match rb_lsm ?x with _ => _ end] => destruct (rb_lsm x)
    end; intros X Y; inversion X; inversion Y; subst; auto.
Qed.

Lemma calculate_alike f a b id t a' x b' y : alike a b ->
  rib_calculate_best_backup f a id t = Ok (a', x) ->
  rib_calculate_best_backup f b id t = Ok (b', y) -> alike a' b' /\ x = y.
Proof.
  intros E. pose proof E as (E1 & E2 & E3). unfold rib_calculate_best_backup. rewrite E2.
  destruct (retrieve_prefix f (pc_heap (rb_pcht b)) id) as [[[k e]|]| |]; try discriminate; cbn [bind].
  - destruct (calculate_and_store_best_backup (e_val e) t) as [v s].
    intros X Y; inversion X; inversion Y; subst. repeat split; auto.
  - intros X Y; inversion X; inversion Y; subst. auto.
Qed.

Lemma alike_set a b g ra rb : (forall f, alike (rib_of a f) (rib_of b f)) -> alike ra rb ->
  forall f, alike (rib_of (set_rib a g ra) f) (rib_of (set_rib b g rb) f).
Proof. intros A B f. rewrite !rib_of_set. destruct (af_eqb f g); auto. Qed.


Lemma exec_alike st1 st2 o st1' x st2' y : (forall f, alike (rib_of st1 f) (rib_of st2 f)) ->
  (forall f, has_lsm (rib_of st1 f)) -> (forall f, has_lsm (rib_of st2 f)) ->
  exec st1 o = Ok (st1', x) -> exec st2 o = Ok (st2', y) ->
  forall f, alike (rib_of st1' f) (rib_of st2' f).
Proof.
  intros A H1 H2 E1 E2.
  destruct o as [p r u|p n t|p n t|g n|n|g n|p t]; cbn [exec] in E1, E2.
  - unfold insert in E1, E2.
    destruct (rib_insert _ (rib_of st1 _) _ _ _) as [[a xa]| |] eqn:Ea; try discriminate.
    destruct (rib_insert _ (rib_of st2 _) _ _ _) as [[b xb]| |] eqn:Eb; try discriminate.
    inversion E1; inversion E2; subst. cbn [fst snd]. apply alike_set; auto.
    apply (insert_alike _ _ _ _ _ _ _ _ _ _ (A _) (H1 _) (H2 _) Ea Eb).
  - unfold mark_mui_as_withdrawn_for_prefix in E1, E2.
    destruct (rib_mark_mui_as_withdrawn_for_prefix _ (rib_of st1 _) _ _ _) as [[a xa]| |] eqn:Ea; try discriminate.
    destruct (rib_mark_mui_as_withdrawn_for_prefix _ (rib_of st2 _) _ _ _) as [[b xb]| |] eqn:Eb; try discriminate.
    inversion E1; inversion E2; subst. cbn [fst snd]. apply alike_set; auto.
    apply (mark_withdrawn_alike _ _ _ _ _ _ _ _ _ _ (A _) (H1 _) (H2 _) Ea Eb).
  - unfold mark_mui_as_active_for_prefix in E1, E2.
    destruct (rib_mark_mui_as_active_for_prefix _ (rib_of st1 _) _ _ _) as [[a xa]| |] eqn:Ea; try discriminate.
    destruct (rib_mark_mui_as_active_for_prefix _ (rib_of st2 _) _ _ _) as [[b xb]| |] eqn:Eb; try discriminate.
    inversion E1; inversion E2; subst. cbn [fst snd]. apply alike_set; auto.
    apply (mark_active_alike _ _ _ _ _ _ _ _ _ _ (A _) (H1 _) (H2 _) Ea Eb).
  - inversion E1; inversion E2; subst. apply alike_set; auto. destruct (A g) as (B1 & B2 & B3).
    unfold alike, rib_mark_mui_as_withdrawn. cbn [rb_tree rb_pcht rb_cnt set_tree]. now rewrite B1.
  - inversion E1; inversion E2; subst.
    assert (X : forall a b, alike a b -> alike (rib_mark_mui_as_withdrawn a n) (rib_mark_mui_as_withdrawn b n)).
    { intros a b (B1 & B2 & B3). unfold alike, rib_mark_mui_as_withdrawn.
      cbn [rb_tree rb_pcht rb_cnt set_tree]. now rewrite B1. }
    unfold mark_mui_as_withdrawn_all, mark_mui_as_withdrawn_af.
    apply alike_set; [|apply X, (A IPv6)]. apply alike_set; auto.
  - inversion E1; inversion E2; subst. apply alike_set; auto. destruct (A g) as (B1 & B2 & B3).
    unfold alike, rib_mark_mui_as_active. cbn [rb_tree rb_pcht rb_cnt set_tree]. now rewrite B1.
  - unfold calculate_best_backup in E1, E2.
    destruct (rib_calculate_best_backup _ (rib_of st1 _) _ _) as [[a xa]| |] eqn:Ea; try discriminate.
    destruct (rib_calculate_best_backup _ (rib_of st2 _) _ _) as [[b xb]| |] eqn:Eb; try discriminate.
    inversion E1; inversion E2; subst. cbn [fst snd]. apply alike_set; auto.
    apply (calculate_alike _ _ _ _ _ _ _ _ _ (A _) Ea Eb).
Qed.

Lemma after_step s o h st : after s (o :: h) st -> exists st0 x, after s h st0 /\ wf_op o /\
  exec st0 o = Ok (st, x).
Proof.
  intros [W E]. inversion W as [|o' h' Wo Wh]; subst. cbn [run] in E.
  destruct (run s h) as [st0| |] eqn:R; try discriminate. cbn [bind] in E.
  destruct (exec st0 o) as [[st1 x]| |] eqn:X; try discriminate. inversion E; subst.
  exists st0, x. split; [split; auto|]. auto.
Qed.

Lemma stores_alike h : forall s1 s2 st1 st2, in_memory s1 -> in_memory s2 ->
  after s1 h st1 -> after s2 h st2 -> forall f, alike (rib_of st1 f) (rib_of st2 f).
Proof.
  induction h as [|o h IH]; intros s1 s2 st1 st2 S1 S2 A1 A2 f.
  - destruct A1 as [_ E1], A2 as [_ E2]. cbn [run] in *. unfold new_with_config, rib_init in *.
    destruct (tree_new IPv4) as [t4| |]; try discriminate.
    destruct (tree_new IPv6) as [t6| |]; try discriminate. cbn [bind] in *.
    inversion E1; inversion E2; subst. destruct f; easy.
  - destruct (after_step _ _ _ _ A1) as (a & x & A1' & Wo & E1).
    destruct (after_step _ _ _ _ A2) as (b & y & A2' & _ & E2).
    apply (exec_alike a b o st1 x st2 y); auto.
    + intros g. now apply (IH s1 s2).
    + intros g. destruct (after_rib _ _ _ g A1') as [_ R]. now apply (has_lsm_ok s1 g h).
    + intros g. destruct (after_rib _ _ _ g A2') as [_ R]. now apply (has_lsm_ok s2 g h).
Qed.

(* every read method looks at the strategy and the disk only for PersistOnly *)
Lemma get_alike f a b p mui iw : alike a b -> has_lsm a -> has_lsm b ->
  rib_get_value f a p mui iw = rib_get_value f b p mui iw.
Proof.
  intros (E1 & E2 & E3) Ha Hb. unfold rib_get_value, has_lsm in *. rewrite E1, E2.
  destruct (rb_strat a); try easy; destruct (rb_strat b); easy.
Qed.

Lemma map_res_ext {A B} (g g' : A -> res B) l : (forall x, g x = g' x) -> map_res g l = map_res g' l.
Proof. intros E. induction l as [|x l IH]; simpl; [easy|]. now rewrite E, IH. Qed.

Lemma fill_alike f a b o s : alike a b -> has_lsm a -> has_lsm b ->
  fill_set f a o s = fill_set f b o s.
Proof.
  intros E Ha Hb. unfold fill_set. destruct s as [s|]; auto.
  destruct (rs_items s) as [xs| |]; auto. cbn [bind].
  rewrite (map_res_ext (fun x => item_for f a (mo_mui o) (mo_withdrawn o) (snd (fst x)))
             (fun x => item_for f b (mo_mui o) (mo_withdrawn o) (snd (fst x)))); auto.
  intros x. unfold item_for. now rewrite (get_alike f a b).
Qed.

Lemma ask_alike st1 st2 q : (forall f, alike (rib_of st1 f) (rib_of st2 f)) ->
  (forall f, has_lsm (rib_of st1 f)) -> (forall f, has_lsm (rib_of st2 f)) ->
  about_disk q = false -> ask st1 q = ask st2 q.
Proof.
  intros A H1 H2 D.
  assert (G : forall f p mui iw, rib_get_value f (rib_of st1 f) p mui iw =
                                 rib_get_value f (rib_of st2 f) p mui iw)
    by (intros; now apply get_alike).
  assert (T : forall f, rb_tree (rib_of st1 f) = rb_tree (rib_of st2 f)) by (intros; apply A).
  assert (P : forall f, rb_pcht (rib_of st1 f) = rb_pcht (rib_of st2 f)) by (intros; apply A).
  assert (C : forall f, rb_cnt (rib_of st1 f) = rb_cnt (rib_of st2 f)) by (intros; apply A).
  assert (Ct : forall f p mui, rib_contains f (rib_of st1 f) p mui = rib_contains f (rib_of st2 f) p mui)
    by (intros; unfold rib_contains; now rewrite T).
  assert (I : forall f mui iw p, item_for f (rib_of st1 f) mui iw p = item_for f (rib_of st2 f) mui iw p)
    by (intros; unfold item_for; now rewrite G).
  assert (F : forall f o s, fill_set f (rib_of st1 f) o s = fill_set f (rib_of st2 f) o s)
    by (intros; now apply fill_alike).
  assert (W : forall f m, rib_mui_is_withdrawn (rib_of st1 f) m = rib_mui_is_withdrawn (rib_of st2 f) m)
    by (intros; unfold rib_mui_is_withdrawn; now rewrite T).
  assert (M : forall f p mui iw, rib_more_specifics_iter_from f (rib_of st1 f) p mui iw =
                                 rib_more_specifics_iter_from f (rib_of st2 f) p mui iw).
  { intros. unfold rib_more_specifics_iter_from. rewrite T.
    replace (match mui with Some m => negb iw && rib_mui_is_withdrawn (rib_of st1 f) m | None => false end)
      with (match mui with Some m => negb iw && rib_mui_is_withdrawn (rib_of st2 f) m | None => false end)
      by (destruct mui; now rewrite ?W).
    destruct (match mui with Some m => _ | None => false end); auto.
    destruct (more_specifics f _ p) as [ps| |]; auto. cbn [bind].
    now rewrite (map_res_ext _ _ ps (I f mui iw)). }
  assert (X : forall f, rib_prefixes_iter f (rib_of st1 f) = rib_prefixes_iter f (rib_of st2 f)).
  { intros. unfold rib_prefixes_iter. rewrite T.
    destruct (tree_prefixes_iter f _) as [ps| |]; auto. cbn [bind]. apply map_res_ext.
    intros p. now rewrite G. }
  destruct q as [p o|p mui|p|p|p mui iw|p mui iw|p mui iw|p mui iw|p mui iw|f m iw|f|f|f m|f m
    |f|f len|f|f|f|f| | |m| | | |]; try discriminate; cbn [ask].
  - unfold match_prefix, rib_match_prefix. rewrite T.
    destruct (tree_match_prefix _ _ _ _) as [tr| |]; auto. cbn [bind].
    replace (match qr_prefix (query_of_tree (fst p) tr) with
             | Some p0 => do v <- rib_get_value (fst p) (rib_of st1 (fst p)) (snd p0) (mo_mui o) (mo_withdrawn o);
                 Ok match v with ROk (Some (x :: l)) => Some (x :: l) | _ => None end
             | None => Ok None end)
      with (match qr_prefix (query_of_tree (fst p) tr) with
             | Some p0 => do v <- rib_get_value (fst p) (rib_of st2 (fst p)) (snd p0) (mo_mui o) (mo_withdrawn o);
                 Ok match v with ROk (Some (x :: l)) => Some (x :: l) | _ => None end
             | None => Ok None end)
      by (destruct (qr_prefix _); now rewrite ?G).
    destruct (match qr_prefix _ with Some _ => _ | None => _ end) as [recs| |]; auto. cbn [bind].
    rewrite !F.
    destruct (if mo_more o then _ else _) as [[ms|e]| |]; auto.
  - unfold contains. now rewrite Ct.
  - unfold best_path, rib_best_path. now rewrite P.
  - unfold is_ps_outdated, rib_is_ps_outdated. now rewrite P.
  - unfold more_specifics_from, rib_more_specifics_from. now rewrite Ct, G, T.
  - unfold less_specifics_from, rib_less_specifics_from. now rewrite Ct, G, T.
  - unfold more_specifics_iter_from. now rewrite M.
  - unfold less_specifics_iter_from, rib_less_specifics_iter_from. rewrite T.
    destruct (less_specifics _ _ _) as [ps| |]; auto. cbn [bind].
    now rewrite (map_res_ext _ _ ps (I (fst p) mui iw)).
  - unfold StarCast.get_records_for_prefix. now rewrite G.
  - unfold iter_records_for_mui. now rewrite W, M.
  - unfold prefixes_iter_af. now rewrite X.
  - unfold is_mui_active_af, rib_is_mui_active. now rewrite T.
  - unfold mui_is_withdrawn. now rewrite W.
  - unfold prefixes_count_af, rib_prefixes_count. now rewrite P, C.
  - unfold prefixes_count_for_len, rib_prefixes_count_for_len. now rewrite C.
  - unfold routes_count_af, rib_routes_count. now rewrite P, C.
  - unfold nodes_count_af, rib_nodes_count. now rewrite T.
  - unfold stats, rib_stats. now rewrite C.
  - unfold prefixes_iter, prefixes_iter_af. now rewrite !X.
  - unfold is_mui_active, is_mui_active_af, rib_is_mui_active. now rewrite !T.
  - unfold prefixes_count, prefixes_count_af, rib_prefixes_count. now rewrite !P, !C.
  - unfold routes_count, routes_count_af, rib_routes_count. now rewrite !P, !C.
  - unfold nodes_count, nodes_count_af, rib_nodes_count. now rewrite !T.
Qed.

Lemma strategies_alike h s1 s2 st1 st2 q : in_memory s1 -> in_memory s2 ->
  after s1 h st1 -> after s2 h st2 -> about_disk q = false -> ask st1 q = ask st2 q.
Proof.
  intros S1 S2 A1 A2 D. apply ask_alike; auto.
  - now apply (stores_alike h s1 s2).
  - intros g. destruct (after_rib _ _ _ g A1) as [_ R]. now apply (has_lsm_ok s1 g h).
  - intros g. destruct (after_rib _ _ _ g A2) as [_ R]. now apply (has_lsm_ok s2 g h).
Qed.

Lemma calls_alike h s1 s2 st1 st2 o : in_memory s1 -> in_memory s2 ->
  after s1 h st1 -> after s2 h st2 -> wf_op o ->
  exists st1' x st2' y, exec st1 o = Ok (st1', x) /\ exec st2 o = Ok (st2', y) /\ same_outcome x y.
Proof.
  intros S1 S2 A1 A2 Wo.
  destruct (exec_total s1 h st1 o A1 Wo) as (st1' & x & E1 & A1' & X).
  destruct (exec_total s2 h st2 o A2 Wo) as (st2' & y & E2 & A2' & Y).
  exists st1', x, st2', y. split; auto. split; auto.
  destruct o as [p r u|p n t|p n t|g n|n|g n|p t]; simpl in X, Y; try (subst; reflexivity).
  - subst. assert (report_spec s1 h p r = report_spec s2 h p r) as ->; [|reflexivity].
    destruct s1; try (now elim S1); destruct s2; try (now elim S2); reflexivity.
  - subst. destruct s1; try (now elim S1); destruct s2; try (now elim S2); now destruct (touched h p).
  - subst. destruct s1; try (now elim S1); destruct s2; try (now elim S2); now destruct (touched h p).
  - destruct x as [| |[sel|e]]; try easy; destruct y as [| |[sel'|e']]; try easy.
    + destruct X as (_ & _ & X), Y as (_ & _ & Y). simpl. now rewrite (selection_unique _ _ _ _ X Y).
    + destruct X as (_ & T & _), Y as (_ & [Y|Y]); [now elim S2|congruence].
    + destruct Y as (_ & T & _), X as (_ & [X|X]); [now elim S1|congruence].
    + destruct X as [-> _], Y as [-> _]. reflexivity.
Qed.
