(* The store against the history of calls, part 3: every reachable store is the
   one its history describes, and no call panics. *)
From Coq Require Import Arith NArith List Bool Lia Permutation.
From Verif Require Import Word Af BitSpan Spec Maps Tree TreeProofs MultiMap PrefixCht
  PrefixChtProofs Lsm LsmProofs RecordSet Rib StarCast HistSpec Ask PropSpec RibProofs RibLsm.
Import ListNotations.
Local Open Scope N_scope.

Definition lsm_rel (s : strategy) (f : af) (h : list op) (o : option lsm) : Prop :=
  match s, o with
  | MemoryOnly, _ => o = None
  | PersistOnly, Some l => short_rel f h l
  | _, Some l => long_rel f (writes s h) l
  | _, None => False
  end.

Record rib_ok (s : strategy) (f : af) (h : list op) (rb : rib) : Prop := {
  ro_strat : rb_strat rb = s;
  ro_tree : tree_rel f h (rb_tree rb);
  ro_cnt : cnt_rel f h (rb_cnt rb);
  ro_mem : match s with PersistOnly => rb_pcht rb = pcht_init | _ => mem_rel f h (rb_pcht rb) end;
  ro_lsm : lsm_rel s f h (rb_lsm rb)
}.

Lemma rib_init_ok s f : exists rb, rib_init f s = Ok rb /\ rib_ok s f [] rb.
Proof.
  unfold rib_init. destruct (tree_rel_init f) as [t [E R]]. rewrite E. cbn [bind].
  eexists. split; [reflexivity|]. split; cbn; auto.
  - apply cnt_rel_init.
  - destruct s; auto using mem_rel_init.
  - destruct s; simpl; auto using long_rel_init, short_rel_init.
Qed.

(* ---------- calls for the other family ---------- *)

Definition concerns (o : op) (f : af) : bool :=
  match o with
  | Insert q _ _ | MarkWithdrawn q _ _ | MarkActive q _ _ | Calculate q _ => af_eqb f (fst q)
  | GlobalWithdrawn g _ | GlobalActive g _ => af_eqb f g
  | GlobalWithdrawnBoth _ => true
  end.

Lemma concerns_about o f p : concerns o f = false -> about o (f, p) = false.
Proof. destruct o; simpl; auto; intros E; unfold prefix_eqb; simpl; now rewrite E. Qed.

Lemma af_neq f g : af_eqb f g = false -> f <> g.
Proof. intros E ->. now rewrite af_eqb_refl in E. Qed.

Lemma g_withdrawn_frame h f o m : concerns o f = false ->
  g_withdrawn (o :: h) f m = g_withdrawn h f m.
Proof. destruct o; simpl; auto; try discriminate; intros ->; easy. Qed.

Lemma via_frame h f o id m : concerns o f = false -> via (o :: h) f id m = via h f id m.
Proof. unfold via. destruct o; simpl; auto; intros ->; easy. Qed.

Lemma visited_frame h f o id : concerns o f = false -> visited (o :: h) f id = visited h f id.
Proof. unfold visited. destruct o; simpl; auto; intros ->; easy. Qed.

Lemma inserted_ids_frame h f o : concerns o f = false ->
  inserted_ids f (o :: h) = inserted_ids f h.
Proof. destruct o; simpl; auto; intros ->; easy. Qed.

Lemma writes_frame s f h o l : concerns o f = false -> long_rel f (writes s h) l ->
  long_rel f (writes s (o :: h)) l.
Proof.
  intros C R. destruct s, o as [q r' u|q n t|q n t|g n|n|g n|q t]; simpl in *; auto;
    try (apply long_rel_other; [exact R|now apply af_neq]).
  - destruct (last_rec h q (r_mui r')); auto. apply long_rel_other; [exact R|now apply af_neq].
  - destruct (last_rec h q n); auto. apply long_rel_other; [exact R|now apply af_neq].
  - destruct (last_rec h q n); auto. apply long_rel_other; [exact R|now apply af_neq].
Qed.

Lemma rib_ok_frame s f h rb o : concerns o f = false -> rib_ok s f h rb -> rib_ok s f (o :: h) rb.
Proof.
  intros C [A B D M L]. split; auto.
  - apply (tree_rel_ext f h); auto.
    + intros p. symmetry. apply inserted_frame. now apply concerns_about.
    + intros m. symmetry. now apply g_withdrawn_frame.
    + intros id m. symmetry. now apply via_frame.
    + intros id. symmetry. now apply visited_frame.
  - apply (cnt_rel_ext f h); auto. symmetry. now apply inserted_ids_frame.
  - destruct s; auto; apply mem_rel_frame; auto; intros; now apply concerns_about.
  - destruct s, (rb_lsm rb) as [l|]; simpl in *; auto.
    + now apply (writes_frame WriteAhead).
    + now apply (writes_frame PersistHistory).
    + apply (short_rel_ext f h); auto. intros. symmetry. apply po_rec_frame.
      now apply concerns_about.
Qed.

(* ---------- calls for this family ---------- *)

Ltac rbs := cbn [set_tree set_pcht set_lsm set_cnt rb_strat rb_tree rb_pcht rb_lsm rb_cnt].


Lemma insert_mem_report s h p r : s <> PersistOnly ->
  Report 0 (if inserted h p then negb (touched h p) else true) true
    (match last_rec h p (r_mui r) with Some _ => n_muis p h | None => 1 end) =
  report_spec s h p r.
Proof.
  intros N. assert (E : (if inserted h p then negb (touched h p) else true) = negb (inserted h p)).
  { destruct (inserted h p) eqn:I; [|easy]. apply inserted_touched in I. now rewrite I. }
  rewrite E. destruct s; easy.
Qed.

Lemma record_of_last h p m r : last_rec h p m = Some r -> record_of m (mmval_of r) = r.
Proof. intros E. apply last_rec_mui in E. subst m. apply record_of_mmval. Qed.

Lemma rib_insert_ok s f h rb id r u : wf_history h -> rib_ok s f h rb -> wf_pid f id ->
  wf_record r ->
  exists rb', rib_insert f rb id r u = Ok (rb', ROk (report_spec s h (f, id) r)) /\
    rib_ok s f (Insert (f, id) r u :: h) rb'.
Proof.
  intros Wh [St Tr Cn Me Ls] W Wr. unfold rib_insert.
  destruct (set_exists_rel f h _ id r u Tr W) as [t1 [E1 T1]]. rewrite E1. cbn [bind].
  unfold rib_upsert_prefix. rbs.
  pose proof (cnt_rel_insert f h (rb_cnt rb) id r u Cn W) as Cn'.
  rewrite St. destruct s.
  - destruct (rb_lsm rb) as [l|] eqn:El; [|destruct Ls].
    rbs.
    destruct (mem_rel_upsert f h _ id r u Me W) as [c' [E2 M2]]. rewrite E2. cbn [bind].
    cbn [rp_mui_new rp_cas rp_prefix_new rp_mui_count].
    eexists. split; [rewrite <- insert_mem_report by discriminate; reflexivity|].
    split; cbn; auto. simpl in Ls. now apply long_rel_insert.
  - destruct (mem_rel_upsert f h _ id r u Me W) as [c' [E2 M2]]. rewrite E2. cbn [bind].
    rbs. destruct (rb_lsm rb) as [l|] eqn:El; [|destruct Ls].
    cbn [rp_mui_new rp_cas rp_prefix_new rp_mui_count].
    eexists. split; [rewrite <- insert_mem_report by discriminate; reflexivity|].
    simpl in Ls.
    destruct (last_rec h (f, id) (r_mui r)) as [old|] eqn:Lr; cbn [option_map].
    + split; rbs; auto.
      rewrite ?El. cbn [lsm_rel writes]. rewrite Lr. rewrite (record_of_last h (f, id)) by auto.
      apply long_rel_insert; auto. now apply (wf_hist_last h (f, id) (r_mui r)).
    + split; rbs; auto.
      rewrite ?El. cbn [lsm_rel writes]. now rewrite Lr.
  - destruct (mem_rel_upsert f h _ id r u Me W) as [c' [E2 M2]]. rewrite E2. cbn [bind].
    cbn [rp_mui_new rp_cas rp_prefix_new rp_mui_count].
    eexists. split; [rewrite <- insert_mem_report by discriminate; reflexivity|].
    split; cbn; auto.
  - destruct (rb_lsm rb) as [l|] eqn:El; [|destruct Ls].
    destruct (set_exists_rel f _ _ id r u T1 W) as [t2 [E2 T2]]. rewrite E2. cbn [bind].
    cbn [rp_mui_new rp_cas rp_prefix_new rp_mui_count].
    assert (Ei : inserted (Insert (f, id) r u :: h) (f, id) = true)
      by (simpl; now rewrite prefix_eqb_refl).
    rewrite Ei.
    replace (if inserted h (f, id) then true else true) with true
      by now destruct (inserted h (f, id)).
    eexists. split; [reflexivity|].
    split; cbn; auto.
    + apply (tree_rel_ext f (Insert (f, id) r u :: Insert (f, id) r u :: h)); auto.
      * intros p. simpl. now destruct (prefix_eqb (f, p) (f, id)).
      * intros q m. unfold via. simpl existsb. rewrite <- !orb_assoc, orb_assoc. now rewrite orb_diag.
      * intros q. unfold visited. simpl existsb. rewrite <- !orb_assoc, orb_assoc. now rewrite orb_diag.
    + simpl in Ls. unfold persist_record_w_short_key.
      apply (short_rel_write f h (Insert (f, id) r u :: h) l id (r_mui r) r); auto.
      * apply Wr.
      * intros p n. simpl. now rewrite prefix_eqb_af.
Qed.


Lemma short_marked f h l id m t o : short_rel f h l -> wf_pid f id -> m < 2 ^ 32 ->
  t < 2 ^ 64 -> o = MarkWithdrawn (f, id) m t \/ o = MarkActive (f, id) m t ->
  forall r', po_rec (o :: h) (f, id) m = Some r' ->
  short_rel f (o :: h) (kv_insert (short_key f id m) (sval r') l).
Proof.
  intros R W Hm Ht Eo r' P. apply (short_rel_write f h _ l id m r'); auto.
  intros p n. destruct (pid_eqb p id && (n =? m)) eqn:B.
  - apply andb_true_iff in B. destruct B as [B1 B2]. apply pid_eqb_spec in B1.
    apply N.eqb_eq in B2. now subst.
  - destruct Eo as [-> | ->]; simpl; rewrite prefix_eqb_af, B; reflexivity.
Qed.

Lemma rib_mark_withdrawn_ok s f h rb id m t : wf_history h -> rib_ok s f h rb -> wf_pid f id ->
  m < 2 ^ 32 -> t < 2 ^ 64 ->
  exists rb', rib_mark_mui_as_withdrawn_for_prefix f rb id m t =
      Ok (rb', match s with
               | PersistOnly => ROk tt
               | _ => if touched h (f, id) then ROk tt else RErr (mark_err s)
               end) /\
    rib_ok s f (MarkWithdrawn (f, id) m t :: h) rb'.
Proof.
  intros Wh [St Tr Cn Me Ls] W Hm Ht. unfold rib_mark_mui_as_withdrawn_for_prefix. rewrite St.
  assert (Tr' : tree_rel f (MarkWithdrawn (f, id) m t :: h) (rb_tree rb))
    by (apply (tree_rel_ext f h); auto).
  assert (Cn' : cnt_rel f (MarkWithdrawn (f, id) m t :: h) (rb_cnt rb))
    by (apply (cnt_rel_ext f h); auto).
  destruct s.
  - destruct (rib_mark_rel f h rb id m t Withdrawn (MarkWithdrawn (f, id) m t) Me W)
      as [c' [x [E [M X]]]]; [auto|]. rewrite E. cbn [bind].
    eexists. split.
    + f_equal. f_equal. destruct x; [destruct X as [-> _]|rewrite X]; reflexivity.
    + split; cbn; auto.
  - destruct (rib_mark_rel f h rb id m t Withdrawn (MarkWithdrawn (f, id) m t) Me W)
      as [c' [x [E [M X]]]]; [auto|]. rewrite E. cbn [bind]. rbs.
    simpl in Ls. destruct x as [mm|].
    + destruct X as [T X]. rewrite T, X. destruct (rb_lsm rb) as [l|] eqn:El; [|destruct Ls].
      destruct (last_rec h (f, id) m) as [old|] eqn:Lr; cbn [option_map].
      * eexists. split; [reflexivity|]. split; rbs; auto.
        rewrite ?El. cbn [lsm_rel writes]. rewrite Lr.
        apply (long_rel_insert f _ l id (Rec m t Withdrawn [])); auto. split; auto.
      * eexists. split; [reflexivity|]. split; rbs; auto.
        rewrite ?El. cbn [lsm_rel writes]. now rewrite Lr.
    + rewrite X. eexists. split; [reflexivity|].
      split; rbs; auto.
      destruct (rb_lsm rb) as [l|] eqn:El; [|destruct Ls].
      rewrite ?El. cbn [lsm_rel writes].
      destruct (last_rec h (f, id) m) eqn:Lr; [|auto]. exfalso.
      assert (inserted h (f, id) = true) as J by (apply (last_rec_inserted h _ m); congruence).
      apply inserted_touched in J. congruence.
  - destruct (rib_mark_rel f h rb id m t Withdrawn (MarkWithdrawn (f, id) m t) Me W)
      as [c' [x [E [M X]]]]; [auto|]. rewrite E. cbn [bind].
    eexists. split.
    + f_equal. f_equal. destruct x; [destruct X as [-> _]|rewrite X]; reflexivity.
    + split; cbn; auto.
  - destruct (rb_lsm rb) as [l|] eqn:El; [|destruct Ls]. simpl in Ls.
    unfold records_with_keys_for_prefix_mui. rewrite (kv_prefix_short f h) by auto.
    destruct (po_rec h (f, id) m) as [r|] eqn:P.
    + cbn [List.map rewrite_headers fst snd].
      pose proof (po_rec_mui _ _ _ _ P) as Mu. pose proof (wf_hist_po _ _ _ _ Wh P) as Wr.
      assert (Z : zc_record f (short_key f id m ++ sval r) = Some (id, r))
        by (rewrite <- Mu; now apply sval_zc).
      unfold rewrite_header_for_record. rewrite Z.
      eexists. split; [reflexivity|]. split; rbs; auto.
      cbn [lsm_rel]. rewrite <- (app_nil_r (value_header t Withdrawn)). rewrite Mu.
      apply (short_marked f h l id m t (MarkWithdrawn (f, id) m t) Ls W Hm Ht)
        with (r' := Rec m t Withdrawn []); auto.
      simpl. rewrite prefix_eqb_refl, N.eqb_refl. simpl. rewrite P. simpl. now rewrite Mu.
    + cbn [List.map rewrite_headers].
      eexists. split; [reflexivity|]. split; rbs; auto.
      cbn [lsm_rel]. apply (short_rel_ext f h); auto. intros p n. simpl. rewrite prefix_eqb_af.
      destruct (pid_eqb p id && (n =? m)) eqn:B; [|easy].
      apply andb_true_iff in B. destruct B as [B1 B2]. apply pid_eqb_spec in B1.
      apply N.eqb_eq in B2. subst. now rewrite P.
Qed.

Lemma sval_length r : length (sval r) = (9 + length (r_meta r))%nat.
Proof. unfold sval. now rewrite app_length, value_header_length. Qed.

Lemma rib_mark_active_ok s f h rb id m t : wf_history h -> rib_ok s f h rb -> wf_pid f id ->
  m < 2 ^ 32 -> t < 2 ^ 64 ->
  exists rb', rib_mark_mui_as_active_for_prefix f rb id m t =
      Ok (rb', match s with
               | PersistOnly => ROk tt
               | _ => if touched h (f, id) then ROk tt else RErr FatalErr
               end) /\
    rib_ok s f (MarkActive (f, id) m t :: h) rb'.
Proof.
  intros Wh [St Tr Cn Me Ls] W Hm Ht. unfold rib_mark_mui_as_active_for_prefix. rewrite St.
  assert (Tr' : tree_rel f (MarkActive (f, id) m t :: h) (rb_tree rb))
    by (apply (tree_rel_ext f h); auto).
  assert (Cn' : cnt_rel f (MarkActive (f, id) m t :: h) (rb_cnt rb))
    by (apply (cnt_rel_ext f h); auto).
  destruct s.
  - destruct (rib_mark_rel f h rb id m t Active (MarkActive (f, id) m t) Me W)
      as [c' [x [E [M X]]]]; [auto|]. rewrite E. cbn [bind].
    eexists. split.
    + f_equal. f_equal. destruct x; [destruct X as [-> _]|rewrite X]; reflexivity.
    + split; cbn; auto.
  - destruct (rib_mark_rel f h rb id m t Active (MarkActive (f, id) m t) Me W)
      as [c' [x [E [M X]]]]; [auto|]. rewrite E. cbn [bind]. rbs.
    simpl in Ls. destruct x as [mm|].
    + destruct X as [T X]. rewrite T, X. destruct (rb_lsm rb) as [l|] eqn:El; [|destruct Ls].
      destruct (last_rec h (f, id) m) as [old|] eqn:Lr; cbn [option_map].
      * eexists. split; [reflexivity|]. split; rbs; auto.
        rewrite ?El. cbn [lsm_rel writes]. rewrite Lr.
        apply (long_rel_insert f _ l id (Rec m t Withdrawn [])); auto. split; auto.
      * eexists. split; [reflexivity|]. split; rbs; auto.
        rewrite ?El. cbn [lsm_rel writes]. now rewrite Lr.
    + rewrite X. eexists. split; [reflexivity|].
      split; rbs; auto.
      destruct (rb_lsm rb) as [l|] eqn:El; [|destruct Ls].
      rewrite ?El. cbn [lsm_rel writes].
      destruct (last_rec h (f, id) m) eqn:Lr; [|auto]. exfalso.
      assert (inserted h (f, id) = true) as J by (apply (last_rec_inserted h _ m); congruence).
      apply inserted_touched in J. congruence.
  - destruct (rib_mark_rel f h rb id m t Active (MarkActive (f, id) m t) Me W)
      as [c' [x [E [M X]]]]; [auto|]. rewrite E. cbn [bind].
    eexists. split.
    + f_equal. f_equal. destruct x; [destruct X as [-> _]|rewrite X]; reflexivity.
    + split; cbn; auto.
  - destruct (rb_lsm rb) as [l|] eqn:El; [|destruct Ls]. simpl in Ls.
    unfold most_recent_record_for_prefix_mui. rewrite (kv_prefix_short f h) by auto.
    assert (Same : (forall r, po_rec h (f, id) m = Some r -> r_meta r <> []) ->
      rib_ok PersistOnly f (MarkActive (f, id) m t :: h) rb).
    { intros Ne. split; auto. rewrite El. simpl. apply (short_rel_ext f h); auto.
      intros p n. simpl. rewrite prefix_eqb_af.
      destruct (pid_eqb p id && (n =? m)) eqn:B; [|easy].
      apply andb_true_iff in B. destruct B as [B1 B2]. apply pid_eqb_spec in B1.
      apply N.eqb_eq in B2. subst. destruct (po_rec h (f, id) m) as [r|]; [|easy].
      specialize (Ne r eq_refl). simpl. now destruct (r_meta r). }
    destruct (po_rec h (f, id) m) as [r|] eqn:P.
    + pose proof (po_rec_mui _ _ _ _ P) as Mu. pose proof (wf_hist_po _ _ _ _ Wh P) as Wr.
      cbn [most_recent_loop]. unfold key_header.
      rewrite app_length, short_key_length, sval_length.
      destruct (Nat.eqb_spec (AFB f + 5 + (9 + length (r_meta r))) (KEY_SIZE f)) as [Ek|Ek].
      * assert (Em : r_meta r = []).
        { destruct (r_meta r); [easy|]. destruct f; simpl in Ek; lia. }
        assert (Z : zc_record f (short_key f id m ++ sval r) = Some (id, r))
          by (rewrite <- Mu; now apply sval_zc).
        rewrite Z. unfold rewrite_header_for_record. rewrite Z, Mu.
        eexists. split; [reflexivity|]. split; rbs; auto.
        cbn [lsm_rel]. rewrite <- (app_nil_r (value_header t Active)).
        apply (short_marked f h l id m t (MarkActive (f, id) m t) Ls W Hm Ht)
          with (r' := Rec m t Active []); auto.
        simpl. rewrite prefix_eqb_refl, N.eqb_refl. simpl. rewrite P. simpl. now rewrite Em, Mu.
      * exists rb. split; [reflexivity|]. apply Same. intros r0 Er0. inversion Er0; subst r0.
        intros Em. apply Ek. rewrite Em. now destruct f.
    + cbn [most_recent_loop]. exists rb. split; [reflexivity|]. apply Same. discriminate.
Qed.

Lemma rib_global_withdrawn_ok s f h rb m : rib_ok s f h rb ->
  rib_ok s f (GlobalWithdrawn f m :: h) (rib_mark_mui_as_withdrawn rb m).
Proof.
  intros [St Tr Cn Me Ls]. split; cbn; auto.
  - now apply tree_rel_gw.
  - apply (cnt_rel_ext f h); auto.
  - destruct s; auto; now apply mem_rel_frame.
  - destruct s; auto.
    destruct (rb_lsm rb); auto. simpl in *. now apply (short_rel_ext f h).
Qed.

Lemma rib_global_active_ok s f h rb m : rib_ok s f h rb ->
  rib_ok s f (GlobalActive f m :: h) (rib_mark_mui_as_active rb m).
Proof.
  intros [St Tr Cn Me Ls]. split; cbn; auto.
  - now apply tree_rel_ga.
  - apply (cnt_rel_ext f h); auto.
  - destruct s; auto; now apply mem_rel_frame.
  - destruct s; auto.
    destruct (rb_lsm rb); auto. simpl in *. now apply (short_rel_ext f h).
Qed.

Lemma rib_global_both_ok s f h rb m : rib_ok s f h rb ->
  rib_ok s f (GlobalWithdrawnBoth m :: h) (rib_mark_mui_as_withdrawn rb m).
Proof.
  intros R. destruct (rib_global_withdrawn_ok s f h rb m R) as [St Tr Cn Me Ls]. split; auto.
  - apply (tree_rel_ext f (GlobalWithdrawn f m :: h)); auto.
    intros k. simpl. now rewrite af_eqb_refl.
  - apply (cnt_rel_ext f (GlobalWithdrawn f m :: h)); auto.
  - destruct s; auto; apply mem_rel_frame; auto; apply R.
  - cbn in *. destruct s; auto.
    destruct (rb_lsm rb); auto. simpl in *. now apply (short_rel_ext f (GlobalWithdrawn f m :: h)).
Qed.

Lemma retrieve_empty f id : wf_pid f id -> retrieve_prefix f (pc_heap pcht_init) id = Ok None.
Proof.
  intros W. destruct (mem_rel_init f) as [I _ _ _]. simpl in I.
  pose proof (retrieve_prefix_ok f [] id I W) as R. simpl pc_heap.
  destruct (retrieve_prefix f [] id) as [[[k e]|]| |]; try easy.
Qed.

Lemma rib_calculate_ok s f h rb id t : rib_ok s f h rb -> wf_pid f id ->
  exists rb' x, rib_calculate_best_backup f rb id t = Ok (rb', x) /\
    rib_ok s f (Calculate (f, id) t :: h) rb' /\
    match x with
    | RErr e => e = StoreNotReadyError /\ (s = PersistOnly \/ touched h (f, id) = false)
    | ROk sel => s <> PersistOnly /\ touched h (f, id) = true /\
                 selection t (last_rec h (f, id)) sel
    end.
Proof.
  intros R W. pose proof R as [St Tr Cn Me Ls].
  assert (Tr' : tree_rel f (Calculate (f, id) t :: h) (rb_tree rb))
    by (apply (tree_rel_ext f h); auto).
  assert (Cn' : cnt_rel f (Calculate (f, id) t :: h) (rb_cnt rb))
    by (apply (cnt_rel_ext f h); auto).
  assert (Ls' : lsm_rel s f (Calculate (f, id) t :: h) (rb_lsm rb)).
  { destruct s; auto. destruct (rb_lsm rb); auto. simpl in *. now apply (short_rel_ext f h). }
  destruct (match s with PersistOnly => true | _ => false end) eqn:Es.
  - assert (s = PersistOnly) as -> by (destruct s; easy).
    unfold rib_calculate_best_backup. rewrite Me, retrieve_empty by auto. cbn [bind].
    eexists _, _. split; [reflexivity|]. split; auto. split; auto.
  - assert (M : mem_rel f h (rb_pcht rb)) by (destruct s; easy).
    destruct (rib_calc_rel f h rb id t M W) as [c' [x [E [M' X]]]].
    exists (set_pcht rb c'), x. split; auto. split.
    + split; cbn; auto. destruct s; easy.
    + destruct x; [|destruct X; auto]. destruct X. split; auto. intros ->. discriminate.
Qed.

(* ---------- the store ---------- *)

Record store_ok (s : strategy) (h : list op) (st : store) : Prop := {
  so_v4 : rib_ok s IPv4 h (st_v4 st);
  so_v6 : rib_ok s IPv6 h (st_v6 st)
}.

Lemma so_rib s h st f : store_ok s h st -> rib_ok s f h (rib_of st f).
Proof. intros [A B]. now destruct f. Qed.

Lemma store_ok_init s : exists st, new_with_config s = Ok st /\ store_ok s [] st.
Proof.
  unfold new_with_config.
  destruct (rib_init_ok s IPv4) as [a [Ea Oa]], (rib_init_ok s IPv6) as [b [Eb Ob]].
  rewrite Ea, Eb. cbn [bind]. eexists. split; [reflexivity|]. now split.
Qed.

Lemma set_rib_ok s f h st rb o : store_ok s h st -> rib_ok s f (o :: h) rb ->
  (forall g, g <> f -> concerns o g = false) -> store_ok s (o :: h) (set_rib st f rb).
Proof.
  intros [A B] R C. destruct f; split; cbn; auto.
  - apply rib_ok_frame; auto. apply C. discriminate.
  - apply rib_ok_frame; auto. apply C. discriminate.
Qed.

Lemma other_af f g : g <> f -> af_eqb g f = false.
Proof. intros N. destruct (af_eqb g f) eqn:E; [|easy]. now apply af_eqb_spec in E. Qed.


Lemma exec_ok s h st o : wf_history h -> wf_op o -> store_ok s h st ->
  exists st' x, exec st o = Ok (st', x) /\ store_ok s (o :: h) st' /\ outcome_spec s h o x.
Proof.
  intros Wh Wo R. destruct o as [[f p] r u|[f p] n t|[f p] n t|f n|n|f n|[f p] t]; simpl in Wo.
  - destruct Wo as [Wp Wr].
    destruct (rib_insert_ok s f h _ p r u Wh (so_rib _ _ _ f R) Wp Wr) as [rb' [E O]].
    cbn [exec]. unfold insert. cbn [fst snd]. rewrite E. cbn [bind fst snd].
    eexists _, _. split; [reflexivity|]. split; [|reflexivity].
    apply set_rib_ok; auto. intros g N. simpl. now apply other_af.
  - destruct Wo as [Wp [Hn Ht]].
    destruct (rib_mark_withdrawn_ok s f h _ p n t Wh (so_rib _ _ _ f R) Wp Hn Ht) as [rb' [E O]].
    cbn [exec]. unfold mark_mui_as_withdrawn_for_prefix. cbn [fst snd]. rewrite E. cbn [bind fst snd].
    eexists _, _. split; [reflexivity|]. split; [|reflexivity].
    apply set_rib_ok; auto. intros g N. simpl. now apply other_af.
  - destruct Wo as [Wp [Hn Ht]].
    destruct (rib_mark_active_ok s f h _ p n t Wh (so_rib _ _ _ f R) Wp Hn Ht) as [rb' [E O]].
    cbn [exec]. unfold mark_mui_as_active_for_prefix. cbn [fst snd]. rewrite E. cbn [bind fst snd].
    eexists _, _. split; [reflexivity|]. split; [|reflexivity].
    apply set_rib_ok; auto. intros g N. simpl. now apply other_af.
  - eexists _, _. split; [reflexivity|]. split; [|reflexivity].
    apply set_rib_ok; auto.
    + apply rib_global_withdrawn_ok. now apply so_rib.
    + intros g N. simpl. now apply other_af.
  - eexists _, _. split; [reflexivity|]. split; [|reflexivity].
    destruct R as [A B]. split; cbn; now apply rib_global_both_ok.
  - eexists _, _. split; [reflexivity|]. split; [|reflexivity].
    apply set_rib_ok; auto.
    + apply rib_global_active_ok. now apply so_rib.
    + intros g N. simpl. now apply other_af.
  - destruct (rib_calculate_ok s f h _ p t (so_rib _ _ _ f R) Wo) as [rb' [x [E [O X]]]].
    cbn [exec]. unfold calculate_best_backup. cbn [fst snd]. rewrite E. cbn [bind fst snd].
    eexists _, _. split; [reflexivity|]. split.
    + apply set_rib_ok; auto. intros g N. simpl. now apply other_af.
    + exact X.
Qed.

Lemma run_ok s h : wf_history h -> exists st, run s h = Ok st /\ store_ok s h st.
Proof.
  induction 1 as [|o h Wo Wh [st [E R]]]; [apply store_ok_init|].
  cbn [run]. rewrite E. cbn [bind].
  destruct (exec_ok s h st o Wh Wo R) as [st' [x [E' [R' _]]]]. rewrite E'. cbn [bind fst].
  eauto.
Qed.

Lemma run_inv s h st : wf_history h -> run s h = Ok st -> store_ok s h st.
Proof. intros W E. destruct (run_ok s h W) as [st' [E' R]]. congruence. Qed.
