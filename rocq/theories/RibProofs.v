(* The store of one address family against the history of calls, part 1: the
   tree, the prefix table and the counters. *)
From Coq Require Import Arith NArith List Bool Lia Permutation.
From Verif Require Import Word Af BitSpan Spec Maps ChtMath Cht Node Tree ChainProofs TreeProofs
  Loop Iter IterProofs MultiMap PrefixCht PrefixChtProofs Lsm LsmProofs RecordSet Rib StarCast
  HistSpec.
Import ListNotations.
Local Open Scope N_scope.

Lemma wf_len0 f p : wf_pid f p -> p_len p = 0 -> p = (0, 0).
Proof.
  intros W L. apply (covers_antisym f); auto.
  - split; [apply N.le_0_l|]. split; [simpl; apply N.neq_0_lt_0, N.pow_nonzero; lia|].
    simpl. apply N.mod_0_l. apply N.pow_nonzero. lia.
  - split; [rewrite L; simpl; lia|]. rewrite L. intros. lia.
Qed.

(* ---------- the tree ---------- *)

(* the walk of an insert of p passes through the node id *)
Definition through (f : af) (p id : pid) : bool :=
  on_path f p id || (p_len p =? 0) && pid_eqb id (0, 0).
(* the node id exists *)
Definition visited (h : list op) (f : af) (id : pid) : bool :=
  existsb (fun o => match o with
                    | Insert q _ _ => af_eqb f (fst q) && through f (snd q) id
                    | _ => false end) h || pid_eqb id (0, 0).
(* the mui index of the node id holds m; the root is created with mui 0 *)
Definition via (h : list op) (f : af) (id : pid) (m : N) : bool :=
  existsb (fun o => match o with
                    | Insert q r _ => af_eqb f (fst q) && (m =? r_mui r) && through f (snd q) id
                    | _ => false end) h || pid_eqb id (0, 0) && (m =? 0).

Record tree_rel (f : af) (h : list op) (t : tree) : Prop := {
  tl_ok : tree_ok f t;
  tl_stored : forall p, wf_pid f p -> 0 < p_len p -> stored f (t_heap t) p = inserted h (f, p);
  tl_default : t_default t = inserted h (f, (0, 0));
  tl_gw : forall m, mem m (t_withdrawn t) = g_withdrawn h f m;
  tl_rbm : forall id m,
    match nodes f (t_heap t) id with Some v => mem m (nv_rbm v) | None => false end = via h f id m;
  tl_nodes : forall id,
    match nodes f (t_heap t) id with Some v => true | None => false end = visited h f id
}.

Lemma tree_rel_ext f h h' t : (forall p, inserted h (f, p) = inserted h' (f, p)) ->
  (forall m, g_withdrawn h f m = g_withdrawn h' f m) ->
  (forall id m, via h f id m = via h' f id m) ->
  (forall id, visited h f id = visited h' f id) -> tree_rel f h t -> tree_rel f h' t.
Proof.
  intros A B V X [C D E F G H]. split; auto.
  - intros. rewrite <- A. auto.
  - now rewrite <- A.
  - intros. now rewrite <- B.
  - intros. now rewrite <- V.
  - intros. now rewrite <- X.
Qed.

Lemma tree_rel_init f : exists t, tree_new f = Ok t /\ tree_rel f [] t.
Proof.
  destruct (tree_new_ok f) as [t [E [O [W [D [S N]]]]]]. exists t. split; auto.
  split; auto.
  - intros m. now rewrite W.
  - intros id m. rewrite N. unfold via. simpl. destruct (pid_eqb id (0, 0)); [|easy].
    simpl. now rewrite orb_false_r.
  - intros id. rewrite N. unfold visited. simpl. now destruct (pid_eqb id (0, 0)).
Qed.

Lemma set_exists_rel f h t p r u : tree_rel f h t -> wf_pid f p ->
  exists t', set_prefix_exists f t p (r_mui r) = Ok (t', ROk (0, inserted h (f, p))) /\
    tree_rel f (Insert (f, p) r u :: h) t'.
Proof.
  intros [O S D G V X] W. destruct (N.eq_dec (p_len p) 0) as [Z|Z].
  - destruct (set_default_route_ok f t p (r_mui r) O W Z) as [t' [E [O' [W' [D' [N' S']]]]]].
    pose proof (wf_len0 f p W Z) as ->.
    exists t'. rewrite D in E. split; auto. split; auto.
    + intros q Wq Lq. rewrite S', S by auto. simpl.
      rewrite prefix_eqb_af, pid_eqb_neq; auto. intros ->. simpl in Lq. lia.
    + rewrite D'. simpl. now rewrite prefix_eqb_refl.
    + intros m. rewrite W'. apply G.
    + intros id m. rewrite N'. unfold via. simpl existsb. rewrite af_eqb_refl, <- orb_assoc.
      fold (via h f id m). rewrite <- V. unfold through, on_path. simpl.
      destruct (pid_eqb id (0, 0)) eqn:Q.
      * apply pid_eqb_spec in Q. subst id. simpl. rewrite mem_insert, andb_true_r.
        destruct (nodes f (t_heap t) (0, 0)) as [v|] eqn:E0; [easy|].
        elim (ti_root _ _ (proj1 O) E0).
      * replace (p_len id <? 0) with false by (symmetry; apply N.ltb_ge; lia).
        now rewrite !andb_false_r.
    + intros id. rewrite N'. unfold visited. simpl existsb. rewrite af_eqb_refl, <- orb_assoc.
      fold (visited h f id). rewrite <- X. unfold through, on_path. simpl.
      destruct (pid_eqb id (0, 0)) eqn:Q.
      * now rewrite orb_true_r.
      * replace (p_len id <? 0) with false by (symmetry; apply N.ltb_ge; lia).
        now rewrite !andb_false_r.
  - assert (0 < p_len p) as P by lia.
    destruct (set_prefix_exists_ok f t p (r_mui r) O W P) as [t' [E [O' [W' [D' [N' S']]]]]].
    exists t'. rewrite S in E by auto. split; auto. split; auto.
    + intros q Wq Lq. rewrite S', S by auto. simpl. now rewrite prefix_eqb_af.
    + rewrite D', D. simpl. rewrite prefix_eqb_af, pid_eqb_neq; [easy|].
      intros <-. simpl in Z. lia.
    + intros m. rewrite W'. apply G.
    + intros id m. rewrite N'. unfold via. simpl existsb. rewrite af_eqb_refl, <- orb_assoc.
      fold (via h f id m). rewrite <- V. unfold touch, through. simpl.
      destruct (N.eqb_spec (p_len p) 0); [easy|]. simpl. rewrite orb_false_r.
      destruct (on_path f p id).
      * rewrite andb_true_r. simpl. rewrite mem_insert.
        destruct (nodes f (t_heap t) id); easy.
      * now rewrite andb_false_r.
    + intros id. rewrite N'. unfold visited. simpl existsb. rewrite af_eqb_refl, <- orb_assoc.
      fold (visited h f id). rewrite <- X. unfold touch, through. simpl.
      destruct (N.eqb_spec (p_len p) 0); [easy|]. simpl. rewrite orb_false_r.
      now destruct (on_path f p id).
Qed.

Lemma tree_rel_gw f h t m : tree_rel f h t ->
  tree_rel f (GlobalWithdrawn f m :: h) (mark_mui_as_withdrawn t m).
Proof.
  intros [O S D G V X]. split; auto. intros k. simpl. rewrite af_eqb_refl. simpl.
  rewrite mem_insert, G. now destruct (k =? m).
Qed.

Lemma tree_rel_ga f h t m : tree_rel f h t ->
  tree_rel f (GlobalActive f m :: h) (mark_mui_as_active t m).
Proof.
  intros [O S D G V X]. split; auto. intros k. simpl. rewrite af_eqb_refl. simpl.
  rewrite mem_remove, G. now destruct (k =? m).
Qed.

(* ---------- the prefix table ---------- *)

Record val_rel (h : list op) (p : prefix) (v : pval) : Prop := {
  vr_keys : NoDup (keys (pv_recs v));
  vr_recs : forall m, lookup m (pv_recs v) = option_map mmval_of (last_rec h p m);
  vr_sel : selected h p (pv_sel v);
  vr_out : outdated h p (pv_out v)
}.

Lemma record_of_mmval r : record_of (r_mui r) (mmval_of r) = r.
Proof. now destruct r. Qed.
Lemma mmval_of_record m v : mmval_of (record_of m v) = v.
Proof. now destruct v. Qed.

Lemma best_backup_selection t m V : NoDup (keys m) ->
  (forall k, lookup k m = option_map mmval_of (V k)) -> selection t V (best_backup m t).
Proof.
  intros ND L. unfold best_backup.
  pose proof (best_backup_generic_ok (cands t m) (cands_NoDup t m ND)) as B.
  assert (C : forall c, In c (cands t m) <-> exists r, V (snd c) = Some r /\ fst c = t (r_meta r)).
  { intros c. rewrite In_cands by auto. rewrite L. destruct (V (snd c)) as [r|]; simpl.
    - split; intros [x [E F]]; inversion E; subst; eauto.
    - split; intros [x [E F]]; discriminate. }
  assert (H : forall b n, In b (cands t m) -> V n <> None -> n <> snd b ->
    (forall c, In c (cands t m) -> c = b \/ cand_lt b c) -> better t V (snd b) n).
  { intros b n Ib Vn Ne A. destruct (V n) as [r'|] eqn:Er'; [|easy].
    apply C in Ib. destruct Ib as [r [Er Fb]].
    destruct (A (t (r_meta r'), n)) as [<-|Lt].
    - apply C. simpl. eauto.
    - easy.
    - exists r, r'. repeat split; auto. unfold cand_lt in Lt. simpl in Lt. rewrite Fb in Lt. exact Lt. }
  destruct (best_backup_generic (cands t m)) as [[b|] [k|]]; simpl in B |- *; try easy.
  - destruct B as [Ib [Ik [Lt A]]].
    assert (A1 : forall c, In c (cands t m) -> c = b \/ cand_lt b c).
    { intros c Ic. destruct (A c Ic) as [->|[->|D]]; auto. right. eapply cand_lt_trans; eauto. }
    assert (Vb : V (snd b) <> None) by (apply C in Ib; destruct Ib as [r [-> _]]; discriminate).
    assert (Vk : V (snd k) <> None) by (apply C in Ik; destruct Ik as [r [-> _]]; discriminate).
    split; (split; [|split]); auto.
    + intros E. pose proof Ib as Ib'. pose proof Ik as Ik'. apply C in Ib', Ik'.
      destruct Ib' as [r [E1 F1]], Ik' as [r' [E2 F2]]. rewrite E in E2.
      rewrite E1 in E2. inversion E2; subst r'.
      apply (cand_lt_irrefl b). destruct b, k; simpl in *. subst. exact Lt.
    + intros n Nb Vn Nk. destruct (V n) as [r'|] eqn:Er'; [|easy].
      destruct (A (t (r_meta r'), n)) as [E|[E|D]].
      * apply C. simpl. eauto.
      * subst b. easy.
      * subst k. easy.
      * apply C in Ik. destruct Ik as [r [Er Fk]]. exists r, r'. repeat split; auto.
        unfold cand_lt in D. simpl in D. now rewrite Fk in D.
  - destruct B as [Ib A].
    assert (Vb : V (snd b) <> None) by (apply C in Ib; destruct Ib as [r [-> _]]; discriminate).
    assert (A1 : forall c, In c (cands t m) -> c = b \/ cand_lt b c) by (intros; left; auto).
    split; [split; [|split]; auto|].
    intros n Ne. destruct (V n) as [r'|] eqn:Er'; [|easy].
    destruct (A (t (r_meta r'), n)); [apply C; simpl; eauto|easy].
  - intros n. destruct (V n) as [r'|] eqn:Er'; [|easy].
    exfalso. apply (B (t (r_meta r'), n)). apply C. simpl. eauto.
Qed.

(* an insert for a prefix that is in the table *)
Lemma val_rel_insert h p v r u : val_rel h p v -> touched h p = true ->
  val_rel (Insert p r u :: h) p (upsert_val (Some v) r u).
Proof.
  intros [K L Se Ou] T.
  assert (L' : forall m, lookup m (update (r_mui r) (mmval_of r) (pv_recs v)) =
    option_map mmval_of (last_rec (Insert p r u :: h) p m)).
  { intros m. rewrite lookup_update, L. simpl. rewrite prefix_eqb_refl. simpl.
    now destruct (m =? r_mui r). }
  assert (K' : NoDup (keys (update (r_mui r) (mmval_of r) (pv_recs v)))) by now apply update_NoDup.
  unfold upsert_val. destruct u as [t|].
  - unfold calculate_and_store_best_backup. cbn [pv_recs fst].
    pose proof (best_backup_selection t _ _ K' L') as Sel.
    set (s := best_backup _ t) in *.
    assert (SelN : selected (Insert p r (Some t) :: h) p s).
    { cbn [selected]. rewrite prefix_eqb_refl, T. cbn [andb]. exact Sel. }
    unfold set_path_selections. cbn [pv_sel pv_recs].
    destruct (sel_eqb (pv_sel v) s) eqn:E; split; cbn [pv_sel pv_recs pv_out]; auto.
    + apply sel_eqb_spec in E. rewrite E. exact SelN.
    + apply sel_eqb_spec in E. cbn [outdated]. rewrite prefix_eqb_refl, T. cbn [andb].
      exists (pv_sel v), s. split; auto. split; auto. now split.
    + cbn [outdated]. rewrite prefix_eqb_refl, T. cbn [andb].
      exists (pv_sel v), s. split; auto. split; auto. split; [easy|].
      intros Q. apply sel_eqb_spec in Q. congruence.
  - split; cbn [pv_sel pv_recs pv_out]; auto.
    cbn [outdated]. now rewrite prefix_eqb_refl, T.
Qed.

Lemma val_rel_first h p r u : touched h p = false ->
  val_rel (Insert p r u :: h) p (upsert_val None r u).
Proof.
  intros T. assert (I : inserted h p = false).
  { destruct (inserted h p) eqn:E; [|easy]. apply inserted_touched in E. congruence. }
  split; cbn [upsert_val pv_recs pv_sel pv_out].
  - constructor; [easy|constructor].
  - intros m. cbn [last_rec lookup]. rewrite prefix_eqb_refl. cbn [andb]. unfold eqb; simpl.
    destruct (m =? r_mui r); [easy|].
    destruct (last_rec h p m) eqn:E; [|easy].
    assert (inserted h p = true) by (apply (last_rec_inserted h p m); congruence). congruence.
  - cbn [selected]. rewrite T, andb_false_r. destruct u; now apply selected_untouched.
  - cbn [outdated]. rewrite T, andb_false_r. now apply outdated_untouched.
Qed.

Lemma val_rel_new h p o : touched h p = false ->
  match o with MarkWithdrawn q _ _ | MarkActive q _ _ => p = q | _ => False end ->
  val_rel (o :: h) p pval_new.
Proof.
  intros T Q. assert (L : forall m, last_rec h p m = None).
  { intros m. destruct (last_rec h p m) eqn:E; [|easy].
    assert (inserted h p = true) as I by (apply (last_rec_inserted h p m); congruence).
    apply inserted_touched in I. congruence. }
  destruct o as [q r' u|q n t|q n t|g n|n|g n|q t]; try easy; subst q.
  all: split; cbn [pval_new pv_recs pv_sel pv_out]; [constructor| | |];
    [intros m; cbn [last_rec lookup]; rewrite L; now destruct (prefix_eqb p p && (m =? n))
    |cbn [selected]; now apply selected_untouched|cbn [outdated]; now apply outdated_untouched].
Qed.

(* ops that are about other prefixes, or that do not reach the table *)
Definition about (o : op) (p : prefix) : bool :=
  match o with
  | Insert q _ _ | MarkWithdrawn q _ _ | MarkActive q _ _ | Calculate q _ => prefix_eqb p q
  | _ => false
  end.

Lemma touched_frame h p o : about o p = false -> touched (o :: h) p = touched h p.
Proof. destruct o; simpl; auto; intros ->; easy. Qed.
Lemma inserted_frame h p o : about o p = false -> inserted (o :: h) p = inserted h p.
Proof. destruct o; simpl; auto; intros ->; easy. Qed.
Lemma last_rec_frame h p o m : about o p = false -> last_rec (o :: h) p m = last_rec h p m.
Proof. destruct o; simpl; auto; intros ->; easy. Qed.
Lemma po_rec_frame h p o m : about o p = false -> po_rec (o :: h) p m = po_rec h p m.
Proof. destruct o; simpl; auto; intros ->; easy. Qed.
Lemma selected_frame h p o s : about o p = false -> selected (o :: h) p s = selected h p s.
Proof. destruct o as [q r' [u|]|q n t|q n t|g n|n|g n|q t]; simpl; auto; intros ->; easy. Qed.
Lemma outdated_frame h p o b : about o p = false -> outdated (o :: h) p b = outdated h p b.
Proof. destruct o as [q r' u|q n t|q n t|g n|n|g n|q t]; cbn [about outdated]; auto; intros ->; easy. Qed.

Lemma val_rel_frame h p o v : about o p = false -> val_rel h p v -> val_rel (o :: h) p v.
Proof.
  intros A [K L Se Ou]. split; auto.
  - intros m. now rewrite last_rec_frame.
  - now rewrite selected_frame.
  - now rewrite outdated_frame.
Qed.

Lemma val_rel_mark h p v s m t o : val_rel h p v ->
  (s = Withdrawn /\ o = MarkWithdrawn p m t) \/ (s = Active /\ o = MarkActive p m t) ->
  val_rel (o :: h) p (set_recs v (mark_for_mui s (pv_recs v) m t)).
Proof.
  intros [K L Se Ou] [[-> ->]|[-> ->]]; (split; cbn [set_recs pv_recs pv_sel pv_out]; auto;
    [now apply mark_NoDup|]; intros k; rewrite mark_lookup, L; cbn [last_rec];
    rewrite prefix_eqb_refl; cbn [andb]; destruct (k =? m); auto;
    destruct (last_rec h p k); reflexivity).
Qed.

Lemma val_rel_calc h p v t : val_rel h p v -> touched h p = true ->
  val_rel (Calculate p t :: h) p (fst (calculate_and_store_best_backup v t)) /\
  selection t (last_rec h p) (snd (calculate_and_store_best_backup v t)) /\
  selected (Calculate p t :: h) p (snd (calculate_and_store_best_backup v t)).
Proof.
  intros [K L Se Ou] T. unfold calculate_and_store_best_backup. cbn [fst snd].
  pose proof (best_backup_selection t _ _ K L) as Sel. set (s := best_backup _ t) in *.
  assert (SelN : selected (Calculate p t :: h) p s).
  { cbn [selected]. rewrite prefix_eqb_refl, T. cbn [andb]. exact Sel. }
  split; [|split; auto]. unfold set_path_selections.
  destruct (sel_eqb (pv_sel v) s) eqn:E; split; cbn [pv_sel pv_recs pv_out]; auto.
  - apply sel_eqb_spec in E. rewrite E. exact SelN.
  - apply sel_eqb_spec in E. cbn [outdated]. rewrite prefix_eqb_refl, T. cbn [andb].
    exists (pv_sel v), s. auto.
  - cbn [outdated]. rewrite prefix_eqb_refl, T. cbn [andb].
    exists (pv_sel v), s. split; auto. split; auto. right. split; auto.
    intros Q. apply sel_eqb_spec in Q. congruence.
Qed.

Definition opt_rel (h : list op) (p : prefix) (o : option pval) : Prop :=
  match o with
  | None => touched h p = false
  | Some v => touched h p = true /\ val_rel h p v
  end.

Record mem_rel (f : af) (h : list op) (c : pcht) : Prop := {
  ml_inv : pinv f (pc_heap c);
  ml_pfxs : forall p, wf_pid f p -> opt_rel h (f, p) (pfxs f (pc_heap c) p);
  ml_len : length (c_prefixes (pc_cnt c)) = 129%nat;
  ml_cnt : MultiMap.sumN (c_prefixes (pc_cnt c)) = n_fresh f h
}.

Lemma opt_rel_frame h p o x : about o p = false -> opt_rel h p x -> opt_rel (o :: h) p x.
Proof.
  intros A. unfold opt_rel. destruct x as [v|].
  - intros [T V]. split; [now rewrite touched_frame|now apply val_rel_frame].
  - intros T. now rewrite touched_frame.
Qed.

Lemma opt_rel_touched h p x : opt_rel h p x -> touched h p = is_some x.
Proof. destruct x; simpl; [now intros []|easy]. Qed.

Lemma sumN_repeat n : MultiMap.sumN (repeat 0 n) = 0.
Proof. induction n; simpl; auto. Qed.

Lemma mem_rel_init f : mem_rel f [] pcht_init.
Proof.
  split.
  - apply inv_empty.
  - intros p W. simpl pc_heap.
    destruct (pfxs f [] p) as [v|] eqn:E; [|reflexivity]. exfalso.
    unfold pfxs in E. destruct (find f PSTRIDE [] p) as [e|] eqn:F; [|discriminate].
    apply find_spec in F; auto using inv_empty. destruct F as [k [C _]]. discriminate.
  - apply repeat_length.
  - apply sumN_repeat.
Qed.

Lemma n_fresh_frame f h o : (forall p, about o (f, p) = false) -> n_fresh f (o :: h) = n_fresh f h.
Proof.
  intros A. destruct o as [q r' u|q n t|q n t|g n|n|g n|q t]; auto.
  specialize (A (snd q)). simpl in A. unfold prefix_eqb in A. simpl in *.
  rewrite pid_eqb_refl, andb_true_r in A. now rewrite A.
Qed.

Lemma mem_rel_frame f h c o : (forall p, about o (f, p) = false) ->
  mem_rel f h c -> mem_rel f (o :: h) c.
Proof.
  intros A [I P L C]. split; auto.
  - intros p W. apply opt_rel_frame; auto.
  - now rewrite n_fresh_frame.
Qed.

Lemma BITS_le f : BITS f <= 128.
Proof. destruct f; unfold BITS; lia. Qed.

Lemma keys_lookup {V} (m : map N V) k : In k (keys m) <-> lookup k m <> None.
Proof.
  split.
  - intros I E. now apply lookup_None in E.
  - intros N. destruct (in_dec N.eq_dec k (keys m)) as [|NI]; [easy|].
    exfalso. apply N. now apply lookup_None.
Qed.

Lemma val_rel_count h p v : val_rel h p v -> N.of_nat (length (pv_recs v)) = n_muis p h.
Proof.
  intros [K L _ _]. unfold n_muis. f_equal.
  replace (length (pv_recs v)) with (length (keys (pv_recs v))) by apply map_length.
  apply Permutation_length. apply NoDup_Permutation; auto.
  - apply NoDup_nodup.
  - intros m. rewrite nodup_In, In_inserted_muis, keys_lookup, L.
    now destruct (last_rec h p m).
Qed.

Lemma mem_rel_upsert f h c id r u : mem_rel f h c -> wf_pid f id ->
  exists c', pc_upsert_prefix f c id r u =
    Ok (c', (Report 0 (negb (touched h (f, id))) true
               (match last_rec h (f, id) (r_mui r) with
                | Some _ => n_muis (f, id) h | None => 1 end),
             option_map mmval_of (last_rec h (f, id) (r_mui r)))) /\
    mem_rel f (Insert (f, id) r u :: h) c'.
Proof.
  intros [I P Ln C] W. destruct (pc_upsert_ok f c id r u I W) as [h' [E [I' P']]].
  pose proof (P id W) as R.
  assert (O : old_rec (pfxs f (pc_heap c) id) (r_mui r) =
    option_map mmval_of (last_rec h (f, id) (r_mui r))).
  { destruct (pfxs f (pc_heap c) id) as [v|]; simpl in *.
    - destruct R as [_ V]. apply (vr_recs _ _ _ V).
    - destruct (last_rec h (f, id) (r_mui r)) eqn:Q; [|easy].
      assert (inserted h (f, id) = true) as J by (apply (last_rec_inserted h _ (r_mui r)); congruence).
      apply inserted_touched in J. congruence. }
  rewrite E, O. eexists. split.
  - f_equal. f_equal. f_equal. rewrite (opt_rel_touched _ _ _ R).
    destruct (last_rec h (f, id) (r_mui r)) eqn:Q; cbn [option_map]; [|easy].
    destruct (pfxs f (pc_heap c) id) as [v|]; [|discriminate].
    simpl. rewrite (val_rel_count h (f, id)); [reflexivity|apply R].
  - assert (Lid : (N.to_nat (p_len id) < 129)%nat).
    { pose proof (BITS_le f). destruct W as [W _]. lia. }
    split; cbn [pc_heap pc_cnt]; auto.
    + intros q Wq. rewrite P'. destruct (pid_eqb q id) eqn:Q.
      * apply pid_eqb_spec in Q. subst q. simpl opt_rel. split.
        -- simpl. now rewrite prefix_eqb_refl.
        -- destruct (pfxs f (pc_heap c) id) as [v|]; simpl in R.
           ++ apply val_rel_insert; apply R.
           ++ now apply val_rel_first.
      * apply opt_rel_frame; auto. simpl. now rewrite prefix_eqb_af.
    + rewrite <- O. destruct (pfxs f (pc_heap c) id); [destruct (old_rec _ _)|]; cbn; auto.
      now rewrite inc_nth_length.
    + simpl n_fresh. rewrite af_eqb_refl. rewrite (opt_rel_touched _ _ _ R).
      destruct (pfxs f (pc_heap c) id) as [v|].
      * simpl is_some. destruct (option_map _ _); simpl; rewrite C; lia.
      * cbn [is_some andb negb inc_prefixes_count inc_routes_count c_prefixes].
        rewrite sumN_inc by lia. lia.
Qed.

Lemma rib_mark_rel f h rb id m t s o : mem_rel f h (rb_pcht rb) -> wf_pid f id ->
  (s = Withdrawn /\ o = MarkWithdrawn (f, id) m t) \/ (s = Active /\ o = MarkActive (f, id) m t) ->
  exists c' x, rib_mark_in_memory f rb id m t s = Ok (set_pcht rb c', x) /\
    mem_rel f (o :: h) c' /\
    match x with
    | None => touched h (f, id) = false
    | Some mm => touched h (f, id) = true /\
        get_record_for_mui mm m true = option_map (marked s t) (last_rec h (f, id) m)
    end.
Proof.
  intros [I P Ln C] W Q. unfold rib_mark_in_memory.
  destruct (retrieve_prefix_mut_ok f _ id I W) as [h1 [k [e [E [I1 [L [Ei [Ev P1]]]]]]]].
  rewrite E. cbn [bind]. pose proof (P id W) as R.
  rewrite <- (opt_rel_touched _ _ _ R).
  assert (Fr : n_fresh f (o :: h) = n_fresh f h) by (destruct Q as [[_ ->]|[_ ->]]; reflexivity).
  assert (Ab : forall q, about o (f, q) = pid_eqb q id)
    by (intros; destruct Q as [[_ ->]|[_ ->]]; simpl; apply prefix_eqb_af).
  assert (To : touched (o :: h) (f, id) = true)
    by (destruct Q as [[_ ->]|[_ ->]]; simpl; now rewrite prefix_eqb_refl).
  destruct (touched h (f, id)) eqn:T; cbn [negb].
  - destruct (pfxs f (pc_heap (rb_pcht rb)) id) as [v|] eqn:F; [|simpl in R; congruence].
    simpl in Ev. destruct R as [_ V].
    match goal with |- context [set_val e ?v'] =>
      destruct (pfxs_write f h1 k e v' I1 L) as [I2 P2] end.
    eexists _, _. split; [reflexivity|]. split; [|split; [reflexivity|]].
    + split; cbn [pc_heap pc_cnt]; auto; [|now rewrite Fr].
      intros q Wq. rewrite P2, Ei, P1. destruct (pid_eqb q id) eqn:Eq.
      * apply pid_eqb_spec in Eq. subst q. split; auto. rewrite Ev.
        now apply (val_rel_mark h _ v s m t o).
      * apply opt_rel_frame; auto. now rewrite Ab.
    + unfold get_record_for_mui. rewrite mark_lookup, N.eqb_refl, Ev.
      rewrite (vr_recs _ _ _ V). destruct (last_rec h (f, id) m) eqn:Lr; [|easy].
      simpl. apply last_rec_mui in Lr. now subst m.
  - eexists _, _. split; [reflexivity|]. split; [|reflexivity].
    split; cbn [pc_heap pc_cnt]; auto; [|now rewrite Fr].
    intros q Wq. rewrite P1. destruct (pid_eqb q id) eqn:Eq.
    + apply pid_eqb_spec in Eq. subst q. split; auto. rewrite Ev.
      destruct (pfxs f (pc_heap (rb_pcht rb)) id) as [v|]; [simpl in R; destruct R; congruence|].
      simpl. apply val_rel_new; auto. destruct Q as [[_ ->]|[_ ->]]; reflexivity.
    + apply opt_rel_frame; auto. now rewrite Ab.
Qed.

Lemma rib_calc_rel f h rb id t : mem_rel f h (rb_pcht rb) -> wf_pid f id ->
  exists c' x, rib_calculate_best_backup f rb id t = Ok (set_pcht rb c', x) /\
    mem_rel f (Calculate (f, id) t :: h) c' /\
    match x with
    | RErr e => e = StoreNotReadyError /\ touched h (f, id) = false
    | ROk s => touched h (f, id) = true /\ selection t (last_rec h (f, id)) s
    end.
Proof.
  intros M W. pose proof M as [I P Ln C]. unfold rib_calculate_best_backup.
  pose proof (retrieve_prefix_ok f _ id I W) as R. pose proof (P id W) as Q.
  destruct (retrieve_prefix f (pc_heap (rb_pcht rb)) id) as [[[k e]|]| |]; try easy.
  - destruct R as [L [Ei F]]. rewrite F in Q. destruct Q as [T V]. cbn [bind].
    destruct (val_rel_calc h (f, id) (e_val e) t V T) as [V' [S1 S2]].
    destruct (calculate_and_store_best_backup (e_val e) t) as [v' s]. simpl in V', S1, S2.
    destruct (pfxs_write f _ k e v' I L) as [I2 P2].
    eexists _, _. split; [reflexivity|]. split; [|auto].
    split; cbn [pc_heap pc_cnt]; auto.
    intros q Wq. rewrite P2, Ei. destruct (pid_eqb q id) eqn:Eq.
    + apply pid_eqb_spec in Eq. subst q. split; auto.
    + apply opt_rel_frame; auto. simpl. now rewrite prefix_eqb_af.
  - rewrite R in Q. simpl in Q. cbn [bind].
    exists (rb_pcht rb), (RErr StoreNotReadyError). split; [now destruct rb|]. split; auto.
    split; auto. intros q Wq. destruct (pid_eqb q id) eqn:Eq.
    + apply pid_eqb_spec in Eq. subst q. rewrite R. simpl. exact Q.
    + apply opt_rel_frame; auto. simpl. now rewrite prefix_eqb_af.
Qed.

(* ---------- the counters ---------- *)

Record cnt_rel (f : af) (h : list op) (c : counters) : Prop := {
  cl_len : length (c_prefixes c) = 129%nat;
  cl_nth : forall l, nth (N.to_nat l) (c_prefixes c) 0 = n_prefixes_len f h l;
  cl_sum : MultiMap.sumN (c_prefixes c) = n_prefixes f h;
  cl_routes : c_routes c = n_inserts f h
}.

Lemma cnt_rel_ext f h h' c : inserted_ids f h = inserted_ids f h' -> cnt_rel f h c -> cnt_rel f h' c.
Proof.
  intros E [A B C D]. split; auto.
  - intros l. rewrite B. unfold n_prefixes_len, prefix_set. now rewrite E.
  - rewrite C. unfold n_prefixes, prefix_set. now rewrite E.
  - rewrite D. unfold n_inserts. now rewrite E.
Qed.

Lemma cnt_rel_init f : cnt_rel f [] counters_new.
Proof.
  split; auto.
  intros l. unfold counters_new, c_prefixes, n_prefixes_len. simpl prefix_set. simpl length.
  destruct (le_lt_dec 129 (N.to_nat l)).
  - apply nth_overflow. now rewrite repeat_length.
  - apply nth_repeat.
Qed.

Lemma cnt_rel_insert f h c id r u : cnt_rel f h c -> wf_pid f id ->
  cnt_rel f (Insert (f, id) r u :: h)
    (if inserted h (f, id) then inc_routes_count c
     else inc_prefixes_count (inc_routes_count c) (p_len id)).
Proof.
  intros [A B C D] W.
  assert (Lid : (N.to_nat (p_len id) < 129)%nat).
  { pose proof (BITS_le f). destruct W as [W _]. lia. }
  assert (X : prefix_set f (Insert (f, id) r u :: h) =
    if inserted h (f, id) then prefix_set f h else id :: prefix_set f h).
  { unfold prefix_set. simpl. rewrite af_eqb_refl. simpl.
    destruct (in_dec pid_eq_dec id (inserted_ids f h)) as [J|J]; rewrite In_inserted_ids in J.
    - now rewrite J.
    - apply not_true_is_false in J. now rewrite J. }
  assert (Y : n_inserts f (Insert (f, id) r u :: h) = n_inserts f h + 1).
  { unfold n_inserts. simpl. rewrite af_eqb_refl. simpl length. lia. }
  split.
  - destruct (inserted h (f, id)); cbn; auto. now rewrite inc_nth_length.
  - intros l. unfold n_prefixes_len. rewrite X.
    destruct (inserted h (f, id)); cbn [inc_prefixes_count inc_routes_count c_prefixes]; [apply B|].
    rewrite inc_nth_nth, B, A. simpl. unfold n_prefixes_len.
    destruct (N.eqb_spec (p_len id) l) as [E|NE].
    + subst l. rewrite Nat.eqb_refl.
      assert (Nat.ltb (N.to_nat (p_len id)) 129 = true) as -> by now apply Nat.ltb_lt.
      simpl. lia.
    + assert (Nat.eqb (N.to_nat (p_len id)) (N.to_nat l) = false) as -> by (apply Nat.eqb_neq; lia).
      simpl. lia.
  - unfold n_prefixes. rewrite X.
    destruct (inserted h (f, id)); cbn [inc_prefixes_count inc_routes_count c_prefixes]; [apply C|].
    rewrite sumN_inc by lia. rewrite C. unfold n_prefixes. simpl length. lia.
  - rewrite Y. destruct (inserted h (f, id)); cbn; now rewrite D.
Qed.
