(* What the queries of one address family return, in terms of the history. *)
From Coq Require Import Arith NArith List Bool Lia.
From Verif Require Import Word Af BitSpan Spec Maps Node Tree ChainProofs TreeProofs Iter IterProofs MultiMap
  PrefixCht PrefixChtProofs Lsm LsmProofs RecordSet Rib StarCast HistSpec Ask PropSpec RibProofs RibLsm RibOk.
Import ListNotations.
Local Open Scope N_scope.

(* ---------- the records of one prefix ---------- *)

Lemma answers_none_if_empty V l : lists V l -> (forall m r, V m = Some r -> r_mui r = m) ->
  answers V (none_if_empty l).
Proof.
  intros [ND I] M. destruct l as [|r l]; simpl.
  - intros m. destruct (V m) as [r|] eqn:E; [|easy]. pose proof (M _ _ E) as Q. subst m.
    now apply I in E.
  - split; [easy|]. now split.
Qed.

Lemma NoDup_map_filter {A B} (g : A -> B) (t : A -> bool) l :
  NoDup (List.map g l) -> NoDup (List.map g (filter t l)).
Proof.
  induction l as [|a l IH]; simpl; intros ND; auto. inversion ND as [|x y N1 N2]; subst.
  destruct (t a); simpl; auto. constructor; auto. intros I. apply N1.
  apply in_map_iff in I. destruct I as [b [E I]]. apply filter_In in I.
  rewrite <- E. now apply in_map.
Qed.

Lemma view_memory_mui h p mui iw m r : view_memory h p mui iw m = Some r -> r_mui r = m.
Proof.
  unfold view_memory, view_all, view_active, view_local.
  destruct (named mui m); [|discriminate].
  destruct (last_rec h p m) as [r0|] eqn:E.
  - pose proof (last_rec_mui _ _ _ _ E) as Q.
    destruct iw; simpl.
    + destruct (g_withdrawn h (fst p) m); intros X; inversion X; subst; easy.
    + destruct mui.
      * destruct (status_eqb (r_status r0) Active); [|discriminate]. intros X; inversion X; now subst.
      * destruct (status_eqb (r_status r0) Active && negb (g_withdrawn h (fst p) m)); [|discriminate].
        intros X; inversion X; now subst.
  - destruct iw; [|destruct mui]; discriminate.
Qed.

Lemma mem_value f h bmin id v mui iw : NoDup (keys (pv_recs v)) ->
  (forall m, lookup m (pv_recs v) = option_map mmval_of (last_rec h (f, id) m)) ->
  (forall m, mem m bmin = g_withdrawn h f m) ->
  answers (view_memory h (f, id) mui iw) (get_filtered_records (pv_recs v) mui iw bmin).
Proof.
  intros ND R G. destruct mui as [m|].
  - unfold get_filtered_records, get_filtered_record_for_mui,
      get_record_for_mui_with_rewritten_status, get_record_for_mui. rewrite R.
    assert (One : forall o : option record,
      (forall n, view_memory h (f, id) (Some m) iw n = if m =? n then o else None) ->
      (forall r, o = Some r -> r_mui r = m) ->
      answers (view_memory h (f, id) (Some m) iw) (option_map (fun r => [r]) o)).
    { intros o Hv Hm. destruct o as [r|]; simpl.
      - split; [easy|]. split; [repeat constructor; easy|]. intros r'. rewrite Hv. simpl.
        destruct (N.eqb_spec m (r_mui r')) as [E|E].
        + split; [intros [->|[]]; easy|]. intros X; inversion X; auto.
        + split; [intros [->|[]]|discriminate]. now rewrite (Hm r' eq_refl) in E.
      - intros n. rewrite Hv. now destruct (m =? n). }
    assert (Z : exists o, (forall n, view_memory h (f, id) (Some m) iw n = if m =? n then o else None)
        /\ (if iw
            then option_map (fun x => record_of m (rewrite_status m bmin Withdrawn x))
                   (option_map mmval_of (last_rec h (f, id) m))
            else match option_map mmval_of (last_rec h (f, id) m) with
                 | Some x => if iw || status_eqb (v_status x) Active then Some (record_of m x) else None
                 | None => None end) = o /\ (forall r, o = Some r -> r_mui r = m)).
    { eexists. split; [|split; [reflexivity|]].
      - intros n. unfold view_memory, view_all, view_local. simpl named. simpl fst.
        destruct (N.eqb_spec m n) as [<-|_]; [|easy].
        destruct (last_rec h (f, id) m) as [r|] eqn:E; simpl; [|now destruct iw].
        pose proof (last_rec_mui _ _ _ _ E) as Q. subst m.
        destruct iw; simpl.
        + unfold rewrite_status. rewrite G. destruct (g_withdrawn h f (r_mui r)); now destruct r.
        + destruct r as [a b [| |] d]; easy.
      - intros r. destruct (last_rec h (f, id) m) as [r0|]; simpl; [|now destruct iw].
        destruct iw; simpl; [|destruct (status_eqb (r_status r0) Active)];
          intros X; inversion X; easy. }
    destruct Z as [o [Z1 [Z2 Z3]]]. rewrite Z2. now apply One.
  - unfold get_filtered_records. destruct iw.
    + apply answers_none_if_empty; [|apply view_memory_mui]. split.
      * unfold as_records_with_rewritten_status. rewrite map_map. simpl. exact ND.
      * intros r. rewrite get_filtered_all by auto. unfold view_memory, view_all. simpl named.
        simpl fst. split.
        -- intros [x [L E]]. rewrite R in L.
           destruct (last_rec h (f, id) (r_mui r)) as [r0|] eqn:E0; [|discriminate].
           simpl in *. inversion L; subst x. rewrite E.
           unfold rewrite_status. rewrite G.
           pose proof (last_rec_mui _ _ _ _ E0) as Q.
           destruct (g_withdrawn h f (r_mui r)) eqn:Gw; simpl; rewrite Gw.
           ++ unfold with_status. simpl. now rewrite Q.
           ++ now rewrite <- Q, record_of_mmval.
        -- destruct (last_rec h (f, id) (r_mui r)) as [r0|] eqn:E0; [|discriminate]. simpl.
           intros X. exists (mmval_of r0). rewrite R, E0. split; [easy|].
           unfold rewrite_status. rewrite G.
           pose proof (last_rec_mui _ _ _ _ E0) as Q.
           destruct (g_withdrawn h f (r_mui r)).
           ++ inversion X. simpl. unfold with_status. now rewrite Q.
           ++ inversion X. subst r0. now rewrite record_of_mmval.
    + apply answers_none_if_empty; [|apply view_memory_mui]. split.
      * unfold as_active_records_not_in_bmin. rewrite map_map. simpl.
        now apply NoDup_map_filter.
      * intros r. rewrite get_filtered_active by auto. unfold view_memory, view_active. simpl named.
        simpl fst. split.
        -- intros [x [L [S [B E]]]]. rewrite R in L.
           destruct (last_rec h (f, id) (r_mui r)) as [r0|] eqn:E0; [|discriminate].
           simpl in *. inversion L; subst x. simpl in S. rewrite S, <- G, B. simpl.
           rewrite E. now rewrite <- (last_rec_mui _ _ _ _ E0), record_of_mmval.
        -- destruct (last_rec h (f, id) (r_mui r)) as [r0|] eqn:E0; [|discriminate].
           destruct (status_eqb (r_status r0) Active) eqn:S; [|discriminate].
           rewrite <- G. destruct (mem (r_mui r) bmin) eqn:B; [discriminate|]. simpl.
           intros X. inversion X. subst r0. exists (mmval_of r). rewrite R, E0.
           split; [easy|]. split; [now apply status_eqb_spec|]. split; [easy|].
           now rewrite record_of_mmval.
Qed.

Lemma untouched_last h p m : touched h p = false -> last_rec h p m = None.
Proof.
  intros T. destruct (last_rec h p m) eqn:E; [|easy].
  assert (inserted h p = true) as I by (apply (last_rec_inserted h p m); congruence).
  apply inserted_touched in I. congruence.
Qed.

Lemma hist_inserted_wf h p : wf_history h -> inserted h p = true -> wf_prefix p.
Proof.
  induction 1 as [|o h Wo _ IH]; simpl; [discriminate|]. intros E. apply orb_true_iff in E.
  destruct E as [E|E]; auto. destruct o as [q r u| | | | | |]; try discriminate.
  apply prefix_eqb_spec in E. subst q. apply Wo.
Qed.

Lemma po_none_last h p m : po_rec h p m = None -> last_rec h p m = None.
Proof.
  induction h as [|o h IH]; simpl; auto.
  destruct o as [x r u|x n t|x n t|g n|n|g n|x t]; auto.
  - destruct (prefix_eqb p x && (m =? r_mui r)); easy.
  - destruct (prefix_eqb p x && (m =? n)); auto.
    destruct (po_rec h p m); [discriminate|]. intros _. now rewrite IH.
  - destruct (prefix_eqb p x && (m =? n)); auto.
    destruct (po_rec h p m); [discriminate|]. intros _. now rewrite IH.
Qed.

(* what the queries for prefixes and records depend on: the tree but for its node
   counter, the records but not the selections, and with PersistOnly the disk *)
Record tree_ans (f : af) (h : list op) (t : tree) : Prop := {
  ta_inv : tree_inv f (t_heap t);
  ta_stored : forall p, wf_pid f p -> 0 < p_len p -> stored f (t_heap t) p = inserted h (f, p);
  ta_default : t_default t = inserted h (f, (0, 0));
  ta_gw : forall m, mem m (t_withdrawn t) = g_withdrawn h f m;
  ta_rbm : forall id m,
    match nodes f (t_heap t) id with Some v => mem m (nv_rbm v) | None => false end = via h f id m;
  ta_nodes : forall id,
    match nodes f (t_heap t) id with Some v => true | None => false end = visited h f id
}.
Record rec_ans (h : list op) (p : prefix) (v : pval) : Prop := {
  rn_keys : NoDup (keys (pv_recs v));
  rn_recs : forall m, lookup m (pv_recs v) = option_map mmval_of (last_rec h p m)
}.
Record mem_ans (f : af) (h : list op) (c : pcht) : Prop := {
  mn_inv : pinv f (pc_heap c);
  mn_pfxs : forall p, wf_pid f p ->
    match pfxs f (pc_heap c) p with
    | Some v => rec_ans h (f, p) v
    | None => forall m, last_rec h (f, p) m = None
    end
}.
Record rib_ans (s : strategy) (f : af) (h : list op) (rb : rib) : Prop := {
  ra_strat : rb_strat rb = s;
  ra_tree : tree_ans f h (rb_tree rb);
  ra_mem : s <> PersistOnly -> mem_ans f h (rb_pcht rb);
  ra_lsm : s = PersistOnly -> exists l, rb_lsm rb = Some l /\ short_rel f h l
}.

Lemma tree_rel_ans f h t : tree_rel f h t -> tree_ans f h t.
Proof. intros [[A _] B C D E F]. now split. Qed.
Lemma rib_ok_ans s f h rb : rib_ok s f h rb -> rib_ans s f h rb.
Proof.
  intros [St Tr _ Me Ls]. split; auto using tree_rel_ans.
  - intros N. assert (M : mem_rel f h (rb_pcht rb)) by (destruct s; easy).
    destruct M as [I P _ _]. split; auto. intros p W. specialize (P p W).
    destruct (pfxs f (pc_heap (rb_pcht rb)) p) as [v|].
    + destruct P as [_ [K L _ _]]. now split.
    + intros m. now apply untouched_last.
  - intros ->. simpl in Ls. destruct (rb_lsm rb) as [l|]; [|easy]. now exists l.
Qed.

Section Q.
Context (s : strategy) (f : af) (h : list op) (rb : rib).
Hypothesis Wh : wf_history h.
Hypothesis R : rib_ans s f h rb.

Theorem rib_value_ok id mui iw : wf_pid f id -> wf_mui mui ->
  exists o, rib_get_value f rb id mui iw = Ok (ROk o) /\ answers (view s h (f, id) mui iw) o.
Proof.
  intros W Wm. destruct R as [St Tr Me Ls]. unfold rib_get_value. rewrite St.
  assert (Mem : mem_ans f h (rb_pcht rb) -> exists o,
    (do o <- PrefixCht.get_records_for_prefix f (rb_pcht rb) id mui iw (t_withdrawn (rb_tree rb)); Ok (ROk o))
      = Ok (ROk o) /\ answers (view_memory h (f, id) mui iw) o).
  { intros M. rewrite get_records_ok by (auto; apply M). cbn [bind]. eexists.
    split; [reflexivity|]. pose proof (mn_pfxs _ _ _ M id W) as P.
    destruct (pfxs f (pc_heap (rb_pcht rb)) id) as [v|].
    - destruct P as [P1 P2]. apply mem_value; [exact P1|exact P2|apply Tr].
    - simpl. intros m. unfold view_memory, view_all, view_active, view_local.
      rewrite P.
      destruct (named mui m), iw, mui; easy. }
  destruct s; try (apply Mem, Me; discriminate).
  destruct (Ls eq_refl) as (l & El & Sr). rewrite El.
  apply (po_value_ok f h l (t_withdrawn (rb_tree rb)) id mui iw); auto.
  - apply Tr.
  - intros m ->. exact Wm.
Qed.

(* ---------- the prefixes ---------- *)

Lemma stored_listed q : wf_pid f q -> (stored f (t_heap (rb_tree rb)) q = true <-> listed h (f, q)).
Proof.
  intros W. destruct R as [_ [TI S _ _ _ _] _ _]. unfold listed. simpl. split.
  - intros E. pose proof (stored_pos f _ _ TI E). split; auto. now rewrite <- S.
  - intros [E L]. now rewrite S.
Qed.

Lemma listed_wf q : listed h (f, q) -> wf_pid f q.
Proof. intros [E _]. now apply hist_inserted_wf in E. Qed.

Theorem rib_contains_ok id : wf_pid f id ->
  rib_contains f rb id None = Ok (inserted h (f, id) && negb (p_len id =? 0)).
Proof.
  intros W. unfold rib_contains. destruct R as [_ [TI S _ _ _ _] _ _].
  rewrite prefix_exists_ok by (auto; apply TI). f_equal.
  destruct (N.eqb_spec (p_len id) 0) as [Z|Z]; simpl.
  - rewrite andb_false_r. now apply stored_len0.
  - rewrite andb_true_r. apply S; auto. lia.
Qed.

Theorem rib_more_ok id : wf_pid f id ->
  exists L, more_specifics f (rb_tree rb) id = Ok L /\ NoDup L /\
    forall q, In q L <-> listed h (f, q) /\ covers f id q /\ p_len id < BITS f.
Proof.
  intros W. destruct (more_specifics_ok f _ id (ta_inv _ _ _ (ra_tree _ _ _ _ R)) W) as [L [E [N I]]].
  exists L. split; auto. split; auto. intros q. rewrite I. split.
  - intros (Wq & S & C & B). apply stored_listed in S; auto.
  - intros (S & C & B). pose proof (listed_wf _ S). apply stored_listed in S; auto.
Qed.

Theorem rib_less_ok id : wf_pid f id ->
  exists L, less_specifics f (rb_tree rb) id = Ok L /\ len_desc L /\
    forall q, In q L <-> listed h (f, q) /\ less_specific f q id.
Proof.
  intros W. destruct (less_specifics_ok f _ id (ta_inv _ _ _ (ra_tree _ _ _ _ R)) W) as [L [E [N I]]].
  exists L. split; auto. split; auto. intros q. rewrite I. split.
  - intros (Wq & S & C). apply stored_listed in S; auto.
  - intros (S & C). pose proof (listed_wf _ S). apply stored_listed in S; auto.
Qed.

(* q is the longest listed prefix that covers id *)
Definition longest (q : option pid) (id : pid) : Prop :=
  match q with
  | None => forall q, listed h (f, q) -> ~ covers f q id
  | Some q => listed h (f, q) /\ covers f q id /\
      forall q', listed h (f, q') -> covers f q' id -> p_len q' <= p_len q
  end.

Theorem rib_longest_ok id : wf_pid f id ->
  exists q, longest_matching_prefix f (rb_tree rb) id = Ok q /\ longest q id.
Proof.
  intros W.
  destruct (longest_matching_prefix_ok f _ id (ta_inv _ _ _ (ra_tree _ _ _ _ R)) W) as [q [E I]].
  exists q. split; auto. destruct q as [q|]; simpl.
  - destruct I as (Wq & S & C & M). split; [now apply stored_listed|]. split; auto.
    intros q' Lq C'. apply M; auto; [now apply listed_wf|].
    apply stored_listed; auto. now apply listed_wf.
  - intros q Lq. pose proof (listed_wf _ Lq). apply I; auto. now apply stored_listed.
Qed.

Lemma longest_self id q : wf_pid f id -> longest q id ->
  (q = Some id <-> listed h (f, id)).
Proof.
  intros W Q. split.
  - intros ->. apply Q.
  - intros Lid. destruct q as [q|].
    + destruct Q as (Lq & C & M). f_equal. pose proof (M id Lid (covers_refl f id)) as Len.
      apply covers_trunc in C; auto; [|now apply listed_wf]. destruct C as [C1 C2].
      assert (p_len q = p_len id) as El by lia. rewrite C2, El.
      destruct W as [A [B C]]. rewrite trunc_id by auto. now destruct id.
    + exfalso. apply (Q id Lid). apply covers_refl.
Qed.

(* ---------- lists of prefixes with their records ---------- *)

Lemma items_ok L mui iw : wf_mui mui -> Forall (wf_pid f) L ->
  exists items l g, map_res (item_for f rb mui iw) L = Ok items /\ cat_opts items = List.map ROk l /\
    List.map (@fst prefix (list record)) l = List.map (fun q => (f, q)) (filter g L) /\
    (forall p rs, In (p, rs) l -> answers (view s h p mui iw) (Some rs)) /\
    (forall q m, In q L -> view s h (f, q) mui iw m <> None -> exists rs, In ((f, q), rs) l).
Proof.
  intros Wm W.
  set (g := fun q => match rib_get_value f rb q mui iw with
                     | Ok (ROk (Some _)) => true | _ => false end).
  enough (exists items l, map_res (item_for f rb mui iw) L = Ok items /\ cat_opts items = List.map ROk l /\
    List.map (@fst prefix (list record)) l = List.map (fun q => (f, q)) (filter g L) /\
    (forall p rs, In (p, rs) l -> answers (view s h p mui iw) (Some rs)) /\
    (forall q m, In q L -> view s h (f, q) mui iw m <> None -> exists rs, In ((f, q), rs) l))
    as [items [l H]] by (exists items, l, g; exact H).
  induction W as [|q L Wq W [items [l (A & B & C & D & E)]]].
  - exists [], []. repeat split; easy.
  - destruct (rib_value_ok q mui iw Wq Wm) as [o [V An]]. cbn [map_res filter].
    unfold item_for at 1. unfold g at 1. rewrite V. cbn [bind]. rewrite A. cbn [bind].
    destruct o as [rs|].
    + eexists _, (((f, q), rs) :: l). split; [reflexivity|].
      split; [unfold cat_opts in *; simpl; now rewrite B|].
      split; [simpl; now rewrite C|]. split.
      * intros p rs' [X|X]; [inversion X; subst; exact An|auto].
      * intros q' m [->|I] N; [exists rs; now left|]. destruct (E q' m I N) as [rs' J].
        exists rs'. now right.
    + eexists _, l. split; [reflexivity|].
      split; [unfold cat_opts in *; simpl; now rewrite B|].
      split; [easy|]. split; [easy|].
      intros q' m [->|I] N; [|eauto]. exfalso. now apply N, An.
Qed.

Lemma gives_of (D : prefix -> Prop) L V l g :
  (forall q, In q L -> D (f, q)) -> (forall p, D p -> exists q, p = (f, q) /\ In q L) -> NoDup L ->
  List.map (@fst prefix (list record)) l = List.map (fun q => (f, q)) (filter g L) ->
  (forall p rs, In (p, rs) l -> answers (V p) (Some rs)) ->
  (forall q m, In q L -> V (f, q) m <> None -> exists rs, In ((f, q), rs) l) ->
  gives D V l.
Proof.
  intros DL LD ND M A B. split; [|split].
  - rewrite M. apply FinFun.Injective_map_NoDup; [|now apply NoDup_filter].
    intros a b E. now inversion E.
  - intros p rs I. split; [|auto]. apply (in_map fst) in I. rewrite M in I. simpl in I.
    apply in_map_iff in I. destruct I as [q [<- I]]. apply filter_In in I. apply DL, I.
  - intros p m Dp N. destruct (LD p Dp) as [q [-> I]]. eauto.
Qed.

Theorem rib_more_iter_ok id mui iw : wf_pid f id -> wf_mui mui ->
  exists l, rib_more_specifics_iter_from f rb id mui iw = Ok (List.map ROk l) /\
    gives (fun q => listed h q /\ pcovers (f, id) q /\ p_len id < BITS f)
      (fun p m => if negb iw && match mui with Some n => g_withdrawn h f n | None => false end
                  then None else view s h p mui iw m) l.
Proof.
  intros W Wm. unfold rib_more_specifics_iter_from, rib_mui_is_withdrawn.
  assert (Gw : match mui with
     | Some m => negb iw && mem m (t_withdrawn (rb_tree rb))
     | None => false end = negb iw && match mui with Some n => g_withdrawn h f n | None => false end).
  { destruct mui; [|now rewrite andb_false_r]. now rewrite (ta_gw _ _ _ (ra_tree _ _ _ _ R)). }
  rewrite Gw. destruct (negb iw && _).
  - exists []. split; [reflexivity|]. split; [constructor|]. split; easy.
  - destruct (rib_more_ok id W) as [L [E [N I]]]. rewrite E. cbn [bind].
    destruct (items_ok L mui iw Wm) as (items & l & g & A & B & C & D & F).
    { apply Forall_forall. intros q Q. apply I in Q. now apply listed_wf. }
    rewrite A. cbn [bind]. exists l. split; [now rewrite B|].
    apply (gives_of _ L _ l g); auto.
    + intros q Q. apply I in Q. destruct Q as (Q1 & Q2 & Q3). split; auto. split; auto. now split.
    + intros [f' q] (Q1 & [Q2 Q2'] & Q3). simpl in *. subst f'. exists q. split; auto.
      apply I. auto.
Qed.

Theorem rib_less_iter_ok id mui iw : wf_pid f id -> wf_mui mui ->
  exists l, rib_less_specifics_iter_from f rb id mui iw = Ok (List.map ROk l) /\
    gives (fun q => listed h q /\ pless q (f, id)) (fun p => view s h p mui iw) l /\
    len_desc (List.map (fun x => snd (fst x)) l).
Proof.
  intros W Wm. unfold rib_less_specifics_iter_from.
  destruct (rib_less_ok id W) as [L [E [N I]]]. rewrite E. cbn [bind].
  destruct (items_ok L mui iw Wm) as (items & l & g & A & B & C & D & F).
  { apply Forall_forall. intros q Q. apply I in Q. now apply listed_wf. }
  rewrite A. cbn [bind]. exists l. split; [now rewrite B|]. split.
  - apply (gives_of _ L _ l g); auto.
    + intros q Q. apply I in Q. destruct Q as (Q1 & Q2 & Q3). split; auto. split; auto. now split.
    + intros [f' q] (Q1 & [Q2 Q2'] & Q3). simpl in *. subst f'. exists q. split; auto.
      apply I. split; auto. now split.
    + now apply len_desc_NoDup.
  - assert (Hd : forall L, len_desc L -> len_desc (filter g L)).
    { clear. induction L as [|q L IH]; simpl; auto. intros [A B]. destruct (g q); [|auto].
      split; auto. intros q' Q. apply filter_In in Q. apply A, Q. }
    apply (f_equal (List.map snd)) in C. rewrite !map_map in C. simpl in C. rewrite map_id in C.
    exact (eq_ind_r len_desc (Hd L N) C).
Qed.

Theorem rib_prefixes_iter_ok :
  exists l, rib_prefixes_iter f rb = Ok (List.map ROk l) /\
    gives (fun q => listed h q /\ fst q = f) (fun p => view s h p None true) l /\
    (forall q, listed h q -> fst q = f -> In q (List.map (@fst prefix (list record)) l)).
Proof.
  assert (W0 : wf_pid f (0, 0)).
  { split; [apply N.le_0_l|]. split; [simpl; apply N.neq_0_lt_0, N.pow_nonzero; lia|].
    simpl. apply N.mod_0_l. apply N.pow_nonzero. lia. }
  unfold rib_prefixes_iter, tree_prefixes_iter.
  destruct (rib_more_ok (0, 0) W0) as [L [E [N I]]]. rewrite E. cbn [bind].
  assert (J : forall q, In q L <-> listed h (f, q)).
  { intros q. rewrite I. split; [easy|]. intros Q. split; auto. split.
    - split; [apply N.le_0_l|]. simpl. intros. lia.
    - simpl. destruct f; reflexivity. }
  clear I E.
  assert (X : forall L', (forall q, In q L' -> listed h (f, q)) -> exists l,
    map_res (fun p => do v <- rib_get_value f rb p None true;
      Ok (match v with ROk r => ROk ((f, p), opt_default r) | RErr _ => RErr FatalErr end)) L' =
    Ok (List.map ROk l) /\ List.map (@fst prefix (list record)) l = List.map (fun q => (f, q)) L' /\
    (forall p rs, In (p, rs) l -> answers (view s h p None true) (Some rs))).
  { induction L' as [|q L' IH]; intros Hq.
    - exists []. repeat split; easy.
    - destruct IH as [l [A [B C]]]; [intros; apply Hq; now right|].
      assert (Lq : listed h (f, q)) by (apply Hq; now left).
      destruct (rib_value_ok q None true (listed_wf _ Lq) Logic.I) as [o [V An]].
      destruct o as [rs|].
      + exists (((f, q), rs) :: l). cbn [map_res]. rewrite V. cbn [bind]. rewrite A. cbn [bind].
        split; [reflexivity|]. split; [simpl; now rewrite B|].
        intros p rs' [Z|Z]; [inversion Z; now subst|auto].
      + exfalso. destruct Lq as [Lq _]. simpl in An.
        apply inserted_last_rec in Lq. destruct Lq as [m Lm]. specialize (An m).
        unfold view, view_memory, view_persist, view_all in An. simpl in An.
        pose proof (po_none_last h (f, q) m) as Po.
        destruct s; simpl in An.
        1,2,3: destruct (last_rec h (f, q) m); [discriminate|easy].
        destruct (po_rec h (f, q) m); [discriminate|]. auto. }
  destruct (X L) as [l [A [B C]]]; [intros; now apply J|].
  exists l. split; auto. split.
  - split; [|split].
    + change (NoDup (List.map (@fst prefix (list record)) l)). rewrite B. apply FinFun.Injective_map_NoDup; auto. intros a b Z. now inversion Z.
    + intros p rs Q. split; [|auto]. apply (in_map fst) in Q. rewrite B in Q. simpl in Q.
      apply in_map_iff in Q. destruct Q as [q [<- Q]]. now apply J in Q.
    + intros p m [Lp Fp] Nn. assert (In p (List.map (@fst prefix (list record)) l)) as Q.
      { rewrite B. apply in_map_iff. exists (snd p). destruct p as [g q]; simpl in *. subst g.
        split; auto. now apply J. }
      apply in_map_iff in Q. destruct Q as [[p' rs] [<- Q]]. eauto.
  - intros [g q] Lq Fq. simpl in Fq. subst g. rewrite B. apply in_map_iff. exists q.
    split; auto. now apply J.
Qed.

End Q.
