(* What the invariant of the concurrent store says to a caller. *)
From Coq Require Import Arith NArith List Bool Lia.
From Verif Require Import Word Af BitSpan Spec Maps ChtMath Cht Node Tree ChainProofs TreeProofs
  Iter IterProofs MultiMap PrefixCht PrefixChtProofs Lsm LsmProofs Rib RibProofs HistSpec Queries Conc ConcTree
  ConcTreeProofs ConcTreeInv ConcTreeStep ConcTreeEnd ConcTreeSeen ConcStore ConcTable ConcStoreInv
  ConcStoreStep ConcInsert ConcCalls ConcSpec.
Import ListNotations.
Local Open Scope N_scope.

Lemma reach_sok f ov st x : reach f ov st x -> sok f ov st (length (ths x)) (sh x) x.
Proof.
  intros (rb & E & A). apply (sok_from f ov st rb x x E A). apply ex_refl.
Qed.
Lemma reach_from f ov st x y : reach f ov st x -> sexec f ov x y ->
  sok f ov st (length (ths x)) (sh x) y /\ sR (sh x) (sh y).
Proof. intros (rb & E & A) B. now apply (sok_from f ov st rb). Qed.
Lemma reach_exec f ov st x y : reach f ov st x -> sexec f ov x y -> reach f ov st y.
Proof. intros (rb & E & A) B. exists rb. split; [easy|]. eapply exec_trans; eauto. Qed.

Lemma ret_none f ov i s c l v : ret_of l = Some v -> ststep f ov i s c l = None.
Proof.
  intros E. destruct c, l as [pc|pc|pc|pc]; try easy; destruct pc; try discriminate E; easy.
Qed.
Lemma returned_stays f ov x y i c v : sexec f ov x y -> returned x i c v -> returned y i c v.
Proof.
  intros A (l & E & R). exists l. split; [|easy]. eapply exec_done; eauto.
  intros s. eapply ret_none; eauto.
Qed.

Lemma wf_call f ov st n s x i c : sok f ov st n s x -> started x i c -> slegal f c.
Proof.
  intros [G _] (l & E). pose proof (g_legal _ _ _ _ _ G) as L. rewrite Forall_forall in L.
  apply L. eapply nth_error_In. eapply calls_nth; eauto.
Qed.
Lemma wf_prefix f ov st n s x i c : sok f ov st n s x -> started x i c -> wf_pid f (prefix_of c).
Proof. intros A B. pose proof (wf_call _ _ _ _ _ _ _ _ A B) as L. destruct c; simpl in *; tauto. Qed.

(* an insert that has returned has done its work in the tree *)
Lemma insert_done f ov st n s x i p r ups a : sok f ov st n s x ->
  returned x i (CInsert p r ups) (RetIns a) -> inserted f (stree (sh x)) p.
Proof.
  intros [_ A] (l & E & R). specialize (A _ _ _ E). destruct l as [pc| | |]; try easy.
  destruct pc; try discriminate R. injection R as ->. simpl in A. destruct a as [rep|e]; apply A.
Qed.

Lemma contains_now f ov st n s x p : sok f ov st n s x -> wf_pid f p ->
  prefix_exists f (tree_of x) p = Ok (stored f (t_heap (stree (sh x))) p).
Proof. intros [G _] W. apply prefix_exists_ok; [|easy]. exact (sG_ninv f st s _ _ G). Qed.

Lemma inserted_stored f t p : inserted f t p -> 0 < p_len p -> stored f (t_heap t) p = true.
Proof.
  unfold inserted. destruct (N.eqb_spec (p_len p) 0) as [E|]; [lia|]. tauto.
Qed.

Lemma stored_sR f st s s' x cs y cs' p : sG f st s x cs -> sG f st s' y cs' -> sR x y ->
  stored f (t_heap (stree x)) p = true -> stored f (t_heap (stree y)) p = true.
Proof.
  intros A B R. apply stored_hle; eauto using sG_ninv. apply R.
Qed.

(* ---------- C43 ---------- *)

Lemma conc_inserted_stays f ov st x y i p r ups a :
  reach f ov st x -> returned x i (CInsert p r ups) (RetIns a) -> 0 < p_len p ->
  sexec f ov x y ->
  prefix_exists f (tree_of y) p = Ok true /\
  forall j v, begins_after x j -> returned y j (CContains p) v -> v = RetHas true.
Proof.
  intros R1 D L E. pose proof (reach_sok _ _ _ _ R1) as Sx.
  destruct (reach_from _ _ _ _ _ R1 E) as [Sy RR].
  pose proof (inserted_stored _ _ _ (insert_done _ _ _ _ _ _ _ _ _ _ _ Sx D) L) as S.
  assert (Wp : wf_pid f p).
  { destruct D as (l & D & _). apply (wf_prefix _ _ _ _ _ _ i (CInsert p r ups) Sx). now exists l. }
  split.
  - rewrite (contains_now _ _ _ _ _ _ p Sy Wp). f_equal.
    eapply stored_sR; [apply Sx|apply Sy|easy|easy].
  - intros j v B (l & N & Rv). destruct Sy as [_ Sy]. specialize (Sy _ _ _ N).
    destruct l as [| |pc|]; try easy. simpl in Sy. destruct Sy as [_ Sy].
    apply Nat.leb_le in B. destruct pc; try easy; injection Rv as <-.
    destruct Sy as [Sy _]. rewrite Sy; [easy|]. rewrite B. exact S.
Qed.

Lemma conc_never_panics f ov st x i c : reach f ov st x -> returned x i c RetPanic ->
  exists p r ups, c = CInsert p r ups /\ ~ no_overflow ov p.
Proof.
  intros R (l & N & Rv). destruct (reach_sok _ _ _ _ R) as [_ A]. specialize (A _ _ _ N).
  destruct c as [p r ups|sm p mui lt|p|p mui iw], l as [pc|pc|pc|pc]; try easy;
    destruct pc; try discriminate Rv; simpl in A; try easy.
  - exists p, r, ups. easy.
  - now destruct A.
Qed.

Lemma conc_insert_errors f ov st x i p r ups e : reach f ov st x ->
  returned x i (CInsert p r ups) (RetIns (RErr e)) ->
  e = PathSelectionOutdated /\ ups <> None /\ st <> PersistOnly.
Proof.
  intros R (l & N & Rv). destruct (reach_sok _ _ _ _ R) as [_ A]. specialize (A _ _ _ N).
  destruct l as [pc| | |]; try easy. destruct pc; try discriminate Rv. injection Rv as ->.
  simpl in A. tauto.
Qed.

(* ---------- C44 ---------- *)

Lemma started_calls (x : cstore) i c : nth_error (calls x) i = Some c -> started x i c.
Proof.
  intros N. unfold started. unfold calls in N. rewrite nth_error_map in N.
  destruct (nth_error (ths x) i) as [[c0 l]|]; [|discriminate].
  simpl in N. injection N as ->. now exists l.
Qed.

Lemma conc_stored_pos f ov st n s x p : sok f ov st n s x ->
  stored f (t_heap (stree (sh x))) p = true -> 0 < p_len p.
Proof.
  intros [G _] E. destruct (N.eq_dec (p_len p) 0) as [L|]; [|lia]. exfalso.
  pose proof (g_pfx _ _ _ (proj1 (g_tree _ _ _ _ _ G))) as P.
  unfold stored in E. destruct (nodes f (t_heap (stree (sh x))) (node_of f p)) as [v|] eqn:Q; [|easy].
  destruct (P _ _ _ Q E) as (q & _ & Lq & _ & Bq).
  pose proof (span_bit f q Lq) as B. rewrite <- Bq in B.
  assert (bs_bit (span_of f p) = 31); [|lia].
  unfold span_of, bs_bit, bs_index, nlen. rewrite L. simpl bs_len. simpl bs_bits.
  change (4 * ((0 - 1) / 4)) with 0. change (0 - 0) with 0. unfold slice.
  change (2 ^ 0) with 1. now rewrite N.mod_1_r.
Qed.

Lemma conc_stored_started f ov st n s x p : sok f ov st n s x -> wf_pid f p ->
  stored f (t_heap (stree (sh x))) p = true ->
  exists i r ups, started x i (CInsert p r ups).
Proof.
  intros Sx W E. pose proof (conc_stored_pos _ _ _ _ _ _ _ Sx E) as L. destruct Sx as [G _].
  destruct (g_present _ _ _ _ _ G p W) as (i & r & ups & _ & N).
  { unfold present. destruct (N.eqb_spec (p_len p) 0); [lia|easy]. }
  exists i, r, ups. now apply started_calls.
Qed.

Lemma conc_no_phantom f ov st x p : reach f ov st x -> wf_pid f p ->
  prefix_exists f (tree_of x) p = Ok true \/ (exists j, returned x j (CContains p) (RetHas true)) ->
  exists i r ups, started x i (CInsert p r ups).
Proof.
  intros R W E. pose proof (reach_sok _ _ _ _ R) as Sx. apply (conc_stored_started _ _ _ _ _ _ _ Sx W).
  destruct E as [E|(j & l & N & Rv)].
  - rewrite (contains_now _ _ _ _ _ _ p Sx W) in E. now injection E as E.
  - destruct Sx as [_ Sx]. specialize (Sx _ _ _ N). destruct l as [| |pc|]; try easy.
    destruct pc; try discriminate Rv. injection Rv as ->. simpl in Sx. now apply Sx.
Qed.

Lemma conc_seen_forever f ov st x y p j : reach f ov st x -> returned x j (CContains p) (RetHas true) ->
  sexec f ov x y ->
  prefix_exists f (tree_of y) p = Ok true /\
  forall k v, begins_after x k -> returned y k (CContains p) v -> v = RetHas true.
Proof.
  intros R1 (l & N & Rv) E. pose proof (reach_sok _ _ _ _ R1) as Sx.
  destruct (reach_from _ _ _ _ _ R1 E) as [Sy RR].
  assert (Wp : wf_pid f p).
  { apply (wf_prefix _ _ _ _ _ _ j (CContains p) Sx). now exists l. }
  assert (S : stored f (t_heap (stree (sh x))) p = true).
  { destruct Sx as [_ Sx]. specialize (Sx _ _ _ N). destruct l as [| |pc|]; try easy.
    destruct pc; try discriminate Rv. injection Rv as ->. simpl in Sx. now apply Sx. }
  split.
  - rewrite (contains_now _ _ _ _ _ _ p Sy Wp). f_equal.
    eapply stored_sR; [apply Sx|apply Sy|easy|easy].
  - intros k v B (l' & N' & Rv'). destruct Sy as [_ Sy]. specialize (Sy _ _ _ N').
    destruct l' as [| |pc|]; try easy. simpl in Sy. destruct Sy as [_ Sy].
    apply Nat.leb_le in B. destruct pc; try easy; injection Rv' as <-.
    destruct Sy as [Sy _]. rewrite Sy; [easy|]. rewrite B. exact S.
Qed.

(* ---------- C45 ---------- *)

Lemma conc_entries_stay f ov st x y : reach f ov st x -> sexec f ov x y ->
  (forall k e, lookup k (pc_heap (table_of x)) = Some e ->
     exists e', lookup k (pc_heap (table_of y)) = Some e' /\ e_id e' = e_id e) /\
  (forall k e, lookup k (t_heap (tree_of x)) = Some e ->
     exists e', lookup k (t_heap (tree_of y)) = Some e' /\ e_id e' = e_id e).
Proof.
  intros R E. destruct (reach_from _ _ _ _ _ R E) as [_ (RT & RG & _)]. split; intros k e L.
  - destruct (RG _ _ L) as (e' & A & B & _). now exists e'.
  - destruct RT as [RT _]. destruct (RT _ _ L) as (e' & A & B & _). now exists e'.
Qed.

Lemma conc_one_entry f ov st x : reach f ov st x ->
  (forall k1 k2 e1 e2, lookup k1 (pc_heap (table_of x)) = Some e1 ->
     lookup k2 (pc_heap (table_of x)) = Some e2 -> e_id e1 = e_id e2 -> k1 = k2) /\
  (forall k1 k2 e1 e2, lookup k1 (t_heap (tree_of x)) = Some e1 ->
     lookup k2 (t_heap (tree_of x)) = Some e2 -> e_id e1 = e_id e2 -> k1 = k2).
Proof.
  intros R. destruct (reach_sok _ _ _ _ R) as [G _]. split; intros k1 k2 e1 e2.
  - apply (key_unique f PSTRIDE PSTRIDE_nz). exact (g_table _ _ _ _ _ G).
  - apply (key_unique f NSTRIDE NSTRIDE_nz). exact (sG_ninv _ _ _ _ _ G).
Qed.

Lemma working_at f ov st n s x i c l k : sok f ov st n s x -> nth_error (ths x) i = Some (c, l) ->
  working_on l = Some k -> at_id (pheap (sh x)) k (prefix_of c).
Proof.
  intros [_ A] N W. specialize (A _ _ _ N).
  destruct c as [p r ups|sm p mui lt|p|p mui iw], l as [pc|pc|pc|pc]; try easy;
    destruct pc; try discriminate W; injection W as ->; simpl in A; tauto.
Qed.

Lemma conc_same_entry f ov st x i j ci cj li lj ki kj : reach f ov st x ->
  nth_error (ths x) i = Some (ci, li) -> working_on li = Some ki ->
  nth_error (ths x) j = Some (cj, lj) -> working_on lj = Some kj ->
  (prefix_of ci = prefix_of cj <-> ki = kj).
Proof.
  intros R N1 W1 N2 W2. pose proof (reach_sok _ _ _ _ R) as S.
  destruct (working_at _ _ _ _ _ _ _ _ _ _ S N1 W1) as (e1 & L1 & I1).
  destruct (working_at _ _ _ _ _ _ _ _ _ _ S N2 W2) as (e2 & L2 & I2).
  split; intros E.
  - apply (proj1 (conc_one_entry _ _ _ _ R) ki kj e1 e2); auto. congruence.
  - subst kj. congruence.
Qed.

(* ---------- C46 ---------- *)

Lemma apply_op_rec m o cur mm : lookup m mm = option_map mmval_of cur ->
  (forall r, cur = Some r -> r_mui r = m) ->
  lookup m (apply_op mm o) = option_map mmval_of (rec_step m cur o) /\
  (forall r, rec_step m cur o = Some r -> r_mui r = m).
Proof.
  intros L K. destruct o as [r|s n t]; simpl.
  - destruct (N.eqb_spec (r_mui r) m) as [<-|NE].
    + rewrite lookup_update_same. split; [easy|]. intros r0 X. now injection X as <-.
    + rewrite lookup_update_other by congruence. now split.
  - rewrite mark_lookup, L, (N.eqb_sym m n). destruct (N.eqb_spec n m) as [->|NE]; [|now split].
    destruct cur as [r|]; simpl; [|now split]. split; [easy|]. intros r0 X. now injection X as <-.
Qed.

Lemma replay_rec p m log : lookup m (replay p log) = option_map mmval_of (rec_after p m log) /\
  (forall r, rec_after p m log = Some r -> r_mui r = m).
Proof.
  unfold replay, rec_after. fold (ops_of p log). generalize (ops_of p log). intros l.
  assert (H : forall mm cur, lookup m mm = option_map mmval_of cur ->
    (forall r, cur = Some r -> r_mui r = m) ->
    lookup m (fold_left apply_op l mm) = option_map mmval_of (fold_left (rec_step m) l cur) /\
    (forall r, fold_left (rec_step m) l cur = Some r -> r_mui r = m)).
  { induction l as [|o l IH]; intros mm cur A B; simpl; [now split|].
    destruct (apply_op_rec m o cur mm A B). now apply IH. }
  now apply H.
Qed.

Lemma gfr_one p m log b : get_filtered_records (replay p log) (Some m) true b =
  match rec_after p m log with
  | Some r => Some [Rec m (r_ltime r) (if mem m b then Withdrawn else r_status r) (r_meta r)]
  | None => None
  end.
Proof.
  unfold get_filtered_records, get_filtered_record_for_mui, get_record_for_mui_with_rewritten_status.
  destruct (replay_rec p m log) as [-> _]. destruct (rec_after p m log) as [r|]; [|easy].
  simpl. unfold rewrite_status, record_of. destruct (mem m b); easy.
Qed.

Lemma withdrawn_nil f ov st x : reach f ov st x -> t_withdrawn (tree_of x) = [].
Proof.
  intros (rb & E & A). destruct (sok_from f ov st rb (sconf0 rb) x E) as [_ (RT & _)]; [apply ex_refl|easy|].
  destruct RT as (_ & _ & _ & W). change (t_withdrawn (stree (sh x)) = []). rewrite W.
  unfold rib_init in E.
  destruct (tree_new f) as [t| |] eqn:T; try discriminate. injection E as <-.
  apply (tG_new f (insp []) t T).
Qed.

Lemma conc_records f ov st x p m : reach f ov st x -> wf_pid f p ->
  get_records_for_prefix f (table_of x) p (Some m) true [] =
  Ok (match rec_after p m (order x) with Some r => Some [r] | None => None end).
Proof.
  intros R W. destruct (reach_sok _ _ _ _ R) as [G _].
  rewrite get_records_ok; [|exact (g_table _ _ _ _ _ G)|easy]. f_equal.
  pose proof (g_recs _ _ _ _ _ G p) as RC. unfold pheap in RC. unfold table_of.
  assert (GF : get_filtered_records (replay p (order x)) (Some m) true [] =
    match rec_after p m (order x) with Some r => Some [r] | None => None end).
  { rewrite gfr_one. destruct (replay_rec p m (order x)) as [_ K].
    destruct (rec_after p m (order x)) as [[rm rt rs rx]|]; [|easy].
    specialize (K _ eq_refl). simpl in K. subst rm. easy. }
  destruct (pfxs f (pc_heap (rb_pcht (ss_rib (sh x)))) p) as [v|].
  - rewrite RC. exact GF.
  - rewrite <- GF. unfold replay, order. rewrite RC. easy.
Qed.

Lemma conc_order_calls f ov st x : reach f ov st x ->
  NoDup (List.map call_of (order x)) /\
  forall i p o, In (i, p, o) (order x) -> exists c, started x i c /\ does c p o.
Proof.
  intros R. destruct (reach_sok _ _ _ _ R) as [G _]. split; [exact (g_tids _ _ _ _ _ G)|].
  intros i p o I. destruct (g_log _ _ _ _ _ G _ _ _ I) as (c & N & D). exists c.
  split; [now apply started_calls|easy].
Qed.

Lemma cs_at_In s i p o l1 : cs_at s i p o l1 -> In (i, p, o) (ss_log s).
Proof. intros (l2 & ->). apply in_or_app. right. now left. Qed.

Lemma conc_no_lost_update f ov st x : reach f ov st x -> st <> PersistOnly ->
  (forall i p r ups a, returned x i (CInsert p r ups) (RetIns a) -> In (i, p, OUp r) (order x)) /\
  (forall i sm p m t u, returned x i (CMark sm p m t) (RetMark (ROk u)) ->
     In (i, p, OMark sm m t) (order x)).
Proof.
  intros R S. destruct (reach_sok _ _ _ _ R) as [_ A]. split.
  - intros i p r ups a (l & N & Rv). specialize (A _ _ _ N). destruct l as [pc| | |]; try easy.
    destruct pc; try discriminate Rv. injection Rv as ->. simpl in A.
    assert (U : exists o, upserted (sh x) i p r o).
    { destruct a as [rep|e]; [|tauto]. destruct A as (_ & K & _). unfold kept in K.
      destruct st; try (now destruct S); destruct K as (o & K & _); now exists o. }
    destruct U as (o & l1 & C & _). now apply cs_at_In in C.
  - intros i sm p m t u (l & N & Rv). specialize (A _ _ _ N). destruct l as [|pc| |]; try easy.
    destruct pc; try discriminate Rv. injection Rv as ->. simpl in A.
    destruct (A S) as (l1 & C & _). now apply cs_at_In in C.
Qed.

Lemma conc_order_extends f ov st x y : reach f ov st x -> sexec f ov x y ->
  (exists l, order y = order x ++ l) /\
  forall e, In e (order x) -> ~ begins_after x (call_of e).
Proof.
  intros R E. destruct (reach_from _ _ _ _ _ R E) as [_ (_ & _ & L & _)].
  split; [exact L|]. intros [[i p] o] I B.
  destruct (proj2 (conc_order_calls _ _ _ x R) _ _ _ I) as (c & (l & N) & _).
  apply nth_some_lt in N. unfold begins_after, call_of in B. simpl in B. lia.
Qed.

Lemma conc_reads f ov st x y j p m iw v : reach f ov st x -> sexec f ov x y ->
  begins_after x j -> returned y j (CRecords p m iw) v ->
  exists l1 l2, order y = (order x ++ l1) ++ l2 /\
    v = RetRecs (get_filtered_records (replay p (order x ++ l1)) m iw []).
Proof.
  intros R E B (l & N & Rv). destruct (reach_from _ _ _ _ _ R E) as [[_ A] _].
  specialize (A _ _ _ N). destruct l as [| | |pc]; try easy. destruct pc; try discriminate Rv; [|easy].
  injection Rv as <-. destruct A as (a & b & A1 & A2 & A3). destruct (A2 B) as (l3 & ->).
  exists l3, b. split; [exact A1|]. rewrite A3.
  change (t_withdrawn (stree (sh y))) with (t_withdrawn (tree_of y)).
  now rewrite (withdrawn_nil f ov st y (reach_exec _ _ _ _ _ R E)).
Qed.

(* the read of one record *)
Lemma conc_read_one f ov st x y j p m v : reach f ov st x -> sexec f ov x y ->
  begins_after x j -> returned y j (CRecords p (Some m) true) v ->
  exists l1 l2, order y = (order x ++ l1) ++ l2 /\
    v = RetRecs (match rec_after p m (order x ++ l1) with Some r => Some [r] | None => None end).
Proof.
  intros R E B Rt. destruct (conc_reads _ _ _ _ _ _ _ _ _ _ R E B Rt) as (l1 & l2 & A1 & A2).
  exists l1, l2. split; [exact A1|]. rewrite A2, gfr_one. simpl.
  destruct (replay_rec p m (order x ++ l1)) as [_ K].
  destruct (rec_after p m (order x ++ l1)) as [[rm rt rs rx]|]; [|easy].
  specialize (K _ eq_refl). simpl in K. now subst rm.
Qed.

(* an insert reports the number of records it has found *)
Lemma mui_count_replay f ov st x i p r ups rep : reach f ov st x -> st <> PersistOnly ->
  returned x i (CInsert p r ups) (RetIns (ROk rep)) ->
  exists l1 l2, order x = l1 ++ (i, p, OUp r) :: l2 /\
    rp_mui_count rep = match rec_after p (r_mui r) l1 with
                       | Some _ => N.of_nat (length (replay p l1))
                       | None => 1
                       end.
Proof.
  intros R S (l & N & Rv). destruct (reach_sok _ _ _ _ R) as [_ A].
  specialize (A _ _ _ N). destruct l as [pc| | |]; try easy.
  destruct pc; try discriminate Rv. injection Rv as ->. simpl in A. destruct A as (_ & K & _).
  assert (U : exists o, upserted (sh x) i p r o /\ cnt_of o rep).
  { unfold kept in K. destruct st; try (now destruct S); destruct K as (o & K); exists o; tauto. }
  destruct U as (o & (l1 & (l2 & C) & ->) & Cn). exists l1, l2. split; [exact C|].
  unfold cnt_of, upsert_record in Cn. simpl in Cn. rewrite Cn.
  destruct (replay_rec p (r_mui r) l1) as [L _]. rewrite L.
  destruct (rec_after p (r_mui r) l1) as [r0|]; [|easy]. simpl.
  rewrite update_length. simpl in L. now rewrite L.
Qed.

(* ---------- C48 ---------- *)

Lemma insert_state f ov st n s x i p r ups rep : sok f ov st n s x ->
  returned x i (CInsert p r ups) (RetIns (ROk rep)) ->
  (In i (ss_made (sh x)) -> In i (ss_counted (sh x))) /\
  (In i (ss_counted (sh x)) -> rp_prefix_new rep = true) /\
  (fresh n i -> there f s p -> ~ In i (ss_counted (sh x))) /\
  (st <> PersistOnly -> fresh n i -> there f s p -> entry0 f s p -> rp_prefix_new rep = false).
Proof.
  intros [_ A] (l & N & Rv). specialize (A _ _ _ N). destruct l as [pc| | |]; try easy.
  destruct pc; try discriminate Rv. injection Rv as ->. simpl in A. tauto.
Qed.

(* the insert that has made p present, when all calls have returned without error *)
Definition no_errors (x : cstore) : Prop :=
  forall i c e, ~ returned x i c (RetIns (RErr e)).

Lemma maker f ov st n s x p i r ups rep : sok f ov st n s x -> idle x -> no_errors x ->
  returned x i (CInsert p r ups) (RetIns (ROk rep)) ->
  exists j r' ups' rep', returned x j (CInsert p r' ups') (RetIns (ROk rep')) /\
    In j (ss_counted (sh x)) /\ rp_prefix_new rep' = true.
Proof.
  intros S Id NE D. assert (Wp : wf_pid f p).
  { destruct D as (l & D & _). apply (wf_prefix _ _ _ _ _ _ i (CInsert p r ups) S). now exists l. }
  pose proof (insert_done _ _ _ _ _ _ _ _ _ _ _ S D) as I.
  pose proof (inserted_present f (insp []) _ _ I) as P.
  destruct (g_present _ _ _ _ _ (proj1 S) p Wp P) as (j & r' & ups' & M & N).
  apply started_calls in N. destruct (Id _ _ N) as (v & Rt & NP).
  destruct v as [[rep'|e]| | | |]; try (destruct Rt as (l & Q & Rv); exfalso;
    destruct S as [_ A]; specialize (A _ _ _ Q); destruct l as [pc|pc|pc|pc]; try easy;
    destruct pc; easy).
  - destruct (insert_state _ _ _ _ _ _ _ _ _ _ _ S Rt) as (A & B & _).
    exists j, r', ups', rep'. auto.
  - exfalso. eapply NE; eauto.
Qed.

Lemma conc_someone_new f ov st x p i r ups rep : reach f ov st x -> idle x -> no_errors x ->
  returned x i (CInsert p r ups) (RetIns (ROk rep)) ->
  exists j r' ups' rep', returned x j (CInsert p r' ups') (RetIns (ROk rep')) /\
    rp_prefix_new rep' = true.
Proof.
  intros R Id NE D. destruct (maker _ _ _ _ _ _ _ _ _ _ _ (reach_sok _ _ _ _ R) Id NE D)
    as (j & r' & ups' & rep' & A & _ & B). now exists j, r', ups', rep'.
Qed.

Lemma incl_len {A} (f : A -> nat -> Prop) (ps : list A) (l : list nat) : NoDup ps ->
  (forall p, In p ps -> exists j, In j l /\ f p j) ->
  (forall p q j, f p j -> f q j -> p = q) -> (length ps <= length l)%nat.
Proof.
  intros ND H U. revert l H. induction ND as [|p ps NI ND IH]; intros l H; [simpl; lia|].
  destruct (H p) as (j & J1 & J2); [now left|].
  destruct (in_split _ _ J1) as (l1 & l2 & ->). rewrite app_length. simpl.
  specialize (IH (l1 ++ l2)). rewrite app_length in IH. rewrite <- plus_n_Sm.
  apply le_n_S. apply IH. intros q Q. destruct (H q) as (k & K1 & K2); [now right|].
  exists k. split; [|easy]. apply in_app_iff in K1. apply in_app_iff.
  destruct K1 as [K1|[<-|K1]]; auto. exfalso. apply NI. now rewrite (U p q j J2 K2).
Qed.

Lemma conc_count_at_least f ov st x ps : reach f ov st x -> idle x -> no_errors x -> NoDup ps ->
  (forall p, In p ps -> exists i r ups rep, returned x i (CInsert p r ups) (RetIns (ROk rep))) ->
  N.of_nat (length ps) <= uc_total (rib_prefixes_count (ss_rib (sh x))).
Proof.
  intros R Id NE ND H. pose proof (reach_sok _ _ _ _ R) as S. simpl.
  rewrite (g_cnt _ _ _ _ _ (proj1 S)).
  assert (length ps <= length (ss_counted (sh x)))%nat; [|lia].
  apply (incl_len (fun p j => exists r ups, started x j (CInsert p r ups))); auto.
  - intros p P. destruct (H p P) as (i & r & ups & rep & D).
    destruct (maker _ _ _ _ _ _ _ _ _ _ _ S Id NE D) as (j & r' & ups' & rep' & (l & N & _) & B & _).
    exists j. split; [easy|]. exists r', ups', l. easy.
  - intros p q j (r1 & u1 & l1 & E1) (r2 & u2 & l2 & E2). rewrite E1 in E2. congruence.
Qed.

Lemma conc_count_at_most f ov st x : reach f ov st x -> idle x ->
  exists js, NoDup js /\ N.of_nat (length js) = uc_total (rib_prefixes_count (ss_rib (sh x))) /\
    forall j, In j js -> exists p r ups rep, returned x j (CInsert p r ups) (RetIns (ROk rep)) /\
      rp_prefix_new rep = true.
Proof.
  intros R Id. pose proof (reach_sok _ _ _ _ R) as S. exists (ss_counted (sh x)).
  split; [exact (g_counted_nd _ _ _ _ _ (proj1 S))|].
  split; [simpl; now rewrite (g_cnt _ _ _ _ _ (proj1 S))|].
  intros j J. destruct (g_counted _ _ _ _ _ (proj1 S) _ J) as (p & r & ups & N).
  apply started_calls in N. destruct (Id _ _ N) as (v & Rt & NP).
  pose proof Rt as (l & Q & Rv). pose proof (proj2 S _ _ _ Q) as A.
  destruct l as [pc|pc|pc|pc]; try easy. destruct pc; try discriminate Rv.
  - injection Rv as <-. destruct r0 as [rep|e]; simpl in A; [|tauto].
    exists p, r, ups, rep. split; [easy|]. tauto.
  - injection Rv as <-. easy.
Qed.

Lemma returned_there f ov st x i p r ups a : reach f ov st x ->
  returned x i (CInsert p r ups) (RetIns a) ->
  there f (sh x) p /\ (st <> PersistOnly -> entry0 f (sh x) p).
Proof.
  intros R D. pose proof (reach_sok _ _ _ _ R) as S. split.
  - exact (inserted_present f (insp []) _ _ (insert_done _ _ _ _ _ _ _ _ _ _ _ S D)).
  - intros NP. pose proof (proj1 (conc_no_lost_update _ _ _ _ R NP) _ _ _ _ _ D) as I.
    pose proof (g_recs _ _ _ _ _ (proj1 S) p) as RC. unfold entry0.
    destruct (pfxs f (pheap (sh x)) p); [easy|].
    assert (X : In (OUp r) (ops_of p (ss_log (sh x)))); [|rewrite RC in X; destruct X].
    unfold ops_of. apply in_map_iff. exists (i, p, OUp r). split; [easy|].
    apply filter_In. split; [exact I|]. simpl. apply pid_eqb_refl.
Qed.

(* an insert that begins after another insert of the same prefix has returned *)
Lemma conc_not_new_again f ov st x y i j p r ups a r' ups' rep : reach f ov st x ->
  returned x i (CInsert p r ups) (RetIns a) -> sexec f ov x y -> begins_after x j ->
  returned y j (CInsert p r' ups') (RetIns (ROk rep)) -> st <> PersistOnly ->
  rp_prefix_new rep = false.
Proof.
  intros R D E B D2 NP. destruct (reach_from _ _ _ _ _ R E) as [Sy _].
  destruct (returned_there _ _ _ _ _ _ _ _ _ R D) as [T0 E0].
  destruct (insert_state _ _ _ _ _ _ _ _ _ _ _ Sy D2) as (_ & _ & _ & A). auto.
Qed.

(* one insert after the other: the count does not grow with the second *)
Lemma conc_not_counted_again f ov st x y i j p r ups a r' ups' rep : reach f ov st x ->
  returned x i (CInsert p r ups) (RetIns a) -> sexec f ov x y -> begins_after x j ->
  returned y j (CInsert p r' ups') (RetIns (ROk rep)) -> ~ In j (ss_counted (sh y)).
Proof.
  intros R D E B D2. destruct (reach_from _ _ _ _ _ R E) as [Sy _].
  destruct (returned_there _ _ _ _ _ _ _ _ _ R D) as [T0 _].
  destruct (insert_state _ _ _ _ _ _ _ _ _ _ _ Sy D2) as (_ & _ & A & _). auto.
Qed.

(* ---------- C49 ---------- *)

Lemma more_specifics_heap f t p : tree_inv f (t_heap t) -> wf_pid f p ->
  exists L, more_specifics f t p = Ok L /\ NoDup L /\
    forall q, In q L <-> wf_pid f q /\ stored f (t_heap t) q = true /\ covers f p q /\ p_len p < BITS f.
Proof.
  exact (more_specifics_ok f t p).
Qed.

Lemma idle_inserted f ov st n s x i p r ups : sok f ov st n s x -> idle x ->
  started x i (CInsert p r ups) -> inserted f (stree (sh x)) p.
Proof.
  intros S Id B. destruct (Id _ _ B) as (v & Rt & NP).
  destruct v as [a| | | |]; try (destruct Rt as (l & Q & Rv); exfalso;
    destruct S as [_ A]; specialize (A _ _ _ Q); destruct l as [pc|pc|pc|pc]; try easy;
    destruct pc; easy).
  eapply insert_done; eauto.
Qed.

Lemma conc_scan_when_idle f ov st x p : reach f ov st x -> idle x -> wf_pid f p ->
  exists L, more_specifics f (tree_of x) p = Ok L /\ NoDup L /\
    forall q, In q L <-> (exists i r ups, started x i (CInsert q r ups)) /\
                         0 < p_len q /\ covers f p q /\ p_len p < BITS f.
Proof.
  intros R Id W. pose proof (reach_sok _ _ _ _ R) as S.
  destruct (more_specifics_heap f (tree_of x) p) as (L & E & ND & IN); [|easy|].
  - apply (hG_tree_inv f (insp (calls x))).
    { intros q (i & r & ups & N). apply started_calls in N.
      exact (wf_prefix _ _ _ _ _ _ _ _ S N). }
    { exact (proj1 (g_tree _ _ _ _ _ (proj1 S))). }
    intros q (i & r & ups & N) Lq. apply started_calls in N.
    pose proof (idle_inserted _ _ _ _ _ _ _ _ _ _ S Id N) as I. unfold inserted in I.
    destruct (N.eqb_spec (p_len q) 0); [lia|exact I].
  - exists L. split; [easy|]. split; [easy|]. intros q. rewrite IN. split.
    + intros (Wq & St & C & B). split; [now apply (conc_stored_started _ _ _ _ _ _ _ S)|].
      split; [now apply (conc_stored_pos _ _ _ _ _ _ _ S)|]. easy.
    + intros ((i & r & ups & B) & Lq & C & Lp).
      split; [exact (wf_prefix _ _ _ _ _ _ _ _ S B)|].
      split; [|easy]. apply inserted_stored; [|easy]. eapply idle_inserted; eauto.
Qed.

(* ---------- C50 ---------- *)

Lemma conc_steps f ov st x y i c n : reach f ov st x ->
  nth_error (ths x) i = Some (c, cstart c) ->
  (st = PersistOnly -> forall sm p m t, c <> CMark sm p m t) ->
  execn cstart (slegal f) (ststep f ov) i x n y -> (n <= most_steps c)%nat.
Proof.
  intros R N NM E. pose proof (reach_sok _ _ _ _ R) as S.
  destruct (sown_steps f ov st (length (ths x)) (sh x) x y i n c (cstart c)) as (l' & _ & B); auto.
  { destruct c; simpl; auto. intros ->. eapply NM; eauto. }
  assert (Wp : wf_pid f (prefix_of c)).
  { apply (wf_prefix _ _ _ _ _ _ i c S). now exists (cstart c). }
  destruct c; simpl in *; try lia.
  pose proof (start_mu f p Wp). unfold TSTEPS in *. simpl in *. lia.
Qed.

(* a call that has not returned can take a step *)
Lemma conc_progress f ov st x i c l : reach f ov st x -> nth_error (ths x) i = Some (c, l) ->
  ret_of l = None -> exists s' l', ststep f ov i (sh x) c l = Some (s', l').
Proof.
  intros R N Rn. destruct (reach_sok _ _ _ _ R) as [_ A]. specialize (A _ _ _ N).
  assert (H : ststep f ov i (sh x) c l <> None).
  { destruct c as [p r ups|sm p mui lt|p|p mui iw], l as [pc|pc|pc|pc]; try easy;
      destruct pc; try discriminate Rn; simpl; try easy;
      unfold istep, kstep, vstep, tnext; cbv zeta;
      repeat (match goal with |- context [match ?X with _ => _ end] =>
        lazymatch X with context [match _ with _ => _ end] => fail | _ => destruct X end end; try easy). }
  destruct (ststep f ov i (sh x) c l) as [[s' l']|]; [eauto|easy].
Qed.

(* ---------- C37 ---------- *)

Lemma conc_write_ahead f ov x : reach f ov WriteAhead x ->
  (forall i p r, In (i, p, OUp r) (order x) -> exists l v, disk_of x = Some l /\
     In (long_key f p (r_mui r) (r_ltime r) (r_status r), v) l) /\
  (forall l k v, disk_of x = Some l -> In (k, v) l -> exists i p r ups,
     started x i (CInsert p r ups) /\ k = long_key f p (r_mui r) (r_ltime r) (r_status r) /\
     v = r_meta r).
Proof.
  intros R. destruct (reach_sok _ _ _ _ R) as [G _]. split.
  - intros i p r I. exact (g_ahead _ _ _ _ _ G eq_refl i p r I).
  - intros l k v L I. destruct (g_only _ _ _ _ _ G eq_refl l k v L I) as (i & p & r & ups & A & B).
    exists i, p, r, ups. split; [now apply started_calls|easy].
Qed.

(* ---------- C38: what an insert or a mark has replaced is on disk when it returns ---------- *)

Lemma conc_history f ov x i p r ups rep : reach f ov PersistHistory x ->
  returned x i (CInsert p r ups) (RetIns (ROk rep)) ->
  exists l1 l2, order x = l1 ++ (i, p, OUp r) :: l2 /\
    forall old, rec_after p (r_mui r) l1 = Some old -> exists l v, disk_of x = Some l /\
      In (long_key f p (r_mui old) (r_ltime old) (r_status old), v) l.
Proof.
  intros R (l & N & Rv). destruct (reach_sok _ _ _ _ R) as [_ A].
  specialize (A _ _ _ N). destruct l as [pc| | |]; try easy.
  destruct pc; try discriminate Rv. injection Rv as ->. simpl in A. destruct A as (_ & K & _).
  simpl in K. destruct K as (o & (l1 & (l2 & C) & Eo) & _ & D). exists l1, l2. split; [exact C|].
  intros old Ro. destruct (replay_rec p (r_mui r) l1) as [L M]. rewrite Ro in L. simpl in L.
  unfold upsert_record in Eo. simpl in Eo. rewrite L in Eo. specialize (D _ _ Eo).
  unfold lkey, record_of in D. simpl in D. rewrite (M _ Ro). exact D.
Qed.

(* ---------- C57 ---------- *)

Lemma conc_no_merge f ov st x i c l : reach f ov st x -> nth_error (ths x) i = Some (c, l) ->
  merging l = false.
Proof.
  intros R N. destruct (reach_sok _ _ _ _ R) as [_ A]. specialize (A _ _ _ N).
  destruct c as [p r ups|sm p mui lt|p|p mui iw], l as [pc|pc|pc|pc]; try easy.
  destruct pc; try easy; destruct t; try easy; destruct s; try easy; simpl in A; exfalso; tauto.
Qed.

(* ---------- C46: a look-up of records, whatever it asks for ---------- *)

Lemma replay_NoDup p log : NoDup (keys (replay p log)).
Proof.
  unfold replay. assert (H : forall l mm, NoDup (keys mm) -> NoDup (keys (fold_left apply_op l mm))).
  { induction l as [|o l IH]; intros mm ND; simpl; [easy|]. apply IH. destruct o; simpl.
    - now apply update_NoDup.
    - now apply mark_NoDup. }
  apply H. constructor.
Qed.

Lemma rec_eta r : Rec (r_mui r) (r_ltime r) (r_status r) (r_meta r) = r.
Proof. now destruct r. Qed.

Lemma gfr_seen p log mui iw :
  answers (seen_in log p mui iw) (get_filtered_records (replay p log) mui iw []).
Proof.
  assert (M : forall m r, seen_in log p mui iw m = Some r -> r_mui r = m).
  { intros m r. unfold seen_in. destruct (named mui m); [|discriminate].
    destruct (rec_after p m log) as [r0|] eqn:E; [|discriminate].
    destruct (iw || status_eqb (r_status r0) Active); [|discriminate].
    intros X. injection X as <-. exact (proj2 (replay_rec p m log) _ E). }
  destruct mui as [m|].
  - assert (S : get_filtered_records (replay p log) (Some m) iw [] =
      option_map (fun r => [r]) (seen_in log p (Some m) iw m)).
    { unfold seen_in, named. rewrite N.eqb_refl. destruct iw.
      - rewrite gfr_one. simpl. destruct (rec_after p m log) as [r|] eqn:E; [|easy]. simpl.
        pose proof (proj2 (replay_rec p m log) _ E) as <-. now rewrite rec_eta.
      - simpl. unfold get_record_for_mui. destruct (replay_rec p m log) as [-> K].
        destruct (rec_after p m log) as [r|] eqn:E; [|easy]. simpl.
        pose proof (K _ eq_refl) as <-. destruct (status_eqb (r_status r) Active); [|easy].
        unfold record_of. simpl. now rewrite rec_eta. }
    rewrite S. destruct (seen_in log p (Some m) iw m) as [r|] eqn:E; simpl.
    + split; [easy|]. split; [repeat constructor; easy|]. intros r'. pose proof (M _ _ E) as Q.
      split.
      * intros [<-|[]]. now rewrite Q.
      * intros X. left. unfold seen_in, named in X. destruct (N.eqb_spec m (r_mui r')) as [W|W].
        -- rewrite W in E. unfold seen_in, named in E. rewrite N.eqb_refl in E. congruence.
        -- discriminate.
    + intros n. destruct (seen_in log p (Some m) iw n) as [r|] eqn:X; [|easy].
      pose proof X as Y. unfold seen_in, named in X. destruct (N.eqb_spec m n) as [<-|]; [|discriminate].
      congruence.
  - unfold get_filtered_records. pose proof (replay_NoDup p log) as ND. destruct iw.
    + apply answers_none_if_empty; [|exact M]. split.
      * unfold as_records_with_rewritten_status. rewrite map_map. exact ND.
      * intros r. rewrite get_filtered_all by easy. unfold seen_in. simpl named. simpl orb. cbv iota.
        destruct (replay_rec p (r_mui r) log) as [L K]. rewrite L. split.
        -- intros (v & A & B). destruct (rec_after p (r_mui r) log) as [r0|]; [|discriminate].
           injection A as <-. pose proof (K _ eq_refl) as Q. rewrite B.
           unfold record_of, rewrite_status. simpl. now rewrite <- Q, rec_eta.
        -- destruct (rec_after p (r_mui r) log) as [r0|]; [|discriminate]. intros X. injection X as ->.
           exists (mmval_of r). split; [easy|]. unfold record_of, rewrite_status. simpl.
           now rewrite rec_eta.
    + apply answers_none_if_empty; [|exact M]. split.
      * unfold as_active_records_not_in_bmin. rewrite map_map. now apply NoDup_map_filter.
      * intros r. rewrite get_filtered_active by easy. unfold seen_in. simpl named. cbv iota.
        destruct (replay_rec p (r_mui r) log) as [L K]. rewrite L. split.
        -- intros (v & A & S & _ & B). destruct (rec_after p (r_mui r) log) as [r0|]; [|discriminate].
           injection A as <-. pose proof (K _ eq_refl) as Q. simpl in S. rewrite S. simpl.
           rewrite B. unfold record_of. simpl. now rewrite <- Q, rec_eta.
        -- destruct (rec_after p (r_mui r) log) as [r0|]; [|discriminate]. simpl.
           destruct (r_status r0) eqn:S; try discriminate. intros X. injection X as ->.
           exists (mmval_of r). simpl. rewrite S. repeat split. unfold record_of. simpl.
           rewrite <- (rec_eta r) at 1. now rewrite S.
Qed.

Lemma conc_read f ov st x y j p m iw v : reach f ov st x -> sexec f ov x y ->
  begins_after x j -> returned y j (CRecords p m iw) v ->
  exists l1 l2 o, order y = (order x ++ l1) ++ l2 /\ v = RetRecs o /\
    answers (seen_in (order x ++ l1) p m iw) o.
Proof.
  intros R E B Rt. destruct (conc_reads _ _ _ _ _ _ _ _ _ _ R E B Rt) as (l1 & l2 & A1 & A2).
  exists l1, l2. eexists. split; [exact A1|]. split; [exact A2|]. apply gfr_seen.
Qed.

(* the number of records an insert reports, if it has replaced one *)
Lemma conc_mui_count f ov st x i p r ups rep : reach f ov st x -> st <> PersistOnly ->
  returned x i (CInsert p r ups) (RetIns (ROk rep)) ->
  exists l1 l2, order x = l1 ++ (i, p, OUp r) :: l2 /\
    (rec_after p (r_mui r) l1 = None -> rp_mui_count rep = 1) /\
    (rec_after p (r_mui r) l1 <> None ->
     exists ms, NoDup ms /\ (forall m, In m ms <-> rec_after p m l1 <> None) /\
       rp_mui_count rep = N.of_nat (length ms)).
Proof.
  intros R S Rt. destruct (mui_count_replay _ _ _ _ _ _ _ _ _ R S Rt) as (l1 & l2 & A & B).
  exists l1, l2. split; [exact A|]. destruct (rec_after p (r_mui r) l1) as [r0|]; [|easy].
  split; [discriminate|]. intros _. exists (keys (replay p l1)).
  split; [apply replay_NoDup|]. split.
  - intros m. destruct (replay_rec p m l1) as [L _]. destruct (in_dec N.eq_dec m (keys (replay p l1))) as [I|I].
    + split; [|easy]. intros _ E. rewrite E in L. simpl in L. now apply lookup_None in L.
    + split; [easy|]. intros E. apply lookup_None in I. rewrite I in L.
      now destruct (rec_after p m l1).
  - rewrite B. unfold keys. now rewrite map_length.
Qed.

(* ---------- C70 ---------- *)

(* inserts that would write to the same place on disk carry the same meta data *)
Definition no_clash (x : cstore) : Prop :=
  forall i j p r ups r' ups', started x i (CInsert p r ups) -> started x j (CInsert p r' ups') ->
  r_mui r = r_mui r' -> r_ltime r = r_ltime r' -> r_status r = r_status r' -> r_meta r = r_meta r'.
Definition wf_records (x : cstore) : Prop :=
  forall i p r ups, started x i (CInsert p r ups) -> r_mui r < 2 ^ 32 /\ r_ltime r < 2 ^ 64.

Lemma conc_ahead_value f ov x i p r : reach f ov WriteAhead x -> no_clash x -> wf_records x ->
  In (i, p, OUp r) (order x) -> exists l, disk_of x = Some l /\
    In (long_key f p (r_mui r) (r_ltime r) (r_status r), r_meta r) l.
Proof.
  intros R NC WR I. destruct (conc_write_ahead _ _ _ R) as [A B].
  destruct (A _ _ _ I) as (l & v & L & K). exists l. split; [easy|].
  destruct (B _ _ _ L K) as (j & q & r' & ups' & St & E & ->).
  destruct (proj2 (conc_order_calls _ _ _ _ R) _ _ _ I) as (c & Sc & D).
  destruct c as [p0 r0 ups0|sm p0 mui t|p0|p0 mui iw]; simpl in D; try (now destruct D);
    try (now destruct D as [_ D]).
  destruct D as [-> D]. injection D as ->.
  pose proof (reach_sok _ _ _ _ R) as S.
  destruct (WR _ _ _ _ Sc) as [W1 W2]. destruct (WR _ _ _ _ St) as [W3 W4].
  apply long_key_inj in E; auto.
  - destruct E as (-> & E1 & E2 & E3). now rewrite (NC _ _ _ _ _ _ _ Sc St E1 E2 E3).
  - exact (wf_prefix _ _ _ _ _ _ _ _ S Sc).
  - exact (wf_prefix _ _ _ _ _ _ _ _ S St).
Qed.
