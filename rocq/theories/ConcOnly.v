(* What is on disk under PersistOnly while any number of calls are under way, and
   what the marks leave on disk under PersistHistory. *)
From Coq Require Import Arith NArith List Bool Lia.
From Verif Require Import Word Af BitSpan Spec Maps ChtMath Cht Node Tree ChainProofs TreeProofs
  Iter IterProofs MultiMap PrefixCht PrefixChtProofs Lsm LsmProofs Rib RibProofs RibLsm HistSpec Queries Conc ConcTree
  ConcTreeProofs ConcTreeInv ConcTreeStep ConcTreeEnd ConcTreeSeen ConcStore ConcTable ConcStoreInv
  ConcStoreStep ConcInsert ConcCalls ConcSpec ConcFacts ConcCount ConcSelect.
Import ListNotations.
Local Open Scope N_scope.

(* a mark under PersistHistory *)
Lemma conc_history_mark f ov x i sm p m t : reach f ov PersistHistory x ->
  returned x i (CMark sm p m t) (RetMark (ROk tt)) ->
  exists l1 l2, order x = l1 ++ (i, p, OMark sm m t) :: l2 /\
    forall old, rec_after p m l1 = Some old -> exists l v, disk_of x = Some l /\
      In (long_key f p m t Withdrawn, v) l.
Proof.
  intros R (l & N & V). pose proof (proj2 (reach_sok _ _ _ _ R) i _ _ N) as I.
  destruct l as [pc|pc|pc|pc]; try (destruct pc; discriminate V).
  destruct pc as [| | | | | |[u|e]|]; try discriminate V. cbn [sI kI] in I.
  destruct I as (l1 & (l2 & CA) & H); [discriminate|]. exists l1, l2. split; [exact CA|].
  intros old E. destruct H as (lsm & v & A & B); [easy| |now exists lsm, v].
  rewrite (proj1 (replay_rec p m l1)), E. easy.
Qed.

(* ---------- PersistOnly ---------- *)

(* the muis and times the callers pass fit their types *)
Definition wf_calls (x : cstore) : Prop :=
  (forall i p r ups, started x i (CInsert p r ups) -> wf_record r) /\
  (forall i sm p m t, started x i (CMark sm p m t) -> m < 2 ^ 32 /\ t < 2 ^ 64).

(* r is a record that an insert for p was given, or the one a mark makes of it *)
Definition written (x : cstore) (p : pid) (r : record) : Prop :=
  exists i r0 ups, started x i (CInsert p r0 ups) /\ r_mui r0 = r_mui r /\
    (r = r0 \/ exists j, started x j (CMark (r_status r) p (r_mui r) (r_ltime r)) /\ r_meta r = []).

Lemma started_exec f ov x y i c : sexec f ov x y -> started x i c -> started y i c.
Proof. intros E (l & N). destruct (exec_call _ _ _ x y i c l E N) as [l' N']. now exists l'. Qed.

Lemma written_exec f ov x y p r : sexec f ov x y -> written x p r -> written y p r.
Proof.
  intros E (i & r0 & ups & A & B & C). exists i, r0, ups. split; [eapply started_exec; eauto|].
  split; [easy|]. destruct C as [C|(j & C & D)]; [now left|right]. exists j.
  split; [eapply started_exec; eauto|easy].
Qed.

Definition disk_rec (f : af) (x : cstore) (k v : bytes) : Prop :=
  exists p r, wf_pid f p /\ wf_record r /\ written x p r /\ k = short_key f p (r_mui r) /\ v = sval r.

Lemma disk_rec_exec f ov x y k v : sexec f ov x y -> disk_rec f x k v -> disk_rec f y k v.
Proof.
  intros E (p & r & A & B & C & D). exists p, r. split; [easy|]. split; [easy|]. split; [|easy].
  eapply written_exec; eauto.
Qed.

(* what a step does to the disk *)
Lemma disk_step f ov n0 s0 s cs i c l s' l' : sG f PersistOnly s0 s cs ->
  sI f ov PersistOnly n0 s0 s cs i c l -> ststep f ov i s c l = Some (s', l') ->
  rb_lsm (ss_rib s') = rb_lsm (ss_rib s) \/
  (exists p r ups b b2 d, c = CInsert p r ups /\ l = LIns (IShort b b2) /\ rb_lsm (ss_rib s) = Some d /\
     rb_lsm (ss_rib s') = Some (kv_insert (short_key f p (r_mui r)) (sval r) d)) \/
  (exists sm p m t b recs d id r, c = CMark sm p m t /\ l = LMark (KRewrite (b :: recs)) /\
     l' = LMark (KRewrite recs) /\ rb_lsm (ss_rib s) = Some d /\ zc_record f b = Some (id, r) /\
     rb_lsm (ss_rib s') = Some (kv_insert (short_key f id (r_mui r)) (value_header t sm) d)).
Proof.
  intros G I T. pose proof (g_strat _ _ _ _ _ G) as SG.
  destruct (ststep_cases _ _ _ _ _ _ _ _ T) as
    [(p & r & ups & pc & pc' & -> & -> & -> & W)|
     [(sm & p & mui & lt & pc & pc' & -> & -> & -> & W)|[-> _]]]; [| |now left].
  - simpl in I. unfold istep in W. destruct pc; cbv zeta in W.
    + destruct (tnext _ _ _ _ _ _). injection W as <- <-. now left.
    + destruct I as (X & _). discriminate X.
    + destruct (pstep f p (pheap s) p0) as [[h o]| |]; injection W as <- <-; now left.
    + injection W as <- <-. now left.
    + destruct I as (X & _). easy.
    + injection W as <- <-. now left.
    + injection W as <- <-. now left.
    + destruct (deref k (pheap s)) as [v| |]; [destruct ups|..]; injection W as <- <-; now left.
    + destruct (deref k (pheap s)) as [v| |]; injection W as <- <-; now left.
    + destruct I as (X & _). easy.
    + destruct I as (X & _). discriminate X.
    + destruct (tnext _ _ _ _ _ _). injection W as <- <-. now left.
    + destruct (rb_lsm (ss_rib s)) as [d|] eqn:D; injection W as <- <-; [|left; now rewrite ?D].
      right; left. exists p, r, ups, b, b2, d. easy.
    + injection W as <- <-. now left.
    + injection W as <- <-. now left.
    + discriminate.
    + discriminate.
  - simpl in I. unfold kstep in W. destruct pc; cbv zeta in W.
    + rewrite SG in W. destruct (rb_lsm (ss_rib s)) eqn:D; injection W as <- <-; left; now rewrite ?D.
    + destruct I as (X & _). easy.
    + destruct I as (X & _). easy.
    + destruct I as (X & _). discriminate X.
    + destruct I as (X & _). discriminate X.
    + destruct recs as [|b recs]; [injection W as <- <-; now left|].
      destruct (rb_lsm (ss_rib s)) as [d|] eqn:D; [|injection W as <- <-; left; now rewrite ?D].
      unfold rewrite_header_for_record in W.
      destruct (zc_record f b) as [[id r]|] eqn:Z; injection W as <- <-; [|left; now rewrite ?D].
      right; right. exists sm, p, mui, lt, b, recs, d, id, r. easy.
    + discriminate.
    + discriminate.
Qed.

(* what a mark is about to rewrite *)
Definition to_rewrite (f : af) (x : cstore) (p : pid) (m : N) (b : bytes) : Prop :=
  exists r, wf_record r /\ r_mui r = m /\ written x p r /\ b = short_key f p m ++ sval r.

Lemma to_rewrite_exec f ov x y p m b : sexec f ov x y -> to_rewrite f x p m b -> to_rewrite f y p m b.
Proof.
  intros E (r & A & B & C & D). exists r. repeat (split; [easy|]). split; [|easy].
  eapply written_exec; eauto.
Qed.

Lemma to_rewrite_zc f x p m b : wf_pid f p -> to_rewrite f x p m b ->
  exists r, zc_record f b = Some (p, r) /\ r_mui r = m.
Proof.
  intros W (r & A & B & C & ->). exists r. split; [|easy]. rewrite <- B. now apply sval_zc.
Qed.

Lemma most_recent_in f kvs : forall r b, most_recent_loop f kvs r = Some b ->
  r = Some b \/ exists kv, In kv kvs /\ b = fst kv ++ snd kv.
Proof.
  induction kvs as [|[k v] kvs IH]; intros r b E; cbn [most_recent_loop] in E; [now left|].
  destruct (key_header f (k ++ v)) as [[id h]|]; [|discriminate].
  apply IH in E. destruct E as [E|(kv & I & E)].
  - destruct r as [r0|].
    + destruct (key_header f r0) as [[id0 h0]|].
      * destruct (r_ltime h0 <? r_ltime h); [|now left]. injection E as <-. right. exists (k, v). split; [now left|easy].
      * now left.
    + injection E as <-. right. exists (k, v). split; [now left|easy].
  - right. exists kv. split; [now right|easy].
Qed.

Lemma only_inv f ov x : reach f ov PersistOnly x -> wf_calls x ->
  (forall d k v, disk_of x = Some d -> In (k, v) d -> disk_rec f x k v) /\
  (forall i sm p m t recs b, nth_error (ths x) i = Some (CMark sm p m t, LMark (KRewrite recs)) ->
     In b recs -> to_rewrite f x p m b).
Proof.
  revert x. apply (reach_ind f ov PersistOnly (fun x => wf_calls x ->
  (forall d k v, disk_of x = Some d -> In (k, v) d -> disk_rec f x k v) /\
  (forall i sm p m t recs b, nth_error (ths x) i = Some (CMark sm p m t, LMark (KRewrite recs)) ->
     In b recs -> to_rewrite f x p m b))).
  - intros rb H _. split.
    + intros d k v D I. unfold rib_init in H. destruct (tree_new f); [|discriminate..].
      cbn in H. injection H as <-. injection D as <-. destruct I.
    + intros [|i] sm p m t recs b N; discriminate N.
  - intros s ts c R IH Lc WC.
    assert (E : sexec f ov (Conf s ts) (Conf s (ts ++ [(c, cstart c)]))) by (apply exec_one; now constructor).
    assert (WC' : wf_calls (Conf s ts)).
    { destruct WC as [W1 W2]. split; intros; [eapply W1|eapply W2]; eapply started_exec; eauto. }
    destruct (IH WC') as [A B]. split.
    + intros d k v D I. eapply disk_rec_exec; eauto.
    + intros i sm p m t recs b N I. cbn [ths] in N. destruct (Nat.lt_ge_cases i (length ts)) as [Hi|Hi].
      * rewrite nth_error_app1 in N by easy. eapply to_rewrite_exec; eauto.
      * rewrite nth_error_app2 in N by easy. destruct (i - length ts)%nat as [|n]; simpl in N; [|now destruct n].
        injection N as -> X. discriminate X.
  - intros s ts i c l s' l' R IH N T WC.
    assert (E : sexec f ov (Conf s ts) (Conf s' (set_nth i (c, l') ts))).
    { apply exec_one. econstructor; eauto. }
    assert (WC' : wf_calls (Conf s ts)).
    { destruct WC as [W1 W2]. split; intros; [eapply W1|eapply W2]; eapply started_exec; eauto. }
    destruct (IH WC') as [A B]. pose proof (reach_sok _ _ _ _ R) as SK.
    assert (ST : started (Conf s ts) i c) by (now exists l).
    pose proof (wf_prefix _ _ _ _ _ _ _ _ SK ST) as Wp.
    pose proof (proj2 SK i c l N) as I. cbn [sh] in I.
    split.
    + intros d k v D Ik. unfold disk_of in *. cbn [sh] in *.
      destruct (disk_step f ov _ _ s _ i c l s' l' (proj1 SK) I T) as
        [X|[(p & r & ups & b & b2 & d0 & -> & -> & D0 & D1)|
            (sm & p & m & t & b & recs & d0 & id & r & -> & -> & -> & D0 & Z & D1)]].
      * rewrite X in D. eapply disk_rec_exec; eauto.
      * rewrite D1 in D. injection D as <-.
        apply kv_insert_In in Ik; [|exact (g_kv _ _ _ _ _ (proj1 SK) d0 D0)].
        destruct Ik as [(-> & ->)|(_ & Ik)]; [|eapply disk_rec_exec; eauto].
        apply (disk_rec_exec f ov (Conf s ts)); [exact E|]. exists p, r.
        split; [exact Wp|]. split; [exact (proj1 WC' i p r ups ST)|]. split; [|easy].
        exists i, r, ups. auto.
      * rewrite D1 in D. injection D as <-.
        apply kv_insert_In in Ik; [|exact (g_kv _ _ _ _ _ (proj1 SK) d0 D0)].
        destruct Ik as [(-> & ->)|(_ & Ik)]; [|eapply disk_rec_exec; eauto].
        apply (disk_rec_exec f ov (Conf s ts)); [exact E|]. cbn [prefix_of] in Wp.
        pose proof (B i sm p m t (b :: recs) b N (or_introl eq_refl)) as TR.
        destruct (to_rewrite_zc f _ p m b Wp TR) as (r1 & Z1 & M1). rewrite Z in Z1. injection Z1 as -> ->.
        exists p, (Rec m t sm []). rewrite M1. cbn [r_mui].
        split; [exact Wp|]. split; [exact (proj2 WC' i sm p m t ST)|].
        split; [|split; [easy|unfold sval; cbn [r_ltime r_status r_meta]; now rewrite app_nil_r]].
        destruct TR as (r2 & _ & M2 & (i0 & r0 & ups0 & S0 & M0 & _) & _).
        exists i0, r0, ups0. split; [exact S0|]. cbn [r_mui r_status r_ltime r_meta]. split; [congruence|].
        right. exists i. auto.
    + intros j sm p m t recs b N0 Ib. cbn [ths] in N0.
      rewrite nth_set_nth in N0 by (eapply nth_some_lt; eauto).
      destruct (Nat.eqb_spec i j) as [->|]; [|eapply to_rewrite_exec; eauto].
      injection N0 as -> ->. apply (to_rewrite_exec f ov (Conf s ts)); [exact E|].
      destruct (ststep_cases _ _ _ _ _ _ _ _ T) as
        [(p1 & r1 & ups1 & pc1 & pc' & X1 & _)|
         [(sm1 & p1 & mui & lt & pc1 & pc' & X1 & -> & X2 & W)|[_ [(p1 & pc1 & pc' & X1 & _)|
          (p1 & m1 & iw & pc1 & pc' & X1 & _)]]]]; try discriminate X1.
      injection X1 as <- <- <- <-. injection X2 as <-. cbn [prefix_of] in Wp.
      pose proof (g_strat _ _ _ _ _ (proj1 SK)) as SG. cbn [sh] in SG.
      unfold kstep in W. destruct pc1; cbv zeta in W.
      * rewrite SG in W. destruct (rb_lsm (ss_rib s)) as [d|] eqn:D; [|discriminate W].
        injection W as <- <-.
        assert (Q : exists kv, In kv (kv_prefix (short_key f p m) d) /\ b = fst kv ++ snd kv).
        { assert (Q1 : In b (records_with_keys_for_prefix_mui f d p m) ->
            exists kv, In kv (kv_prefix (short_key f p m) d) /\ b = fst kv ++ snd kv).
          { unfold records_with_keys_for_prefix_mui. rewrite in_map_iff. intros (kv & Q1 & Q2). eauto. }
          destruct sm; auto.
          unfold most_recent_record_for_prefix_mui in Ib.
          destruct (most_recent_loop f (kv_prefix (short_key f p m) d) None) as [b0|] eqn:ML; [|destruct Ib].
          destruct Ib as [<-|[]]. apply most_recent_in in ML. destruct ML as [ML|ML]; [discriminate|easy]. }
        destruct Q as ([k v] & Q & ->). apply In_kv_prefix in Q. destruct Q as [Q IP]. cbn [fst snd].
        destruct (A d k v D Q) as (q & r & Wq & Wr & WR & -> & ->).
        apply is_prefix_spec in IP. destruct IP as [rest IP].
        destruct (proj2 WC' j sm p m t ST) as [Hm Ht].
        assert (LN : rest = []).
        { apply (f_equal (@length _)) in IP. rewrite app_length, !short_key_length in IP.
          destruct rest; [easy|simpl in IP; lia]. }
        subst rest. rewrite app_nil_r in IP. apply short_key_inj in IP; auto; [|apply Wr].
        destruct IP as [-> IP]. exists r. rewrite IP. easy.
      * destruct I as (X & _). easy.
      * destruct I as (X & _). easy.
      * destruct I as (X & _). discriminate X.
      * destruct I as (X & _). discriminate X.
      * destruct recs0 as [|b0 recs0]; [discriminate W|].
        destruct (rb_lsm (ss_rib s)) as [d|] eqn:D; [|discriminate W].
        destruct (rewrite_header_for_record f d t sm b0); [|discriminate W].
        injection W as <- <-. eapply B; eauto. now right.
      * discriminate.
      * discriminate.
Qed.

Lemma conc_only_stays f ov x y i p r ups rep : reach f ov PersistOnly x ->
  returned x i (CInsert p r ups) (RetIns (ROk rep)) -> sexec f ov x y ->
  exists d v, disk_of y = Some d /\ In (short_key f p (r_mui r), v) d.
Proof.
  intros R (l & N & V) E. pose proof (proj2 (reach_sok _ _ _ _ R) i _ _ N) as I.
  destruct (reach_from _ _ _ _ _ R E) as [_ RR].
  destruct l as [pc|pc|pc|pc]; try (destruct pc; discriminate V).
  destruct pc as [| | | | | | | | | | | | | | | [rep0|e] |]; try discriminate V.
  injection V as ->. cbn [sI iI] in I. destruct I as (_ & K & _). unfold kept in K.
  apply RR in K. exact K.
Qed.

Lemma conc_only_disk f ov x d k v : reach f ov PersistOnly x -> wf_calls x ->
  disk_of x = Some d -> In (k, v) d ->
  exists p r, written x p r /\ k = short_key f p (r_mui r) /\
    v = value_header (r_ltime r) (r_status r) ++ r_meta r.
Proof.
  intros R W D I. destruct (proj1 (only_inv f ov x R W) d k v D I) as (p & r & _ & _ & A & B & C).
  exists p, r. auto.
Qed.

Lemma wf_calls_back f ov x y : sexec f ov x y -> wf_calls y -> wf_calls x.
Proof. intros E [W1 W2]. split; intros; [eapply W1|eapply W2]; eapply started_exec; eauto. Qed.

(* the step of a mark under PersistOnly *)
Lemma only_mark_step f ov s ts i sm p m t pc s' pc' : reach f ov PersistOnly (Conf s ts) -> wf_calls (Conf s ts) ->
  nth_error ts i = Some (CMark sm p m t, LMark pc) -> kstep f i s sm p m t pc = Some (s', pc') ->
  (exists d, pc = KStart /\ s' = s /\ rb_lsm (ss_rib s) = Some d /\
     pc' = KRewrite (match sm with
                     | Active => match most_recent_record_for_prefix_mui f d p m with
                                 | Some b => [b] | None => [] end
                     | _ => records_with_keys_for_prefix_mui f d p m
                     end)) \/
  (exists b recs d, pc = KRewrite (b :: recs) /\ pc' = KRewrite recs /\ rb_lsm (ss_rib s) = Some d /\
     rb_lsm (ss_rib s') = Some (kv_insert (short_key f p m) (value_header t sm) d)) \/
  (pc = KRewrite [] /\ pc' = KDone (ROk tt)).
Proof.
  intros R W N T. pose proof (reach_sok _ _ _ _ R) as SK.
  pose proof (proj2 SK i _ _ N) as I. pose proof (g_strat _ _ _ _ _ (proj1 SK)) as SG.
  pose proof (g_lsm _ _ _ _ _ (proj1 SK)) as NL. cbn [sh] in *.
  assert (ST : started (Conf s ts) i (CMark sm p m t)) by (eexists; exact N).
  pose proof (wf_prefix _ _ _ _ _ _ _ _ SK ST) as Wp. cbn [prefix_of] in Wp.
  unfold kstep in T. destruct pc; cbv zeta in T; cbn [sI kI] in I; try (destruct I as (X & _); easy);
    try discriminate T.
  - rewrite SG in T. destruct (rb_lsm (ss_rib s)) as [d|] eqn:D; [|now discriminate NL].
    injection T as <- <-. left. exists d. auto.
  - destruct recs as [|b recs]; [injection T as <- <-; right; right; easy|].
    destruct (rb_lsm (ss_rib s)) as [d|] eqn:D; [|now discriminate NL].
    destruct (to_rewrite_zc f _ p m b Wp (proj2 (only_inv f ov _ R W) i sm p m t _ b N (or_introl eq_refl)))
      as (r & Z & M).
    unfold rewrite_header_for_record in T. rewrite Z in T. injection T as <- <-.
    right; left. exists b, recs, d. rewrite M. auto.
Qed.

Lemma only_mark_result f ov x : reach f ov PersistOnly x -> wf_calls x ->
  forall i sm p m t a, nth_error (ths x) i = Some (CMark sm p m t, LMark (KDone a)) -> a = ROk tt.
Proof.
  revert x. apply (reach_ind f ov PersistOnly (fun x => wf_calls x ->
    forall i sm p m t a, nth_error (ths x) i = Some (CMark sm p m t, LMark (KDone a)) -> a = ROk tt)).
  - intros rb _ _ [|i] sm p m t a N; discriminate N.
  - intros s ts c R IH Lc W i sm p m t a N. cbn [ths] in N.
    assert (E : sexec f ov (Conf s ts) (Conf s (ts ++ [(c, cstart c)]))) by (apply exec_one; now constructor).
    destruct (Nat.lt_ge_cases i (length ts)) as [Hi|Hi].
    + rewrite nth_error_app1 in N by easy. eapply IH; eauto. eapply wf_calls_back; eauto.
    + rewrite nth_error_app2 in N by easy. destruct (i - length ts)%nat as [|n]; simpl in N; [|now destruct n].
      injection N as -> X. discriminate X.
  - intros s ts i c l s' l' R IH N T W j sm p m t a N0. cbn [ths] in N0.
    assert (E : sexec f ov (Conf s ts) (Conf s' (set_nth i (c, l') ts))).
    { apply exec_one. econstructor; eauto. }
    pose proof (wf_calls_back _ _ _ _ E W) as W'.
    rewrite nth_set_nth in N0 by (eapply nth_some_lt; eauto).
    destruct (Nat.eqb_spec i j) as [->|]; [|eapply IH; eauto].
    injection N0 as -> ->.
    destruct (ststep_cases _ _ _ _ _ _ _ _ T) as
        [(p1 & r1 & ups1 & pc1 & pc' & X1 & _)|
         [(sm1 & p1 & mui & lt & pc1 & pc' & X1 & -> & X2 & Q)|[_ [(p1 & pc1 & pc' & X1 & _)|
          (p1 & m1 & iw & pc1 & pc' & X1 & _)]]]]; try discriminate X1.
    injection X1 as <- <- <- <-. injection X2 as <-.
    destruct (only_mark_step f ov s ts j sm p m t pc1 s' _ R W' N Q) as
      [(d & _ & _ & _ & X)|[(b & recs & d & _ & X & _)|(_ & X)]]; try discriminate X.
    now injection X as ->.
Qed.

Lemma conc_only_mark_ok f ov x i sm p m t v : reach f ov PersistOnly x -> wf_calls x ->
  returned x i (CMark sm p m t) v -> v = RetMark (ROk tt).
Proof.
  intros R W (l & N & V). pose proof (proj2 (reach_sok _ _ _ _ R) i _ _ N) as I.
  destruct l as [pc|pc|pc|pc]; try contradiction I. destruct pc; try discriminate V.
  - injection V as <-. now rewrite (only_mark_result f ov x R W _ _ _ _ _ _ N).
  - destruct I.
Qed.

(* a withdrawal that begins after the insert has returned is at some moment what
   is on disk *)
Definition marked_between (f : af) (ov : bool) (x y : cstore) (p : pid) (m t : N) : Prop :=
  exists z d, sexec f ov x z /\ sexec f ov z y /\ disk_of z = Some d /\
    In (short_key f p m, value_header t Withdrawn) d.

Lemma since_marked f ov x p m t : reach f ov PersistOnly x ->
  on_disk (sh x) (short_key f p m) ->
  forall y, sexec f ov x y -> wf_calls y ->
  forall j pc, begins_after x j -> nth_error (ths y) j = Some (CMark Withdrawn p m t, LMark pc) ->
    match pc with
    | KStart => True
    | KRewrite (_ :: _) => True
    | _ => marked_between f ov x y p m t
    end.
Proof.
  intros Rx OD. apply (exec_from_ind f ov x (fun y => wf_calls y ->
  forall j pc, begins_after x j -> nth_error (ths y) j = Some (CMark Withdrawn p m t, LMark pc) ->
    match pc with
    | KStart => True
    | KRewrite (_ :: _) => True
    | _ => marked_between f ov x y p m t
    end)).
  - intros _ j pc B N. unfold begins_after in B. pose proof (nth_some_lt _ _ _ N). lia.
  - intros s ts c E IH Lc W j pc B N. cbn [ths] in N.
    assert (E1 : sexec f ov (Conf s ts) (Conf s (ts ++ [(c, cstart c)]))) by (apply exec_one; now constructor).
    destruct (Nat.lt_ge_cases j (length ts)) as [Hj|Hj].
    + rewrite nth_error_app1 in N by easy. specialize (IH (wf_calls_back _ _ _ _ E1 W) j pc B N).
      assert (K : marked_between f ov x (Conf s ts) p m t ->
        marked_between f ov x (Conf s (ts ++ [(c, cstart c)])) p m t).
      { intros (z & d & A1 & A2 & A3). exists z, d. split; [easy|]. split; [|easy].
        eapply exec_trans; [exact A2|exact E1]. }
      destruct pc as [| | | | |[|]| |]; auto.
    + rewrite nth_error_app2 in N by easy. destruct (j - length ts)%nat as [|n]; simpl in N; [|now destruct n].
      injection N as -> X. injection X as <-. exact I.
  - intros s ts i c l s' l' E IH N T W j pc B N0. cbn [ths] in N0.
    assert (E1 : sexec f ov (Conf s ts) (Conf s' (set_nth i (c, l') ts))).
    { apply exec_one. econstructor; eauto. }
    pose proof (exec_trans _ _ _ _ _ _ E E1) as E'.
    pose proof (wf_calls_back _ _ _ _ E1 W) as W'. specialize (IH W').
    assert (K : marked_between f ov x (Conf s ts) p m t ->
        marked_between f ov x (Conf s' (set_nth i (c, l') ts)) p m t).
    { intros (z & d & A1 & A2 & A3). exists z, d. split; [easy|]. split; [|easy].
      eapply exec_trans; [exact A2|exact E1]. }
    rewrite nth_set_nth in N0 by (eapply nth_some_lt; eauto).
    destruct (Nat.eqb_spec i j) as [->|].
    2:{ specialize (IH j pc B N0). destruct pc as [| | | | |[|]| |]; auto. }
    injection N0 as -> ->.
    destruct (ststep_cases _ _ _ _ _ _ _ _ T) as
        [(p1 & r1 & ups1 & pc1 & pc' & X1 & _)|
         [(sm1 & p1 & mui & lt & pc1 & pc' & X1 & -> & X2 & Q)|[_ [(p1 & pc1 & pc' & X1 & _)|
          (p1 & m1 & iw & pc1 & pc' & X1 & _)]]]]; try discriminate X1.
    injection X1 as <- <- <- <-. injection X2 as <-.
    pose proof (reach_exec f ov _ x _ Rx E) as Rs. pose proof (reach_exec f ov _ x _ Rx E') as Rs'.
    destruct (only_mark_step f ov s ts j Withdrawn p m t pc1 s' pc Rs W' N Q) as
      [(d & _ & _ & D & X)|[(b & recs & d & -> & -> & D & D')|(-> & ->)]].
    + subst pc. destruct (reach_from _ _ _ _ _ Rx E) as [_ RR].
      apply RR in OD. destruct OD as (d0 & v & D0 & IN). cbn [sh] in D0. rewrite D in D0. injection D0 as <-.
      unfold records_with_keys_for_prefix_mui.
      assert (IP : In (short_key f p m, v) (kv_prefix (short_key f p m) d)).
      { apply In_kv_prefix. split; [exact IN|]. apply is_prefix_spec. exists []. now rewrite app_nil_r. }
      destruct (kv_prefix (short_key f p m) d); [destruct IP|exact I].
    + destruct recs as [|? ?]; [|exact I].
      eexists _, _. split; [exact E'|]. split; [apply ex_refl|]. split; [exact D'|].
      apply kv_insert_In; [|now left].
      exact (g_kv _ _ _ _ _ (proj1 (reach_sok _ _ _ _ Rs)) d D).
    + apply K. exact (IH j (KRewrite []) B N).
Qed.

Lemma conc_only_mark f ov x y i j p r ups rep m t v : reach f ov PersistOnly x ->
  returned x i (CInsert p r ups) (RetIns (ROk rep)) -> r_mui r = m ->
  sexec f ov x y -> wf_calls y -> begins_after x j ->
  returned y j (CMark Withdrawn p m t) v ->
  exists z d, sexec f ov x z /\ sexec f ov z y /\ disk_of z = Some d /\
    In (short_key f p m, value_header t Withdrawn) d.
Proof.
  intros R D M E W B V. pose proof (reach_exec _ _ _ _ _ R E) as Ry.
  pose proof (conc_only_mark_ok f ov y j _ _ _ _ _ Ry W V) as ->.
  destruct V as (l & N & V). destruct l as [pc|pc|pc|pc]; try (destruct pc; discriminate V).
  destruct pc; try discriminate V.
  refine (since_marked f ov x p m t R _ y E W j (KDone r0) B N).
  subst m. destruct (conc_only_stays f ov x x i p r ups rep R D (ex_refl _ _ _ _)) as (d & v & A1 & A2).
  now exists d, v.
Qed.
