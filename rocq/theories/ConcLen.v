(* The counters per prefix length under concurrency, and what an insert means that
   reports a route as known. *)
From Coq Require Import Arith NArith List Bool Lia.
From Verif Require Import Word Af Maps Cht Tree TreeProofs MultiMap PrefixCht PrefixChtProofs Lsm
  Rib HistSpec Conc ConcTree ConcTreeProofs ConcTable ConcStore ConcStoreInv ConcStoreStep ConcInsert ConcCalls ConcSpec ConcFacts
  ConcCount.
Import ListNotations.
Local Open Scope N_scope.

Definition prefixes_at (s : sstate) : list N := c_prefixes (rb_cnt (ss_rib s)).

(* the counters of prefixes change with the list of the calls that have counted *)
Definition not_counting (s s' : sstate) : Prop :=
  prefixes_at s' = prefixes_at s /\ ss_counted s' = ss_counted s.

Lemma len_istep f ov i s p r ups pc s' pc' : istep f ov i s p r ups pc = Some (s', pc') ->
  not_counting s s' \/
  (prefixes_at s' = inc_nth (N.to_nat (p_len p)) (prefixes_at s) /\ ss_counted s' = ss_counted s ++ [i]).
Proof.
  intros E. unfold istep in E. destruct pc; cbv zeta in E.
  - destruct (tnext f ov p (r_mui r) (rb_tree (ss_rib s)) t) as [tr t']. injection E as <- <-. now left.
  - destruct (rb_lsm (ss_rib s)); injection E as <- <-; now left.
  - destruct (pstep f p (pheap s) p0) as [[h o]| |]; injection E as <- <-; now left.
  - injection E as <- <-. now left.
  - destruct (deref k (pheap s)) as [v| |]; [|injection E as <- <-; now left..].
    destruct (upsert_record (pv_recs v) r) as [m o]. injection E as <- <-. now left.
  - injection E as <- <-. now left.
  - injection E as <- <-. now left.
  - destruct (deref k (pheap s)) as [v| |]; [destruct ups|..]; injection E as <- <-; now left.
  - destruct (deref k (pheap s)) as [v| |]; injection E as <- <-; now left.
  - destruct (deref k (pheap s)) as [v| |]; [|injection E as <- <-; now left..].
    destruct (_ && _); injection E as <- <-; now left.
  - injection E as <- <-. destruct (rb_lsm (ss_rib s)); now left.
  - destruct (tnext f ov p (r_mui r) (rb_tree (ss_rib s)) t) as [tr t']. injection E as <- <-. now left.
  - destruct (rb_lsm (ss_rib s)); injection E as <- <-; now left.
  - injection E as <- <-. now left.
  - injection E as <- <-. now right.
  - discriminate.
  - discriminate.
Qed.

Lemma len_kstep f i s sm p mui lt pc s' pc' : kstep f i s sm p mui lt pc = Some (s', pc') -> not_counting s s'.
Proof.
  intros E. unfold kstep in E. destruct pc; cbv zeta in E.
  - destruct (rb_strat (ss_rib s)); try (injection E as <- <-; easy).
    destruct (rb_lsm (ss_rib s)); injection E as <- <-; easy.
  - destruct (pstep f p (pheap s) p0) as [[h o]| |]; injection E as <- <-; easy.
  - injection E as <- <-. easy.
  - destruct (deref k (pheap s)); injection E as <- <-; easy.
  - destruct (rb_lsm (ss_rib s)); injection E as <- <-; easy.
  - destruct recs as [|b recs]; [injection E as <- <-; easy|].
    destruct (rb_lsm (ss_rib s)); [|injection E as <- <-; easy].
    destruct (rewrite_header_for_record _ _ _ _ _); injection E as <- <-; easy.
  - discriminate.
  - discriminate.
Qed.

Definition of_len (cs : list scall) (len : N) (j : nat) : bool :=
  match nth_error cs j with Some (CInsert p _ _) => p_len p =? len | _ => false end.

Lemma of_len_call (s : sstate) ts c len j : (j < length ts)%nat ->
  of_len (calls (Conf s (ts ++ [(c, cstart c)]))) len j = of_len (calls (Conf s ts)) len j.
Proof.
  intros H. unfold of_len, calls. cbn [ths]. rewrite map_app, nth_error_app1; [easy|]. now rewrite map_length.
Qed.

Lemma len_inv f ov st x : reach f ov st x ->
  forall len, nth (N.to_nat len) (prefixes_at (sh x)) 0 = cnt (of_len (calls x) len) (ss_counted (sh x)).
Proof.
  revert x. apply (reach_ind f ov st (fun x => forall len, nth (N.to_nat len) (prefixes_at (sh x)) 0 =
    cnt (of_len (calls x) len) (ss_counted (sh x)))).
  - intros rb H len. unfold rib_init in H. destruct (tree_new f); [|discriminate..].
    cbn [bind] in H. injection H as <-. unfold prefixes_at. cbn [sh sconf0 ss_rib ss_counted rb_cnt].
    unfold counters_new, c_prefixes. change (cnt _ []) with 0. apply nth_repeat.
  - intros s ts c R IH Lc len. specialize (IH len). cbn [sh] in *. rewrite IH. apply cnt_ext. intros j J.
    symmetry. apply of_len_call.
    destruct (g_counted _ _ _ _ _ (proj1 (reach_sok _ _ _ _ R)) j J) as (p & r & ups & N).
    apply nth_some_lt in N. unfold calls in N. now rewrite map_length in N.
  - intros s ts i c l s' l' R IH N T len. cbn [sh].
    assert (CS : calls (Conf s' (set_nth i (c, l') ts)) = calls (Conf s ts)).
    { unfold calls. cbn [ths]. rewrite map_set_nth. apply set_nth_same.
      rewrite nth_error_map, N. easy. }
    rewrite CS. specialize (IH len). cbn [sh] in IH.
    destruct (ststep_cases _ _ _ _ _ _ _ _ T) as
        [(p & r & ups & pc & pc' & -> & -> & -> & W)|
         [(sm & p & mui & lt & pc & pc' & -> & -> & -> & W)|[-> _]]]; [| |easy].
    + destruct (len_istep _ _ _ _ _ _ _ _ _ _ W) as [[A B]|[A B]]; rewrite A, B; [easy|].
      rewrite inc_nth_nth, cnt_app, cnt_one, IH. f_equal. unfold b2n, of_len.
      rewrite (calls_nth (Conf s ts) i _ _ N).
      pose proof (reach_sok _ _ _ _ R) as SK.
      pose proof (g_cnt_len _ _ _ _ _ (proj1 SK)) as L129. cbn [sh] in L129. fold (prefixes_at s) in L129.
      rewrite L129.
      assert (Wp : wf_pid f p). { apply (wf_prefix _ _ _ _ _ _ i (CInsert p r ups) SK). eexists. exact N. }
      assert (p_len p <= 128). { destruct Wp as [Wp _]. unfold BITS in Wp. destruct f; lia. }
      destruct (N.eqb_spec (p_len p) len) as [<-|NE].
      * rewrite Nat.eqb_refl. simpl. replace (N.to_nat (p_len p) <? 129)%nat with true; [easy|].
        symmetry. apply Nat.ltb_lt. lia.
      * replace (N.to_nat (p_len p) =? N.to_nat len)%nat with false; [easy|].
        symmetry. apply Nat.eqb_neq. lia.
    + destruct (len_kstep _ _ _ _ _ _ _ _ _ _ W) as [A B]. now rewrite A, B.
Qed.

(* the counter of one length *)
Lemma count_for_len f ov st x len : reach f ov st x -> len <= BITS f ->
  rib_prefixes_count_for_len f (ss_rib (sh x)) len =
  Ok (ROk (UCounters 0 0 (N.of_nat (length (filter (of_len (calls x) len) (ss_counted (sh x))))))).
Proof.
  intros R Le. unfold rib_prefixes_count_for_len, tree_prefixes_count_for_len.
  apply N.leb_le in Le. rewrite Le. apply N.leb_le in Le.
  pose proof (reach_sok _ _ _ _ R) as SK. pose proof (g_cnt_len _ _ _ _ _ (proj1 SK)) as L129.
  assert (len <= 128). { unfold BITS in Le. destruct f; lia. }
  destruct (nth_error (c_prefixes (rb_cnt (ss_rib (sh x)))) (N.to_nat len)) as [c|] eqn:E.
  2:{ apply nth_error_None in E. lia. }
  pose proof (len_inv f ov st x R len) as Q. unfold prefixes_at in Q.
  rewrite (nth_error_nth _ _ _ E) in Q. now rewrite Q.
Qed.

Lemma conc_len_at_least f ov st x ps len n : reach f ov st x -> idle x -> no_errors x -> NoDup ps ->
  (forall p, In p ps -> p_len p = len /\
     exists i r ups rep, returned x i (CInsert p r ups) (RetIns (ROk rep))) ->
  rib_prefixes_count_for_len f (ss_rib (sh x)) len = Ok (ROk n) ->
  N.of_nat (length ps) <= uc_total n.
Proof.
  intros R Id NE ND H E. pose proof (reach_sok _ _ _ _ R) as S.
  assert (Le : len <= BITS f).
  { unfold rib_prefixes_count_for_len in E. destruct (N.leb_spec len (BITS f)); [easy|discriminate]. }
  rewrite (count_for_len f ov st x len R Le) in E. injection E as <-. cbn [uc_total].
  assert (length ps <= length (filter (of_len (calls x) len) (ss_counted (sh x))))%nat; [|lia].
  apply (incl_len (fun p j => exists r ups, started x j (CInsert p r ups))); auto.
  - intros p P. destruct (H p P) as (PL & i & r & ups & rep & D).
    destruct (maker _ _ _ _ _ _ _ _ _ _ _ S Id NE D) as (j & r' & ups' & rep' & (l & N & _) & B & _).
    exists j. split; [|exists r', ups', l; easy]. apply filter_In. split; [easy|].
    unfold of_len. rewrite (calls_nth x j _ _ N). now apply N.eqb_eq.
  - intros p q j (r1 & u1 & l1 & E1) (r2 & u2 & l2 & E2). rewrite E1 in E2. congruence.
Qed.

Lemma conc_len_at_most f ov st x len n : reach f ov st x -> idle x ->
  rib_prefixes_count_for_len f (ss_rib (sh x)) len = Ok (ROk n) ->
  exists js, NoDup js /\ N.of_nat (length js) = uc_total n /\
    forall j, In j js -> exists p r ups rep, returned x j (CInsert p r ups) (RetIns (ROk rep)) /\
      p_len p = len /\ rp_prefix_new rep = true.
Proof.
  intros R Id E. pose proof (reach_sok _ _ _ _ R) as S.
  assert (Le : len <= BITS f).
  { unfold rib_prefixes_count_for_len in E. destruct (N.leb_spec len (BITS f)); [easy|discriminate]. }
  rewrite (count_for_len f ov st x len R Le) in E. injection E as <-.
  exists (filter (of_len (calls x) len) (ss_counted (sh x))).
  split; [apply NoDup_filter, (g_counted_nd _ _ _ _ _ (proj1 S))|]. split; [easy|].
  intros j J. apply filter_In in J. destruct J as [J Q].
  destruct (g_counted _ _ _ _ _ (proj1 S) _ J) as (p & r & ups & N).
  unfold of_len in Q. rewrite N in Q. apply N.eqb_eq in Q.
  apply started_calls in N. destruct (Id _ _ N) as (v & Rt & NP).
  pose proof Rt as (l & Qn & Rv). pose proof (proj2 S _ _ _ Qn) as A.
  destruct l as [pc|pc|pc|pc]; try easy. destruct pc; try discriminate Rv.
  - injection Rv as <-. destruct r0 as [rep|e]; simpl in A; [|tauto].
    exists p, r, ups, rep. split; [easy|]. tauto.
  - injection Rv as <-. easy.
Qed.

(* ---------- an insert that reports a known route ---------- *)

Definition rep_in (pc : ipc) : option report :=
  match pc with
  | IHist _ rep _ | IRibRoute _ rep | IRibPrefix _ rep | IDone (ROk rep) => Some rep
  | _ => None
  end.
Definition known_in (pc : ipc) : bool :=
  match rep_in pc with Some rep => negb (rp_mui_new rep) | None => false end.

Lemma known_route b rep : known_in (after_route b rep) = negb (rp_mui_new rep).
Proof. unfold after_route. now destruct (snd b). Qed.
Lemma known_upsert b rep : known_in (after_upsert b rep) = negb (rp_mui_new rep).
Proof. unfold after_upsert. destruct (rp_mui_new rep) eqn:E; [|rewrite known_route]; cbn; now rewrite E. Qed.
Lemma known_cht st b o pn mn : known_in (after_cht st b o pn mn) = negb mn.
Proof. unfold after_cht. destruct st, o as [[? ?]|]; rewrite ?known_upsert; easy. Qed.
Lemma known_count st ups b k o : known_in (after_count st ups b k o) = false.
Proof. unfold after_count. destruct ups; [easy|]. now rewrite known_cht. Qed.
Lemma known_begin f rb p b : known_in (or_ipanic (begin_upsert f rb p b)) = false.
Proof.
  unfold begin_upsert. destruct (rb_strat rb); try (destruct (walk_start f PSTRIDE p); easy);
    destruct (rb_lsm rb); easy.
Qed.

Lemma known_step f ov i s p r ups pc s' pc' : istep f ov i s p r ups pc = Some (s', pc') ->
  known_in pc' = true -> known_in pc = true \/
  exists b k v o, pc = IUpsert b k false /\ deref k (pheap s) = Ok v /\
    snd (upsert_record (pv_recs v) r) = Some o /\ ss_log s' = ss_log s ++ [(i, p, OUp r)].
Proof.
  intros E H. unfold istep in E. destruct pc; cbv zeta in E.
  - destruct (tnext f ov p (r_mui r) (rb_tree (ss_rib s)) t) as [tr t']. injection E as <- <-.
    destruct t'; try discriminate H. destruct r0 as [[? ?]|]; [|discriminate H].
    rewrite known_begin in H. discriminate H.
  - destruct (rb_lsm (ss_rib s)); injection E as <- <-; [|discriminate H].
    destruct (walk_start f PSTRIDE p); cbn in H; discriminate H.
  - destruct (pstep f p (pheap s) p0) as [[h o]| |]; injection E as <- <-; [|discriminate H..].
    destruct o as [|? []]; discriminate H.
  - injection E as <- <-. discriminate H.
  - destruct (deref k (pheap s)) as [v| |] eqn:D; [|injection E as <- <-; discriminate H..].
    destruct (upsert_record (pv_recs v) r) as [m o] eqn:U. injection E as <- <-.
    destruct o as [o|]; [|discriminate H]. destruct found; [now rewrite known_count in H|].
    right. exists b, k, v, o. split; [easy|]. split; [exact D|]. split; [now rewrite U|easy].
  - injection E as <- <-. destruct found; [|discriminate H]. now rewrite known_count in H.
  - injection E as <- <-. now rewrite known_cht in H.
  - destruct (deref k (pheap s)) as [v| |]; [destruct ups|..]; injection E as <- <-; discriminate H.
  - destruct (deref k (pheap s)) as [v| |]; injection E as <- <-; try discriminate H.
    destruct (sel_eqb (pv_sel v) sel); [|discriminate H]. now rewrite known_cht in H.
  - destruct (deref k (pheap s)) as [v| |]; [|injection E as <- <-; discriminate H..].
    destruct (_ && _); injection E as <- <-; [|discriminate H]. now rewrite known_cht in H.
  - injection E as <- <-. rewrite known_upsert in H. now left.
  - destruct (tnext f ov p (r_mui r) (rb_tree (ss_rib s)) t) as [tr t'].
    injection E as <- <-. destruct t'; try discriminate H. destruct r0 as [[? ?]|]; discriminate H.
  - destruct (rb_lsm (ss_rib s)); injection E as <- <-; [|discriminate H].
    rewrite known_upsert in H. discriminate H.
  - injection E as <- <-. rewrite known_route in H. now left.
  - injection E as <- <-. now left.
  - discriminate.
  - discriminate.
Qed.

Lemma known_inv f ov st x : reach f ov st x ->
  forall i p r ups pc, nth_error (ths x) i = Some (CInsert p r ups, LIns pc) -> known_in pc = true ->
    exists l1 l2, order x = l1 ++ (i, p, OUp r) :: l2 /\ rec_after p (r_mui r) l1 <> None.
Proof.
  revert x. apply (reach_ind f ov st (fun x => forall i p r ups pc,
    nth_error (ths x) i = Some (CInsert p r ups, LIns pc) -> known_in pc = true ->
    exists l1 l2, order x = l1 ++ (i, p, OUp r) :: l2 /\ rec_after p (r_mui r) l1 <> None)).
  - intros rb _ [|i] p r ups pc N; discriminate N.
  - intros s ts c R IH Lc i p r ups pc N H. cbn [ths] in N.
    destruct (Nat.lt_ge_cases i (length ts)) as [Hi|Hi].
    + rewrite nth_error_app1 in N by easy. exact (IH _ _ _ _ _ N H).
    + rewrite nth_error_app2 in N by easy. destruct (i - length ts)%nat as [|n]; simpl in N; [|now destruct n].
      injection N as -> X. injection X as <-. discriminate H.
  - intros s ts i c l s' l' R IH N T j p r ups pc N0 H. cbn [ths] in N0.
    assert (E : sexec f ov (Conf s ts) (Conf s' (set_nth i (c, l') ts))).
    { apply exec_one. econstructor; eauto. }
    destruct (conc_order_extends f ov st _ _ R E) as [(l3 & OE) _].
    assert (K : (exists l1 l2, order (Conf s ts) = l1 ++ (j, p, OUp r) :: l2 /\ rec_after p (r_mui r) l1 <> None) ->
      exists l1 l2, order (Conf s' (set_nth i (c, l') ts)) = l1 ++ (j, p, OUp r) :: l2 /\
        rec_after p (r_mui r) l1 <> None).
    { intros (l1 & l2 & A & B). exists l1, (l2 ++ l3). split; [|easy]. rewrite OE, A, <- app_assoc. easy. }
    rewrite nth_set_nth in N0 by (eapply nth_some_lt; eauto).
    destruct (Nat.eqb_spec i j) as [->|]; [|apply K; eapply IH; eauto].
    injection N0 as -> ->.
    destruct (ststep_cases _ _ _ _ _ _ _ _ T) as
        [(p1 & r1 & ups1 & pc1 & pc' & X1 & -> & X2 & W)|
         [(sm1 & p1 & mui & lt & pc1 & pc' & X1 & _)|[_ [(p1 & pc1 & pc' & X1 & _)|
          (p1 & m1 & iw & pc1 & pc' & X1 & _)]]]]; try discriminate X1.
    injection X1 as <- <- <-. injection X2 as <-.
    destruct (known_step _ _ _ _ _ _ _ _ _ _ W H) as [H0|(b & k & v & o & -> & D & U & LG)].
    + apply K. eapply IH; eauto.
    + pose proof (reach_sok _ _ _ _ R) as SK.
      pose proof (proj2 SK j _ _ N) as I. cbn [sI iI sh] in I. destruct I as (_ & _ & _ & _ & AT & _).
      destruct (at_id_lookup _ _ _ AT) as (v0 & DR & sl & LK). rewrite DR in D. injection D as <-.
      pose proof (at_id_pfxs f _ _ _ _ _ (g_table _ _ _ _ _ (proj1 SK)) LK) as PV.
      pose proof (g_recs _ _ _ _ _ (proj1 SK) p) as RC. cbn [sh] in RC, PV. rewrite PV in RC.
      exists (ss_log s), []. split; [exact LG|].
      unfold upsert_record in U. cbn [snd] in U. rewrite RC in U.
      destruct (replay_rec p (r_mui r) (ss_log s)) as [L _].
      intros X. rewrite X in L. cbn in L. rewrite L in U. discriminate U.
Qed.

Lemma conc_known f ov st x i p r ups rep : reach f ov st x ->
  returned x i (CInsert p r ups) (RetIns (ROk rep)) -> rp_mui_new rep = false ->
  exists l1 l2, order x = l1 ++ (i, p, OUp r) :: l2 /\ rec_after p (r_mui r) l1 <> None.
Proof.
  intros R (l & N & V) M. destruct l as [pc|pc|pc|pc]; try (destruct pc; discriminate V).
  destruct pc; try discriminate V. injection V as ->.
  apply (known_inv f ov st x R i p r ups _ N). cbn. now rewrite M.
Qed.
