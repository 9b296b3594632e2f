(* What the invariants of the store on a weak memory come to. *)
From Coq Require Import Arith NArith List Bool Lia.
From Verif Require Import Word Af BitSpan Maps ChtMath Cht Node Tree MultiMap PrefixCht HistSpec Queries
  Conc ConcTree ConcTreeProofs ConcStore ConcTable ConcSpec ConcFacts ConcLock
  WeakTree WeakTreeFacts WeakTable WeakTableFacts WeakStore WeakStoreInv.
Import ListNotations.
Local Open Scope N_scope.

Inductive store_exec (f : af) (ov : bool) (x : sconf) : sconf -> Prop :=
| se_here : store_exec f ov x x
| se_step t0 y z : store_exec f ov x y -> tree_new f = Ok t0 -> store_step f ov t0 y z -> store_exec f ov x z.

Lemma store_exec_reach f ov x y : store_reach f ov x -> store_exec f ov x y -> store_reach f ov y.
Proof. intros R E. induction E as [|t0 y z E IH T S]; [exact R|]. eapply sr_step; eauto. Qed.
Lemma store_exec_trans f ov x y z : store_exec f ov x y -> store_exec f ov y z -> store_exec f ov x z.
Proof. intros A B. induction B as [|t0 y' z' E IH T S]; [exact A|]. eapply se_step; eauto. Qed.

(* ---------- the parts ---------- *)

Lemma store_parts f ov x : store_reach f ov x ->
  wtreach f ov (sc_tree x) /\ areach f (sc_tab x) /\
  length (wc_ths (sc_tree x)) = length (sc_sts x) /\ length (ac_ths (sc_tab x)) = length (sc_sts x).
Proof. intros R. apply storeI_reach in R. repeat split; apply R. Qed.

(* ---------- answers ---------- *)

Lemma past_known f ov x i s t p r : store_reach f ov x -> nth_error (sc_sts x) i = Some s ->
  nth_error (wc_ths (sc_tree x)) i = Some t -> In (p, r) (st_past s) -> In p (wt_past t).
Proof.
  intros R Ns Nt Q. apply storeI_reach in R. destruct (parts_of _ _ _ _ _ R Ns) as (t' & a & Nt' & Na & _).
  rewrite Nt in Nt'. injection Nt' as <-. exact (proj1 (si_past _ _ _ R _ _ _ _ Ns Nt Na p r Q)).
Qed.

Lemma store_contains f ov x i past t p b : store_reach f ov x -> nth_error (sc_sts x) i = Some (SThread (SHas p) past) ->
  nth_error (wc_ths (sc_tree x)) i = Some t -> wt_call t = WHas p (XDone b) ->
  (b = true -> In p (wc_called (sc_tree x))) /\
  (forall r, In (p, r) past -> 0 < p_len p -> b = true).
Proof.
  intros R Ns Nt C. split.
  - intros ->. exact (wtree_no_phantom _ _ _ _ _ _ (si_tree _ _ _ (storeI_reach _ _ _ R)) Nt C).
  - intros r Q L. apply (wtree_found _ _ _ _ _ _ _ (si_tree _ _ _ (storeI_reach _ _ _ R)) Nt C); [|exact L].
    exact (past_known _ _ _ _ _ _ _ _ R Ns Nt Q).
Qed.

Lemma store_existed f ov x i past t p r mui rc existed r' : store_reach f ov x ->
  nth_error (sc_sts x) i = Some (SThread (SIns p r) past) -> nth_error (wc_ths (sc_tree x)) i = Some t ->
  wt_call t = WIns p mui (TDone (ROk (rc, existed))) -> In (p, r') past -> existed = true.
Proof.
  intros R Ns Nt C Q. apply (wtree_not_new _ _ _ _ _ _ _ _ _ (si_tree _ _ _ (storeI_reach _ _ _ R)) Nt C).
  exact (past_known _ _ _ _ _ _ _ _ R Ns Nt Q).
Qed.

Lemma store_read f ov x i past p mui iw bmin a : store_reach f ov x ->
  nth_error (sc_sts x) i = Some (SThread (SRet p (ARead mui iw bmin) a) past) ->
  exists o l1 l2, a = RRead o /\ slog x = l1 ++ l2 /\
    (forall r, In (p, r) past -> exists j, In (j, p, OUp r) l1) /\
    answers (seen_with l1 p bmin mui iw) o.
Proof.
  intros R Ns. destruct (si_ret _ _ _ (storeI_reach _ _ _ R) _ _ Ns) as (o & l1 & l2 & A & B & C & D & _).
  exists o, l1, l2. auto.
Qed.

Lemma store_inserted f ov x i past p r a : store_reach f ov x ->
  nth_error (sc_sts x) i = Some (SThread (SRet p (AUp r) a) past) ->
  exists found o l1 l2, a = RUp found o /\ slog x = l1 ++ (i, p, OUp r) :: l2 /\ In (p, r) past /\
    forall r', In (p, r') past -> exists j, In (j, p, OUp r') (l1 ++ [(i, p, OUp r)]).
Proof. intros R Ns. exact (si_ret _ _ _ (storeI_reach _ _ _ R) _ _ Ns). Qed.

Lemma store_marked f ov x i past p st mui ltime a : store_reach f ov x ->
  nth_error (sc_sts x) i = Some (SThread (SRet p (AMark st mui ltime) a) past) ->
  exists ok, a = RMark ok /\
    if ok then exists l1 l2, slog x = l1 ++ (i, p, OMark st mui ltime) :: l2 /\
      forall r, In (p, r) past -> exists j, In (j, p, OUp r) l1
    else forall r, ~ In (p, r) past.
Proof. intros R Ns. exact (si_ret _ _ _ (storeI_reach _ _ _ R) _ _ Ns). Qed.

(* what is said to have happened before has happened *)
Lemma store_past_real f ov x i s p r : store_reach f ov x -> nth_error (sc_sts x) i = Some s -> In (p, r) (st_past s) ->
  exists j, In (j, p, OUp r) (slog x).
Proof.
  intros R Ns Q. apply storeI_reach in R. destruct (parts_of _ _ _ _ _ R Ns) as (t & a & Nt & Na & _).
  destruct (si_past _ _ _ R _ _ _ _ Ns Nt Na p r Q) as (_ & n & l1 & j & l2 & E & _). exists j. rewrite E.
  apply in_or_app. right. now left.
Qed.

Lemma store_no_error f ov x i s t a : store_reach f ov x -> nth_error (sc_sts x) i = Some s ->
  nth_error (wc_ths (sc_tree x)) i = Some t -> nth_error (ac_ths (sc_tab x)) i = Some a ->
  match wt_call t with
  | WIns p _ (TDone (RErr _)) => False
  | WIns p _ TPanic => ~ no_overflow ov p
  | WHas _ XPanic => False
  | _ => True
  end /\ forall p c pc, at_run a = Some (p, c, pc) -> pc <> APanic.
Proof.
  intros R Ns Nt Na. apply storeI_reach in R. split.
  - exact (wtree_no_error _ _ _ _ _ (si_tree _ _ _ R) Nt).
  - intros p c pc E. exact (proj1 (wtable_no_panic _ _ _ _ _ _ _ (si_tab _ _ _ R) Na E)).
Qed.

(* ---------- what a step adds ---------- *)

(* nothing, or one critical section; what its thread knew is kept with it *)
Lemma step_hist f ov t0 x y : storeI f ov x -> store_step f ov t0 x y ->
  (sc_hist y = sc_hist x /\ slog y = slog x) \/
  exists i p op K, sc_hist y = sc_hist x ++ [(p, S (many p (slog x)), K)] /\ slog y = slog x ++ [(i, p, op)] /\
    forall s, nth_error (sc_sts x) i = Some s -> incl (st_past s) K.
Proof.
  intros I S.
  assert (LG : forall i a a' z, tab_by f i a a' (sc_tab x) z -> (forall p c k found, at_run a <> Some (p, c, ACrit k found)) ->
    tm_log (ac_mem z) = slog x).
  { intros i a a' z (m & _ & T & ->) NC. cbn [ac_mem]. exact (atstep_log _ _ _ _ _ _ T NC). }
  destruct S as
    [s Hs|i t v y Nt L B|i a v z Na L B|i past p r t t' y Ns B C C'|i past p t t' y Ns B C C'|i t t' y B C C'
    |i past p t t' y Ns B C C'|i past p r mui rc ex t t' a a' y z Ns B C C' B' R R'|i past p c a a' z Ns NU B R R'
    |i a a' z B W|i l s past lpast p c k found n b a a1 a2 z1 z2 z3 z4 y1 y2 Ns Nl B1 E1 E2 B2 E3 TA1 TA2 TT1 TT2 known
    |i s past p c n b a a' z Ns B R R'|i past p c b Ns|i j pi pj y z Ni Nj TT TA];
    try (left; split; reflexivity).
  - left. split; [reflexivity|]. unfold slog at 1. cbn [sc_tab]. destruct B as (m & _ & T & ->). cbn [ac_mem].
    remember (AThread v (at_run a) (at_past a) (at_did a) (at_steps a)) as a1 eqn:Q.
    destruct T; try reflexivity. exfalso. apply (f_equal at_run) in Q. cbn [at_run] in Q. congruence.
  - left. split; [reflexivity|]. apply (LG _ _ _ _ B'). intros; congruence.
  - left. split; [reflexivity|]. apply (LG _ _ _ _ B). intros; congruence.
  - left. split; [reflexivity|]. apply (LG _ _ _ _ B). intros p c k fd E. unfold walking in W. now rewrite E in W.
  - destruct B1 as (m1 & _ & S1 & Z1). destruct (crit_inv _ _ _ _ _ _ _ _ _ _ _ _ S1 E1 E2) as (LG1 & NE & _ & _).
    destruct B2 as (m2 & _ & S2 & Z2). destruct (return_inv _ _ _ _ _ _ _ _ _ _ S2 E2 E3) as (M2 & _).
    assert (LG4 : tm_log (ac_mem z4) = slog x ++ List.map (fun o => (i, p, o)) (op_of_call c)).
    { destruct TA1 as (? & ? & _ & _ & _ & _ & ->). destruct TA2 as (? & ? & _ & _ & _ & _ & ->). cbn [ac_mem].
      rewrite Z2. cbn [ac_mem]. rewrite M2, Z1. cbn [ac_mem]. exact LG1. }
    assert (NM : n = (many p (slog x) + length (op_of_call c))%nat) by (rewrite NE, LG1, many_app; now rewrite many_ops).
    assert (KP : forall s0, nth_error (sc_sts x) i = Some s0 -> incl (st_past s0) known).
    { intros s0 N. rewrite Ns in N. injection N as <-. unfold known. apply incl_appr, incl_appr, incl_refl. }
    unfold slog at 1 3. cbn [sc_tab sc_hist]. rewrite LG4. destruct c as [r|st mui lt|mui iw bmin]; cbn [op_of_call List.map length] in *.
    + right. exists i, p, (OUp r), known. replace n with (S (many p (slog x))) by lia. auto.
    + right. exists i, p, (OMark st mui lt), known. replace n with (S (many p (slog x))) by lia. auto.
    + left. now rewrite !app_nil_r.
  - left. split; [reflexivity|]. apply (LG _ _ _ _ B). intros; congruence.
  - left. split; [reflexivity|]. unfold slog at 1. cbn [sc_tab]. destruct TA as (? & ? & _ & _ & _ & _ & ->). reflexivity.
Qed.

Lemma step_past f ov t0 x y i s : storeI f ov x -> store_step f ov t0 x y -> nth_error (sc_sts x) i = Some s ->
  exists s', nth_error (sc_sts y) i = Some s' /\ incl (st_past s) (st_past s').
Proof.
  intros I S N. pose proof (nth_some_lt _ _ _ N) as L.
  assert (SAME : exists s', nth_error (sc_sts x) i = Some s' /\ incl (st_past s) (st_past s')).
  { exists s. split; [exact N|apply incl_refl]. }
  assert (SET : forall j p1 p2 past past', nth_error (sc_sts x) j = Some (SThread p1 past) -> incl past past' ->
    exists s', nth_error (set_st j p2 past' x) i = Some s' /\ incl (st_past s) (st_past s')).
  { intros j p1 p2 past past' Nj In. pose proof (nth_some_lt _ _ _ Nj) as Lj. unfold set_st. rewrite nth_set_nth by exact Lj.
    destruct (Nat.eqb_spec j i) as [->|]; [|exact SAME]. rewrite Nj in N. injection N as <-. eexists. split; [reflexivity|exact In]. }
  destruct S as
    [s0 Hs|j t v y Nt L' B|j a v z Na L' B|j past p r t t' y Ns B C C'|j past p t t' y Ns B C C'|j t t' y B C C'
    |j past p t t' y Ns B C C'|j past p r mui rc ex t t' a a' y z Ns B C C' B' R R'|j past p c a a' z Ns NU B R R'
    |j a a' z B W|j l s0 past lpast p c k found n b a a1 a2 z1 z2 z3 z4 y1 y2 Ns Nl B1 E1 E2 B2 E3 TA1 TA2 TT1 TT2 known
    |j s0 past p c n b a a' z Ns B R R'|j past p c b Ns|j k pj pk y z Nj Nk TT TA];
    cbn [sc_sts]; try exact SAME; try (eapply SET; [exact Ns|apply incl_refl]).
  - exists s. split; [|apply incl_refl]. rewrite nth_error_app1; [exact N|exact L].
  - pose proof (nth_some_lt _ _ _ Nl) as Ll. rewrite nth_set_nth by (unfold set_st; now rewrite set_nth_length).
    destruct (Nat.eqb_spec l i) as [->|].
    + rewrite Nl in N. injection N as <-. eexists. split; [reflexivity|]. cbn [st_past]. apply incl_appr, incl_refl.
    + eapply SET; [exact Ns|]. unfold known. apply incl_appr, incl_appr, incl_refl.
  - eapply SET; [exact Nk|]. apply incl_appr, incl_refl.
Qed.

Lemma store_past_kept f ov x y i s : store_reach f ov x -> store_exec f ov x y -> nth_error (sc_sts x) i = Some s ->
  exists s', nth_error (sc_sts y) i = Some s' /\ incl (st_past s) (st_past s').
Proof.
  intros R E N. induction E as [|t0 y z E IH T S].
  - exists s. split; [exact N|apply incl_refl].
  - destruct IH as (s1 & N1 & I1).
    destruct (step_past _ _ _ _ _ _ _ (storeI_reach _ _ _ (store_exec_reach _ _ _ _ R E)) S N1) as (s2 & N2 & I2).
    exists s2. split; [exact N2|]. eapply incl_tran; eauto.
Qed.

Lemma hist_once f ov x : store_reach f ov x ->
  (forall p n K, In (p, n, K) (sc_hist x) -> (n <= many p (slog x))%nat) /\
  forall p n K K', In (p, n, K) (sc_hist x) -> In (p, n, K') (sc_hist x) -> K = K'.
Proof.
  intros R. induction R as [t0 T|t0 x y T R [LE UN] S]; [split; cbn; contradiction|].
  destruct (step_hist _ _ _ _ _ (storeI_reach _ _ _ R) S) as [[-> ->]|(i & q & op & K0 & -> & -> & _)]; [now split|]. split.
  - intros p n K H. rewrite many_app. apply in_app_or in H. destruct H as [H|[[= <- <- <-]|[]]].
    + specialize (LE _ _ _ H). lia.
    + rewrite many_one. lia.
  - intros p n K K' H H'. apply in_app_or in H, H'. destruct H as [H|[[= <- <- <-]|[]]], H' as [H'|[E|[]]].
    + eauto.
    + injection E as <- <- <-. specialize (LE _ _ _ H). lia.
    + specialize (LE _ _ _ H'). lia.
    + now injection E.
Qed.

Lemma store_grows f ov x y : store_reach f ov x -> store_exec f ov x y ->
  exists l h, slog y = slog x ++ l /\ sc_hist y = sc_hist x ++ h.
Proof.
  intros R E. induction E as [|t0 y z E IH T S].
  - exists [], []. now rewrite !app_nil_r.
  - destruct IH as (l & h & A & B).
    destruct (step_hist _ _ _ _ _ (storeI_reach _ _ _ (store_exec_reach _ _ _ _ R E)) S) as [[-> ->]|(i & q & op & K & -> & -> & _)].
    + exists l, h. auto.
    + exists (l ++ [(i, q, op)]), (h ++ [(q, Datatypes.S (many q (slog y)), K)]). now rewrite A, B, <- !app_assoc.
Qed.

Lemma exists_last_or {A} (l : list A) : l = [] \/ exists l' e, l = l' ++ [e].
Proof. destruct l as [|a l]; [now left|right]. destruct (@exists_last _ (a :: l)) as (l' & e & E); [discriminate|]. eauto. Qed.
Lemma app_snoc_cases {A} (l : list A) e m1 x m2 : l ++ [e] = m1 ++ x :: m2 ->
  (m2 = [] /\ l = m1 /\ e = x) \/ exists m2', m2 = m2' ++ [e] /\ l = m1 ++ x :: m2'.
Proof.
  intros H. destruct (exists_last_or m2) as [->|(m2' & e' & ->)].
  - left. apply app_inj_tail in H. destruct H as [-> ->]. auto.
  - right. change (m1 ++ x :: m2' ++ [e']) with (m1 ++ (x :: m2') ++ [e']) in H. rewrite app_assoc in H.
    apply app_inj_tail in H. destruct H as [-> ->]. eauto.
Qed.

(* what thread j knew at x0 is kept with each critical section it has later *)
Lemma hist_holds f ov x0 x j s0 : store_reach f ov x0 -> store_exec f ov x0 x -> nth_error (sc_sts x0) j = Some s0 ->
  forall m1 p op m2, slog x = slog x0 ++ m1 ++ (j, p, op) :: m2 ->
  exists K, In (p, S (many p (slog x0 ++ m1)), K) (sc_hist x) /\ incl (st_past s0) K.
Proof.
  intros R E N. induction E as [|t0 y z E IH T S]; intros m1 p op m2 H.
  - rewrite <- (app_nil_r (slog x0)) in H at 1. apply app_inv_head in H. now destruct m1.
  - destruct (step_hist _ _ _ _ _ (storeI_reach _ _ _ (store_exec_reach _ _ _ _ R E)) S) as [[A B]|(i & q & op' & K & A & B & C)].
    + rewrite B in H. rewrite A. eauto.
    + rewrite B, app_assoc in H. rewrite A. destruct (app_snoc_cases _ _ _ _ _ H) as [(-> & F & G)|(m2' & -> & F)].
      * injection G as -> -> ->. destruct (store_past_kept _ _ _ _ _ _ R E N) as (s1 & N1 & I1). exists K. rewrite <- F. split.
        -- apply in_or_app. right. now left.
        -- eapply incl_tran; [exact I1|]. exact (C _ N1).
      * rewrite <- app_assoc in F. destruct (IH _ _ _ _ F) as (K' & HK & IK). exists K'. split; [|exact IK].
        apply in_or_app. now left.
Qed.

(* ---------- who reads a record knows what its inserter knew ---------- *)

Lemma store_message f ov x0 x i j s0 p mui iw bmin a past : store_reach f ov x0 -> store_exec f ov x0 x ->
  nth_error (sc_sts x0) j = Some s0 ->
  nth_error (sc_sts x) i = Some (SThread (SRet p (ARead mui iw bmin) a) past) ->
  exists o l1 l2, a = RRead o /\ slog x = l1 ++ l2 /\ answers (seen_with l1 p bmin mui iw) o /\
    (forall m1 op m2, l1 = slog x0 ++ m1 ++ (j, p, op) :: m2 -> incl (st_past s0) past) /\
    (forall k r, In (k, p, OUp r) l1 -> In (p, r) past).
Proof.
  intros R E N Ni. pose proof (store_exec_reach _ _ _ _ R E) as Rx. pose proof (storeI_reach _ _ _ Rx) as I.
  destruct (si_ret _ _ _ I _ _ Ni) as (o & l1 & l2 & A & B & C & D & H). exists o, l1, l2.
  cbn [st_past] in *. split; [exact A|]. split; [exact B|]. split; [exact D|]. split.
  - intros m1 op m2 F. assert (F' : slog x = slog x0 ++ m1 ++ (j, p, op) :: (m2 ++ l2)) by (rewrite B, F, <- !app_assoc; reflexivity).
    destruct (hist_holds _ _ _ _ _ _ R E N _ _ _ _ F') as (K & HK & IK). rewrite app_assoc in F.
    destruct (H _ _ _ _ F) as (K' & HK' & IK'). rewrite <- (proj2 (hist_once _ _ _ Rx) _ _ _ _ HK HK') in IK'.
    eapply incl_tran; eauto.
  - intros k r Q. apply in_split in Q. destruct Q as (m1 & m2 & F). destruct (H _ _ _ _ F) as (K & HK & IK).
    assert (F' : slog x = m1 ++ (k, p, OUp r) :: (m2 ++ l2)) by (rewrite B, F, <- app_assoc; reflexivity).
    destruct (si_log _ _ _ I _ _ _ _ _ F') as (K' & HK' & IK'). rewrite (proj2 (hist_once _ _ _ Rx) _ _ _ _ HK HK') in IK.
    apply IK. now apply IK'.
Qed.

Lemma rec_after_up p m log r : rec_after p m log = Some r -> exists j r', In (j, p, OUp r') log.
Proof.
  revert r. induction log as [|[[j q] op] log IH] using rev_ind; intros r H; [discriminate H|].
  unfold rec_after in H. rewrite filter_app, map_app, fold_left_app in H. fold (rec_after p m log) in H. cbn [filter snd fst] in H.
  destruct (pid_eqb q p) eqn:Q.
  - apply pid_eqb_spec in Q. subst q. cbn [List.map snd fold_left rec_step] in H. destruct op as [r0|st n t]; cbn [rec_step] in H.
    + exists j, r0. apply in_or_app. right. now left.
    + destruct (rec_after p m log) as [r1|].
      * destruct (IH r1 eq_refl) as (k & r' & K). exists k, r'. apply in_or_app. now left.
      * destruct (n =? m); discriminate H.
  - cbn [List.map fold_left] in H. destruct (IH r H) as (k & r' & K). exists k, r'. apply in_or_app. now left.
Qed.

(* it finds the prefix in the tree too *)
Lemma store_read_then_contains f ov x y i p mui iw bmin rs past past' t q b : store_reach f ov x ->
  nth_error (sc_sts x) i = Some (SThread (SRet p (ARead mui iw bmin) (RRead (Some rs))) past) ->
  store_exec f ov x y -> nth_error (sc_sts y) i = Some (SThread (SHas q) past') ->
  nth_error (wc_ths (sc_tree y)) i = Some t -> wt_call t = WHas q (XDone b) -> 0 < p_len q ->
  q = p \/ (exists r, In (q, r) past) -> b = true.
Proof.
  intros R N E N' Nt C L Q. pose proof (store_exec_reach _ _ _ _ R E) as Ry.
  assert (KN : exists r, In (q, r) past).
  { destruct Q as [->|Q]; [|exact Q].
    destruct (store_message _ _ _ _ _ _ _ _ _ _ _ _ _ R (se_here _ _ _) N N) as (o & l1 & l2 & A & _ & D & _ & H).
    injection A as <-. destruct D as (NE & _ & D). destruct rs as [|r0 rs]; [now elim NE|].
    pose proof (proj1 (D r0) (or_introl eq_refl)) as F.
    unfold seen_with in F. destruct (named mui (r_mui r0)); [|discriminate F].
    destruct (rec_after p (r_mui r0) l1) as [r1|] eqn:RA; [|discriminate F].
    destruct (rec_after_up _ _ _ _ RA) as (k & r & K). exists r. exact (H _ _ K). }
  destruct KN as [r KN]. destruct (store_past_kept _ _ _ _ _ _ R E N) as (s' & Ns' & IN). rewrite N' in Ns'. injection Ns' as <-.
  exact (proj2 (store_contains _ _ _ _ _ _ _ _ Ry N' Nt C) r (IN _ KN) L).
Qed.
