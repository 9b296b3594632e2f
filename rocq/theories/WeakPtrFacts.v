(* What a user sees of the global marks and of the path selections on a weak memory. *)
From Coq Require Import Arith NArith List Bool Lia.
From Verif Require Import Maps Conc ConcMarks WeakPtr WeakPtrRace WeakPtrInv.
Import ListNotations.

(* executions from one state to another *)
Inductive pcexec {A F} (apply : F -> A -> A) (eqb : A -> A -> bool) (o : pords) (x : pconf A F) : pconf A F -> Prop :=
| pe_refl : pcexec apply eqb o x x
| pe_step y z : pcexec apply eqb o x y -> pcstep apply eqb o y z -> pcexec apply eqb o x z.
Lemma pcexec_reach {A F} (apply : F -> A -> A) eqb o a0 x y : pcreach apply eqb o a0 x -> pcexec apply eqb o x y -> pcreach apply eqb o a0 y.
Proof. intros R E. induction E; [exact R|]. eapply pr_step; eauto. Qed.

(* ---------- all that is read is what some of the writes amount to, in one order for all ---------- *)

Lemma ptr_read {A F} (apply : F -> A -> A) eqb o a0 x i t k a :
  pcreach apply eqb o a0 x -> nth_error (c_ths x) i = Some t -> p_pc t = PGave k a ->
  k - 1 <= length (order (c_mem x)) /\ a = fst (do_ops apply a0 (firstn (k - 1) (order (c_mem x)))) /\
  forall s b, In (s, b) (p_past t) -> s <= k.
Proof.
  intros R E P. assert (I := pinv_reach apply eqb a0 o x R). assert (T := ti_pc _ _ _ _ _ (px_ths _ _ _ _ I i t E)).
  unfold pcinv in T. rewrite P in T. destruct T as (L & L2 & EA & S). assert (ML := mi_len _ _ _ _ (px_mem _ _ _ _ I)).
  split; [lia|]. split; [exact EA|exact S].
Qed.
Lemma ptr_tag_read {A F} (apply : F -> A -> A) eqb o a0 x i t k b :
  pcreach apply eqb o a0 x -> nth_error (c_ths x) i = Some t -> p_pc t = PTagGave k b ->
  k - 1 <= length (order (c_mem x)) /\ b = snd (do_ops apply a0 (firstn (k - 1) (order (c_mem x)))) /\
  forall s c, In (s, c) (p_past t) -> s <= k.
Proof.
  intros R E P. assert (I := pinv_reach apply eqb a0 o x R). assert (T := ti_pc _ _ _ _ _ (px_ths _ _ _ _ I i t E)).
  unfold pcinv in T. rewrite P in T. destruct T as (L & L2 & EA & S). assert (ML := mi_len _ _ _ _ (px_mem _ _ _ _ I)).
  split; [lia|]. split; [exact EA|exact S].
Qed.
(* what happened before has its place in that order *)
Lemma ptr_past {A F} (apply : F -> A -> A) eqb o a0 x i t s d :
  pcreach apply eqb o a0 x -> nth_error (c_ths x) i = Some t -> In (s, d) (p_past t) ->
  1 <= s /\ s - 1 <= length (order (c_mem x)) /\
  let now := do_ops apply a0 (firstn (s - 1) (order (c_mem x))) in
  match d with
  | DidWrite b => 2 <= s /\ nth_error (order (c_mem x)) (s - 2) = Some b
  | DidRead a => a = fst now
  | DidFlag b => b = snd now
  | DidKeep a => eqb (fst now) a = true
  end.
Proof.
  intros R E P. assert (I := pinv_reach apply eqb a0 o x R). assert (ML := mi_len _ _ _ _ (px_mem _ _ _ _ I)).
  destruct (ti_past _ _ _ _ _ (px_ths _ _ _ _ I i t E) s d P) as (L & L2 & K). split; [lia|]. split; [lia|]. destruct d; exact K.
Qed.
(* the order only grows *)
Lemma ptr_order {A F} (apply : F -> A -> A) eqb o x y : pcexec apply eqb o x y -> exists l, order (c_mem y) = order (c_mem x) ++ l.
Proof.
  intros E. induction E as [|y z E [l IH] H]; [exists []; now rewrite app_nil_r|].
  destruct H as [w ts|w ts i t w' t' Et H|w ts i j ti tj Ei Ej Pi Pj]; cbn [c_mem] in *; try (exists l; exact IH).
  destruct (change_order w t w' (tstep_change apply eqb o w t w' t' H)) as [m ->]. exists (l ++ m). rewrite IH. now rewrite app_assoc.
Qed.

(* every write in the order was made by a call that has returned *)
Lemma past_kept {A F} (apply : F -> A -> A) eqb o x y i t e : pcstep apply eqb o x y -> nth_error (c_ths x) i = Some t -> In e (p_past t) ->
  exists t', nth_error (c_ths y) i = Some t' /\ In e (p_past t').
Proof.
  intros H E I. destruct H as [w ts|w ts j u w' u' Eu H|w ts j k tj tk Ej Ek Pj Pk]; cbn [c_mem c_ths] in *.
  - exists t. split; [|exact I]. rewrite nth_error_app1; [exact E|eapply nth_some_lt; eauto].
  - rewrite nth_set_nth by (eapply nth_some_lt; eauto). destruct (Nat.eqb_spec j i) as [->|N]; [|eauto].
    exists u'. split; [reflexivity|]. assert (u = t) by congruence. subst u.
    destruct H; cbn; auto. apply in_or_app. now right.
  - rewrite nth_set_nth by (eapply nth_some_lt; eauto). destruct (Nat.eqb_spec k i) as [->|N]; [|eauto].
    eexists. split; [reflexivity|]. cbn. apply in_or_app. right. congruence.
Qed.
Lemma ptr_made {A F} (apply : F -> A -> A) eqb o a0 x n b : pcreach apply eqb o a0 x -> nth_error (order (c_mem x)) n = Some b ->
  exists i t, nth_error (c_ths x) i = Some t /\ In (n + 2, DidWrite b) (p_past t).
Proof.
  intros R. revert n b. induction R as [|x y R IH H]; intros n b E; [destruct n; discriminate|].
  assert (K : nth_error (order (c_mem x)) n = Some b -> exists i t, nth_error (c_ths y) i = Some t /\ In (n + 2, DidWrite b) (p_past t)).
  { intros E1. destruct (IH n b E1) as (i & t & Et & I). destruct (past_kept apply eqb o x y i t _ H Et I) as (t' & Et' & I'). eauto. }
  assert (ML := mi_len _ _ _ _ (px_mem _ _ _ _ (pinv_reach apply eqb a0 o x R))).
  destruct H as [w ts|w ts i t w' t' Et H|w ts i j ti tj Ei Ej Pi Pj]; cbn [c_mem c_ths] in *; auto.
  assert (Li : i < length ts) by (eapply nth_some_lt; eauto).
  assert (W : forall acq rel g q tag c, w' = fst (pswapped acq rel w t g q tag c PIdle) -> t' = snd (pswapped acq rel w t g q tag c PIdle) ->
    exists i0 t0, nth_error (set_nth i t' ts) i0 = Some t0 /\ In (n + 2, DidWrite b) (p_past t0)).
  { intros acq rel g q tag c -> ->. unfold order in E. cbn [fst s_msgs pswapped] in E. rewrite flat_map_app in E. cbn [flat_map pm_by app] in E.
    fold (order w) in E. apply nth_snoc in E. destruct E as [[E _]|[-> ->]]; [now apply K|].
    exists i. eexists. split; [rewrite nth_set_nth, Nat.eqb_refl by exact Li; reflexivity|].
    cbn [p_past snd pswapped]. left. f_equal. lia. }
  destruct H; try (now apply K); eapply W; reflexivity.
Qed.

(* ---------- a mark that has failed once goes on for ever ---------- *)

Definition trying {A F} (f : F) (n : nat) (tag : bool) (p : ppc A F) : Prop :=
  match p with PUpd2 f' n' tag' _ | PUpd3 f' n' tag' _ => f' = f /\ n' = n /\ tag' = tag | PRaced => True | _ => False end.
Lemma ptr_stuck {A F} (apply : F -> A -> A) eqb o a0 x y i t f n tag m :
  pcreach apply eqb o a0 x -> nth_error (c_ths x) i = Some t -> p_pc t = PUpd3 f n tag m -> pcexec apply eqb o x y ->
  exists t', nth_error (c_ths y) i = Some t' /\ trying f n tag (p_pc t').
Proof.
  intros R E P X.
  assert (G0 : gone (c_mem x) (n, tag) /\ exists h, In h (s_msgs (c_mem x)) /\ pm_ptr h = n).
  { assert (I := pinv_reach apply eqb a0 o x R). assert (T := ti_pc _ _ _ _ _ (px_ths _ _ _ _ I i t E)).
    unfold pcinv in T. rewrite P in T. destruct T as [Fd G]. split; [exact G|]. exact (found_in _ _ _ Fd). }
  enough (Q : (gone (c_mem y) (n, tag) /\ exists h, In h (s_msgs (c_mem y)) /\ pm_ptr h = n) /\
    exists t', nth_error (c_ths y) i = Some t' /\ trying f n tag (p_pc t')) by (destruct Q; assumption).
  induction X as [|y z X IH H].
  - split; [exact G0|]. exists t. split; [exact E|]. rewrite P. cbn. auto.
  - destruct IH as [[G Hh] (u & Eu & Tu)]. assert (Ry := pcexec_reach apply eqb o a0 x y R X).
    assert (I := pinv_reach apply eqb a0 o y Ry).
    destruct H as [w ts|w ts j v w' v' Ev H|w ts j k tj tk Ej Ek Pj Pk]; cbn [c_mem c_ths] in *.
    + split; [auto|]. exists u. split; [|exact Tu]. rewrite nth_error_app1; [exact Eu|eapply nth_some_lt; eauto].
    + assert (C := tstep_change apply eqb o w v w' v' H). split.
      * split.
        -- eapply gone_change; [exact C|apply (px_ths _ _ _ _ I j v Ev)|exact Hh|exact G].
        -- destruct Hh as (h & Ih & Ph). exists h. split; [|exact Ph]. apply In_nth_error in Ih. destruct Ih as [q Ih].
           eapply nth_error_In. eapply change_msgs; eauto.
      * rewrite nth_set_nth by (eapply nth_some_lt; eauto). destruct (Nat.eqb_spec j i) as [->|N]; [|eauto].
        exists v'. split; [reflexivity|]. assert (u = v) by congruence. subst u.
        destruct H; match goal with [ Q : p_pc v = _ |- _ ] => rewrite Q in Tu end; cbn in Tu; try contradiction; cbn; auto.
        exfalso. destruct Tu as (-> & -> & ->). destruct G as (l1 & h & G1 & G2). rewrite H0 in G1. apply app_inj_tail in G1.
        destruct G1 as [_ <-]. unfold past_by in G2. cbn in G2. destruct G2 as [G2|[G2 G3]]; congruence.
    + split; [auto|]. rewrite nth_set_nth by (eapply nth_some_lt; eauto). destruct (Nat.eqb_spec k i) as [->|N]; [|eauto].
      exfalso. assert (u = tk) by congruence. subst u. rewrite Pk in Tu. exact Tu.
Qed.

(* ---------- marks ---------- *)

Definition only_marks (l : list (pop nset gcall)) : Prop := forall b, In b l -> exists c, b = Updated c.

Lemma mem_mark wd m n s : mem n (apply_mark (wd, m) s) = if N.eqb n m then wd else mem n s.
Proof.
  unfold apply_mark. cbn [fst snd]. destruct wd.
  - rewrite mem_insert. now destruct (N.eqb n m).
  - rewrite mem_remove. now destruct (N.eqb n m).
Qed.

(* the last mark of m decides *)
Lemma marks_fold wd m l s : (forall b, In b l -> exists c, b = Updated c) -> (forall b, In b l -> b <> Updated (negb wd, m)) -> mem m (fst s) = wd ->
  mem m (fst (fold_left (do_op apply_mark) l s)) = wd.
Proof.
  revert s. induction l as [|b l IH]; intros s O N M; [exact M|]. cbn. apply IH.
  - intros c I. apply O. now right.
  - intros c I. apply N. now right.
  - destruct (O b (or_introl eq_refl)) as [[wd' m'] ->]. cbn [do_op fst]. rewrite mem_mark. destruct (N.eqb_spec m m') as [<-|D]; [|exact M].
    destruct (Bool.bool_dec wd' wd) as [Q|Q]; [exact Q|]. exfalso. apply (N (Updated (wd', m)) (or_introl eq_refl)).
    f_equal. f_equal. now destruct wd, wd'.
Qed.
Lemma firstn_split {B} (l : list B) n k b : nth_error l n = Some b -> n < k -> firstn k l = firstn n l ++ b :: firstn (k - S n) (skipn (S n) l).
Proof.
  intros E L. rewrite <- (firstn_skipn n l) at 1. rewrite firstn_app.
  assert (LL := nth_some_lt _ _ _ E). rewrite firstn_firstn, firstn_length_le by lia.
  rewrite (Nat.min_r k n) by lia. f_equal.
  assert (SK : skipn n l = b :: skipn (S n) l).
  { clear - E. revert n E. induction l as [|x l IH]; intros [|n] E; try discriminate; cbn in E.
    - injection E as ->. reflexivity.
    - cbn. now apply IH. }
  rewrite SK. replace (k - n) with (S (k - S n)) by lia. reflexivity.
Qed.
Lemma in_later {B} (l : list B) n k b : In b (firstn k (skipn (S n) l)) -> exists j, n < j /\ nth_error l j = Some b.
Proof.
  intros I. apply In_nth_error in I. destruct I as [j E].
  assert (E2 : nth_error (skipn (S n) l) j = Some b).
  { clear - E. revert k j E. induction (skipn (S n) l) as [|x r IH]; intros [|k] [|j] E; cbn in *; try discriminate; auto. eapply IH; eauto. }
  exists (S n + j). split; [lia|]. clear - E2. revert E2. generalize (S n) as q. revert j. induction l as [|x l IH]; intros j [|q] E; cbn in *; auto.
  destruct j; discriminate.
Qed.

Lemma marks_seen eqb o x i t k s wd m j :
  pcreach apply_mark eqb o [] x -> only_marks (order (c_mem x)) -> nth_error (c_ths x) i = Some t -> p_pc t = PGave k s ->
  In (j, DidWrite (Updated (wd, m))) (p_past t) ->
  (forall n, j - 2 < n -> nth_error (order (c_mem x)) n <> Some (Updated (negb wd, m))) ->
  mem m s = wd.
Proof.
  intros R O E P I N. destruct (ptr_read _ _ _ _ _ _ _ _ _ R E P) as (L & -> & S).
  destruct (ptr_past _ _ _ _ _ _ _ _ _ R E I) as (_ & _ & L2 & Q). assert (L3 := S _ _ I).
  unfold do_ops. rewrite (firstn_split _ (j - 2) (k - 1) _ Q) by lia. rewrite fold_left_app. cbn [fold_left].
  apply marks_fold.
  - intros b Ib. apply O. apply in_later in Ib. destruct Ib as (q & _ & Eq). eapply nth_error_In; eauto.
  - intros b Ib ->. apply in_later in Ib. destruct Ib as (q & Lq & Eq). exact (N q Lq Eq).
  - cbn [do_op fst]. rewrite mem_mark, N.eqb_refl. reflexivity.
Qed.
Lemma marks_unseen eqb o x i t k s m :
  pcreach apply_mark eqb o [] x -> only_marks (order (c_mem x)) -> nth_error (c_ths x) i = Some t -> p_pc t = PGave k s ->
  ~ In (Updated (true, m)) (order (c_mem x)) -> mem m s = false.
Proof.
  intros R O E P N. destruct (ptr_read _ _ _ _ _ _ _ _ _ R E P) as (L & -> & S).
  unfold do_ops. apply marks_fold; [| |reflexivity].
  - intros b Ib. apply O. eapply (In_nth_error) in Ib. destruct Ib as [q Eq]. assert (In b (order (c_mem x))); [|assumption].
    rewrite <- (firstn_skipn (k - 1) (order (c_mem x))). apply in_or_app. left. eapply nth_error_In; eauto.
  - intros b Ib ->. apply N. rewrite <- (firstn_skipn (k - 1) (order (c_mem x))). apply in_or_app. now left.
Qed.

(* ---------- path selections ---------- *)

Lemma sel_seen {A F} (apply : F -> A -> A) eqb o a0 x i t k a j s :
  pcreach apply eqb o a0 x -> nth_error (c_ths x) i = Some t -> p_pc t = PGave k a ->
  In (j, DidWrite (Stored s)) (p_past t) ->
  (forall n b, j - 2 < n -> nth_error (order (c_mem x)) n = Some b -> b = Outdated) ->
  a = s.
Proof.
  intros R E P I N. destruct (ptr_read _ _ _ _ _ _ _ _ _ R E P) as (L & -> & S).
  destruct (ptr_past _ _ _ _ _ _ _ _ _ R E I) as (_ & _ & L2 & Q). assert (L3 := S _ _ I).
  unfold do_ops. rewrite (firstn_split _ (j - 2) (k - 1) _ Q) by lia. rewrite fold_left_app. cbn [fold_left].
  assert (G : forall l (p : A * bool), (forall b, In b l -> b = Outdated) -> fst (fold_left (do_op apply) l p) = fst p).
  { induction l as [|b l IH]; intros p HB; [reflexivity|]. cbn. rewrite IH; [|intros c Ic; apply HB; now right].
    rewrite (HB b (or_introl eq_refl)). reflexivity. }
  rewrite G; [reflexivity|]. intros b Ib. apply in_later in Ib. destruct Ib as (q & Lq & Eq). exact (N q b Lq Eq).
Qed.
Lemma tag_fold {A F} (apply : F -> A -> A) l (p : A * bool) (v : bool) : (forall b, In b l -> (b = Outdated) <-> v = true) -> snd p = v ->
  snd (fold_left (do_op apply) l p) = v.
Proof.
  revert p. induction l as [|b l IH]; intros p HB E; [exact E|]. cbn. apply IH; [intros c Ic; apply HB; now right|].
  assert (K := HB b (or_introl eq_refl)). destruct b; cbn; destruct v; try reflexivity.
  - destruct K as [_ K]. discriminate (K eq_refl).
  - destruct K as [_ K]. discriminate (K eq_refl).
  - destruct K as [K _]. discriminate (K eq_refl).
Qed.
(* set_ps_outdated happened before, and nothing but the same came after it *)
Lemma tag_seen {A F} (apply : F -> A -> A) eqb o a0 x i t k b j c :
  pcreach apply eqb o a0 x -> nth_error (c_ths x) i = Some t -> p_pc t = PTagGave k b ->
  In (j, DidWrite c) (p_past t) ->
  (forall n d, j - 2 < n -> nth_error (order (c_mem x)) n = Some d -> (d = Outdated <-> c = Outdated)) ->
  b = true <-> c = Outdated.
Proof.
  intros R E P I N. destruct (ptr_tag_read _ _ _ _ _ _ _ _ _ R E P) as (L & -> & S).
  destruct (ptr_past _ _ _ _ _ _ _ _ _ R E I) as (_ & _ & L2 & Q). assert (L3 := S _ _ I).
  unfold do_ops. rewrite (firstn_split _ (j - 2) (k - 1) _ Q) by lia. rewrite fold_left_app. cbn [fold_left].
  set (v := match c with Outdated => true | _ => false end).
  assert (V : v = true <-> c = Outdated) by (unfold v; destruct c; split; congruence).
  rewrite (tag_fold apply _ _ v); [exact V| |destruct c; reflexivity].
  intros d Id. apply in_later in Id. destruct Id as (q & Lq & Eq). rewrite V. exact (N q d Lq Eq).
Qed.
