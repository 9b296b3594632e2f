(* What WeakOnce.v gives its callers, whatever the orderings. *)
From Coq Require Import Arith NArith List Bool Lia.
From Verif Require Import Conc WeakOnce WeakRace WeakOnceInv.
Import ListNotations.

Record winv (x : wconf) : Prop := {
  wi_mem : smem (k_mem x);
  wi_sc : past_ok (k_mem x) (w_sc (k_mem x)) (w_past (k_mem x));
  wi_thread : forall i t, nth_error (k_ths x) i = Some t -> sthread (k_mem x) t;
  wi_own_arr : forall i j ti tj b, nth_error (k_ths x) i = Some ti -> nth_error (k_ths x) j = Some tj ->
    own_arr ti = Some b -> own_arr tj = Some b -> i = j;
  wi_own_val : forall i j ti tj v, nth_error (k_ths x) i = Some ti -> nth_error (k_ths x) j = Some tj ->
    own_val ti = Some v -> own_val tj = Some v -> i = j;
  wi_wins : forall i j ti tj idx, nth_error (k_ths x) i = Some ti -> nth_error (k_ths x) j = Some tj ->
    In idx (t_wins ti) -> In idx (t_wins tj) -> i = j;
  wi_winner : forall b idx v, pub (k_mem x) LArr = Some b -> pub (k_mem x) (LCell b idx) = Some v ->
    exists i t y, nth_error (k_ths x) i = Some t /\ In idx (t_wins t) /\ In (idx, y) (t_calls t) /\
      vals (k_mem x) (LVal v) = [Bytes y]
}.

Lemma nth_set_cases {A} i (x : A) l j y : nth_error (set_nth i x l) j = Some y -> i < length l ->
  (i = j /\ y = x) \/ (i <> j /\ nth_error l j = Some y).
Proof.
  intros H L. rewrite nth_set_nth in H by exact L. destruct (Nat.eqb_spec i j); [left|right]; split; auto. congruence.
Qed.

Lemma own_arr_lt w t b : sthread w t -> own_arr t = Some b -> b < w_arrs w.
Proof.
  intros [P _ _ _ _]. unfold own_arr, spc in *. destruct (t_pc t); try discriminate. intros E. injection E as <-. tauto.
Qed.
Lemma own_val_lt w t v : sthread w t -> own_val t = Some v -> v < w_vals w.
Proof.
  intros [P _ _ _ _]. unfold own_val, spc in *. destruct (t_pc t); try discriminate. intros E. injection E as <-. tauto.
Qed.

Lemma winv_tstep o w ts i t w' t' : nth_error ts i = Some t -> tstep o w t w' t' ->
  winv (WConf w ts) -> winv (WConf w' (set_nth i t' ts)).
Proof.
  intros E H I. destruct I as [M C T OA OV W X]. cbn in *.
  assert (L : i < length ts) by (apply nth_error_Some; congruence).
  destruct (step_inv o w t w' t' H M C (T i t E)) as [M' T' K C' OA' OV' N0 IC].
  assert (TO : forall j tj, i <> j -> nth_error ts j = Some tj -> sthread w' tj).
  { intros j tj D Ej. eapply keeps_other; [exact K|eauto|..].
    - intros b B Q. apply D. eapply OA; eauto.
    - intros v B Q. apply D. eapply OV; eauto. }
  constructor; cbn; auto.
  - intros j tj Ej. apply nth_set_cases in Ej; [|exact L]. destruct Ej as [[_ ->]|[D Ej]]; eauto.
  - intros j k tj tk b Ej Ek Oj Ok. apply nth_set_cases in Ej; [|exact L]. apply nth_set_cases in Ek; [|exact L].
    destruct Ej as [[<- ->]|[Dj Ej]], Ek as [[<- ->]|[Dk Ek]]; auto.
    + exfalso. apply OA' in Oj. apply (own_arr_lt w) in Ok; [lia|eauto].
    + exfalso. apply OA' in Ok. apply (own_arr_lt w) in Oj; [lia|eauto].
    + eapply OA; eauto.
  - intros j k tj tk b Ej Ek Oj Ok. apply nth_set_cases in Ej; [|exact L]. apply nth_set_cases in Ek; [|exact L].
    destruct Ej as [[<- ->]|[Dj Ej]], Ek as [[<- ->]|[Dk Ek]]; auto.
    + exfalso. apply OV' in Oj. apply (own_val_lt w) in Ok; [lia|eauto].
    + exfalso. apply OV' in Ok. apply (own_val_lt w) in Oj; [lia|eauto].
    + eapply OV; eauto.
  - assert (Z : forall j tj idx, i <> j -> nth_error ts j = Some tj -> In idx (t_wins t') -> In idx (t_wins tj) -> False).
    { intros j tj idx D Ej I1 I2. destruct N0 as [[EW _]|(k & x & b & q & EW & NF & _)]; rewrite EW in I1.
      - apply D. eapply W; eauto.
      - destruct I1 as [<-|I1]; [|apply D; eapply W; eauto]. apply NF. eapply st_wins; [eapply (T j tj Ej)|exact I2]. }
    intros j k tj tk idx Ej Ek Oj Ok. apply nth_set_cases in Ej; [|exact L]. apply nth_set_cases in Ek; [|exact L].
    destruct Ej as [[<- ->]|[Dj Ej]], Ek as [[<- ->]|[Dk Ek]]; auto.
    + exfalso. eauto.
    + exfalso. eauto.
    + eapply W; eauto.
  - assert (Z : forall b idx v, pub w LArr = Some b -> pub w (LCell b idx) = Some v ->
      exists j tj y, nth_error (set_nth i t' ts) j = Some tj /\ In idx (t_wins tj) /\ In (idx, y) (t_calls tj) /\ vals w' (LVal v) = [Bytes y]).
    { intros b idx v B V. destruct (X b idx v B V) as (j & tj & y & Ej & Wj & Cj & Vj).
      apply (kp_val _ _ _ _ K) in Vj. destruct (Nat.eq_dec i j) as [->|D].
      - exists j, t', y. rewrite nth_set_nth, Nat.eqb_refl by exact L. assert (tj = t) by congruence. subst tj.
        repeat split; auto. destruct N0 as [[EW _]|(k & x & b0 & q & EW & _)]; rewrite EW; [exact Wj|now right].
      - exists j, tj, y. rewrite nth_set_nth by exact L. apply Nat.eqb_neq in D. rewrite D. auto. }
    intros b idx v B V. destruct N0 as [[EW NP]|(k & x & b0 & q & EW & NF & Ck & B0 & B1 & Vk & Vq & NP)].
    + destruct (NP b idx v B V). eauto.
    + assert (b0 = b) by congruence. subst. destruct (N.eq_dec idx k) as [->|D].
      * assert (q = v) by congruence. subst. exists i, t', x. rewrite nth_set_nth, Nat.eqb_refl by exact L.
        repeat split; auto. rewrite EW. now left.
      * eauto.
Qed.

Lemma synced_ok w ti tj : sthread w ti -> sthread w tj -> t_pc ti = Idle -> t_pc tj = Idle -> sthread w (synced ti tj).
Proof.
  intros [Pi Ai Bi Ci Di] [Pj Aj Bj Cj Dj] Ei Ej. constructor; auto.
  - exact I.
  - cbn. intros idx v us x [I|I]%in_app_or; [eapply past_ge; [|exact Ai|exact I]|eapply past_ge; [|exact Aj|exact I]]; intros k;
      [apply join_r|apply join_l].
  - cbn. unfold join. lia.
Qed.

Lemma winv_step o x y : wkstep o x y -> winv x -> winv y.
Proof.
  intros H I. destruct H.
  - destruct I as [M C T OA OV W X]. cbn in *.
    assert (Z : forall i t, nth_error (ts ++ [thread0]) i = Some t -> nth_error ts i = Some t \/ (i = length ts /\ t = thread0)).
    { intros i t E. destruct (Nat.lt_trichotomy i (length ts)) as [L|[->|L]].
      - left. now rewrite nth_error_app1 in E.
      - right. rewrite nth_error_app2, Nat.sub_diag in E by lia. cbn in E. split; congruence.
      - rewrite nth_error_app2 in E by lia. destruct (i - length ts) as [|k] eqn:Q; [lia|]. destruct k; discriminate. }
    constructor; cbn; auto.
    + intros i t E. apply Z in E. destruct E as [E|[-> ->]]; [eauto|]. constructor.
      * exact I.
      * intros ? ? ? ? [].
      * apply le_n.
      * intros ? [].
      * constructor.
    + intros i j ti tj b Ei Ej. apply Z in Ei, Ej. destruct Ei as [Ei|[-> ->]], Ej as [Ej|[-> ->]]; try discriminate; eauto.
    + intros i j ti tj b Ei Ej. apply Z in Ei, Ej. destruct Ei as [Ei|[-> ->]], Ej as [Ej|[-> ->]]; try discriminate; eauto.
    + intros i j ti tj b Ei Ej. apply Z in Ei, Ej. destruct Ei as [Ei|[-> ->]], Ej as [Ej|[-> ->]]; try (intros [] || intros _ []); eauto.
    + intros b idx v B V. destruct (X b idx v B V) as (i & t & y & E & R). exists i, t, y. split; [|exact R].
      rewrite nth_error_app1; [exact E|]. apply nth_error_Some. congruence.
  - eapply winv_tstep; eauto.
  - destruct I as [M C T OA OV W X]. cbn in *.
    assert (L : j < length ts) by (apply nth_error_Some; congruence).
    assert (SJ : own_arr tj = own_arr (synced ti tj) /\ own_val tj = own_val (synced ti tj) /\ t_wins (synced ti tj) = t_wins tj /\
      t_calls (synced ti tj) = t_calls tj).
    { unfold own_arr, own_val. rewrite H2. auto. }
    destruct SJ as (S1 & S2 & S3 & S4).
    constructor; cbn; auto.
    + intros k t E. apply nth_set_cases in E; [|exact L]. destruct E as [[_ ->]|[D E]]; [|eauto].
      apply synced_ok; eauto.
    + intros k l tk tl b Ek El. apply nth_set_cases in Ek; [|exact L]. apply nth_set_cases in El; [|exact L].
      destruct Ek as [[<- ->]|[Dk Ek]], El as [[<- ->]|[Dl El]]; rewrite <- ?S1; eauto.
    + intros k l tk tl b Ek El. apply nth_set_cases in Ek; [|exact L]. apply nth_set_cases in El; [|exact L].
      destruct Ek as [[<- ->]|[Dk Ek]], El as [[<- ->]|[Dl El]]; rewrite <- ?S2; eauto.
    + intros k l tk tl b Ek El. apply nth_set_cases in Ek; [|exact L]. apply nth_set_cases in El; [|exact L].
      destruct Ek as [[<- ->]|[Dk Ek]], El as [[<- ->]|[Dl El]]; rewrite ?S3; eauto.
    + intros b idx v B V. destruct (X b idx v B V) as (k & t & y & E & Wk & Ck & Vk).
      destruct (Nat.eq_dec j k) as [->|D].
      * exists k, (synced ti tj), y. rewrite nth_set_nth, Nat.eqb_refl by exact L. assert (t = tj) by congruence. subst.
        repeat split; auto.
      * exists k, t, y. rewrite nth_set_nth by exact L. apply Nat.eqb_neq in D. rewrite D. auto.
Qed.

Lemma winv_reach o size x : wkreach o size x -> winv x.
Proof.
  intros H. induction H; [|eapply winv_step; eauto].
  assert (V : forall l, vals (wmem0 size) l = match l with LArr => [Null] | _ => [] end) by (intros []; reflexivity).
  assert (P : forall l, pub (wmem0 size) l = None) by (intros []; reflexivity).
  constructor; cbn; try (intros [|i]; discriminate); try (intros [|i] j ti tj b; discriminate).
  - constructor; cbn; try (intros; contradiction); try (intros; lia); auto; try (intros; apply V); intros; discriminate.
  - intros ? ? ? ? [].
Qed.

(* ---------- the results ---------- *)

Lemma once_one o size x i j ti tj idx : wkreach o size x ->
  nth_error (k_ths x) i = Some ti -> nth_error (k_ths x) j = Some tj -> In idx (t_wins ti) -> In idx (t_wins tj) ->
  i = j /\ NoDup (t_wins ti).
Proof.
  intros R Ei Ej Wi Wj. apply winv_reach in R. split; [eapply wi_wins; eauto|]. eapply st_once, wi_thread; eauto.
Qed.

Lemma once_agree o size x i j ti tj idx v us c v' us' c' : wkreach o size x ->
  nth_error (k_ths x) i = Some ti -> nth_error (k_ths x) j = Some tj ->
  In (Got idx v us c) (t_past ti) -> In (Got idx v' us' c') (t_past tj) -> v = v' /\ c = c'.
Proof.
  intros R Ei Ej Gi Gj. apply winv_reach in R.
  destruct (st_past _ _ (wi_thread x R i ti Ei) _ _ _ _ Gi) as (_ & A & _ & b & B & V & _).
  destruct (st_past _ _ (wi_thread x R j tj Ej) _ _ _ _ Gj) as (_ & A' & _ & b' & B' & V' & _).
  assert (b' = b) by congruence. subst. assert (v' = v) by congruence. subst. split; congruence.
Qed.

Lemma once_created o size x i t idx v us c : wkreach o size x -> nth_error (k_ths x) i = Some t ->
  In (Got idx v us c) (t_past t) ->
  exists j tj, nth_error (k_ths x) j = Some tj /\ In idx (t_wins tj) /\ In (idx, c) (t_calls tj).
Proof.
  intros R E G. apply winv_reach in R. destruct (st_past _ _ (wi_thread x R i t E) _ _ _ _ G) as (_ & A & _ & b & B & V & _).
  destruct (wi_winner x R b idx v B V) as (j & tj & y & Ej & W & C & Y). exists j, tj. repeat split; auto. congruence.
Qed.

Lemma once_no_dangling o size x i t idx : wkreach o size x -> nth_error (k_ths x) i = Some t -> t_pc t <> Dangling idx.
Proof.
  intros R E P. apply winv_reach in R. assert (Q := st_pc _ _ (wi_thread x R i t E)). unfold spc in Q. now rewrite P in Q.
Qed.

Lemma once_later o size x i t idx v us c : wkreach o size x -> nth_error (k_ths x) i = Some t ->
  In (Got idx v us c) (t_past t) -> t_pc t <> Back idx None.
Proof.
  intros R E G P. apply winv_reach in R. assert (Q := st_pc _ _ (wi_thread x R i t E)). unfold spc in Q.
  rewrite P in Q. eapply Q. exact G.
Qed.

Lemma later_no_race o size x i t idx v us c : wkreach o size x -> nth_error (k_ths x) i = Some t ->
  In (Got idx v us c) (t_past t) -> t_pc t <> Raced idx.
Proof.
  intros R E G P. apply winv_reach in R. assert (Q := st_pc _ _ (wi_thread x R i t E)). unfold spc in Q.
  rewrite P in Q. eapply Q. exact G.
Qed.
