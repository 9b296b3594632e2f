(* What holds of the atomic pointers with any orderings. *)
From Coq Require Import Arith NArith List Bool Lia.
From Verif Require Import Conc WeakPtr WeakPtrRace.
Import ListNotations.

Section Inv.
Context {A F : Type}.
Variable apply : F -> A -> A.
Variable eqb : A -> A -> bool.
Variable a0 : A.

Definition key (g : pmsg A F) : nat * bool := (pm_ptr g, pm_tag g).

(* each write brings a new object, or leaves the object and sets the tag *)
Inductive chain : list (pmsg A F) -> Prop :=
| ch_first g : chain [g]
| ch_new l g : chain l -> (forall h, In h l -> pm_ptr h <> pm_ptr g) -> chain (l ++ [g])
| ch_out l h g : chain (l ++ [h]) -> pm_ptr g = pm_ptr h -> pm_tag g = true -> chain ((l ++ [h]) ++ [g]).

Definition past_by (k : nat * bool) (h : pmsg A F) : Prop := pm_ptr h <> fst k \/ (snd k = false /\ pm_tag h = true).
Definition gone (w : pmem A F) (k : nat * bool) : Prop := exists l h, s_msgs w = l ++ [h] /\ past_by k h.

Lemma nth_snoc {B} (l : list B) x n y : nth_error (l ++ [x]) n = Some y -> nth_error l n = Some y /\ n < length l \/ n = length l /\ y = x.
Proof.
  intros E. destruct (Nat.lt_trichotomy n (length l)) as [L|[->|L]].
  - left. now rewrite nth_error_app1 in E.
  - right. rewrite nth_error_app2, Nat.sub_diag in E by lia. cbn in E. split; congruence.
  - rewrite nth_error_app2 in E by lia. destruct (n - length l) as [|m] eqn:Q; [lia|]. destruct m; discriminate.
Qed.
Lemma key_dec (a b : nat * bool) : {a = b} + {a <> b}.
Proof. decide equality; [apply Bool.bool_dec|apply Nat.eq_dec]. Qed.
Lemma key_past (g h : pmsg A F) : key h = key g -> forall h', pm_ptr h' = pm_ptr h -> pm_tag h' = true -> key h' <> key g -> past_by (key g) h'.
Proof.
  unfold key, past_by. cbn. intros E h' P T D. right. split; [|exact T]. injection E as E1 E2.
  destruct (pm_tag g) eqn:Q; [|reflexivity]. exfalso. apply D. congruence.
Qed.

Lemma chain_gone l : chain l -> forall j k gj gk, nth_error l j = Some gj -> nth_error l k = Some gk -> j <= k -> key gk <> key gj ->
  forall l' h, l = l' ++ [h] -> past_by (key gj) h.
Proof.
  induction 1 as [g|l g C IH Fr|l h g C IH P T]; intros j k gj gk Ej Ek L D l' h' E.
  - destruct k as [|[|k]]; [|discriminate|discriminate]. assert (j = 0) by lia. subst. congruence.
  - apply app_inj_tail in E. destruct E as [<- <-]. apply nth_snoc in Ej. destruct Ej as [[Ej _]|[-> ->]].
    + left. apply not_eq_sym. apply Fr. eapply nth_error_In; eauto.
    + apply nth_snoc in Ek. destruct Ek as [[_ Ek]|[_ ->]]; [lia|congruence].
  - apply app_inj_tail in E. destruct E as [<- <-]. apply nth_snoc in Ej. destruct Ej as [[Ej Lj]|[-> ->]].
    2: { apply nth_snoc in Ek. destruct Ek as [[_ Ek]|[_ ->]]; [lia|congruence]. }
    assert (Old : forall k1 g1, nth_error (l ++ [h]) k1 = Some g1 -> j <= k1 -> key g1 <> key gj -> past_by (key gj) g).
    { intros k1 g1 E1 L1 D1. destruct (IH j k1 gj g1 Ej E1 L1 D1 l h eq_refl) as [Q|[Q1 Q2]].
      - left. congruence.
      - right. auto. }
    apply nth_snoc in Ek. destruct Ek as [[Ek _]|[-> ->]]; [now apply (Old k gk)|].
    destruct (key_dec (key h) (key gj)) as [E|N].
    + now apply (key_past gj h).
    + apply (Old (length l) h); [|rewrite app_length in Lj; cbn in Lj; lia|exact N].
      rewrite nth_error_app2, Nat.sub_diag by lia. reflexivity.
Qed.

(* ---------- the invariant ---------- *)

Definition after (w : pmem A F) (k : nat) : A * bool := do_ops apply a0 (firstn (k - 1) (order w)).
Definition owns (t : pthread A F) : option nat := match p_pc t with PUpd2 _ _ _ n | PSet2 _ _ _ n => Some n | _ => None end.
Definition found (w : pmem A F) (v : pview) (k : nat * bool) : Prop :=
  exists j g, nth_error (s_msgs w) j = Some g /\ key g = k /\ S j <= v_at v.
Definition owned (w : pmem A F) (n : nat) : Prop := n < length (s_objs w) /\ forall g, In g (s_msgs w) -> pm_ptr g <> n.
Definition stamps (t : pthread A F) (k : nat) : Prop := forall s b, In (s, b) (p_past t) -> s <= k.

Definition pcinv (w : pmem A F) (t : pthread A F) : Prop :=
  match p_pc t with
  | PRead1 k n => (exists g, nth_error (s_msgs w) (k - 1) = Some g /\ pm_ptr g = n) /\ 1 <= k <= v_at (p_cur t) /\ stamps t k
  | PGave k a => 1 <= k <= v_at (p_cur t) /\ k <= length (s_msgs w) /\ a = fst (after w k) /\ stamps t k
  | PTagGave k b => 1 <= k <= v_at (p_cur t) /\ k <= length (s_msgs w) /\ b = snd (after w k) /\ stamps t k
  | PUpd1 f n tag => found w (p_cur t) (n, tag)
  | PSet1 k a n tag => (exists g, nth_error (s_msgs w) (k - 1) = Some g /\ pm_ptr g = n) /\ 1 <= k <= v_at (p_cur t)
  | PUpd2 f n tag new => found w (p_cur t) (n, tag) /\
      (gone w (n, tag) \/ exists a, nth_error (s_objs w) n = Some a /\ nth_error (s_objs w) new = Some (apply f a))
  | PUpd3 f n tag m => found w (p_cur t) (n, tag) /\ gone w (n, tag)
  | PSet2 a n tag new => nth_error (s_objs w) new = Some a
  | _ => True
  end.
Definition did_ok (w : pmem A F) (k : nat) (d : pdid A F) : Prop :=
  match d with
  | DidWrite b => 2 <= k /\ nth_error (order w) (k - 2) = Some b
  | DidRead a => a = fst (after w k)
  | DidFlag b => b = snd (after w k)
  | DidKeep a => eqb (fst (after w k)) a = true
  end.
Definition pasts (w : pmem A F) (v : pview) (l : list (nat * pdid A F)) : Prop :=
  forall s d, In (s, d) l -> 1 <= s <= v_at v /\ s <= length (s_msgs w) /\ did_ok w s d.

Record tinv (w : pmem A F) (t : pthread A F) : Prop := {
  ti_pc : pcinv w t;
  ti_owned : forall n, owns t = Some n -> owned w n;
  ti_past : pasts w (p_cur t) (p_past t)
}.
Record minv (w : pmem A F) : Prop := {
  mi_chain : chain (s_msgs w);
  mi_obj : forall n g, nth_error (s_msgs w) n = Some g -> exists a, nth_error (s_objs w) (pm_ptr g) = Some a /\ (a, pm_tag g) = after w (S n);
  mi_len : length (s_msgs w) = S (length (order w));
  mi_past : pasts w (s_sc w) (s_past w)
}.
Record pinv (x : pconf A F) : Prop := {
  px_mem : minv (c_mem x);
  px_ths : forall i t, nth_error (c_ths x) i = Some t -> tinv (c_mem x) t;
  px_own : forall i j ti tj n, nth_error (c_ths x) i = Some ti -> nth_error (c_ths x) j = Some tj ->
    owns ti = Some n -> owns tj = Some n -> i = j
}.

(* ---------- how the memory changes ---------- *)

Inductive pchange (w : pmem A F) (t : pthread A F) (w' : pmem A F) : Prop :=
| pg_same : s_msgs w' = s_msgs w -> s_objs w' = s_objs w -> pchange w t w'
| pg_new a : s_msgs w' = s_msgs w -> s_objs w' = s_objs w ++ [a] -> pchange w t w'
| pg_put l g g' b : s_msgs w = l ++ [g] -> s_msgs w' = s_msgs w ++ [g'] -> s_objs w' = s_objs w -> pm_by g' = Some b ->
    owns t = Some (pm_ptr g') \/ (pm_ptr g' = pm_ptr g /\ pm_tag g' = true) -> pchange w t w'.

Lemma tstep_change o w t w' t' : ptstep apply eqb o w t w' t' -> pchange w t w'.
Proof.
  intros H. destruct H; try (apply pg_same; reflexivity); try (eapply pg_new; reflexivity).
  - eapply pg_put; [exact H0|reflexivity|reflexivity|reflexivity|]. left. unfold owns. now rewrite H.
  - eapply pg_put; [exact H0|reflexivity|reflexivity|reflexivity|]. left. unfold owns. now rewrite H.
  - eapply pg_put; [exact H0|reflexivity|reflexivity|reflexivity|]. right. now split.
Qed.

Lemma change_msgs w t w' n g : pchange w t w' -> nth_error (s_msgs w) n = Some g -> nth_error (s_msgs w') n = Some g.
Proof.
  intros C E. destruct C as [M O|a M O|l g1 g2 b M M' O B Q]; rewrite ?M; try exact E.
  rewrite M'. rewrite nth_error_app1; [exact E|]. apply nth_error_Some. congruence.
Qed.
Lemma change_objs w t w' n a : pchange w t w' -> nth_error (s_objs w) n = Some a -> nth_error (s_objs w') n = Some a.
Proof.
  intros C E. destruct C as [M O|a1 M O|l g1 g2 b M M' O B Q]; rewrite O; try exact E.
  rewrite nth_error_app1; [exact E|]. apply nth_error_Some. congruence.
Qed.
Lemma change_order w t w' : pchange w t w' -> exists l, order w' = order w ++ l.
Proof.
  intros C. unfold order. destruct C as [M O|a1 M O|l g1 g2 b M M' O B Q].
  - exists []. now rewrite M, app_nil_r.
  - exists []. now rewrite M, app_nil_r.
  - exists [b]. rewrite M', flat_map_app. cbn. now rewrite B.
Qed.
Lemma change_after w t w' k : pchange w t w' -> minv w -> k <= length (s_msgs w) -> after w' k = after w k.
Proof.
  intros C M L. unfold after. destruct (change_order w t w' C) as [l ->]. rewrite firstn_app.
  assert (E : k - 1 - length (order w) = 0) by (rewrite (mi_len w M) in L; lia). rewrite E. cbn. now rewrite app_nil_r.
Qed.
Lemma change_len w t w' : pchange w t w' -> length (s_msgs w) <= length (s_msgs w') /\ length (s_objs w) <= length (s_objs w').
Proof. intros [M O|a1 M O|l g1 g2 b M M' O B Q]; rewrite ?M', ?M, O, ?app_length; cbn; lia. Qed.

Lemma gone_change w t w' k : pchange w t w' -> (forall n, owns t = Some n -> owned w n) -> (exists h, In h (s_msgs w) /\ pm_ptr h = fst k) ->
  gone w k -> gone w' k.
Proof.
  intros C OW (h0 & I0 & E0) (l & h & E & P). destruct C as [M O|a M O|l1 g1 g2 b M M' O B Q].
  - exists l, h. now rewrite M.
  - exists l, h. now rewrite M.
  - exists (s_msgs w), g2. split; [exact M'|]. rewrite M in E. apply app_inj_tail in E. destruct E as [<- <-].
    destruct Q as [Q|[Q1 Q2]].
    + left. destruct (OW _ Q) as [_ K]. rewrite <- E0. apply not_eq_sym. now apply K.
    + destruct P as [P|[P1 P2]]; [left; congruence|right; auto].
Qed.
Lemma found_in w v k : found w v k -> exists h, In h (s_msgs w) /\ pm_ptr h = fst k.
Proof. intros (j & g & E & <- & _). exists g. split; [eapply nth_error_In; eauto|reflexivity]. Qed.

Lemma pasts_change w t w' v l : pchange w t w' -> minv w -> pasts w v l -> pasts w' v l.
Proof.
  intros C M P s d I. destruct (P s d I) as (L & L2 & K). split; [exact L|]. destruct (change_len w t w' C) as [L3 _]. split; [lia|].
  destruct d as [b|a|b|a]; cbn in *; try (rewrite (change_after w t w' s C M L2); exact K).
  destruct K as [K1 K2]. split; [exact K1|].
  destruct (change_order w t w' C) as [m ->]. rewrite nth_error_app1; [exact K2|]. apply nth_error_Some. congruence.
Qed.
Lemma pasts_le w v v' l : v_at v <= v_at v' -> pasts w v l -> pasts w v' l.
Proof. intros L P s b I. destruct (P s b I) as (Q & K). split; [lia|exact K]. Qed.

(* the other threads *)
Lemma tinv_change w t w' u : pchange w t w' -> minv w -> tinv w t -> tinv w u ->
  (forall n, owns t = Some n -> owns u = Some n -> False) -> tinv w' u.
Proof.
  intros C M T [P O PA] D. constructor.
  - assert (FF : forall k, found w (p_cur u) k -> found w' (p_cur u) k).
    { intros k (j & g & E & K). exists j, g. split; [eapply change_msgs; eauto|exact K]. }
    assert (GG : forall k, found w (p_cur u) k -> gone w k -> gone w' k).
    { intros k Fk. eapply gone_change; [exact C|apply T|]. eapply found_in; eauto. }
    destruct (change_len w t w' C) as [L1 L2].
    unfold pcinv in *. destruct (p_pc u); auto.
    + destruct P as ((g & E & K) & R). split; [|exact R]. exists g. split; [eapply change_msgs; eauto|exact K].
    + destruct P as (R & L & E & S). rewrite (change_after w t w' t0 C M L). repeat split; try assumption; lia.
    + destruct P as (R & L & E & S). rewrite (change_after w t w' t0 C M L). repeat split; try assumption; lia.
    + destruct P as (Fk & [G|(a & E1 & E2)]); split; auto. right. exists a. split; eapply change_objs; eauto.
    + destruct P; split; auto.
    + destruct P as ((g & E & K) & R). split; [|exact R]. exists g. split; [eapply change_msgs; eauto|exact K].
    + eapply change_objs; eauto.
  - intros n E. destruct (O n E) as [L K]. split; [destruct (change_len w t w' C); lia|].
    intros g I. destruct C as [M1 O1|a M1 O1|l g1 g2 b M1 M' O1 B Q].
    + apply K. now rewrite <- M1.
    + apply K. now rewrite <- M1.
    + rewrite M' in I. apply in_app_or in I. destruct I as [I|[<-|[]]]; [now apply K|].
      destruct Q as [Q|[Q _]].
      * intros X. subst n. exact (D _ Q E).
      * rewrite Q. apply K. rewrite M1. apply in_or_app. right. now left.
  - eapply pasts_change; eauto.
Qed.

(* ---------- the memory ---------- *)

Lemma reads_obj w v n g : minv w -> preads w v n g -> exists a, nth_error (s_objs w) (pm_ptr g) = Some a /\ (a, pm_tag g) = after w n.
Proof. intros M (_ & L & E). destruct (mi_obj w M _ _ E) as (a & Q). exists a. replace n with (S (n - 1)) by lia. exact Q. Qed.
Lemma reads_len (w : pmem A F) v n g : preads w v n g -> n <= length (s_msgs w).
Proof. intros (_ & L & E). apply nth_some_lt in E. lia. Qed.

Lemma nth_last {B} (l : list B) x : nth_error (l ++ [x]) (length l) = Some x.
Proof. rewrite nth_error_app2, Nat.sub_diag by lia. reflexivity. Qed.

(* a message g' is put after the last one, g *)
Lemma minv_put w w' t l g g' b : minv w -> s_msgs w = l ++ [g] -> s_msgs w' = s_msgs w ++ [g'] -> s_objs w' = s_objs w ->
  s_sc w' = s_sc w -> s_past w' = s_past w -> pm_by g' = Some b -> pchange w t w' ->
  (forall h, In h (s_msgs w) -> pm_ptr h <> pm_ptr g') \/ (pm_ptr g' = pm_ptr g /\ pm_tag g' = true) ->
  (forall s, s = after w (length (s_msgs w)) -> forall a, nth_error (s_objs w) (pm_ptr g) = Some a -> s = (a, pm_tag g) ->
     exists a', nth_error (s_objs w) (pm_ptr g') = Some a' /\ (a', pm_tag g') = do_op apply s b) ->
  minv w'.
Proof.
  intros M E E' O SC PA B C Q SS.
  assert (OR : order w' = order w ++ [b]) by (unfold order; rewrite E', flat_map_app; cbn; now rewrite B).
  constructor.
  - rewrite E'. destruct Q as [Q|[Q1 Q2]].
    + apply ch_new; [apply M|exact Q].
    + rewrite E. apply ch_out; [rewrite <- E; apply M|exact Q1|exact Q2].
  - intros n h N. rewrite E' in N. apply nth_snoc in N. destruct N as [[N L]|[-> ->]].
    + destruct (mi_obj w M n h N) as (a & A1 & A2). exists a. rewrite O. split; [exact A1|].
      rewrite (change_after w t w' (S n) C M); [exact A2|lia].
    + assert (G : nth_error (s_msgs w) (length l) = Some g) by (rewrite E; apply nth_last).
      destruct (mi_obj w M _ _ G) as (a & A1 & A2).
      assert (LL : length (s_msgs w) = S (length l)) by (rewrite E, app_length; cbn; lia).
      destruct (SS _ eq_refl a A1) as (a' & R1 & R2); [rewrite LL; now symmetry|].
      exists a'. rewrite O. split; [exact R1|]. rewrite R2. unfold after. cbn [Nat.sub]. rewrite Nat.sub_0_r. rewrite OR.
      assert (L2 := mi_len w M). rewrite firstn_app. replace (length (s_msgs w) - length (order w)) with 1 by lia.
      rewrite firstn_all2 by lia. cbn [firstn]. unfold do_ops. rewrite fold_left_app. cbn [fold_left].
      rewrite (firstn_all2 (order w)) by lia. reflexivity.
  - rewrite E', app_length, OR, app_length, (mi_len w M). cbn. lia.
  - rewrite SC, PA. eapply pasts_change; [exact C|exact M|apply M].
Qed.
Lemma minv_same w w' t : minv w -> pchange w t w' -> s_msgs w' = s_msgs w -> pasts w' (s_sc w') (s_past w') -> minv w'.
Proof.
  intros M C E P. assert (OR : order w' = order w) by (unfold order; now rewrite E). constructor.
  - rewrite E. apply M.
  - intros n g N. rewrite E in N. destruct (mi_obj w M n g N) as (a & A1 & A2). exists a. split; [eapply change_objs; eauto|].
    unfold after. rewrite OR. exact A2.
  - rewrite E, OR. apply M.
  - exact P.
Qed.

(* ---------- the thread that runs ---------- *)

Lemma ploaded_at acq (t : pthread A F) n g p : n <= v_at (p_cur (ploaded acq t n g p)) /\ v_at (p_cur t) <= v_at (p_cur (ploaded acq t n g p)).
Proof. unfold ploaded. cbn. destruct acq; cbn; lia. Qed.

Lemma own_step o w t w' t' : ptstep apply eqb o w t w' t' -> minv w -> tinv w t ->
  minv w' /\ tinv w' t' /\ (forall n, owns t' = Some n -> owns t = Some n \/ n = length (s_objs w)).
Proof.
  intros H M T. assert (C := tstep_change _ _ _ _ _ H). destruct T as [P O PA].
  (* a load *)
  assert (Ld : forall acq n g p, preads w (p_cur t) n g ->
    (pcinv w (ploaded acq t n g p)) -> owns (ploaded acq t n g p) = None ->
    minv w /\ tinv w (ploaded acq t n g p) /\ (forall m, owns (ploaded acq t n g p) = Some m -> owns t = Some m \/ m = length (s_objs w))).
  { intros acq n g p R Q1 Q2. split; [exact M|]. split.
    - constructor; [exact Q1|congruence|]. cbn [p_past ploaded]. eapply pasts_le; [|exact PA]. apply ploaded_at.
    - intros m; congruence. }
  assert (Fo : forall acq n g p, preads w (p_cur t) n g -> found w (p_cur (ploaded acq t n g p)) (pm_ptr g, pm_tag g)).
  { intros acq n g p (_ & L & E). exists (n - 1), g. split; [exact E|]. split; [reflexivity|].
    destruct (ploaded_at acq t n g p). lia. }
  assert (Fm : forall acq n g p k, found w (p_cur t) k -> found w (p_cur (ploaded acq t n g p)) k).
  { intros acq n g p k (j & h & E & K & L). exists j, h. split; [exact E|]. split; [exact K|]. destruct (ploaded_at acq t n g p). lia. }
  assert (St : forall n g, preads w (p_cur t) n g -> stamps t n).
  { intros n g (L & _) s b I. destruct (PA s b I) as [Q _]. lia. }
  (* local steps *)
  assert (Lo : forall p, pcinv w (pat t p) -> owns (pat t p) = None ->
    minv w /\ tinv w (pat t p) /\ (forall m, owns (pat t p) = Some m -> owns t = Some m \/ m = length (s_objs w))).
  { intros p Q1 Q2. split; [exact M|]. split; [|intros m; congruence]. constructor; [exact Q1|congruence|exact PA]. }
  (* a new object *)
  assert (Nw : forall a p, pcinv (pnew w a) (pmade w t p) -> owns (pmade w t p) = Some (length (s_objs w)) ->
    minv (pnew w a) /\ tinv (pnew w a) (pmade w t p) /\ (forall m, owns (pmade w t p) = Some m -> owns t = Some m \/ m = length (s_objs w))).
  { intros a p Q1 Q2. split; [|split].
    - eapply minv_same with (w := w) (t := t); [exact M|eapply pg_new; reflexivity|reflexivity|]. apply M.
    - constructor; [exact Q1| |exact PA]. intros m E. rewrite Q2 in E. injection E as <-. split.
      + cbn. rewrite app_length. cbn. lia.
      + cbn. intros g I. apply In_nth_error in I. destruct I as [n I]. destruct (mi_obj w M n g I) as (b & B & _).
        apply nth_some_lt in B. lia.
    - intros m E. right. congruence. }
  assert (Gn : forall k n tag g, preads w (p_cur t) k g -> found w (p_cur t) (n, tag) -> (pm_ptr g, pm_tag g) <> (n, tag) -> gone w (n, tag)).
  { intros k n tag g (L1 & L2 & E) (j & h & J & K & L3) D.
    destruct (exists_last (l := s_msgs w)) as (l & x & EL); [intros Z; rewrite Z in E; now destruct (k - 1)|].
    exists l, x. split; [exact EL|]. rewrite <- K. refine (chain_gone _ (mi_chain w M) j (k - 1) h g J E _ _ l x EL); [lia|].
    rewrite K. exact D. }
  (* a compare_exchange that succeeds *)
  assert (Wn : forall acq rel g l q tag b, s_msgs w = l ++ [g] -> pchange w t (fst (pswapped acq rel w t g q tag b PIdle)) ->
     minv (fst (pswapped acq rel w t g q tag b PIdle)) ->
     minv (fst (pswapped acq rel w t g q tag b PIdle)) /\ tinv (fst (pswapped acq rel w t g q tag b PIdle)) (snd (pswapped acq rel w t g q tag b PIdle)) /\
     (forall m, owns (snd (pswapped acq rel w t g q tag b PIdle)) = Some m -> owns t = Some m \/ m = length (s_objs w))).
  { intros acq rel g l q tag b E C1 M'. split; [exact M'|]. split; [|intros m; discriminate].
    constructor; [exact I|intros n; discriminate|]. cbn [p_past snd pswapped]. intros s b0 [I|I].
    - injection I as <- <-. cbn [p_cur snd pswapped]. split; [cbn [v_at pknow]; lia|].
      split; [cbn [s_msgs fst pswapped]; rewrite app_length; cbn; lia|]. cbn [did_ok].
      split; [rewrite E, app_length; cbn; lia|]. unfold order. cbn [fst s_msgs pswapped]. rewrite flat_map_app. cbn [flat_map pm_by app].
      fold (order w). assert (LL := mi_len w M). replace (S (length (s_msgs w)) - 2) with (length (order w)) by lia. apply nth_last.
    - destruct (pasts_change w t _ _ _ C1 M PA s b0 I) as [Q1 Q2]. split; [|exact Q2].
      destruct (ploaded_at acq t (length (s_msgs w)) g (@PIdle A F)). cbn [p_cur snd pswapped pknow v_at] in *. lia. }
  unfold pcinv in P.
  assert (C0 := C).
  destruct H; match goal with [ E : p_pc t = _ |- _ ] => rewrite E in P end.
  - (* fence *) split; [|split].
    + eapply minv_same with (w := w) (t := t); [exact M|exact C0|reflexivity|].
      cbn [s_sc s_past pfence fst]. intros s b I. apply in_app_or in I. destruct I as [I|I].
      * destruct (mi_past w M s b I) as [Q1 Q2]. split; [cbn; lia|exact Q2].
      * destruct (PA s b I) as [Q1 Q2]. split; [cbn; lia|exact Q2].
    + constructor.
      * unfold pcinv. cbn [p_pc pfence snd]. now rewrite H.
      * unfold owns. cbn [p_pc pfence snd]. rewrite H. discriminate.
      * cbn [p_cur p_past pfence snd]. intros s b I. apply in_app_or in I. destruct I as [I|I].
        -- destruct (mi_past w M s b I) as [Q1 Q2]. split; [cbn; lia|exact Q2].
        -- destruct (PA s b I) as [Q1 Q2]. split; [cbn; lia|exact Q2].
    + unfold owns. cbn [p_pc pfence snd]. rewrite H. discriminate.
  - (* call *) apply Lo; unfold pcinv, owns; cbn [p_pc pat]; destruct p; try contradiction; auto.
  - (* read0 *) apply Ld; auto. unfold pcinv. cbn [p_pc ploaded]. split; [exists g; destruct H0 as (_ & _ & E); auto|].
    destruct (ploaded_at (q_load_acq o) t n g (PRead1 n (pm_ptr g))) as [L1 L2]. split; [destruct H0 as (_ & L & _); lia|]. apply (St n g H0).
  - (* read1 *) apply Lo; [|reflexivity]. unfold pcinv. cbn [p_pc pat]. destruct P as ((g & E & <-) & R & Sk).
    assert (LK := nth_some_lt _ _ _ E). split; [exact R|]. split; [lia|]. split; [|exact Sk].
    destruct (mi_obj w M _ _ E) as (b & B1 & B2). replace (S (k - 1)) with k in B2 by lia. rewrite <- B2. cbn. congruence.
  - apply Lo; [exact I|reflexivity].
  - (* gave *) split; [exact M|]. split; [|intros m; discriminate]. constructor; [exact I|intros m; discriminate|].
    cbn [p_past pdone]. intros s b [E|E]; [|now apply PA]. injection E as <- <-. cbn [p_cur pdone]. destruct P as (R & L & Q & _). split; [exact R|]. split; [exact L|exact Q].
  - (* tag0 *) apply Ld; auto. unfold pcinv. cbn [p_pc ploaded].
    destruct (ploaded_at (q_load_acq o) t n g (PTagGave n (pm_tag g))) as [L1 L2].
    split; [destruct H0 as (_ & L & _); lia|]. split; [eapply reads_len; eauto|]. split; [|apply (St n g H0)].
    destruct (reads_obj w _ n g M H0) as (a & _ & E). now rewrite <- E.
  - split; [exact M|]. split; [|intros m; discriminate]. constructor; [exact I|intros m; discriminate|].
    cbn [p_past pdone]. intros s b0 [E|E]; [|now apply PA]. injection E as <- <-. cbn [p_cur pdone]. destruct P as (R & L & Q & _). split; [exact R|]. split; [exact L|exact Q].
  - (* upd0 *) apply Ld; auto. unfold pcinv. cbn [p_pc ploaded]. now apply Fo.
  - (* upd1 *) apply Nw; [|reflexivity]. unfold pcinv. cbn [p_pc pmade]. split.
    + destruct P as (j & g & E & K & L). exists j, g. split; [exact E|]. split; [exact K|exact L].
    + right. exists a. cbn. split; [rewrite nth_error_app1; [assumption|eapply nth_some_lt; eauto]|apply nth_last].
  - apply Lo; [exact I|reflexivity].
  - (* upd2 won *) assert (OW := O new). unfold owns in OW. rewrite H in OW. specialize (OW eq_refl). destruct OW as [OW1 OW2].
    eapply Wn; eauto. eapply minv_put with (w := w) (t := t) (b := Updated f);
      [exact M|exact H0|reflexivity|reflexivity|reflexivity|reflexivity|reflexivity|exact C0|left; exact OW2|].
    intros s E a E1 E2. cbn [pm_ptr pm_tag]. destruct P as [Fd [(l1 & h & G1 & G2)|(a1 & Q1 & Q2)]].
    + exfalso. rewrite H0 in G1. apply app_inj_tail in G1. destruct G1 as [_ <-]. unfold past_by in G2. cbn in G2.
      destruct G2 as [G2|[G2 G3]]; congruence.
    + exists (apply f a1). split; [exact Q2|]. rewrite E2. cbn. rewrite H1 in E1. congruence.
  - (* upd2 lost *) apply Ld; auto. unfold pcinv. cbn [p_pc ploaded]. destruct P as [Fd _]. split; [now apply Fm|]. eapply Gn; eauto.
  - (* upd3 *) apply Nw; [|reflexivity]. unfold pcinv. cbn [p_pc pmade]. destruct P as [Fd G]. split; [exact Fd|left; exact G].
  - apply Lo; [exact I|reflexivity].
  - (* set0 *) apply Ld; auto. unfold pcinv. cbn [p_pc ploaded]. split; [exists g; destruct H0 as (_ & _ & E); auto|].
    destruct (ploaded_at (q_load_acq o) t n g (PSet1 n a (pm_ptr g) (pm_tag g))) as [L1 L2]. destruct H0 as (_ & L & _); lia.
  - (* set1, the same *) split; [exact M|]. split; [|intros m; discriminate]. constructor; [exact I|intros m; discriminate|].
    cbn [p_past pdone]. intros s d [E|E]; [|now apply PA]. injection E as <- <-. cbn [p_cur pdone]. destruct P as ((g & E & <-) & R).
    assert (LK := nth_some_lt _ _ _ E). split; [exact R|]. split; [lia|]. cbn [did_ok].
    destruct (mi_obj w M _ _ E) as (b1 & B1 & B2). replace (S (k - 1)) with k in B2 by lia. rewrite <- B2. cbn. congruence.
  - (* set1 *) apply Nw; [|reflexivity]. unfold pcinv. cbn [p_pc pmade]. cbn. apply nth_last.
  - apply Lo; [exact I|reflexivity].
  - (* set2 won *) assert (OW := O new). unfold owns in OW. rewrite H in OW. specialize (OW eq_refl). destruct OW as [OW1 OW2].
    eapply Wn; eauto. eapply minv_put with (w := w) (t := t) (b := Stored a);
      [exact M|exact H0|reflexivity|reflexivity|reflexivity|reflexivity|reflexivity|exact C0|left; exact OW2|].
    intros s E a1 E1 E2. cbn [pm_ptr pm_tag]. exists a. split; [exact P|reflexivity].
  - (* set2 lost *) now apply Ld.
  - (* out0 *) now apply Ld.
  - (* out1 won *) eapply Wn; eauto. eapply minv_put with (w := w) (t := t) (b := Outdated);
      [exact M|exact H0|reflexivity|reflexivity|reflexivity|reflexivity|reflexivity|exact C0|right; split; [symmetry; exact H1|reflexivity]|].
    intros s E a E1 E2. cbn [pm_ptr pm_tag]. exists a. rewrite E2. split; [congruence|reflexivity].
  - now apply Ld.
Qed.

Lemma pinv_cstep o x y : pcstep apply eqb o x y -> pinv x -> pinv y.
Proof.
  intros H [M T D]. destruct H as [w ts|w ts i t w' t' E H|w ts i j ti tj Ei Ej Pi Pj]; cbn [c_mem c_ths] in *.
  - constructor; cbn [c_mem c_ths].
    + exact M.
    + intros i t E. apply nth_snoc in E. destruct E as [[E _]|[_ ->]]; [now apply (T i)|].
      constructor; [exact I|intros n; discriminate|intros s b []].
    + intros i j ti tj n Ei Ej Oi Oj. apply nth_snoc in Ei. apply nth_snoc in Ej.
      destruct Ei as [[Ei _]|[_ ->]]; [|discriminate]. destruct Ej as [[Ej _]|[_ ->]]; [|discriminate]. now apply (D i j ti tj n).
  - destruct (own_step o w t w' t' H M (T i t E)) as (M' & T' & O').
    assert (C := tstep_change _ _ _ _ _ H). assert (L : i < length ts) by (eapply nth_some_lt; eauto).
    constructor; cbn [c_mem c_ths].
    + exact M'.
    + intros j u Eu. rewrite nth_set_nth in Eu by exact L. destruct (Nat.eqb_spec i j) as [<-|N]; [injection Eu as <-; exact T'|].
      eapply tinv_change; [exact C|exact M|now apply (T i)|now apply (T j)|]. intros n O1 O2. apply N. eapply D; eauto.
    + assert (K : forall j tj n, nth_error ts j = Some tj -> i <> j -> owns t' = Some n -> owns tj = Some n -> False).
      { intros j tj n Ej N O1 O2. destruct (O' n O1) as [O3| ->].
        - apply N. eapply D; eauto.
        - destruct (ti_owned _ _ (T j tj Ej) _ O2) as [Q _]. lia. }
      intros j k tj tk n Ej Ek Oj Ok. rewrite nth_set_nth in Ej, Ek by exact L.
      destruct (Nat.eqb_spec i j) as [<-|N1]; destruct (Nat.eqb_spec i k) as [<-|N2].
      * reflexivity.
      * injection Ej as <-. exfalso. eauto.
      * injection Ek as <-. exfalso. eauto.
      * eapply D; eauto.
  - assert (L : j < length ts) by (eapply nth_some_lt; eauto). constructor; cbn [c_mem c_ths].
    + exact M.
    + intros k u Eu. rewrite nth_set_nth in Eu by exact L. destruct (Nat.eqb_spec j k) as [<-|N]; [|now apply (T k)].
      injection Eu as <-. constructor; [exact I|intros n; discriminate|].
      cbn [p_cur p_past psynced]. intros s b I. apply in_app_or in I. destruct I as [I|I].
      * destruct (ti_past _ _ (T i ti Ei) s b I) as [Q1 Q2]. split; [cbn; lia|exact Q2].
      * destruct (ti_past _ _ (T j tj Ej) s b I) as [Q1 Q2]. split; [cbn; lia|exact Q2].
    + intros a b ta tb n Ea Eb Oa Ob. rewrite nth_set_nth in Ea, Eb by exact L.
      destruct (Nat.eqb_spec j a) as [->|N1]; [injection Ea as <-; discriminate|].
      destruct (Nat.eqb_spec j b) as [->|N2]; [injection Eb as <-; discriminate|]. eapply D; eauto.
Qed.

Lemma pinv_reach o x : pcreach apply eqb o a0 x -> pinv x.
Proof.
  intros H. induction H as [|x y _ IH H]; [|eapply pinv_cstep; eauto].
  constructor; cbn [c_mem c_ths pmem0].
  - constructor; cbn.
    + apply ch_first.
    + intros [|[|n]] g E; try discriminate. injection E as <-. exists a0. split; reflexivity.
    + reflexivity.
    + intros s b [].
  - intros [|i]; discriminate.
  - intros [|i]; discriminate.
Qed.
End Inv.
