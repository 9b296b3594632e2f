(* The calls of WeakOnce.v end, whatever the others do. *)
From Coq Require Import Arith NArith List Bool Lia.
From Verif Require Import Conc WeakOnce WeakRace WeakOnceInv WeakOnceFacts.
Import ListNotations.

(* no view knows of a message that is not there *)
Definition lens (w : wmem) : view := fun l => length (w_msgs w l).
Definition bmem (w : wmem) : Prop := vle (w_sc w) (lens w) /\ forall l g, In g (w_msgs w l) -> vle (m_view g) (lens w).
Definition bthread (w : wmem) (t : thread) : Prop := vle (t_cur t) (lens w) /\ vle (t_acq t) (lens w) /\ vle (t_rel t) (lens w).

Lemma vle_join a b c : vle a c -> vle b c -> vle (join a b) c.
Proof. intros A B k. specialize (A k). specialize (B k). unfold join. lia. Qed.
Lemma vle_know a l n c : vle a c -> n <= c l -> vle (know a l n) c.
Proof.
  intros A B k. specialize (A k). unfold know. destruct (loc_eqb k l) eqn:E; [|lia]. apply loc_eqb_eq in E. subst. lia.
Qed.
Lemma reads_len w a l n g : reads w a l n g -> n <= lens w l /\ In g (w_msgs w l).
Proof.
  intros (_ & B & E). split; [|eapply nth_error_In; eauto]. unfold lens.
  assert (n - 1 < length (w_msgs w l)) by (apply nth_error_Some; congruence). lia.
Qed.
Lemma loaded_b w acq t l n g p : bmem w -> bthread w t -> n <= lens w l -> In g (w_msgs w l) -> bthread w (loaded acq t l n g p).
Proof.
  intros [_ M] (A & B & C) L I. specialize (M l g I).
  split; [|split]; cbn.
  - destruct acq; [apply vle_join|]; auto; apply vle_know; auto.
  - apply vle_join; auto. apply vle_know; auto.
  - exact C.
Qed.
Lemma bthread_ge w w' t : vle (lens w) (lens w') -> bthread w t -> bthread w' t.
Proof. intros L (A & B & C). repeat split; eapply vle_trans; eauto. Qed.
Lemma bthread_pc w t p : bthread w t -> bthread w (at_pc t p).
Proof. auto. Qed.

Lemma b_put o w t l g q p ms : bmem w -> bthread w t -> w_msgs w l = ms ++ [g] ->
  let r := swapped o w t l g q p in bmem (fst r) /\ bthread (fst r) (snd r) /\ vle (lens w) (lens (fst r)).
Proof.
  intros M T E r.
  assert (I : In g (w_msgs w l)) by (rewrite E; apply in_or_app; right; now left).
  assert (L : vle (lens w) (lens (fst r))).
  { intros k. unfold r, lens. cbn. destruct (loc_eqb k l) eqn:Q; [|lia]. apply loc_eqb_eq in Q. subst. rewrite app_length. cbn. lia. }
  assert (LL : S (length (w_msgs w l)) <= lens (fst r) l).
  { unfold r, lens. cbn. rewrite loc_eqb_refl, app_length. cbn. lia. }
  assert (T1 : bthread w (loaded (succ_acq o) t l (length (w_msgs w l)) g p)) by (apply loaded_b; auto).
  assert (T2 : bthread (fst r) (snd r)).
  { destruct (bthread_ge _ _ _ L T1) as (A & B & C). unfold r. cbn [swapped snd]. split; [|split].
    - apply vle_know; assumption.
    - apply vle_know; assumption.
    - exact C. }
  split; [|split; auto]. destruct M as [M1 M2]. split.
  - eapply vle_trans; [exact M1|exact L].
  - intros k h H. unfold r in H. cbn [swapped fst put w_msgs] in H. destruct (loc_eqb k l).
    + apply in_app_or in H. destruct H as [H|[<-|[]]]; [eapply vle_trans; [eapply M2; eauto|exact L]|].
      cbn [m_view]. apply vle_join; [|eapply vle_trans; [eapply M2; eauto|exact L]].
      destruct (succ_rel o); [apply T2|]. apply vle_know; [|exact LL]. eapply vle_trans; [apply T|exact L].
    + eapply vle_trans; [eapply M2; eauto|exact L].
Qed.

Lemma b_fence w t : bmem w -> bthread w t -> bmem (fst (fence w t)) /\ bthread (fst (fence w t)) (snd (fence w t)).
Proof.
  intros [M1 M2] (A & B & C).
  assert (V : vle (join (join (t_cur t) (t_acq t)) (w_sc w)) (lens w)) by (repeat apply vle_join; auto).
  split; [split; [exact V|exact M2]|]. repeat split; exact V.
Qed.

Lemma b_tstep o w t w' t' : tstep o w t w' t' -> smem w -> bmem w -> bthread w t ->
  bmem w' /\ bthread w' t' /\ vle (lens w) (lens w').
Proof.
  intros H S M T.
  assert (B : bmem (fst (begin o w t)) /\ bthread (fst (begin o w t)) (snd (begin o w t)) /\ vle (lens w) (lens (fst (begin o w t)))).
  { unfold begin. destruct (pinned o); [|repeat split; auto; try apply T; apply M || apply vle_refl].
    destruct (b_fence w t M T). repeat split; try apply H0; try apply H1. apply vle_refl. }
  assert (RD : forall a l n g acq p, reads w a l n g -> bmem w /\ bthread w (loaded acq t l n g p) /\ vle (lens w) (lens w)).
  { intros a l n g acq p R. apply reads_len in R. destruct R. split; [exact M|]. split; [|apply vle_refl]. now apply loaded_b. }
  assert (ID : forall p, bmem w /\ bthread w (at_pc t p) /\ vle (lens w) (lens w)).
  { intros p. split; [exact M|]. split; [exact T|apply vle_refl]. }
  destruct H; eauto.
  - destruct (b_fence w t M T) as [X Y]. split; [exact X|]. split; [exact Y|apply vle_refl].
  - destruct (reads_len _ _ _ _ _ H0) as [N1 N2].
    assert (L : vle (lens w) (lens (new_arr w))).
    { intros k. unfold lens. cbn. destruct k; try lia. destruct (Nat.eqb_spec b (w_arrs w)); cbn; [|lia].
      destruct (N.ltb i (w_size w)); [|lia]. subst. assert (E := sm_cell_out w S (w_arrs w) i (le_n _)).
      unfold vals in E. destruct (w_msgs w (LCell (w_arrs w) i)); [cbn; lia|discriminate]. }
    assert (T1 := bthread_ge _ _ _ L (loaded_b w (load_acq o) t LArr n g Idle M T N1 N2)).
    assert (KA : forall a, vle a (lens (new_arr w)) -> vle (know_arr (w_size w) (w_arrs w) a) (lens (new_arr w))).
    { intros a A k. specialize (A k). unfold know_arr. destruct k; auto. unfold lens in *. cbn in A |- *.
      destruct (Nat.eqb b (w_arrs w) && N.ltb i (w_size w)); [|exact A]. cbn in A |- *. destruct (a (LCell b i)); lia. }
    destruct T1 as (X & Y & Z). split; [|split; [|exact L]].
    + destruct M as [M1 M2]. split; [eapply vle_trans; [exact M1|exact L]|]. intros k h. cbn. destruct k; try (intros I; eapply vle_trans; [eapply M2; now eauto|exact L]).
      destruct (_ && _); [|intros I; eapply vle_trans; [eapply M2; eauto|exact L]]. intros [<-|[]] k0. cbn. unfold bot. lia.
    + split; [|split]; [now apply KA|now apply KA|exact Z].
  - destruct (b_put o w t LArr g b (I2 idx x b) l M T H0) as (X & Y & Z). auto.
  - destruct (reads_len _ _ _ _ _ H2) as [N1 N2].
    assert (L : vle (lens w) (lens (new_val w x))).
    { intros k. unfold lens. cbn. destruct k; try lia. destruct (Nat.eqb_spec v (w_vals w)); cbn; [|lia].
      subst. assert (E := sm_val_out w S (w_vals w) (le_n _)).
      unfold vals in E. destruct (w_msgs w (LVal (w_vals w))); [cbn; lia|discriminate]. }
    assert (T1 := bthread_ge _ _ _ L (loaded_b w (load_acq o) t (LCell b idx) n g Idle M T N1 N2)).
    assert (L1 : 1 <= lens (new_val w x) (LVal (w_vals w))). { unfold lens. cbn. rewrite Nat.eqb_refl. cbn. lia. }
    destruct T1 as (X & Y & Z). split; [|split; [|exact L]].
    + destruct M as [M1 M2]. split; [eapply vle_trans; [exact M1|exact L]|]. intros k h. cbn. destruct k; try (intros I; eapply vle_trans; [eapply M2; now eauto|exact L]).
      destruct (Nat.eqb _ _); [|intros I; eapply vle_trans; [eapply M2; eauto|exact L]]. intros [<-|[]] k0. cbn. unfold bot. lia.
    + split; [|split]; [now apply vle_know|now apply vle_know|exact Z].
  - destruct (b_put o w t (LCell b idx) g v (Back idx (Some (v, true))) l M T H0) as (X & Y & Z). auto.
  - split; [exact M|]. split; [exact T|apply vle_refl].
Qed.

Definition binv (x : wconf) : Prop := bmem (k_mem x) /\ forall t, In t (k_ths x) -> bthread (k_mem x) t.
Lemma binv_step o x y : wkstep o x y -> winv x -> binv x -> binv y.
Proof.
  intros H I [M T]. destruct H; cbn in *.
  - split; [exact M|]. cbn. intros t [J|[<-|[]]]%in_app_or; [auto|].
    assert (V : vle view0 (lens w)).
    { apply vle_know; [intros k; unfold bot; lia|]. unfold lens. rewrite <- (map_length m_val).
      destruct (sm_arr _ (wi_mem _ I)) as [E|[b E]]; unfold vals in E; cbn in E; rewrite E; cbn; lia. }
    repeat split; exact V.
  - assert (J := nth_error_In _ _ H). destruct (b_tstep o w t w' t' H0 (wi_mem _ I) M (T t J)) as (M' & T' & L).
    split; [exact M'|]. cbn. intros t0 [->|K]%in_set_nth; [exact T'|]. eapply bthread_ge; [exact L|auto].
  - split; [exact M|]. cbn. intros t [->|K]%in_set_nth; [|auto]. apply nth_error_In in H, H0.
    destruct (T _ H) as (A & B & C), (T _ H0) as (A' & B' & C'). repeat split; cbn; try apply vle_join; auto.
Qed.
Lemma binv_reach o size x : wkreach o size x -> binv x.
Proof.
  intros H. induction H; [|eapply binv_step; eauto; eapply winv_reach; eauto].
  split; [|intros t []]. split; cbn.
  - intros k. unfold bot. lia.
  - intros [|b i|v] g; cbn; try contradiction. intros [<-|[]] k. cbn. unfold bot. lia.
Qed.

Lemma can_read w t l : vle (t_cur t) (lens w) -> w_msgs w l <> [] -> exists g, reads w (t_cur t) l (length (w_msgs w l)) g.
Proof.
  intros V N0. specialize (V l). unfold lens in V. destruct (nth_error (w_msgs w l) (length (w_msgs w l) - 1)) as [g|] eqn:E.
  - exists g. split; [exact V|]. split; [|exact E]. destruct (w_msgs w l); [easy|cbn; lia].
  - apply nth_error_None in E. destruct (w_msgs w l); [easy|cbn in E; lia].
Qed.
Lemma null_last w l : vals w l = [Null] -> exists g, w_msgs w l = [] ++ [g] /\ m_val g = Null.
Proof.
  unfold vals. destruct (w_msgs w l) as [|g [|h ms]]; cbn; try discriminate. intros E. injection E as E. exists g. auto.
Qed.

Definition at_rest (p : pc) : Prop := match p with Idle | Raced _ | Dangling _ => True | _ => False end.

Lemma in_dec_nat (n : nat) l : In n l \/ ~ In n l.
Proof. destruct (in_dec Nat.eq_dec n l); auto. Qed.

Lemma once_goes_on o size x i t : wkreach o size x -> nth_error (k_ths x) i = Some t -> ~ at_rest (t_pc t) ->
  exists w' t', tstep o (k_mem x) t w' t'.
Proof.
  intros R E P. assert (I := winv_reach _ _ _ R). assert (B := binv_reach _ _ _ R).
  destruct x as [w ts]. cbn in *. destruct B as [_ B]. apply nth_error_In in E as J. destruct (B t J) as (V & _). cbn in V.
  assert (S := wi_mem _ I). assert (T := st_pc _ _ (wi_thread _ I i t E)). cbn in S, T. unfold spc in T.
  assert (RA : exists n g, reads w (t_cur t) LArr n g /\ (m_val g = Null \/ exists b, m_val g = Ptr b)).
  { destruct (can_read w t LArr V) as [g G].
    - intros N0. destruct (sm_arr w S) as [K|[b K]]; unfold vals in K; rewrite N0 in K; discriminate.
    - exists (length (w_msgs w LArr)), g. split; [exact G|].
      destruct (reads_val w _ _ _ _ G (sm_arr w S)) as [(_ & K & _)|(b & _ & K & _)]; eauto. }
  assert (RC : forall b i, pub w LArr = Some b -> (i < w_size w)%N ->
    exists n g, reads w (t_cur t) (LCell b i) n g /\ (m_val g = Null \/ exists v, m_val g = Ptr v)).
  { intros b k A L. assert (C := sm_cell w S b k (proj1 (sm_arr_ok w S b A)) L).
    destruct (can_read w t (LCell b k) V) as [g G].
    - intros N0. destruct C as [K|[v K]]; unfold vals in K; rewrite N0 in K; discriminate.
    - exists (length (w_msgs w (LCell b k))), g. split; [exact G|].
      destruct (reads_val w _ _ _ _ G C) as [(_ & K & _)|(v & _ & K & _)]; eauto. }
  destruct (t_pc t) as [|idx|idx b|idx y|idx y b|idx y b|idx y b v|idx [[v us]|]|idx|idx] eqn:Q; cbn in P; try tauto.
  - destruct RA as (n & g & G & _). do 2 eexists. eapply ts_g0; eauto.
  - destruct T as [T1 T2]. destruct (N.le_gt_cases (w_size w) idx) as [L|L]; [do 2 eexists; eapply ts_g1_out; eauto|].
    destruct (seen (t_cur t) (LCell b idx)) eqn:Z; [|do 2 eexists; eapply ts_g1_race; eauto].
    destruct (RC b idx T1 L) as (n & g & G & _). do 2 eexists. eapply ts_g1; eauto. now apply sm_arr_ok.
  - destruct RA as (n & g & G & [K|[b K]]); do 2 eexists; [eapply ts_i0_new|eapply ts_i0_found]; eauto.
  - destruct (sm_arr w S) as [K|[c K]].
    + apply null_last in K. destruct K as (g & K1 & K2). do 2 eexists. eapply ts_i1_won; eauto.
    + destruct (can_read w t LArr V) as [g G]. { intros N0. unfold vals in K. rewrite N0 in K. discriminate. }
      do 2 eexists. eapply ts_i1_lost; [eauto|exact G|]. destruct G as (_ & _ & G). unfold vals in K.
      destruct (w_msgs w LArr) as [|g1 [|g2 [|g3 ms]]]; try discriminate. cbn in G, K. injection G as ->. injection K as _ K. exact K.
  - destruct T as (T1 & T2 & T3 & T4). destruct (seen (t_cur t) (LCell b idx)) eqn:Z; [|do 2 eexists; eapply ts_i2_race; eauto].
    assert (F : ~ In b (w_freed_arrs w)) by now apply sm_arr_ok.
    destruct (RC b idx T3 T1) as (n & g & G & [K|[v K]]); do 2 eexists; [eapply ts_i2_new|eapply ts_i2_found]; eauto.
  - destruct T as (T1 & T2 & T3 & T4 & _). destruct (sm_cell w S b idx (proj1 (sm_arr_ok w S b T3)) T1) as [K|[c K]].
    + apply null_last in K. destruct K as (g & K1 & K2). do 2 eexists. eapply ts_i3_won; eauto.
    + destruct (can_read w t (LCell b idx) V) as [g G]. { intros N0. unfold vals in K. rewrite N0 in K. discriminate. }
      do 2 eexists. eapply ts_i3_lost; [eauto|exact G|]. destruct G as (_ & _ & G). unfold vals in K.
      destruct (w_msgs w (LCell b idx)) as [|g1 [|g2 [|g3 ms]]]; try discriminate. cbn in G, K. injection G as ->. injection K as _ K. exact K.
  - destruct T as (T1 & b & T2 & T3 & _). destruct (seen (t_cur t) (LVal v)) eqn:Z; [|do 2 eexists; eapply ts_use_race; eauto].
    destruct (sm_cell_ok w S b idx v T3) as (_ & L & F). destruct (sm_val w S v L) as [y K].
    destruct (can_read w t (LVal v) V) as [g G]. { intros N0. unfold vals in K. rewrite N0 in K. discriminate. }
    do 2 eexists. eapply ts_use; eauto. destruct G as (_ & _ & G). unfold vals in K.
    destruct (w_msgs w (LVal v)) as [|g1 [|g2 ms]]; try discriminate. cbn in G, K. injection G as ->. injection K as K. exact K.
  - do 2 eexists. eapply ts_none; eauto.
Qed.

Definition rest (p : pc) : nat :=
  match p with G0 _ => 3 | G1 _ _ => 2 | I0 _ _ => 5 | I1 _ _ _ => 4 | I2 _ _ _ => 3 | I3 _ _ _ _ => 2 | Back _ _ => 1 | _ => 0 end.
Lemma rest_tstep o w t w' t' : tstep o w t w' t' -> t_pc t <> Idle -> rest (t_pc t') < rest (t_pc t).
Proof.
  intros H P. destruct H; try congruence; rewrite H; cbn; try lia.
  destruct (m_val g); cbn; lia.
Qed.

(* from x to y the thread i took n steps, and it was never idle before one of them *)
Inductive busy (o : ords) (i : nat) : nat -> wconf -> wconf -> Prop :=
| bu_none x : busy o i 0 x x
| bu_mine n x w ts t w' t' : busy o i n x (WConf w ts) -> nth_error ts i = Some t -> t_pc t <> Idle ->
    tstep o w t w' t' -> busy o i (S n) x (WConf w' (set_nth i t' ts))
| bu_other n x y z : busy o i n x y -> wkstep o y z ->
    (forall t, nth_error (k_ths y) i = Some t -> nth_error (k_ths z) i = Some t) -> busy o i n x z.

Lemma busy_rest o i n x y t : busy o i n x y -> nth_error (k_ths x) i = Some t ->
  exists t', nth_error (k_ths y) i = Some t' /\ n + rest (t_pc t') <= rest (t_pc t).
Proof.
  intros H E. induction H.
  - exists t. split; [exact E|lia].
  - destruct (IHbusy E) as (t1 & E1 & L). cbn in E1. assert (t1 = t0) by congruence. subst.
    exists t'. cbn. rewrite nth_set_nth, Nat.eqb_refl by (apply nth_error_Some; congruence). split; [reflexivity|].
    apply rest_tstep in H2; [lia|exact H1].
  - destruct (IHbusy E) as (t1 & E1 & L). exists t1. auto.
Qed.
Lemma once_ends o i n x y t : busy o i n x y -> nth_error (k_ths x) i = Some t -> n <= 5.
Proof.
  intros H E. destruct (busy_rest _ _ _ _ _ _ H E) as (t' & _ & L). assert (rest (t_pc t) <= 5) by (destruct (t_pc t); cbn; lia). lia.
Qed.
