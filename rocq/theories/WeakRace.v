(* With Acquire on the loads and on failure, and Release on success, no call
   races. *)
From Coq Require Import Arith NArith List Bool Lia.
From Verif Require Import Conc WeakOnce.
Import ListNotations.

Lemma loc_eqb_eq a b : loc_eqb a b = true <-> a = b.
Proof.
  destruct a, b; cbn; try easy.
  - rewrite andb_true_iff, Nat.eqb_eq, N.eqb_eq. split; [intros [-> ->]; reflexivity|intros E; now injection E].
  - rewrite Nat.eqb_eq. split; [now intros ->|intros E; now injection E].
Qed.
Lemma loc_eqb_refl l : loc_eqb l l = true.
Proof. now apply loc_eqb_eq. Qed.

Lemma seen_iff a l : seen a l = true <-> 1 <= a l.
Proof. apply Nat.leb_le. Qed.

Lemma know_ge a l t k : a k <= know a l t k.
Proof. unfold know. destruct (loc_eqb k l); lia. Qed.
Lemma know_at a l t : t <= know a l t l.
Proof. unfold know. rewrite loc_eqb_refl. lia. Qed.
Lemma join_l a b k : a k <= join a b k.
Proof. unfold join. lia. Qed.
Lemma join_r a b k : b k <= join a b k.
Proof. unfold join. lia. Qed.
Lemma know_arr_ge size n a k : a k <= know_arr size n a k.
Proof. unfold know_arr. destruct k; try lia. destruct (_ && _); lia. Qed.
Lemma know_arr_at size n a i : (i < size)%N -> 1 <= know_arr size n a (LCell n i).
Proof. intros H. unfold know_arr. rewrite Nat.eqb_refl. apply N.ltb_lt in H. rewrite H. cbn [andb]. lia. Qed.

Definition vle (a b : view) : Prop := forall k, a k <= b k.
Lemma vle_refl a : vle a a.
Proof. intros k. lia. Qed.
Lemma vle_trans a b c : vle a b -> vle b c -> vle a c.
Proof. intros H K k. specialize (H k). specialize (K k). lia. Qed.
Lemma loaded_ge acq t l n g p : vle (t_cur t) (t_cur (loaded acq t l n g p)).
Proof.
  intros k. cbn. pose proof (know_ge (t_cur t) l n k). destruct acq; [|lia].
  pose proof (join_l (know (t_cur t) l n) (m_view g) k). lia.
Qed.
Lemma loaded_at acq t l n g p : n <= t_cur (loaded acq t l n g p) l.
Proof.
  cbn. pose proof (know_at (t_cur t) l n). destruct acq; [|lia].
  pose proof (join_l (know (t_cur t) l n) (m_view g) l). lia.
Qed.
Lemma loaded_acq t l n g p : vle (m_view g) (t_cur (loaded true t l n g p)).
Proof. intros k. cbn. apply join_r. Qed.
Lemma swapped_ge o w t l g q p : vle (t_cur t) (t_cur (snd (swapped o w t l g q p))).
Proof.
  eapply vle_trans; [apply (loaded_ge (succ_acq o) t l (length (w_msgs w l)) g p)|intros k; apply know_ge].
Qed.
Lemma begin_ge o w t : vle (t_cur t) (t_cur (snd (begin o w t))).
Proof.
  unfold begin, fence. destruct (pinned o); cbn; [|apply vle_refl].
  intros k. unfold join. lia.
Qed.
Lemma fence_ge w t : vle (t_cur t) (t_cur (snd (fence w t))).
Proof. apply (begin_ge (Ords true true true true true) w t). Qed.

Lemma seen_ge a b l : vle a b -> seen a l = true -> seen b l = true.
Proof. intros H. rewrite !seen_iff. specialize (H l). lia. Qed.

(* all orderings that matter *)
Definition strong (o : ords) : Prop := load_acq o = true /\ succ_rel o = true /\ fail_acq o = true.

Definition rf_msgs (w : wmem) : Prop :=
  (forall g b, In g (w_msgs w LArr) -> m_val g = Ptr b -> forall i, (i < w_size w)%N -> seen (m_view g) (LCell b i) = true) /\
  (forall b i g v, In g (w_msgs w (LCell b i)) -> m_val g = Ptr v -> seen (m_view g) (LVal v) = true).
Definition cells_seen (w : wmem) (a : view) (b : nat) : Prop := forall i, (i < w_size w)%N -> seen a (LCell b i) = true.
Definition rf_thread (w : wmem) (t : thread) : Prop :=
  match t_pc t with
  | G1 _ b => cells_seen w (t_cur t) b
  | I0 idx _ => (idx < w_size w)%N
  | I1 idx _ b | I2 idx _ b => (idx < w_size w)%N /\ cells_seen w (t_cur t) b
  | I3 idx _ b v => (idx < w_size w)%N /\ seen (t_cur t) (LVal v) = true
  | Back _ (Some (v, _)) => seen (t_cur t) (LVal v) = true
  | Raced _ => False
  | _ => True
  end.
Definition rf (x : wconf) : Prop := rf_msgs (k_mem x) /\ forall t, In t (k_ths x) -> rf_thread (k_mem x) t.

Lemma in_set_nth {A} i (x : A) l y : In y (set_nth i x l) -> y = x \/ In y l.
Proof.
  revert i. induction l as [|z l IH]; intros [|i]; cbn; intros H; try contradiction.
  - destruct H as [<-|H]; auto.
  - destruct H as [<-|H]; [auto|]. destruct (IH i H); auto.
Qed.

Lemma nth_in_msgs {A} (l : list A) n g : nth_error l n = Some g -> In g l.
Proof. apply nth_error_In. Qed.

Lemma tstep_size o w t w' t' : tstep o w t w' t' -> w_size w' = w_size w.
Proof. intros H. destruct H; cbn; unfold begin, fence; try reflexivity; destruct (pinned o); reflexivity. Qed.

Lemma rf_tstep o w t w' t' : strong o -> tstep o w t w' t' -> rf_msgs w -> rf_thread w t -> rf_msgs w' /\ rf_thread w' t'.
Proof.
  intros (HL & HR & HF) H M T. unfold rf_thread in T. assert (M0 := M). destruct M as [M1 M2].
  destruct H; match goal with [ E : t_pc t = _ |- _ ] => rewrite E in T end.
  - split; [exact M0|]. unfold rf_thread, fence. cbn. now rewrite H.
  - split; [unfold begin, fence; destruct (pinned o); exact M0|exact I].
  - split; [unfold begin, fence; destruct (pinned o); exact M0|]. unfold rf_thread, begin, fence; destruct (pinned o); cbn; assumption.
  - split; [exact M0|]. destruct H0 as (_ & _ & E). apply nth_error_In in E. unfold rf_thread. cbn.
    destruct (m_val g) eqn:G; try exact I. intros i Hi. rewrite HL.
    eapply seen_ge; [|eapply M1; eauto]. intros k. apply join_r.
  - split; [exact M0|exact I].
  - split; [exact M0|exact I].
  - exfalso. rewrite (T idx H0) in H1. discriminate.
  - split; [exact M0|]. destruct H3 as (_ & _ & E). apply nth_error_In in E. unfold rf_thread. cbn.
    destruct (m_val g) eqn:G; try exact I. rewrite HL.
    eapply seen_ge; [|eapply M2; eauto]. intros k. apply join_r.
  - split; [exact M0|]. destruct H0 as (_ & _ & E). apply nth_error_In in E. unfold rf_thread. cbn.
    split; [exact T|]. intros i Hi. rewrite HL. eapply seen_ge; [|eapply M1; eauto]. intros k. apply join_r.
  - split.
    + split; cbn; [exact M1|]. intros b i g0 v. destruct (_ && _); [|apply M2].
      intros [<-|[]]. cbn. discriminate.
    + unfold rf_thread. cbn. split; [exact T|]. intros i Hi. cbn in Hi. apply seen_iff. now apply know_arr_at.
  - destruct T as [T1 T2]. split.
    + split; cbn.
      * intros g0 b0 [I|[<-|[]]]%in_app_or; [eauto|]. cbn. intros E. injection E as ->. intros i Hi. rewrite HR.
        eapply seen_ge; [|apply T2; exact Hi]. eapply vle_trans; [|intros k; apply join_l].
        apply (swapped_ge o w t LArr g b0 Idle).
      * exact M2.
    + unfold rf_thread. cbn [t_pc swapped snd with_cur]. split; [exact T1|]. intros i Hi.
      eapply seen_ge; [|apply T2; exact Hi]. apply (swapped_ge o w t LArr g b).
  - split; [exact M0|]. destruct T as [T1 T2]. destruct H0 as (_ & _ & E). apply nth_error_In in E. unfold rf_thread. cbn.
    split; [exact T1|]. intros i Hi. rewrite HF. eapply seen_ge; [|eapply M1; eauto]. intros k. apply join_r.
  - split; [exact M0|exact I].
  - exfalso. destruct T as [T1 T2]. rewrite (T2 idx T1) in H0. discriminate.
  - split; [exact M0|]. destruct H2 as (_ & _ & E). apply nth_error_In in E. unfold rf_thread. cbn.
    rewrite HL. eapply seen_ge; [|eapply M2; eauto]. intros k. apply join_r.
  - split; [exact M0|]. destruct T as [T1 T2]. unfold rf_thread. cbn. split; [exact T1|]. apply seen_iff.
    apply know_at.
  - destruct T as [T1 T2]. split.
    + split; cbn.
      * exact M1.
      * intros b0 i g0 v0. destruct (_ && _); [|apply M2].
        intros [I|[<-|[]]]%in_app_or; [eauto|]. cbn. intros E. injection E as ->. rewrite HR.
        eapply seen_ge; [|apply T2]. eapply vle_trans; [|intros k; apply join_l].
        apply (swapped_ge o w t (LCell b idx) g v0 Idle).
    + unfold rf_thread. cbn [t_pc win swapped snd with_cur t_cur].
      eapply seen_ge; [|apply T2]. apply (swapped_ge o w t (LCell b idx) g v).
  - split; [exact M0|]. destruct H0 as (_ & _ & E). apply nth_error_In in E. unfold rf_thread. cbn.
    rewrite HF. eapply seen_ge; [|eapply M2; eauto]. intros k. apply join_r.
  - split; [exact M0|exact I].
  - split; [exact M0|exact I].
  - exfalso. rewrite T in H0. discriminate.
  - split; [exact M0|exact I].
Qed.

Lemma rf_thread_size w w' t : w_size w' = w_size w -> rf_thread w t -> rf_thread w' t.
Proof. intros E. unfold rf_thread, cells_seen. now rewrite E. Qed.

Lemma rf_step o x y : strong o -> wkstep o x y -> rf x -> rf y.
Proof.
  intros S H [M T]. destruct H; cbn in *.
  - split; [exact M|]. cbn. intros t [I|[<-|[]]]%in_app_or; [auto|exact I].
  - apply nth_error_In in H. destruct (rf_tstep o w t w' t' S H0 M (T t H)) as [M' T']. split; [exact M'|].
    cbn. intros t0 [->|I]%in_set_nth; [exact T'|]. apply (rf_thread_size w); [|auto]. eapply tstep_size; eauto.
  - split; [exact M|]. cbn. intros t0 [->|I0]%in_set_nth; [exact I|auto].
Qed.

Lemma rf_reach o size x : strong o -> wkreach o size x -> rf x.
Proof.
  intros S H. induction H.
  - split; [|intros t []]. split; cbn.
    + intros g b [<-|[]]. discriminate.
    + intros b i g v [].
  - eapply rf_step; eauto.
Qed.

Definition raced (x : wconf) : Prop := exists i t idx, nth_error (k_ths x) i = Some t /\ t_pc t = Raced idx.

Lemma strong_no_race o size x : strong o -> wkreach o size x -> ~ raced x.
Proof.
  intros S H (i & t & idx & E & P). apply nth_error_In in E. destruct (rf_reach o size x S H) as [_ T].
  specialize (T t E). unfold rf_thread in T. now rewrite P in T.
Qed.
