(* With Acquire on the loads and on failure, and Release on success, the readers
   of an object know of its initialisation. *)
From Coq Require Import Arith NArith List Bool Lia.
From Verif Require Import Conc WeakPtr.
Import ListNotations.

Lemma in_set_nth_or {A} i (x : A) l y : In y (set_nth i x l) -> y = x \/ In y l.
Proof.
  revert i. induction l as [|z l IH]; intros [|i]; cbn; intros H; try contradiction.
  - destruct H as [<-|H]; auto.
  - destruct H as [<-|H]; [auto|]. destruct (IH i H); auto.
Qed.

(* the orderings that matter *)
Definition pstrong (o : pords) : Prop := q_load_acq o = true /\ q_succ_rel o = true /\ q_fail_acq o = true.

Section Race.
Context {A F : Type}.
Variable apply : F -> A -> A.
Variable eqb : A -> A -> bool.

Definition prf_msgs (w : pmem A F) : Prop := forall g, In g (s_msgs w) -> v_objs (pm_view g) (pm_ptr g) = true.
Definition prf_thread (t : pthread A F) : Prop :=
  match p_pc t with
  | PRead1 _ n | PUpd1 _ n _ | PUpd2 _ _ _ n | PUpd3 _ _ _ n | PSet1 _ _ n _ | PSet2 _ _ _ n => v_objs (p_cur t) n = true
  | PRaced => False
  | _ => True
  end.

Lemma pjoin_r a b n : v_objs b n = true -> v_objs (pjoin a b) n = true.
Proof. intros H. cbn. rewrite H. apply orb_true_r. Qed.
Lemma pinit_at a n : v_objs (pinit a n) n = true.
Proof. cbn. now rewrite Nat.eqb_refl. Qed.

Lemma prf_tstep o w t w' t' : pstrong o -> ptstep apply eqb o w t w' t' -> prf_msgs w -> prf_thread t -> prf_msgs w' /\ prf_thread t'.
Proof.
  intros (HL & HR & HF) H M T. unfold prf_thread in T.
  assert (Rd : forall n g acq p, preads w (p_cur t) n g -> acq = true -> v_objs (p_cur (ploaded acq t n g p)) (pm_ptr g) = true).
  { intros n g acq p (_ & _ & E) ->. apply nth_error_In in E. cbn. rewrite (M _ E). apply orb_true_r. }
  assert (W1 : forall new g l p b, p_pc t = p -> v_objs (p_cur t) new = true -> s_msgs w = l ++ [g] ->
    prf_msgs (fst (pswapped (q_succ_acq o) (q_succ_rel o) w t g new false b PIdle)) /\
    prf_thread (snd (pswapped (q_succ_acq o) (q_succ_rel o) w t g new false b PIdle))).
  { intros new g l p b _ K E. split; [|exact I]. intros g' IG. cbn in IG. apply in_app_or in IG. destruct IG as [IG|[<-|[]]]; [now apply M|].
    cbn. rewrite HR. destruct (q_succ_acq o); cbn; rewrite K; reflexivity. }
  destruct H; match goal with [ E : p_pc t = _ |- _ ] => rewrite E in T end;
    try contradiction; try (rewrite T in *; discriminate);
    try (split; [exact M|unfold prf_thread; cbn; solve [exact I|assumption]]).
  - (* fence *) split; [exact M|]. unfold prf_thread. cbn. now rewrite H.
  - (* call *) split; [exact M|]. unfold prf_thread. cbn. destruct p; try contradiction; exact I.
  - split; [exact M|]. unfold prf_thread. cbn -[v_objs ploaded]. now apply Rd.
  - split; [exact M|]. unfold prf_thread. cbn -[v_objs ploaded]. now apply Rd.
  - split; [exact M|]. unfold prf_thread. cbn -[v_objs pinit]. apply pinit_at.
  - eapply W1; eauto.
  - split; [exact M|]. unfold prf_thread. cbn -[v_objs ploaded]. now apply Rd.
  - split; [exact M|]. unfold prf_thread. cbn -[v_objs pinit]. apply pinit_at.
  - split; [exact M|]. unfold prf_thread. cbn -[v_objs ploaded]. now apply Rd.
  - split; [exact M|]. unfold prf_thread. cbn -[v_objs pinit]. apply pinit_at.
  - eapply W1; eauto.
  - (* outdated *) split; [|exact I]. intros g' IG. cbn in IG. apply in_app_or in IG. destruct IG as [IG|[<-|[]]]; [now apply M|].
    cbn [pm_view pm_ptr]. apply pjoin_r. subst. apply M. rewrite H0. apply in_or_app. right. now left.
Qed.

Lemma prf_reach o a0 x : pstrong o -> pcreach apply eqb o a0 x -> prf_msgs (c_mem x) /\ forall t, In t (c_ths x) -> prf_thread t.
Proof.
  intros S H. induction H as [|x y _ [M T] H].
  - split; [|intros t []]. intros g [<-|[]]. reflexivity.
  - destruct H as [w ts|w ts i t w' t' E H|w ts i j ti tj Ei Ej Pi Pj]; cbn in *.
    + split; [exact M|]. intros t [I|[<-|[]]]%in_app_or; [now apply T|exact I].
    + destruct (prf_tstep o w t w' t' S H M) as [M' T']; [apply T; eapply nth_error_In; eauto|].
      split; [exact M'|]. intros u I. apply in_set_nth_or in I. destruct I as [->|I]; auto.
    + split; [exact M|]. intros u I. apply in_set_nth_or in I. destruct I as [->|I]; auto. exact I.
Qed.
End Race.

Lemma ptr_no_race {A F} (apply : F -> A -> A) eqb o a0 x : pstrong o -> pcreach apply eqb o a0 x -> ~ praced x.
Proof.
  intros S H (i & t & E & R). destruct (prf_reach apply eqb o a0 x S H) as [_ T].
  assert (K := T t (nth_error_In _ _ E)). unfold prf_thread in K. now rewrite R in K.
Qed.
