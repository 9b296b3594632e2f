(* Interleaving of threads.  A thread runs one call; calls may start at any time
   and any number of them may be under way.  A program that makes several calls
   one after the other on one thread is the special case in which a call starts
   only after an earlier one has returned.  One step of the system is one atomic
   step of one thread: the executions are the sequentially consistent ones. *)
From Coq Require Import Arith List Bool Lia.
Import ListNotations.

Fixpoint set_nth {A} (i : nat) (x : A) (l : list A) : list A :=
  match l, i with
  | [], _ => []
  | _ :: l', O => x :: l'
  | y :: l', S i' => y :: set_nth i' x l'
  end.

Lemma set_nth_length {A} i (x : A) l : length (set_nth i x l) = length l.
Proof. revert i; induction l as [|y l IH]; intros [|i]; simpl; auto. Qed.

Lemma nth_set_nth {A} i (x : A) l j : i < length l ->
  nth_error (set_nth i x l) j = if Nat.eqb i j then Some x else nth_error l j.
Proof.
  revert i j; induction l as [|y l IH]; intros i j H; simpl in H; [lia|].
  destruct i as [|i], j as [|j]; simpl; auto. apply IH. lia.
Qed.

Lemma nth_some_lt {A} (l : list A) i x : nth_error l i = Some x -> i < length l.
Proof. intros E. apply nth_error_Some. now rewrite E. Qed.

Section Interleave.
Context {St C L : Type}.
(* the local state a call starts in *)
Variable start : C -> L.
(* calls the caller may make *)
Variable legal : C -> Prop.
(* one atomic step of the thread with the given number; None when its call has
   returned *)
Variable step : nat -> St -> C -> L -> option (St * L).

Record conf : Type := Conf { sh : St; ths : list (C * L) }.

Inductive cstep : conf -> conf -> Prop :=
| cs_call s ts c : legal c -> cstep (Conf s ts) (Conf s (ts ++ [(c, start c)]))
| cs_run s ts i c l s' l' : nth_error ts i = Some (c, l) -> step i s c l = Some (s', l') ->
    cstep (Conf s ts) (Conf s' (set_nth i (c, l') ts)).

Inductive exec : conf -> conf -> Prop :=
| ex_refl x : exec x x
| ex_step x y z : exec x y -> cstep y z -> exec x z.

Lemma exec_trans x y z : exec x y -> exec y z -> exec x z.
Proof. intros A B. induction B as [|x0 y z B IH T]; [easy|]. eapply ex_step; [now apply IH|exact T]. Qed.

Lemma exec_one x y : cstep x y -> exec x y.
Proof. intros A. eapply ex_step; [apply ex_refl|easy]. Qed.

Lemma exec_ind_l (P : conf -> Prop) x : P x ->
  (forall y z, exec x y -> P y -> cstep y z -> P z) -> forall y, exec x y -> P y.
Proof. intros A B y E. induction E; eauto. Qed.

(* the same, counting the steps of thread i *)
Inductive execn (i : nat) (x : conf) : nat -> conf -> Prop :=
| en_refl : execn i x 0 x
| en_call n s ts c : execn i x n (Conf s ts) -> legal c ->
    execn i x n (Conf s (ts ++ [(c, start c)]))
| en_other n s ts j c l s' l' : execn i x n (Conf s ts) -> j <> i ->
    nth_error ts j = Some (c, l) -> step j s c l = Some (s', l') ->
    execn i x n (Conf s' (set_nth j (c, l') ts))
| en_own n s ts c l s' l' : execn i x n (Conf s ts) ->
    nth_error ts i = Some (c, l) -> step i s c l = Some (s', l') ->
    execn i x (S n) (Conf s' (set_nth i (c, l') ts)).

Lemma execn_exec i x n y : execn i x n y -> exec x y.
Proof.
  induction 1; [apply ex_refl|eapply ex_step; [eassumption|]..].
  - now constructor.
  - econstructor; eauto.
  - econstructor; eauto.
Qed.

Lemma exec_execn i x y : exec x y -> exists n, execn i x n y.
Proof.
  induction 1 as [x|x y z E [n IH] T]; [exists 0; constructor|].
  destruct T as [s ts c|s ts j c l s' l' E1 E2].
  - exists n. now constructor.
  - destruct (Nat.eq_dec j i) as [->|].
    + exists (S n). eapply en_own; eauto.
    + exists n. eapply en_other; eauto.
Qed.

(* calls are never forgotten and never change *)
Lemma cstep_call x y i c l : cstep x y -> nth_error (ths x) i = Some (c, l) ->
  exists l', nth_error (ths y) i = Some (c, l').
Proof.
  intros A B. destruct A as [s ts c0|s ts j c0 l0 s' l' E1 E2]; simpl in *.
  - exists l. rewrite nth_error_app1; [easy|]. eapply nth_some_lt; eauto.
  - rewrite nth_set_nth by (eapply nth_some_lt; eauto).
    destruct (Nat.eqb_spec j i) as [->|]; [|eauto].
    rewrite E1 in B. injection B as -> ->. eauto.
Qed.

Lemma exec_call x y i c l : exec x y -> nth_error (ths x) i = Some (c, l) ->
  exists l', nth_error (ths y) i = Some (c, l').
Proof.
  intros A. revert l. induction A as [|x y z A IH B]; intros l E; [eauto|].
  destruct (IH _ E) as [l1 E1]. eapply cstep_call; eauto.
Qed.

Lemma exec_length x y : exec x y -> length (ths x) <= length (ths y).
Proof.
  induction 1 as [|x y z A IH B]; [easy|]. destruct B; simpl in *.
  - rewrite app_length. simpl. lia.
  - now rewrite set_nth_length.
Qed.

(* a call that has returned stays as it is *)
Lemma cstep_done x y i c l : (forall s, step i s c l = None) -> cstep x y ->
  nth_error (ths x) i = Some (c, l) -> nth_error (ths y) i = Some (c, l).
Proof.
  intros D A B. destruct A as [s ts c0|s ts j c0 l0 s' l' E1 E2]; simpl in *.
  - rewrite nth_error_app1; [easy|]. eapply nth_some_lt; eauto.
  - rewrite nth_set_nth by (eapply nth_some_lt; eauto).
    destruct (Nat.eqb_spec j i) as [->|]; [|easy].
    rewrite E1 in B. injection B as -> ->. rewrite D in E2. discriminate.
Qed.

Lemma exec_done x y i c l : (forall s, step i s c l = None) -> exec x y ->
  nth_error (ths x) i = Some (c, l) -> nth_error (ths y) i = Some (c, l).
Proof. intros D A. induction A; intros E; [easy|]. eapply cstep_done; eauto. Qed.

(* ---------- schedules, for concrete runs ---------- *)

Inductive ev : Type := Call (c : C) | Run (i : nat).

Definition play1 (x : conf) (e : ev) : option conf :=
  match e with
  | Call c => Some (Conf (sh x) (ths x ++ [(c, start c)]))
  | Run i =>
    match nth_error (ths x) i with
    | Some (c, l) =>
      match step i (sh x) c l with
      | Some (s', l') => Some (Conf s' (set_nth i (c, l') (ths x)))
      | None => None
      end
    | None => None
    end
  end.

Fixpoint play (x : conf) (es : list ev) : option conf :=
  match es with
  | [] => Some x
  | e :: es' => match play1 x e with Some y => play y es' | None => None end
  end.

Definition legal_ev (e : ev) : Prop := match e with Call c => legal c | Run _ => True end.

Lemma play1_cstep x e y : legal_ev e -> play1 x e = Some y -> cstep x y.
Proof.
  destruct x as [s ts], e as [c|i]; simpl; intros Le E.
  - injection E as <-. now constructor.
  - destruct (nth_error ts i) as [[c l]|] eqn:N; [|discriminate].
    destruct (step i s c l) as [[s' l']|] eqn:T; [|discriminate].
    injection E as <-. econstructor; eauto.
Qed.

Lemma play_exec es : forall x y, Forall legal_ev es -> play x es = Some y -> exec x y.
Proof.
  induction es as [|e es IH]; intros x y F E; simpl in E.
  - injection E as <-. apply ex_refl.
  - inversion F; subst. destruct (play1 x e) as [z|] eqn:P; [|discriminate].
    eapply exec_trans; [|eapply IH; eauto]. apply exec_one. eapply play1_cstep; eauto.
Qed.

(* run thread i for at most n steps *)
Fixpoint runs (n : nat) (i : nat) (x : conf) : conf :=
  match n with
  | O => x
  | S n' => match play1 x (Run i) with Some y => runs n' i y | None => x end
  end.

Lemma runs_exec n i : forall x, exec x (runs n i x).
Proof.
  induction n as [|n IH]; intros x; simpl; [apply ex_refl|].
  destruct (nth_error (ths x) i) as [[c l]|] eqn:N; [|apply ex_refl].
  destruct (step i (sh x) c l) as [[s' l']|] eqn:T; [|apply ex_refl].
  eapply exec_trans; [|apply IH]. apply exec_one.
  destruct x as [s ts]. simpl in *. econstructor; eauto.
Qed.

(* ---------- invariants ---------- *)

(* G: what holds of the shared state given the calls begun; I: what holds of one
   thread; R: what every step guarantees; O: what a step of the given thread
   leaves alone *)
Section RelyGuarantee.
Variable G : St -> list C -> Prop.
Variable I : St -> list C -> nat -> C -> L -> Prop.
Variable R : St -> St -> Prop.
Variable O : nat -> St -> St -> Prop.
Hypothesis R_refl : forall s, R s s.
Hypothesis G_call : forall s cs c, legal c -> G s cs -> G s (cs ++ [c]).
Hypothesis I_call : forall s cs c i c0 l, legal c0 -> I s cs i c l -> I s (cs ++ [c0]) i c l.
Hypothesis I_start : forall s cs c, legal c -> G s cs -> I s (cs ++ [c]) (length cs) c (start c).
Hypothesis I_stable : forall s s' cs i j c l, i <> j -> G s cs -> G s' cs -> R s s' -> O j s s' ->
  I s cs i c l -> I s' cs i c l.
Hypothesis run_ok : forall s cs i c l s' l', G s cs -> nth_error cs i = Some c -> I s cs i c l ->
  step i s c l = Some (s', l') -> G s' cs /\ I s' cs i c l' /\ R s s' /\ O i s s'.

Definition calls (x : conf) : list C := map fst (ths x).

Definition all_ok (x : conf) : Prop :=
  G (sh x) (calls x) /\
  forall i c l, nth_error (ths x) i = Some (c, l) -> I (sh x) (calls x) i c l.

Lemma calls_nth x i c l : nth_error (ths x) i = Some (c, l) -> nth_error (calls x) i = Some c.
Proof. intros E. unfold calls. rewrite nth_error_map, E. easy. Qed.

Lemma map_set_nth {A B} (g : A -> B) i x l : map g (set_nth i x l) = set_nth i (g x) (map g l).
Proof. revert i; induction l as [|y l IH]; intros [|i]; simpl; auto. now rewrite IH. Qed.

Lemma set_nth_same {A} (l : list A) i x : nth_error l i = Some x -> set_nth i x l = l.
Proof.
  revert i; induction l as [|y l IH]; intros [|i] E; simpl in *; try easy.
  - now injection E as ->.
  - now rewrite IH.
Qed.

Lemma all_ok_step x y : all_ok x -> cstep x y -> all_ok y /\ R (sh x) (sh y).
Proof.
  intros [Gx Ix] T. destruct T as [s ts c Lc|s ts i c l s' l' E1 E2].
  - split; [|apply R_refl]. unfold all_ok, calls in *. simpl in *. rewrite map_app. simpl.
    split; [now apply G_call|]. intros j c0 l0 E.
    destruct (Nat.lt_ge_cases j (length ts)) as [H|H].
    + rewrite nth_error_app1 in E by easy. apply I_call; auto.
    + rewrite nth_error_app2 in E by easy.
      destruct (j - length ts) as [|n] eqn:D; simpl in E; [|now destruct n].
      injection E as <- <-. replace j with (length (map fst ts)) by (rewrite map_length; lia).
      apply I_start; auto.
  - pose proof (Ix _ _ _ E1) as Il. simpl in Il.
    pose proof (calls_nth (Conf s ts) i c l E1) as Ec.
    destruct (run_ok s (calls (Conf s ts)) i c l s' l' Gx Ec Il E2) as [G' [I' [R' O']]].
    assert (Q : calls (Conf s' (set_nth i (c, l') ts)) = calls (Conf s ts)).
    { unfold calls in *. simpl in *. rewrite map_set_nth. now apply set_nth_same. }
    split; [|easy]. unfold all_ok. rewrite Q. split; [easy|]. simpl.
    intros j c0 l0 E. rewrite nth_set_nth in E by (eapply nth_some_lt; eauto).
    destruct (Nat.eqb_spec i j) as [->|].
    + now injection E as <- <-.
    + apply (I_stable s s' _ j i); auto.
Qed.

Lemma all_ok_exec x y : all_ok x -> exec x y -> all_ok y.
Proof.
  intros A E. induction E as [|x y z E IH T]; [easy|].
  exact (proj1 (all_ok_step _ _ (IH A) T)).
Qed.

Hypothesis R_trans : forall a b c, R a b -> R b c -> R a c.
Lemma guarantee_exec x y : all_ok x -> exec x y -> R (sh x) (sh y).
Proof.
  intros A E. induction E as [|x y z E IH T]; [apply R_refl|]. eapply R_trans; [now apply IH|].
  exact (proj2 (all_ok_step _ _ (all_ok_exec _ _ A E) T)).
Qed.

(* a thread whose steps use up a measure takes no more steps than that *)
Variable mu : C -> L -> nat.
Variable sel : C -> Prop.
Hypothesis mu_step : forall s cs i c l s' l', sel c -> G s cs -> nth_error cs i = Some c -> I s cs i c l ->
  step i s c l = Some (s', l') -> mu c l' < mu c l.

Lemma own_steps x y i n c l : sel c -> all_ok x -> execn i x n y -> nth_error (ths x) i = Some (c, l) ->
  exists l', nth_error (ths y) i = Some (c, l') /\ n + mu c l' <= mu c l.
Proof.
  intros Sc A E N. induction E as [|n s ts c0 E IH Lc|n s ts j c0 l0 s' l0' E IH NE E1 E2
    |n s ts c0 l0 s' l0' E IH E1 E2].
  - exists l. split; [easy|lia].
  - destruct IH as (l1 & N1 & L1). exists l1. simpl in *.
    rewrite nth_error_app1 by (eapply nth_some_lt; eauto). split; [easy|lia].
  - destruct IH as (l1 & N1 & L1). exists l1. simpl in *.
    rewrite nth_set_nth by (eapply nth_some_lt; eauto).
    destruct (Nat.eqb_spec j i); [easy|]. split; [easy|lia].
  - destruct IH as (l1 & N1 & L1). simpl in *. rewrite N1 in E1. injection E1 as <- <-.
    exists l0'. rewrite nth_set_nth by (eapply nth_some_lt; eauto). rewrite Nat.eqb_refl.
    split; [easy|].
    destruct (all_ok_exec _ _ A (execn_exec _ _ _ _ E)) as [Gy Iy].
    pose proof (mu_step s _ i c l1 s' l0' Sc Gy (calls_nth (Conf s ts) i c l1 N1) (Iy _ _ _ N1) E2). lia.
Qed.
End RelyGuarantee.
End Interleave.
Arguments conf : clear implicits.
Arguments ev : clear implicits.
