(* Concrete schedules, for the examples and for the executions that refute a
   claim.  Nothing here is part of the model. *)
From Coq Require Import Arith NArith List Bool Lia.
From Verif Require Import Word Af Maps Cht Tree MultiMap PrefixCht Lsm Rib Conc ConcTree ConcStore
  ConcSpec Examples.
Import ListNotations.
Local Open Scope N_scope.

(* start a call, or let call i make at most n steps *)
Inductive sact : Type := Start (c : scall) | Steps (i n : nat).

Definition go1 (f : af) (ov : bool) (x : cstore) (a : sact) : cstore :=
  match a with
  | Start c => Conf (sh x) (ths x ++ [(c, cstart c)])
  | Steps i n => runs cstart (ststep f ov) n i x
  end.
Definition go (f : af) (ov : bool) (x : cstore) (l : list sact) : cstore :=
  fold_left (go1 f ov) l x.
Definition at0 (f : af) (st : strategy) : cstore :=
  sconf0 match rib_init f st with
         | Ok r => r | _ => Rib st (Tree [] [] 0 false) pcht_init None counters_new end.

Definition legal_act (f : af) (a : sact) : bool :=
  match a with
  | Start (CInsert p _ _) | Start (CContains p) | Start (CRecords p _ _) => wf_pidb f p
  | Start (CMark st p _ _) => wf_pidb f p && match st with InActive => false | _ => true end
  | Steps _ _ => true
  end.

Lemma go_exec f ov l : forall x, forallb (legal_act f) l = true -> sexec f ov x (go f ov x l).
Proof.
  induction l as [|a l IH]; intros x H; simpl in *; [apply ex_refl|].
  apply andb_true_iff in H. destruct H as [A B].
  eapply exec_trans; [|exact (IH _ B)]. destruct a as [c|i n]; simpl.
  - apply exec_one. destruct x as [s ts]. constructor.
    destruct c as [p r ups|st p m t|p|p m iw]; simpl in *;
      try (apply wf_pidb_spec; assumption).
    apply andb_true_iff in A. destruct A as [A1 A2].
    split; [now apply wf_pidb_spec|]. now destruct st.
  - apply runs_exec.
Qed.

Lemma go_reach f ov st l : forallb (legal_act f) l = true -> reach f ov st (go f ov (at0 f st) l).
Proof.
  intros H. destruct (rib_init f st) as [rb| |] eqn:E.
  - exists rb. split; [easy|]. unfold at0. rewrite E. now apply go_exec.
  - destruct f, st; vm_compute in E; discriminate.
  - destruct f, st; vm_compute in E; discriminate.
Qed.

Lemma go_app f ov x l1 l2 : go f ov x (l1 ++ l2) = go f ov (go f ov x l1) l2.
Proof. apply fold_left_app. Qed.

(* what the calls have given back so far *)
Definition rets (x : cstore) : list (option ret) := List.map (fun t => ret_of (snd t)) (ths x).

Lemma rets_returned x i v : nth_error (rets x) i = Some (Some v) -> exists c, returned x i c v.
Proof.
  unfold rets. rewrite nth_error_map. destruct (nth_error (ths x) i) as [[c l]|] eqn:N; [|discriminate].
  simpl. intros E. injection E as E. exists c, l. auto.
Qed.

Definition idleb (x : cstore) : bool :=
  forallb (fun o => match o with None | Some RetPanic => false | _ => true end) (rets x).
Lemma idleb_ok x : idleb x = true -> idle x.
Proof.
  unfold idleb, rets. rewrite forallb_forall. intros H i c (l & N).
  specialize (H (ret_of l)). rewrite in_map_iff in H.
  assert (E : match ret_of l with None | Some RetPanic => false | _ => true end = true).
  { apply H. exists (c, l). split; [easy|]. eapply nth_error_In; eauto. }
  destruct (ret_of l) as [v|] eqn:R; [|discriminate]. exists v. split; [now exists l|].
  now destruct v.
Qed.

Definition ins (p : pid) (m t : N) (x : meta) : scall := CInsert p (act m t x) None.
Definition upd (p : pid) (m t : N) (x : meta) : scall := CInsert p (act m t x) (Some by_byte).
Definition pf4 (a b c d l : N) : pid := snd (v4 a b c d l).
Definition all : nat := 2000.

Lemma step_execn f ov i x y : play1 cstart (ststep f ov) x (Run i) = Some y ->
  execn cstart (slegal f) (ststep f ov) i x 1 y.
Proof.
  destruct x as [s ts]. simpl. destruct (nth_error ts i) as [[c l]|] eqn:N; [|discriminate].
  destruct (ststep f ov i s c l) as [[s' l']|] eqn:T; [|discriminate].
  intros E. injection E as <-. eapply en_own; eauto. apply en_refl.
Qed.
