(* A race for each ordering that is left out. *)
From Coq Require Import Arith NArith List Bool Lia.
From Verif Require Import Conc WeakPtr WeakPtrRace.
Import ListNotations.

Section Demo.
Context {A F : Type}.
Variable apply : F -> A -> A.
Variable eqb : A -> A -> bool.
Variable a0 : A.
Variable f : F.

Lemma run_step o x i t w' t' : pcreach apply eqb o a0 x -> nth_error (c_ths x) i = Some t -> ptstep apply eqb o (c_mem x) t w' t' ->
  pcreach apply eqb o a0 (PConf w' (set_nth i t' (c_ths x))).
Proof. intros R E H. destruct x as [w ts]. eapply pr_step; [exact R|]. eapply pc_thread; [exact E|exact H]. Qed.
Lemma run_spawn o x : pcreach apply eqb o a0 x -> pcreach apply eqb o a0 (PConf (c_mem x) (c_ths x ++ [pthread0])).
Proof. intros R. destruct x as [w ts]. eapply pr_step; [exact R|]. apply pc_spawn. Qed.

Lemma race_load o : q_load_acq o = false -> exists x, pcreach apply eqb o a0 x /\ praced x.
Proof.
  intros HL. destruct o as [la sa sr fa ta tr]. cbn in HL. subst la.
  pose proof (run_spawn _ _ (run_spawn _ _ (pr_start apply eqb (POrds false sa sr fa ta tr) a0))) as X. cbn in X.
  eapply (run_step _ _ 0) in X; [|reflexivity|apply pt_call with (p := PUpd0 f); [reflexivity|exact I]]. cbn in X.
  eapply (run_step _ _ 0) in X; [|reflexivity|eapply pt_upd0 with (n := 1); [reflexivity|repeat split; cbn; lia]]. cbn in X.
  eapply (run_step _ _ 0) in X; [|reflexivity|eapply pt_upd1; [reflexivity|reflexivity|reflexivity]]. cbn in X.
  eapply (run_step _ _ 0) in X; [|reflexivity|eapply pt_upd2_won with (l := []); reflexivity]. cbn in X.
  eapply (run_step _ _ 1) in X; [|reflexivity|apply pt_call with (p := PRead0); [reflexivity|exact I]]. cbn in X.
  eapply (run_step _ _ 1) in X; [|reflexivity|eapply pt_read0 with (n := 2); [reflexivity|repeat split; cbn; lia]]. cbn in X.
  eapply (run_step _ _ 1) in X; [|reflexivity|eapply pt_read1_race; reflexivity]. cbn in X.
  eexists. split; [exact X|]. exists 1. eexists. split; reflexivity.
Qed.
Lemma race_rel o : q_succ_rel o = false -> exists x, pcreach apply eqb o a0 x /\ praced x.
Proof.
  intros HL. destruct o as [la sa sr fa ta tr]. cbn in HL. subst sr.
  pose proof (run_spawn _ _ (run_spawn _ _ (pr_start apply eqb (POrds la sa false fa ta tr) a0))) as X. cbn in X.
  eapply (run_step _ _ 0) in X; [|reflexivity|apply pt_call with (p := PUpd0 f); [reflexivity|exact I]]. cbn in X.
  eapply (run_step _ _ 0) in X; [|reflexivity|eapply pt_upd0 with (n := 1); [reflexivity|repeat split; cbn; lia]]. cbn in X.
  eapply (run_step _ _ 0) in X; [|reflexivity|eapply pt_upd1; [reflexivity|now destruct la|reflexivity]]. cbn in X.
  eapply (run_step _ _ 0) in X; [|reflexivity|eapply pt_upd2_won with (l := []); reflexivity]. cbn in X.
  eapply (run_step _ _ 1) in X; [|reflexivity|apply pt_call with (p := PRead0); [reflexivity|exact I]]. cbn in X.
  eapply (run_step _ _ 1) in X; [|reflexivity|eapply pt_read0 with (n := 2); [reflexivity|repeat split; cbn; lia]]. cbn in X.
  eapply (run_step _ _ 1) in X; [|reflexivity|eapply pt_read1_race; [reflexivity|now destruct la, sa]]. cbn in X.
  eexists. split; [exact X|]. exists 1. eexists. split; reflexivity.
Qed.
Lemma race_fail o : q_fail_acq o = false -> exists x, pcreach apply eqb o a0 x /\ praced x.
Proof.
  intros HL. destruct o as [la sa sr fa ta tr]. cbn in HL. subst fa.
  pose proof (run_spawn _ _ (run_spawn _ _ (pr_start apply eqb (POrds la sa sr false ta tr) a0))) as X. cbn in X.
  eapply (run_step _ _ 1) in X; [|reflexivity|apply pt_call with (p := PUpd0 f); [reflexivity|exact I]]. cbn in X.
  eapply (run_step _ _ 1) in X; [|reflexivity|eapply pt_upd0 with (n := 1); [reflexivity|repeat split; cbn; lia]]. cbn in X.
  eapply (run_step _ _ 1) in X; [|reflexivity|eapply pt_upd1; [reflexivity|now destruct la|reflexivity]]. cbn in X.
  eapply (run_step _ _ 0) in X; [|reflexivity|apply pt_call with (p := PUpd0 f); [reflexivity|exact I]]. cbn in X.
  eapply (run_step _ _ 0) in X; [|reflexivity|eapply pt_upd0 with (n := 1); [reflexivity|repeat split; cbn; lia]]. cbn in X.
  eapply (run_step _ _ 0) in X; [|reflexivity|eapply pt_upd1; [reflexivity|now destruct la|reflexivity]]. cbn in X.
  eapply (run_step _ _ 0) in X; [|reflexivity|eapply pt_upd2_won with (l := []); reflexivity]. cbn in X.
  eapply (run_step _ _ 1) in X; [|reflexivity|eapply pt_upd2_lost with (k := 2);
    [reflexivity|split; [cbn; destruct la; cbn; lia|split; [lia|reflexivity]]|discriminate]]. cbn in X.
  eapply (run_step _ _ 1) in X; [|reflexivity|eapply pt_upd3_race; [reflexivity|now destruct la]]. cbn in X.
  eexists. split; [exact X|]. exists 1. eexists. split; reflexivity.
Qed.
End Demo.

Lemma ptr_race_free_iff {A F} (apply : F -> A -> A) eqb o a0 (f : F) :
  (forall x, pcreach apply eqb o a0 x -> ~ praced x) <-> q_load_acq o = true /\ q_succ_rel o = true /\ q_fail_acq o = true.
Proof.
  split.
  - intros H. repeat split; match goal with |- ?e = true => destruct e eqn:E; [reflexivity|exfalso] end.
    + destruct (race_load apply eqb a0 f o E) as (x & X & R). exact (H x X R).
    + destruct (race_rel apply eqb a0 f o E) as (x & X & R). exact (H x X R).
    + destruct (race_fail apply eqb a0 f o E) as (x & X & R). exact (H x X R).
  - intros S x. now apply ptr_no_race.
Qed.
Lemma ptr_code_no_race {A F} (apply : F -> A -> A) eqb a0 x : pcreach apply eqb code_pords a0 x -> ~ praced x.
Proof. apply ptr_no_race. repeat split. Qed.
