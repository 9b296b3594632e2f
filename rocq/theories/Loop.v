(* Loops with a binary iteration bound, so that a bound such as 2^200 costs
   nothing when the loop stops early. *)
From Coq Require Import Arith NArith PArith List Bool Lia.
From Verif Require Import Word.
Import ListNotations.

Inductive lp (S R : Type) : Type := Go (s : S) | Stop (r : R).
Arguments Go {S R} s.
Arguments Stop {S R} r.

Section Loop.
Context {S R : Type}.
Variable step : S -> res (lp S R).

Definition and_then (r : res (lp S R)) (k : S -> res (lp S R)) : res (lp S R) :=
  do x <- r; match x with Go s => k s | Stop r => Ok (Stop r) end.

Fixpoint loop_pos (p : positive) (s : S) : res (lp S R) :=
  match p with
  | xH => step s
  | xO q => and_then (loop_pos q s) (loop_pos q)
  | xI q => and_then (step s) (fun s' => and_then (loop_pos q s') (loop_pos q))
  end.

Definition loop (p : positive) (s : S) : res R :=
  do x <- loop_pos p s; match x with Go _ => OutOfFuel | Stop r => Ok r end.

Fixpoint nsteps (n : nat) (s : S) : res (lp S R) :=
  match n with
  | O => Ok (Go s)
  | Datatypes.S n' => and_then (step s) (nsteps n')
  end.

Lemma and_then_assoc r k k' :
  and_then (and_then r k) k' = and_then r (fun s => and_then (k s) k').
Proof. destruct r as [[s|r]| |]; reflexivity. Qed.

Lemma and_then_ext r k k' : (forall s, k s = k' s) -> and_then r k = and_then r k'.
Proof. intros E. destruct r as [[s|r]| |]; simpl; auto. Qed.

Lemma nsteps_add n m s : nsteps (n + m) s = and_then (nsteps n s) (nsteps m).
Proof.
  revert s. induction n as [|n IH]; intros s; simpl; [easy|].
  rewrite and_then_assoc. apply and_then_ext. auto.
Qed.

Lemma loop_pos_nsteps p s : loop_pos p s = nsteps (Pos.to_nat p) s.
Proof.
  revert s. induction p as [p IH|p IH|]; intros s.
  - rewrite Pos2Nat.inj_xI. simpl. apply and_then_ext. intros s'.
    rewrite Nat.add_0_r, nsteps_add, IH. apply and_then_ext. auto.
  - rewrite Pos2Nat.inj_xO. simpl. rewrite Nat.add_0_r, nsteps_add, IH.
    apply and_then_ext. auto.
  - simpl. destruct (step s) as [[s'|r]| |]; reflexivity.
Qed.

(* A loop whose every step lowers a measure, within an invariant, and whose
   result is described by a relation that the steps preserve. *)
Lemma nsteps_measure (Inv : S -> Prop) (mu : S -> N) (Q : S -> R -> Prop) :
  (forall s, Inv s -> exists x, step s = Ok x /\
     match x with
     | Go s' => Inv s' /\ (mu s' < mu s)%N /\ (forall r, Q s' r -> Q s r)
     | Stop r => Q s r
     end) ->
  forall n s, Inv s -> (mu s < N.of_nat n)%N -> exists r, nsteps n s = Ok (Stop r) /\ Q s r.
Proof.
  intros H. induction n as [|n IH]; intros s I M; [lia|].
  destruct (H s I) as [x [E X]]. simpl. rewrite E. destruct x as [s'|r].
  - destruct X as [I' [M' Q']]. cbn [and_then bind].
    destruct (IH s' I') as [r [E' Qr]]; [lia|]. exists r. auto.
  - exists r. auto.
Qed.

Lemma loop_measure (Inv : S -> Prop) (mu : S -> N) (Q : S -> R -> Prop) p :
  (forall s, Inv s -> exists x, step s = Ok x /\
     match x with
     | Go s' => Inv s' /\ (mu s' < mu s)%N /\ (forall r, Q s' r -> Q s r)
     | Stop r => Q s r
     end) ->
  forall s, Inv s -> (mu s < Npos p)%N -> exists r, loop p s = Ok r /\ Q s r.
Proof.
  intros H s I M. destruct (nsteps_measure Inv mu Q H (Pos.to_nat p) s I) as [r [E X]].
  - rewrite <- (N2Nat.id (Npos p)) in M. exact M.
  - exists r. unfold loop. rewrite loop_pos_nsteps, E. auto.
Qed.

End Loop.
