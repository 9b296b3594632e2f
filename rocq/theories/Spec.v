(* The vocabulary of the specification: address bits and covering prefixes,
   written with single bits and without any of the model's helpers. *)
From Coq Require Import NArith List Bool Lia.
From Verif Require Import Word Af.
Import ListNotations.
Local Open Scope N_scope.

(* the i-th bit of the address of a prefix, counted from the left *)
Definition addr_bit (f : af) (p : pid) (i : N) : bool :=
  N.testbit (p_bits p) (BITS f - 1 - i).

(* p covers q: p is at most as long as q and they agree on the bits of p *)
Definition covers (f : af) (p q : pid) : Prop :=
  p_len p <= p_len q /\ forall i, i < p_len p -> addr_bit f p i = addr_bit f q i.

(* p is a less specific of q: it covers q and is shorter *)
Definition less_specific (f : af) (p q : pid) : Prop := covers f p q /\ p_len p < p_len q.

(* ---------- the arithmetic of covering ---------- *)

Lemma div_pow2_bits x y k : x / 2 ^ k = y / 2 ^ k <->
  (forall i, k <= i -> N.testbit x i = N.testbit y i).
Proof.
  split.
  - intros E i Hi. replace i with ((i - k) + k) by lia.
    rewrite <- !N.div_pow2_bits. now rewrite E.
  - intros H. apply N.bits_inj. intros i. rewrite !N.div_pow2_bits.
    apply H. lia.
Qed.

Lemma covers_div f p q : wf_pid f p -> wf_pid f q ->
  covers f p q <-> p_len p <= p_len q /\
    p_bits q / 2 ^ (BITS f - p_len p) = p_bits p / 2 ^ (BITS f - p_len p).
Proof.
  intros [Lp [Bp _]] [Lq [Bq _]]. unfold covers, addr_bit.
  rewrite div_pow2_bits. split; intros [L H]; split; auto.
  - intros i Hi.
    assert (Hw : forall x, x < 2 ^ BITS f -> BITS f <= i -> N.testbit x i = false).
    { intros x Hx Hw. destruct (N.eq_dec x 0) as [->|]; [apply N.bits_0|].
      apply N.bits_above_log2. apply N.log2_lt_pow2 in Hx; lia. }
    destruct (N.lt_ge_cases i (BITS f)); [|now rewrite !Hw].
    specialize (H (BITS f - 1 - i)).
    replace (BITS f - 1 - (BITS f - 1 - i)) with i in H by lia.
    symmetry. apply H. lia.
  - intros i Hi. symmetry. apply H. lia.
Qed.

Lemma covers_refl f p : covers f p p.
Proof. split; [lia|easy]. Qed.

Lemma covers_trans f p q r : covers f p q -> covers f q r -> covers f p r.
Proof.
  intros [A B] [C D]. split; [lia|]. intros i Hi. rewrite B by auto. apply D. lia.
Qed.

Lemma covers_antisym f p q : wf_pid f p -> wf_pid f q ->
  covers f p q -> p_len p = p_len q -> p = q.
Proof.
  intros Wp Wq C L. apply covers_div in C; auto. destruct C as [_ E].
  now apply (wf_pid_inj f).
Qed.

(* for every length there is one covering prefix, the truncation *)
Lemma covers_trunc f p q : wf_pid f p -> wf_pid f q ->
  covers f p q <-> p_len p <= p_len q /\ p = (trunc (BITS f) (p_bits q) (p_len p), p_len p).
Proof.
  intros Wp Wq. rewrite covers_div by auto. split; intros [L E]; split; auto.
  - destruct p as [b l]; simpl in *. f_equal.
    apply wf_pid_trunc in Wp. simpl in Wp. rewrite <- Wp at 1.
    unfold trunc. now rewrite E.
  - rewrite E at 2. simpl. now rewrite trunc_div.
Qed.

(* longest first *)
Fixpoint len_desc (L : list pid) : Prop :=
  match L with
  | [] => True
  | p :: L' => (forall q, In q L' -> p_len q < p_len p) /\ len_desc L'
  end.
