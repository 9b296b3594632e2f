(* Machine words as [N] with explicit widths, and the result monad.

   Rust integers are modelled by natural numbers below 2^w.  Every operation
   whose Rust counterpart panics in a debug build (u8 overflow, shift amount not
   smaller than the width, slice index out of bounds) returns [Panic] here. *)
From Coq Require Import NArith ZArith List Bool Lia.
Import ListNotations.
Local Open Scope N_scope.

Global Arguments N.add : simpl never.
Global Arguments N.sub : simpl never.
Global Arguments N.mul : simpl never.
Global Arguments N.div : simpl never.
Global Arguments N.modulo : simpl never.
Global Arguments N.pow : simpl never.
Global Arguments N.shiftl : simpl never.
Global Arguments N.shiftr : simpl never.
Global Arguments N.testbit : simpl never.
Global Arguments N.land : simpl never.
Global Arguments N.lor : simpl never.
Global Arguments N.lxor : simpl never.

Inductive res (A : Type) : Type :=
| Ok (a : A)
| Panic
| OutOfFuel.
Arguments Ok {A} a.
Arguments Panic {A}.
Arguments OutOfFuel {A}.

Definition bind {A B} (r : res A) (f : A -> res B) : res B :=
  match r with
  | Ok a => f a
  | Panic => Panic
  | OutOfFuel => OutOfFuel
  end.

Notation "'do' x <- e ; f" := (bind e (fun x => f))
  (at level 200, x pattern, e at level 100, f at level 200, right associativity).

(* u8 arithmetic: Rust's checked operators in debug mode *)
Definition u8_max : N := 255.
Definition add8 (a b : N) : res N := if a + b <=? 255 then Ok (a + b) else Panic.
Definition sub8 (a b : N) : res N := if b <=? a then Ok (a - b) else Panic.
Definition mul8 (a b : N) : res N := if a * b <=? 255 then Ok (a * b) else Panic.
(* u8::saturating_sub is N.sub, the truncated subtraction of N *)
Definition sat_sub (a b : N) : N := a - b.

(* `x << n` and `x >> n` on a w-bit integer; a shift amount >= w panics *)
Definition shl (w x n : N) : res N :=
  if n <? w then Ok (N.shiftl x n mod 2 ^ w) else Panic.
Definition shr (w x n : N) : res N :=
  if n <? w then Ok (N.shiftr x n) else Panic.

(* `x as uw` *)
Definition cast (w x : N) : N := x mod 2 ^ w.
(* uw::MAX *)
Definition umax (w : N) : N := 2 ^ w - 1.
(* uw::wrapping_sub *)
Definition wrapping_sub (w a b : N) : N := (a + (2 ^ w - b)) mod 2 ^ w.
(* uw::rotate_right: the rotation amount is taken modulo the width *)
Definition rotr (w x n : N) : N :=
  N.lor (N.shiftr x (n mod w)) (N.shiftl x (w - n mod w) mod 2 ^ w).

(* uw::leading_zeros *)
Definition lzcnt (w x : N) : N := w - N.size x.

(* u8::count_ones *)
Fixpoint popcount_pos (p : positive) : N :=
  match p with
  | xH => 1
  | xO q => popcount_pos q
  | xI q => 1 + popcount_pos q
  end.
Definition popcount (x : N) : N :=
  match x with N0 => 0 | Npos p => popcount_pos p end.

(* ---------- basic facts ---------- *)

Lemma bind_Ok_inv {A B} (r : res A) (f : A -> res B) b :
  bind r f = Ok b -> exists a, r = Ok a /\ f a = Ok b.
Proof. destruct r; simpl; intros; try discriminate; eauto. Qed.

Lemma add8_ok a b : a + b <= 255 -> add8 a b = Ok (a + b).
Proof. intros. unfold add8. destruct (N.leb_spec (a+b) 255); [easy|lia]. Qed.
Lemma sub8_ok a b : b <= a -> sub8 a b = Ok (a - b).
Proof. intros. unfold sub8. destruct (N.leb_spec b a); [easy|lia]. Qed.
Lemma mul8_ok a b : a * b <= 255 -> mul8 a b = Ok (a * b).
Proof. intros. unfold mul8. destruct (N.leb_spec (a*b) 255); [easy|lia]. Qed.

Lemma shl_ok w x n : n < w -> shl w x n = Ok ((x * 2 ^ n) mod 2 ^ w).
Proof.
  intros. unfold shl. destruct (N.ltb_spec n w); [|lia].
  now rewrite N.shiftl_mul_pow2.
Qed.
Lemma shr_ok w x n : n < w -> shr w x n = Ok (x / 2 ^ n).
Proof.
  intros. unfold shr. destruct (N.ltb_spec n w); [|lia].
  now rewrite N.shiftr_div_pow2.
Qed.

Lemma pow2_pos n : 0 < 2 ^ n.
Proof. apply N.neq_0_lt_0, N.pow_nonzero. lia. Qed.
Lemma pow2_nz n : 2 ^ n <> 0.
Proof. apply N.pow_nonzero. lia. Qed.
Global Hint Resolve pow2_pos pow2_nz : core.

Lemma pow2_split a b : a <= b -> 2 ^ b = 2 ^ a * 2 ^ (b - a).
Proof. intros. rewrite <- N.pow_add_r. f_equal. lia. Qed.

Lemma pow2_le a b : a <= b -> 2 ^ a <= 2 ^ b.
Proof. intros. apply N.pow_le_mono_r; lia. Qed.
Lemma pow2_lt a b : a < b -> 2 ^ a < 2 ^ b.
Proof. intros. apply N.pow_lt_mono_r; lia. Qed.

(* linear arithmetic with division and modulus by constants *)
Ltac dlia := zify; Z.to_euclidean_division_equations; lia.
