(* The end of a OnceBoxSlice of WeakOnce.v: its drop, oncebox.rs:156-165, which
   drops its array and with it the cells, 61-66. *)
From Coq Require Import Arith NArith List Bool.
From Verif Require Import WeakOnce.
Import ListNotations.

(* 63 and 158: a swap reads the latest message *)
Definition took (w : wmem) (l : loc) : option nat :=
  match rev (w_msgs w l) with
  | g :: _ => match m_val g with Ptr n => Some n | _ => None end
  | [] => None
  end.
Definition indices (size : N) : list N := map N.of_nat (seq 0 (N.to_nat size)).
Definition values (w : wmem) (b : nat) : list nat :=
  flat_map (fun i => match took w (LCell b i) with Some v => [v] | None => [] end) (indices (w_size w)).
(* whether a thread that knows a may access all that it drops: the cells and the
   values, which the destructors of the values read *)
Definition drop_safe (w : wmem) (a : view) : bool :=
  match took w LArr with
  | None => true
  | Some b => forallb (fun i => seen a (LCell b i)) (indices (w_size w)) && forallb (fun v => seen a (LVal v)) (values w b)
  end.
Definition dropped (w : wmem) : wmem :=
  match took w LArr with
  | None => w
  | Some b => WMem (w_msgs w) (w_sc w) (w_past w) (w_arrs w) (w_vals w) (b :: w_freed_arrs w)
                (values w b ++ w_freed_vals w) (w_size w)
  end.
(* 156: drop has the only reference, so that all threads are done with theirs and
   all they did happened before *)
Definition may_drop (x : wconf) (i : nat) : Prop := exists t, nth_error (k_ths x) i = Some t /\
  forall j tj, nth_error (k_ths x) j = Some tj -> t_pc tj = Idle /\ forall l, (t_cur tj l <= t_cur t l)%nat.

(* for the statements: the threads that have made an array, or a value, and did not yet try to put it in place *)
Definition making_arr (t : thread) : bool := match t_pc t with I1 _ _ _ => true | _ => false end.
Definition making_val (t : thread) : bool := match t_pc t with I3 _ _ _ _ => true | _ => false end.
