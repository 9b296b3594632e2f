(* The memory that the calls of WeakPtr.v hold.  A compare_exchange that fails
   gives back the new object, which is dropped with the error (mod.rs:571-575,
   cht.rs:456).  One that succeeds gives back the old pointer, a Shared, with which
   nothing is done (mod.rs:570, cht.rs:457): there is no defer_destroy in src.  An
   Atomic has no drop of its own. *)
From Coq Require Import Arith NArith List Bool.
From Verif Require Import Conc WeakPtr.
Import ListNotations.

Section Heap.
Context {A F : Type}.
Variable apply : F -> A -> A.
Variable eqb : A -> A -> bool.

(* what a step frees: what the thread had made, if it did not write it *)
Definition hfrees (w w' : pmem A F) (t : pthread A F) : list nat :=
  match p_pc t with
  | PUpd2 _ _ _ n | PSet2 _ _ _ n => if Nat.eqb (length (s_msgs w')) (length (s_msgs w)) then [n] else []
  | _ => []
  end.
(* the executions, with all that was freed so far *)
Inductive hreach (o : pords) (a0 : A) : pconf A F -> list nat -> Prop :=
| hr_start : hreach o a0 (PConf (pmem0 a0) []) []
| hr_thread w ts fr i t w' t' : hreach o a0 (PConf w ts) fr -> nth_error ts i = Some t -> ptstep apply eqb o w t w' t' ->
    hreach o a0 (PConf w' (set_nth i t' ts)) (hfrees w w' t ++ fr)
| hr_spawn w ts fr : hreach o a0 (PConf w ts) fr -> hreach o a0 (PConf w (ts ++ [pthread0])) fr
| hr_sync w ts fr i j ti tj : hreach o a0 (PConf w ts) fr -> nth_error ts i = Some ti -> nth_error ts j = Some tj ->
    p_pc ti = PIdle -> p_pc tj = PIdle -> hreach o a0 (PConf w (set_nth j (psynced ti tj) ts)) fr.

(* the objects that are allocated and not freed *)
Definition hlive (x : pconf A F) (fr : list nat) : list nat :=
  filter (fun n => negb (existsb (Nat.eqb n) fr)) (seq 0 (length (s_objs (c_mem x)))).
(* the writes that brought a new object *)
Definition brings (b : pop A F) : bool := match b with Outdated => false | _ => true end.
(* the threads that have made an object and are about to try to write it *)
Definition hmaking (t : pthread A F) : bool := match p_pc t with PUpd2 _ _ _ _ | PSet2 _ _ _ _ => true | _ => false end.
(* where the pointer points *)
Definition hcurrent (x : pconf A F) : option A :=
  match rev (s_msgs (c_mem x)) with g :: _ => nth_error (s_objs (c_mem x)) (pm_ptr g) | [] => None end.
End Heap.
