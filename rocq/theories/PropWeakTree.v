(* Properties of the prefix tree on a weak memory. *)
From Coq Require Import Arith NArith List Bool.
From Verif Require Import Word Af Maps Cht Node Tree TreeProofs Conc ConcTree ConcSpec WeakTree WeakTreeFacts WeakTreeRun.
Import ListNotations.
Local Open Scope N_scope.

Definition ten : pid := (167772160, 8).
(* thread 0 inserts 10.0.0.0/8; thread 1 knows only the new store *)
Definition inserted_ten : list uev := [USpawn; USpawn; UIns 0 ten 1] ++ usteps 0 40 ++ [URet 0].
Definition calls_of (x : option wtconf) : option (list wcall) :=
  match x with Some x => Some (List.map wt_call (wc_ths x)) | None => None end.
(* thread 1 inserts it too: it learns of the root when its compare_exchange fails, then of the node *)
Definition both_insert : list uev := inserted_ten ++ [UIns 1 ten 2] ++ usteps 1 6 ++ [ULearn 1 (0, [0])] ++ usteps 1 4 ++
  [ULearn 1 (1, [0])] ++ usteps 1 40.
(* ---------- C95: on a weak memory a prefix is found by whoever knows that its insert has returned, and nothing else is ---------- *)

(* found after an insert that happened before *)
Theorem C95_found : forall f ov x i t p b,
  wtreach f ov x -> nth_error (wc_ths x) i = Some t ->
  wt_call t = WHas p (XDone b) -> In p (wt_past t) -> 0 < p_len p -> b = true.
Proof. exact wtree_found. Qed.
Print Assumptions C95_found.

(* and only what an insert was called for *)
Theorem C95_no_phantom : forall f ov x i t p,
  wtreach f ov x -> nth_error (wc_ths x) i = Some t ->
  wt_call t = WHas p (XDone true) -> In p (wc_called x).
Proof. exact wtree_no_phantom. Qed.
Print Assumptions C95_no_phantom.

(* an insert that happens after another of the same prefix does not say that it is new *)
Theorem C95_not_new : forall f ov x i t p mui rc existed,
  wtreach f ov x -> nth_error (wc_ths x) i = Some t ->
  wt_call t = WIns p mui (TDone (ROk (rc, existed))) -> In p (wt_past t) -> existed = true.
Proof. exact wtree_not_new. Qed.
Print Assumptions C95_not_new.

(* but at least one does *)
Theorem C95_said_new : forall f ov x q,
  wtreach f ov x ->
  (forall i t p mui pc, nth_error (wc_ths x) i = Some t -> wt_call t <> WIns p mui pc) ->
  In q (wc_called x) -> exists i t, nth_error (wc_ths x) i = Some t /\ In q (wt_news t).
Proof. exact wtree_said_new. Qed.
Print Assumptions C95_said_new.

(* once no insert is under way the tree holds the prefixes inserted, and they can all be reached *)
Theorem C95_settled : forall f ov x,
  wtreach f ov x ->
  (forall i t p mui pc, nth_error (wc_ths x) i = Some t -> wt_call t <> WIns p mui pc) ->
  tree_inv f (t_heap (wc_mem x)) /\
  forall q, wf_pid f q -> 0 < p_len q -> (prefix_exists f (wc_mem x) q = Ok true <-> In q (wc_called x)).
Proof. exact wtree_settled. Qed.
Print Assumptions C95_settled.

(* no prefix is lost *)
Theorem C95_kept : forall f ov x y q,
  wtreach f ov x -> wtexec f ov x y -> wf_pid f q -> 0 < p_len q ->
  prefix_exists f (wc_mem x) q = Ok true -> prefix_exists f (wc_mem y) q = Ok true.
Proof. exact wtree_kept. Qed.
Print Assumptions C95_kept.

(* no call fails; the one panic is that of C43 *)
Theorem C95_no_error : forall f ov x i t,
  wtreach f ov x -> nth_error (wc_ths x) i = Some t ->
  match wt_call t with
  | WIns p _ (TDone (RErr _)) => False
  | WIns p _ TPanic => ~ no_overflow ov p
  | WHas _ XPanic => False
  | _ => True
  end.
Proof. exact wtree_no_error. Qed.
Print Assumptions C95_no_error.

(* the steps of a call are bounded, those of the others notwithstanding *)
Theorem C95_steps : forall f ov x i t,
  wtreach f ov x -> nth_error (wc_ths x) i = Some t ->
  match wt_call t with
  | WIdle => True
  | WIns _ _ _ => N.of_nat (wt_steps t) <= 5440
  | WHas _ _ => N.of_nat (wt_steps t) <= 68
  end.
Proof. exact wtree_steps. Qed.
Print Assumptions C95_steps.

(* and it can always take them: the call returns without the help of the others *)
Theorem C95_insert_returns : forall f ov x i t p mui pc,
  wtreach f ov x -> nth_error (wc_ths x) i = Some t ->
  wt_call t = WIns p mui pc -> no_overflow ov p ->
  exists y t' r, wtexec f ov x y /\ others_rest i x y /\ nth_error (wc_ths y) i = Some t' /\
    wt_call t' = WIns p mui (TDone (ROk r)).
Proof. exact wtree_insert_returns. Qed.
Print Assumptions C95_insert_returns.

Theorem C95_contains_returns : forall f ov x i t p pc,
  wtreach f ov x -> nth_error (wc_ths x) i = Some t ->
  wt_call t = WHas p pc ->
  exists y t' b, wtexec f ov x y /\ others_rest i x y /\ nth_error (wc_ths y) i = Some t' /\
    wt_call t' = WHas p (XDone b).
Proof. exact wtree_contains_returns. Qed.
Print Assumptions C95_contains_returns.

(* thread 0 tells thread 1 that it is done *)
Example C95_found_example : exists x, wtreach IPv4 true x /\
  urun IPv4 true (inserted_ten ++ [UTold 0 1; UHas 1 ten] ++ usteps 1 9) = Some x /\
  List.map wt_call (wc_ths x) = [WIdle; WHas ten (XDone true)] /\
  List.map wt_past (wc_ths x) = [[ten]; [ten]] /\ List.map wt_news (wc_ths x) = [[ten]; []].
Proof.
  eexists. assert (E : urun IPv4 true (inserted_ten ++ [UTold 0 1; UHas 1 ten] ++ usteps 1 9) = Some _) by (vm_compute; reflexivity).
  split; [exact (urun_ok _ _ _ _ E)|]. split; [exact E|]. vm_compute. auto.
Qed.
(* if not, thread 1 may read what was there before; in C44 it may not *)
Example C95_stale_example : calls_of (urun IPv4 true (inserted_ten ++ [UHas 1 ten] ++ usteps 1 9)) = Some [WIdle; WHas ten (XDone false)].
Proof. vm_compute. reflexivity. Qed.
(* it has learnt of the pointer in the root, and not of the node *)
Example C95_half_example : calls_of (urun IPv4 true (inserted_ten ++ [ULearn 1 (0, [0]); UHas 1 ten] ++ usteps 1 9)) =
  Some [WIdle; WHas ten (XDone false)].
Proof. vm_compute. reflexivity. Qed.
(* an insert that knows nothing of the first: it loses one compare_exchange, finds the node made, and the bit set *)
Example C95_both_example : calls_of (urun IPv4 true both_insert) = Some [WIdle; WIns ten 2 (TDone (ROk (1, true)))].
Proof. vm_compute. reflexivity. Qed.
(* it cannot go on as long as it has not learnt *)
Example C95_must_learn_example : urun IPv4 true (inserted_ten ++ [UIns 1 ten 2] ++ usteps 1 7) = None.
Proof. vm_compute. reflexivity. Qed.
Example C95_settled_example : match urun IPv4 true both_insert with
  | Some x => prefix_exists IPv4 (wc_mem x) ten = Ok true /\ prefix_exists IPv4 (wc_mem x) (0, 8) = Ok false /\
      wc_called x = [ten; ten]
  | None => False
  end.
Proof. vm_compute. auto. Qed.
Example C95_steps_example : match urun IPv4 true both_insert with
  | Some x => List.map wt_steps (wc_ths x) = [0; 16]%nat
  | None => False
  end.
Proof. vm_compute. reflexivity. Qed.
