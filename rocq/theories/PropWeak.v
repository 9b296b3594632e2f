(* Properties of OnceBoxSlice and OnceBox on a weak memory. *)
From Coq Require Import Arith NArith List Bool Permutation.
From Verif Require Import Conc WeakOnce WeakRace WeakDemo WeakOnceInv WeakOnceFacts WeakOnceEnds WeakDrop WeakDropFacts.
Import ListNotations.

(* with all orderings that matter *)
Definition right_ords : ords := Ords true true true true false.
(* what the threads are at, and have read, after a schedule *)
Definition at_end (o : ords) (es : list wkev) : option (list (pc * list got)) :=
  match wkrun o 4 es with Some x => Some (List.map (fun t => (t_pc t, t_past t)) (k_ths x)) | None => None end.
(* two threads initialise index 2 at the same time, the second wins; both use the value *)
Definition both : list wkev :=
  [Spawn; Spawn; Does 0 (AInit 2 7); Does 1 (AInit 2 8)] ++ gos 0 [1]%nat ++ gos 1 [1; 1; 1; 1]%nat ++
  gos 0 [2; 1; 2; 1]%nat ++ gos 1 [1]%nat.
Definition after_both : wconf := match wkrun right_ords 4 both with Some x => x | None => WConf (wmem0 4) [] end.
(* ---------- C88: reading what another thread put in a OnceBox is no data race ---------- *)

(* with the orderings of the code it is one, whether the epoch is pinned in each call or not *)
Theorem C88_refuted : forall pin,
  ~ (forall size x, wkreach (code_ords pin) size x -> ~ raced x).
Proof. exact code_races. Qed.
Print Assumptions C88_refuted.

(* Acquire on the loads and on failure, and Release on success, are what it takes *)
Theorem C88_orderings : forall o size,
  (0 < size)%N ->
  (forall x, wkreach o size x -> ~ raced x) <-> load_acq o = true /\ succ_rel o = true /\ fail_acq o = true.
Proof. exact race_free_iff. Qed.
Print Assumptions C88_orderings.

(* with any orderings there is no race once a read of the same index happened before *)
Theorem C88_later_partial : forall o size x i t idx v us c,
  wkreach o size x -> nth_error (k_ths x) i = Some t ->
  In (Got idx v us c) (t_past t) -> t_pc t <> Raced idx.
Proof. exact later_no_race. Qed.
Print Assumptions C88_later_partial.

(* thread 0 has made the array and the value; thread 1 reads the pointer to the array and then a cell, the
   initialisation of which it need not see; both had pinned the epoch *)
Example C88_refuted_example : at_end (code_ords true) seen_early =
  Some [(Back 0 (Some (0%nat, true)), []); (Raced 0, [])].
Proof. vm_compute. reflexivity. Qed.
(* Release alone does not help, nor does Acquire in the loads for one whose compare_exchange fails *)
Example C88_failure_example : at_end (Ords true true true false true) lost_early =
  Some [(I2 0 7 0, []); (Raced 0, [])].
Proof. vm_compute. reflexivity. Qed.
Example C88_example : wkreach right_ords 4 after_both /\ ~ raced after_both.
Proof.
  assert (R : wkreach right_ords 4 after_both) by (apply wkrun_ok with both; vm_compute; reflexivity).
  split; [exact R|]. exact (proj2 (race_free_iff right_ords 4 eq_refl) (conj eq_refl (conj eq_refl eq_refl)) _ R).
Qed.
(* with the orderings of the code: thread 1 is told by thread 0 *)
Example C88_later_example : at_end (code_ords false)
  ([Spawn; Spawn; Does 0 (AInit 0 7)] ++ gos 0 [1; 1; 1; 1; 1]%nat ++ [Sync 0 1; Does 1 (AGet 0)] ++ gos 1 [2; 2; 1]%nat) =
  Some [(Idle, [Got 0 0 true 7]); (Idle, [Got 0 0 false 7; Got 0 0 true 7])].
Proof. vm_compute. reflexivity. Qed.
(* or both make a fence in between *)
Example C88_fence_example : at_end (code_ords false)
  ([Spawn; Spawn; Does 0 (AInit 0 7)] ++ gos 0 [1; 1; 1; 1; 1]%nat ++ [Does 0 AFence; Does 1 AFence; Does 1 (AGet 0)] ++ gos 1 [2; 2; 1]%nat) =
  Some [(Idle, [Got 0 0 true 7]); (Idle, [Got 0 0 false 7; Got 0 0 true 7])].
Proof. vm_compute. reflexivity. Qed.

(* ---------- C89: a OnceBox is filled once, all see the same value, and a later call sees it, on a weak memory with any orderings ---------- *)

(* at most one call for an index returns true *)
Theorem C89_once : forall o size x i j ti tj idx,
  wkreach o size x ->
  nth_error (k_ths x) i = Some ti -> nth_error (k_ths x) j = Some tj -> In idx (t_wins ti) -> In idx (t_wins tj) ->
  i = j /\ NoDup (t_wins ti).
Proof. exact once_one. Qed.
Print Assumptions C89_once.

(* all that read through a reference to an index have the same value *)
Theorem C89_agree : forall o size x i j ti tj idx v us c v' us' c',
  wkreach o size x ->
  nth_error (k_ths x) i = Some ti -> nth_error (k_ths x) j = Some tj ->
  In (Got idx v us c) (t_past ti) -> In (Got idx v' us' c') (t_past tj) -> v = v' /\ c = c'.
Proof. exact once_agree. Qed.
Print Assumptions C89_agree.

(* which is that of the call that returned true *)
Theorem C89_created : forall o size x i t idx v us c,
  wkreach o size x -> nth_error (k_ths x) i = Some t ->
  In (Got idx v us c) (t_past t) ->
  exists j tj, nth_error (k_ths x) j = Some tj /\ In idx (t_wins tj) /\ In (idx, c) (t_calls tj).
Proof. exact once_created. Qed.
Print Assumptions C89_created.

(* nothing is used after it was freed *)
Theorem C89_not_freed : forall o size x i t idx,
  wkreach o size x -> nth_error (k_ths x) i = Some t -> t_pc t <> Dangling idx.
Proof. exact once_no_dangling. Qed.
Print Assumptions C89_not_freed.

(* a call finds what a read that happened before it had found *)
Theorem C89_later : forall o size x i t idx v us c,
  wkreach o size x -> nth_error (k_ths x) i = Some t ->
  In (Got idx v us c) (t_past t) -> t_pc t <> Back idx None.
Proof. exact once_later. Qed.
Print Assumptions C89_later.

(* a call can always go on *)
Theorem C89_goes_on : forall o size x i t,
  wkreach o size x -> nth_error (k_ths x) i = Some t -> ~ at_rest (t_pc t) ->
  exists w' t', tstep o (k_mem x) t w' t'.
Proof. exact once_goes_on. Qed.
Print Assumptions C89_goes_on.

(* and has returned after five steps *)
Theorem C89_ends : forall o i n x y t,
  busy o i n x y -> nth_error (k_ths x) i = Some t -> n <= 5.
Proof. exact once_ends. Qed.
Print Assumptions C89_ends.

Example C89_example : at_end right_ords both =
  Some [(Idle, [Got 2 0 false 8]); (Idle, [Got 2 0 true 8])].
Proof. vm_compute. reflexivity. Qed.
Example C89_wins : List.map t_wins (k_ths after_both) = [[]; [2%N]] /\ List.map t_calls (k_ths after_both) = [[(2, 7)]; [(2, 8)]]%N.
Proof. vm_compute. split; reflexivity. Qed.
(* the array of thread 0 was dropped *)
Example C89_freed : w_freed_arrs (k_mem after_both) = [0%nat].
Proof. vm_compute. reflexivity. Qed.
(* without an order between the two a call may miss a value that is there *)
Example C89_missed : at_end (code_ords true)
  ([Spawn; Spawn; Does 0 (AInit 0 7)] ++ gos 0 [1; 1; 1; 1; 1]%nat ++ [Does 1 (AGet 0)] ++ gos 1 [1]%nat) =
  Some [(Idle, [Got 0 0 true 7]); (Back 0 None, [])].
Proof. vm_compute. reflexivity. Qed.

(* ---------- C93: what a OnceBoxSlice allocates is freed once, with any orderings ---------- *)

(* when all calls have returned and it is dropped: each array and each value, and none twice *)
Theorem C93_all : forall o size x,
  wkreach o size x -> (forall i t, nth_error (k_ths x) i = Some t -> t_pc t = Idle) ->
  Permutation (w_freed_arrs (dropped (k_mem x))) (seq 0 (w_arrs (k_mem x))) /\
  Permutation (w_freed_vals (dropped (k_mem x))) (seq 0 (w_vals (k_mem x))).
Proof. exact drop_all. Qed.
Print Assumptions C93_all.

(* the drop itself is no data race and reads nothing that is out of date *)
Theorem C93_drop : forall o size x i t,
  wkreach o size x -> nth_error (k_ths x) i = Some t -> may_drop x i ->
  drop_safe (k_mem x) (t_cur t) = true.
Proof. exact drop_no_race. Qed.
Print Assumptions C93_drop.

(* before that: one array, one value to an index, and one more to each thread that is making one *)
Theorem C93_before : forall o size x,
  wkreach o size x ->
  w_arrs (k_mem x) <= length (w_freed_arrs (k_mem x)) + 1 + length (filter making_arr (k_ths x)) /\
  w_vals (k_mem x) <= length (w_freed_vals (k_mem x)) + N.to_nat (w_size (k_mem x)) + length (filter making_val (k_ths x)).
Proof. exact held_at_most. Qed.
Print Assumptions C93_before.

(* thread 0 lost with its array 0 and with its value 1; it tells thread 1, which drops the slice *)
Definition before_drop : wconf := match k_ths after_both with [a; b] => WConf (k_mem after_both) [a; synced a b] | _ => WConf (wmem0 4) [] end.
Example C93_example : wkreach right_ords 4 before_drop /\ may_drop before_drop 1 /\
  w_arrs (k_mem before_drop) = 2%nat /\ w_vals (k_mem before_drop) = 2%nat /\
  w_freed_arrs (dropped (k_mem before_drop)) = [1; 0]%nat /\ w_freed_vals (dropped (k_mem before_drop)) = [0; 1]%nat.
Proof.
  assert (R : wkreach right_ords 4 after_both) by (apply wkrun_ok with both; vm_compute; reflexivity).
  assert (P : List.map t_pc (k_ths after_both) = [Idle; Idle]) by (vm_compute; reflexivity).
  split; [|split; [|vm_compute; repeat split; reflexivity]]; unfold before_drop; revert R P; generalize after_both; intros x R P;
    destruct x as [w [|a [|b [|c l]]]]; cbn [k_ths List.map k_mem] in *; try discriminate; injection P as Pa Pb.
  - eapply wr_step; [exact R|]. exact (wk_sync _ w [a; b] 0 1 a b eq_refl eq_refl Pa Pb).
  - exists (synced a b). split; [reflexivity|]. intros [|[|j]] t E; [| |destruct j; discriminate]; injection E as <-.
    + split; [exact Pa|]. intros l. apply join_r.
    + split; [reflexivity|]. intros l. apply le_n.
Qed.
(* a thread that was not told cannot drop it: it need not see the cells *)
Example C93_untold : drop_safe (k_mem after_both) (t_cur thread0) = false.
Proof. vm_compute. reflexivity. Qed.
