(* Properties of the atomic pointers to the global marks and to the path selections on a weak memory. *)
From Coq Require Import Arith NArith List Bool.
From Verif Require Import Maps MultiMap Conc ConcMarks WeakPtr WeakPtrRace WeakPtrDemo WeakPtrInv WeakPtrFacts WeakPtrRun WeakPtrHeap WeakPtrHeapFacts.
Import ListNotations.

Definition no_eqb (a b : nset) : bool := false.
(* a call of thread i with its steps *)
Definition does {A F} (i : nat) (p : ppc A F) (ks : list nat) : list (pev (A := A) (F := F)) :=
  PDoes i (PBegin p) :: List.map (fun k => PDoes i (PGo k)) ks.
Definition pends {A F} (x : option (pconf A F)) : option (list (ppc A F * list (nat * pdid A F)) * list (pop A F)) :=
  match x with Some x => Some (List.map (fun t => (p_pc t, p_past t)) (c_ths x), order (c_mem x)) | None => None end.
(* marks: 7 is withdrawn by thread 0, which tells thread 1; thread 1 withdraws 8, and thread 0 reads the latest *)
Definition some_marks : list (pev (A := nset) (F := gcall)) :=
  [PSpawn; PSpawn] ++ does 0 (PUpd0 (true, 7%N)) [1; 1; 0]%nat ++ [PSync 0 1] ++ does 1 (PUpd0 (true, 8%N)) [2; 1; 0]%nat ++
  does 0 PRead0 [3; 1]%nat.
Definition after_marks : pconf nset gcall := match pcrun apply_mark no_eqb [] code_pords some_marks with Some x => x | None => PConf (pmem0 []) [] end.
(* selections, without updates *)
Definition sel : Type := (option N * option N)%type.
Definition no_apply (f : Empty_set) (a : sel) : sel := a.
Definition some_sels : list (pev (A := sel) (F := Empty_set)) :=
  [PSpawn; PSpawn] ++ does 0 (PSet0 (Some 1, None)%N) [1; 1; 0]%nat ++ [PSync 0 1] ++ does 1 POut0 [2; 2; 0]%nat ++
  does 1 PTag0 [3]%nat ++ does 0 PRead0 [2; 1]%nat.
(* ---------- C91: reading the global marks or the selections of a prefix is no data race ---------- *)

(* with the orderings of the code *)
Theorem C91_code : forall A F (apply : F -> A -> A) eqb a0 x,
  pcreach apply eqb code_pords a0 x -> ~ praced x.
Proof. exact (@ptr_code_no_race). Qed.
Print Assumptions C91_code.

(* the three that it takes; those of set_ps_outdated do not matter *)
Theorem C91_orderings : forall A F (apply : F -> A -> A) eqb o a0 (f : F),
  (forall x, pcreach apply eqb o a0 x -> ~ praced x) <-> q_load_acq o = true /\ q_succ_rel o = true /\ q_fail_acq o = true.
Proof. exact (@ptr_race_free_iff). Qed.
Print Assumptions C91_orderings.

Example C91_example : pcreach apply_mark no_eqb code_pords [] after_marks /\ ~ praced after_marks.
Proof.
  assert (R : pcreach apply_mark no_eqb code_pords [] after_marks) by (apply pcrun_ok with some_marks; vm_compute; reflexivity).
  split; [exact R|]. exact (ptr_code_no_race _ _ _ _ R).
Qed.
(* a load that is Relaxed *)
Example C91_relaxed_example : option_map fst (pends (pcrun apply_mark no_eqb [] (POrds false true true true true false)
  ([PSpawn; PSpawn] ++ does 0 (PUpd0 (true, 7%N)) [1; 1; 0]%nat ++ does 1 PRead0 [2; 1]%nat))) =
  Some [(PIdle, [(2%nat, DidWrite (Updated (true, 7%N)))]); (PRaced, [])].
Proof. vm_compute. reflexivity. Qed.

(* ---------- C92: on a weak memory all see the marks, and the selections of a prefix, change in one order, and none misses what happened before ---------- *)

(* a read gives what the first of the writes amount to, among them all that happened before it; and does not go back *)
Theorem C92_read : forall A F (apply : F -> A -> A) eqb o a0 x i t k a,
  pcreach apply eqb o a0 x -> nth_error (c_ths x) i = Some t -> p_pc t = PGave k a ->
  k - 1 <= length (order (c_mem x)) /\ a = fst (do_ops apply a0 (firstn (k - 1) (order (c_mem x)))) /\
  forall s b, In (s, b) (p_past t) -> s <= k.
Proof. exact (@ptr_read). Qed.
Print Assumptions C92_read.

(* the same for the flag of outdated selections *)
Theorem C92_flag : forall A F (apply : F -> A -> A) eqb o a0 x i t k b,
  pcreach apply eqb o a0 x -> nth_error (c_ths x) i = Some t -> p_pc t = PTagGave k b ->
  k - 1 <= length (order (c_mem x)) /\ b = snd (do_ops apply a0 (firstn (k - 1) (order (c_mem x)))) /\
  forall s c, In (s, c) (p_past t) -> s <= k.
Proof. exact (@ptr_tag_read). Qed.
Print Assumptions C92_flag.

(* what happened before, a write, a read, or a selection that was left as it was, has its place in the order *)
Theorem C92_past : forall A F (apply : F -> A -> A) eqb o a0 x i t s d,
  pcreach apply eqb o a0 x -> nth_error (c_ths x) i = Some t -> In (s, d) (p_past t) ->
  1 <= s /\ s - 1 <= length (order (c_mem x)) /\
  let now := do_ops apply a0 (firstn (s - 1) (order (c_mem x))) in
  match d with
  | DidWrite b => 2 <= s /\ nth_error (order (c_mem x)) (s - 2) = Some b
  | DidRead a => a = fst now
  | DidFlag b => b = snd now
  | DidKeep a => eqb (fst now) a = true
  end.
Proof. exact (@ptr_past). Qed.
Print Assumptions C92_past.

(* which does not change any more *)
Theorem C92_order : forall A F (apply : F -> A -> A) eqb o x y,
  pcexec apply eqb o x y -> exists l, order (c_mem y) = order (c_mem x) ++ l.
Proof. exact (@ptr_order). Qed.
Print Assumptions C92_order.

(* and nothing is in it that no call wrote *)
Theorem C92_made : forall A F (apply : F -> A -> A) eqb o a0 x n b,
  pcreach apply eqb o a0 x -> nth_error (order (c_mem x)) n = Some b ->
  exists i t, nth_error (c_ths x) i = Some t /\ In (n + 2, DidWrite b) (p_past t).
Proof. exact (@ptr_made). Qed.
Print Assumptions C92_made.

(* so a mark is seen if no opposite mark came after it *)
Theorem C92_marks : forall eqb o x i t k s wd m j,
  pcreach apply_mark eqb o [] x -> only_marks (order (c_mem x)) -> nth_error (c_ths x) i = Some t -> p_pc t = PGave k s ->
  In (j, DidWrite (Updated (wd, m))) (p_past t) ->
  (forall n, j - 2 < n -> nth_error (order (c_mem x)) n <> Some (Updated (negb wd, m))) ->
  mem m s = wd.
Proof. exact marks_seen. Qed.
Print Assumptions C92_marks.

(* and none is seen that was not made *)
Theorem C92_unmarked : forall eqb o x i t k s m,
  pcreach apply_mark eqb o [] x -> only_marks (order (c_mem x)) -> nth_error (c_ths x) i = Some t -> p_pc t = PGave k s ->
  ~ In (Updated (true, m)) (order (c_mem x)) -> mem m s = false.
Proof. exact marks_unseen. Qed.
Print Assumptions C92_unmarked.

(* a selection is seen if no other came after it *)
Theorem C92_selection : forall A F (apply : F -> A -> A) eqb o a0 x i t k a j s,
  pcreach apply eqb o a0 x -> nth_error (c_ths x) i = Some t -> p_pc t = PGave k a ->
  In (j, DidWrite (Stored s)) (p_past t) ->
  (forall n b, j - 2 < n -> nth_error (order (c_mem x)) n = Some b -> b = Outdated) ->
  a = s.
Proof. exact (@sel_seen). Qed.
Print Assumptions C92_selection.

(* and the flag tells whether the last write was a selection *)
Theorem C92_outdated : forall A F (apply : F -> A -> A) eqb o a0 x i t k b j c,
  pcreach apply eqb o a0 x -> nth_error (c_ths x) i = Some t -> p_pc t = PTagGave k b ->
  In (j, DidWrite c) (p_past t) ->
  (forall n d, j - 2 < n -> nth_error (order (c_mem x)) n = Some d -> (d = Outdated <-> c = Outdated)) ->
  b = true <-> c = Outdated.
Proof. exact (@tag_seen). Qed.
Print Assumptions C92_outdated.

(* but a mark that lost a race once never returns, as in C47 *)
Theorem C92_lost : forall A F (apply : F -> A -> A) eqb o a0 x y i t f n tag m,
  pcreach apply eqb o a0 x -> nth_error (c_ths x) i = Some t -> p_pc t = PUpd3 f n tag m -> pcexec apply eqb o x y ->
  exists t', nth_error (c_ths y) i = Some t' /\ trying f n tag (p_pc t').
Proof. exact (@ptr_stuck). Qed.
Print Assumptions C92_lost.

Example C92_example : pends (pcrun apply_mark no_eqb [] code_pords some_marks) =
  Some ([(PGave 3 [8; 7]%N, [(2%nat, DidWrite (Updated (true, 7%N)))]);
         (PIdle, [(3%nat, DidWrite (Updated (true, 8%N))); (2%nat, DidWrite (Updated (true, 7%N)))])],
        [Updated (true, 7%N); Updated (true, 8%N)]).
Proof. vm_compute. reflexivity. Qed.
(* without the edge between the threads, an older set may be read *)
Example C92_older_example : pends (pcrun apply_mark no_eqb [] code_pords
  ([PSpawn; PSpawn] ++ does 0 (PUpd0 (true, 7%N)) [1; 1; 0]%nat ++ does 1 PRead0 [1; 1]%nat)) =
  Some ([(PIdle, [(2%nat, DidWrite (Updated (true, 7%N)))]); (PGave 1 [], [])], [Updated (true, 7%N)]).
Proof. vm_compute. reflexivity. Qed.
(* with it, it may not: message 1 cannot be read *)
Example C92_not_older_example : pcrun apply_mark no_eqb [] code_pords
  ([PSpawn; PSpawn] ++ does 0 (PUpd0 (true, 7%N)) [1; 1; 0]%nat ++ [PSync 0 1] ++ does 1 PRead0 [1; 1]%nat) = None.
Proof. vm_compute. reflexivity. Qed.
(* thread 1 has set the flag and read it; thread 0 reads the selection, from the message before *)
Example C92_selection_example : pends (pcrun no_apply sel_eqb (None, None) code_pords some_sels) =
  Some ([(PGave 2 (Some 1%N, None), [(2%nat, DidWrite (Stored (Some 1%N, None)))]);
         (PTagGave 3 true, [(3%nat, DidWrite Outdated); (2%nat, DidWrite (Stored (Some 1%N, None)))])],
        [Stored (Some 1%N, None); Outdated]).
Proof. vm_compute. reflexivity. Qed.
(* a selection that is the same is not stored again, and the flag stays *)
Example C92_kept_example : pends (pcrun no_apply sel_eqb (None, None) code_pords
  ([PSpawn] ++ does 0 (PSet0 (Some 1, None)%N) [1; 1; 0]%nat ++ does 0 POut0 [2; 0]%nat ++ does 0 (PSet0 (Some 1, None)%N) [3; 1]%nat ++
   does 0 PTag0 [3; 1]%nat)) =
  Some ([(PIdle, [(3%nat, DidFlag true); (3%nat, DidKeep (Some 1%N, None)); (3%nat, DidWrite Outdated); (2%nat, DidWrite (Stored (Some 1%N, None)))])],
        [Stored (Some 1%N, None); Outdated]).
Proof. vm_compute. reflexivity. Qed.
(* two marks at the same time: the second goes on with what the first left, and loses its own *)
Example C92_lost_example : option_map fst (pends (pcrun apply_mark no_eqb [] code_pords
  ([PSpawn; PSpawn] ++ does 1 (PUpd0 (true, 8%N)) [1; 1]%nat ++ does 0 (PUpd0 (true, 7%N)) [1; 1; 0]%nat ++
   List.map (fun k => PDoes 1 (PGo k)) [2; 1; 2]%nat))) =
  Some [(PIdle, [(2%nat, DidWrite (Updated (true, 7%N)))]); (PUpd3 (true, 8%N) 0 false 2, [])].
Proof. vm_compute. reflexivity. Qed.

(* ---------- C94: marking muis and selecting paths again and again holds no more memory than doing it once ---------- *)

(* one thread that marks a mui and unmarks it: the marks are as before, the memory is not *)
Theorem C94_refuted :
  ~ exists B, forall x fr, hreach apply_mark (fun _ _ => false) code_pords [] x fr ->
  (forall i t, nth_error (c_ths x) i = Some t -> p_pc t = PIdle) -> length (c_ths x) = 1 -> hcurrent x = Some [] ->
  length (hlive x fr) <= B.
Proof. exact marks_leak. Qed.
Print Assumptions C94_refuted.

(* one thread that stores two selections in turn *)
Theorem C94_selections_refuted : forall (c d : option N * option N) (eqb : option N * option N -> option N * option N -> bool),
  eqb c d = false -> eqb d c = false ->
  ~ exists B, forall x fr, hreach (fun (f : Empty_set) s => s) eqb code_pords c x fr ->
    (forall i t, nth_error (c_ths x) i = Some t -> p_pc t = PIdle) -> length (c_ths x) = 1 -> hcurrent x = Some c ->
    length (hlive x fr) <= B.
Proof. exact sels_leak. Qed.
Print Assumptions C94_selections_refuted.

(* all that is ever held: one object for each call that replaced one, and one in each call at work; those that lost were freed *)
Theorem C94_held_partial : forall A F (apply : F -> A -> A) eqb o a0 x fr,
  hreach apply eqb o a0 x fr ->
  length (hlive x fr) = 1 + length (filter brings (order (c_mem x))) + length (filter hmaking (c_ths x)).
Proof. exact (@heap_held). Qed.
Print Assumptions C94_held_partial.

(* nothing is freed twice, nor while a call can come to read it *)
Theorem C94_not_freed_partial : forall A F (apply : F -> A -> A) eqb o a0 x fr,
  hreach apply eqb o a0 x fr ->
  NoDup fr /\ forall g, In g (s_msgs (c_mem x)) -> ~ In (pm_ptr g) fr.
Proof. exact (@heap_not_freed). Qed.
Print Assumptions C94_not_freed_partial.

(* two threads mark at the same time; the first has to give up what it made, twice *)
Definition heap_end (es : list pev) : option (list nat * list nat * list (pop nset gcall)) :=
  match hrun apply_mark no_eqb [] code_pords es with
  | Some (x, fr) => Some (hlive x fr, fr, order (c_mem x)) | None => None end.
Example C94_example : heap_end
  ([PSpawn; PSpawn] ++ does 1 (PUpd0 (true, 8%N)) [1; 1]%nat ++ does 0 (PUpd0 (true, 7%N)) [1; 1; 0]%nat ++
   List.map (fun k => PDoes 1 (PGo k)) [2; 1; 2; 1]%nat ++ does 0 (PUpd0 (false, 7%N)) [2; 1; 0]%nat) =
  Some ([0; 2; 4; 5]%nat, [3; 1]%nat, [Updated (true, 7%N); Updated (false, 7%N)]).
Proof. vm_compute. reflexivity. Qed.
Example C94_leak_example : heap_end
  ([PSpawn] ++ does 0 (PUpd0 (true, 7%N)) [1; 1; 0]%nat ++ does 0 (PUpd0 (false, 7%N)) [2; 1; 0]%nat ++
   does 0 (PUpd0 (true, 7%N)) [3; 1; 0]%nat ++ does 0 (PUpd0 (false, 7%N)) [4; 1; 0]%nat) =
  Some ([0; 1; 2; 3; 4]%nat, [], [Updated (true, 7%N); Updated (false, 7%N); Updated (true, 7%N); Updated (false, 7%N)]).
Proof. vm_compute. reflexivity. Qed.
