(* What the machines of ConcOnce.v and ConcMarks.v say to a caller. *)
From Coq Require Import Arith NArith List Bool Lia.
From Verif Require Import Word Af Maps ChtMath Cht Conc ConcOnce ConcMarks.
Import ListNotations.
Local Open Scope N_scope.

(* ---------- C51: one cell ---------- *)

Definition ostore (V : Type) : Type := conf (oslice V) (ocall V) (opc V).

(* the i-th call is c and has returned r *)
Definition gave {V} (x : ostore V) (i : nat) (c : ocall V) (r : ores V) : Prop :=
  nth_error (ths x) i = Some (c, ODone r).
(* it has returned a value *)
Definition gave_value {V} (x : ostore V) (i : nat) (c : ocall V) (v : V) : Prop :=
  gave x i c (OFound (Some v)) \/ exists b, gave x i c (OStored v b).

Lemma gave_cell {V} size (x : ostore V) i c v : oexec (oinit size) x -> gave_value x i c v ->
  cell (sh x) (ocall_idx c) = Some v.
Proof.
  intros E G. apply oinv_exec in E. destruct G as [G|[b G]].
  - exact (oi_found _ _ E _ _ _ G).
  - exact (proj1 (oi_stored _ _ E _ _ _ _ G)).
Qed.

Lemma once_one_value {V} size (x : ostore V) i j ci cj vi vj : oexec (oinit size) x ->
  gave_value x i ci vi -> gave_value x j cj vj -> ocall_idx ci = ocall_idx cj -> vi = vj.
Proof.
  intros E A B Q. pose proof (gave_cell _ _ _ _ _ E A) as A'.
  pose proof (gave_cell _ _ _ _ _ E B) as B'. rewrite Q in A'. congruence.
Qed.

Lemma once_one_winner {V} size (x : ostore V) i c v : oexec (oinit size) x -> gave_value x i c v ->
  exists k, gave x k (OGetOrInit (ocall_idx c) v) (OStored v true) /\
    forall k' c' w, gave x k' c' (OStored w true) -> ocall_idx c' = ocall_idx c -> k' = k.
Proof.
  intros E A. pose proof (gave_cell _ _ _ _ _ E A) as C. apply oinv_exec in E.
  destruct (oi_set _ _ E _ _ C) as [k W]. exists k. split; [exact W|].
  intros k' c' w G Q. destruct (oi_stored _ _ E _ _ _ _ G) as [_ S]. specialize (S eq_refl).
  rewrite Q in S. subst c'. exact (oi_one _ _ E _ _ _ _ _ G W).
Qed.

(* no call panics but with an index outside the array *)
Lemma once_panic {V} size (x : ostore V) i c : oexec (oinit size) x ->
  gave x i c OPanic -> size <= ocall_idx c.
Proof. intros E G. apply oinv_exec in E. exact (oi_panic _ _ E _ _ G). Qed.

(* once a value has been returned, every call that begins later returns it *)
Lemma once_forever {V} size (x y : ostore V) i c v : oexec (oinit size) x -> gave_value x i c v ->
  oexec x y ->
  forall j c' r, (length (ths x) <= j)%nat -> gave y j c' r -> ocall_idx c' = ocall_idx c ->
  r = OFound (Some v) \/ r = OStored v false.
Proof.
  intros E A T. pose proof (gave_cell _ _ _ _ _ E A) as C0.
  assert (W0 : oinv size x) by now apply oinv_exec.
  set (idx := ocall_idx c) in *.
  assert (H : cell (sh y) idx = Some v /\ forall j c' p, (length (ths x) <= j)%nat ->
    nth_error (ths y) j = Some (c', p) -> ocall_idx c' = idx ->
    match p with OI1 | OI3 => False | ODone r => r = OFound (Some v) \/ r = OStored v false | _ => True end).
  { induction T as [|x y z T IH S].
    - split; [easy|]. intros j c' p L N. apply nth_some_lt in N. lia.
    - specialize (IH E A C0 W0). destruct IH as [C IH].
      assert (Ez : oexec (oinit size) z).
      { eapply exec_trans; [exact E|]. eapply ex_step; [exact T|exact S]. }
      split; [exact (cell_stays size x z idx v E (ex_step _ _ _ _ _ _ T S) C0)|].
      destruct S as [s ts c0 _|s ts k c0 l s' l' E1 E2]; simpl in *; intros j c' p L N Q.
      + destruct (Nat.lt_ge_cases j (length ts)).
        * rewrite nth_error_app1 in N by easy. eapply IH; eauto.
        * rewrite nth_error_app2 in N by easy.
          destruct (j - length ts)%nat as [|n]; simpl in N; [|now destruct n].
          injection N as <- <-. now destruct c0.
      + rewrite nth_set_nth in N by (eapply nth_some_lt; eauto).
        destruct (Nat.eqb_spec k j) as [->|]; [|eapply IH; eauto].
        injection N as <- <-. specialize (IH _ _ _ L E1 Q).
        unfold cell in C. destruct (o_cells s) as [cl|] eqn:Oc; [|discriminate].
        destruct (nth_error cl (N.to_nat idx)) as [[w|]|] eqn:Nc; try discriminate.
        injection C as ->.
        destruct l, c0; simpl in E2, Q, IH; subst; try discriminate E2; try easy;
          rewrite ?Oc, ?Nc in E2; injection E2 as <- <-; auto.
        left. unfold cell. now rewrite Oc, Nc. }
  intros j c' r L G Q. exact (proj2 H _ _ _ L G Q).
Qed.

(* every call returns after at most four steps of its own *)
Lemma once_returns {V} size (x y : ostore V) i c n : oexec (oinit size) x ->
  nth_error (ths x) i = Some (c, ostart c) -> execn ostart (fun _ => True) ostep i x n y ->
  (n <= 4)%nat /\
  forall p, nth_error (ths y) i = Some (c, p) -> ostep i (sh y) c p = None -> exists r, p = ODone r.
Proof.
  intros E N X. split.
  - assert (H : exists l, nth_error (ths y) i = Some (c, l) /\ (n + osteps_left l <= 4)%nat).
    { induction X as [|n s ts c0 X IH _|n s ts j c0 l s' l' X IH NE E1 E2|n s ts c0 l s' l' X IH E1 E2];
        simpl in *.
      - exists (ostart c). split; [easy|]. destruct c; simpl; lia.
      - destruct IH as (l0 & A & B). exists l0. split; [|lia].
        rewrite nth_error_app1; [easy|]. eapply nth_some_lt; eauto.
      - destruct IH as (l0 & A & B). exists l0. split; [|lia].
        rewrite nth_set_nth by (eapply nth_some_lt; eauto). now destruct (Nat.eqb_spec j i).
      - destruct IH as (l0 & A & B). rewrite A in E1. injection E1 as <- <-. exists l'.
        rewrite nth_set_nth by (eapply nth_some_lt; eauto). rewrite Nat.eqb_refl. split; [easy|].
        apply ostep_decreases in E2. lia. }
    destruct H as (l & _ & H). lia.
  - intros p Np Z. apply (ostep_progress i (sh y) c p); [|exact Z].
    apply (fits_exec (oinit size) y) with (i := i); [|intros [|k]; discriminate|exact Np].
    eapply exec_trans; [exact E|]. exact (execn_exec _ _ _ _ _ _ _ X).
Qed.

(* ---------- C47: global marks ---------- *)

Definition mstore : Type := conf gstate gcall gpc.
Definition mark_returned (x : mstore) (i : nat) (c : gcall) : Prop :=
  nth_error (ths x) i = Some (c, GDone).
(* is m withdrawn after these marks, one after the other? *)
Definition marked (m : N) (l : list gcall) : bool :=
  fold_left (fun b c => if snd c =? m then fst c else b) l false.

Lemma replay_marked m l : mem m (replay l) = marked m l.
Proof.
  unfold replay, marked. assert (H : forall s b, mem m s = b ->
    mem m (fold_left (fun s c => apply_mark c s) l s) =
    fold_left (fun b (c : gcall) => if snd c =? m then fst c else b) l b).
  { induction l as [|[w n] l IH]; intros s b E; simpl; [easy|]. apply IH.
    unfold apply_mark. simpl. destruct w.
    - rewrite mem_insert, (N.eqb_sym m n), E. now destruct (n =? m).
    - rewrite mem_remove, (N.eqb_sym m n), E. now destruct (n =? m). }
  now apply H.
Qed.

(* the calls that have returned, in an order that respects which returned before
   another began, explain the set *)
Lemma marks_linear x y : gexec gconf0 x -> gexec x y ->
  exists ox l, NoDup (List.map fst (ox ++ l)) /\
    (forall i c, In (i, c) ox <-> mark_returned x i c) /\
    (forall i c, In (i, c) (ox ++ l) <-> mark_returned y i c) /\
    forall m, mem m (g_set (sh x)) = marked m (List.map snd ox) /\
              mem m (g_set (sh y)) = marked m (List.map snd (ox ++ l)).
Proof.
  intros E T. assert (Ey : gexec gconf0 y) by (eapply exec_trans; eauto).
  pose proof (ginv_exec _ E) as [A1 A2 A3 A4]. pose proof (ginv_exec _ Ey) as [B1 B2 B3 B4].
  assert (X : exists l, g_log (sh y) = g_log (sh x) ++ l).
  { clear - T. unfold gexec in T. induction T as [|x y z T [l IH] S]; [exists []; now rewrite app_nil_r|].
    destruct S as [s ts c _|s ts i c p s' p' E1 E2]; simpl in *; [now exists l|].
    destruct p; simpl in E2; [|destruct (g_ptr s =? current)|discriminate]; injection E2 as <- _;
      simpl; rewrite ?IH; eauto.
    exists (l ++ [(i, c)]). now rewrite app_assoc. }
  destruct X as [l X]. exists (g_log (sh x)), l.
  assert (X' : @app (nat * gcall) (g_log (sh x)) l = g_log (sh y)) by (symmetry; exact X).
  rewrite X'. split; [easy|].
  split; [|split].
  - intros i c. split; [apply A3|]. intros R. exact (A4 _ _ _ R).
  - intros i c. split; [apply B3|]. intros R. exact (B4 _ _ _ R).
  - intros m. rewrite A1, B1, !replay_marked. easy.
Qed.

Definition gact : Type := ev gcall.
Definition lost_mark : list gact := [Call (true, 1); Call (true, 2); Run 0; Run 1; Run 0; Run 1].

Lemma mark_never_returns :
  ~ (forall x i c p, gexec gconf0 x -> nth_error (ths x) i = Some (c, p) ->
     exists y, gexec x y /\ mark_returned y i c).
Proof.
  intros H.
  destruct (play gstart gstep gconf0 lost_mark) as [x|] eqn:P; [|vm_compute in P; discriminate].
  assert (E : gexec gconf0 x).
  { apply (play_exec _ _ _ lost_mark); [|exact P]. repeat constructor. }
  vm_compute in P. injection P as P.
  destruct (H x 1%nat (true, 2) (GCas 0 [1] true) E) as (y & T & R); [now subst x|].
  destruct (lost_mark_stuck x y 1 (true, 2) 0 [1] E T) as [n S]; [now subst x|].
  unfold mark_returned in R. rewrite R in S. discriminate.
Qed.

(* a call during which no other compare_exchange succeeds returns: the number of
   its steps is two *)
Lemma mark_returns_alone (x : mstore) i c : gexec gconf0 x -> nth_error (ths x) i = Some (c, GLoad) ->
  mark_returned (runs gstart gstep 2 i x) i c.
Proof.
  intros E N. destruct x as [s ts]. simpl in N. unfold mark_returned. simpl. rewrite N.
  assert (L : (i < length ts)%nat) by (eapply nth_some_lt; eauto).
  simpl. rewrite nth_set_nth, Nat.eqb_refl by easy. simpl. rewrite N.eqb_refl. simpl.
  rewrite nth_set_nth, Nat.eqb_refl by (now rewrite set_nth_length). easy.
Qed.

(* ---------- C57: merge_with ---------- *)

Definition bstore : Type := conf N mcall mpc.
Definition lost_merge : list (ev mcall) := [Call (Merge 1); Call (AddBits 2); Run 0; Run 1; Run 0].

Lemma merge_never_returns :
  ~ (forall bits x i node p, mexec (mconf0 bits) x -> nth_error (ths x) i = Some (Merge node, p) ->
     exists y, mexec x y /\ nth_error (ths y) i = Some (Merge node, MDone)).
Proof.
  intros H.
  destruct (play (fun _ => MStart) mstep (mconf0 0) lost_merge) as [x|] eqn:P;
    [|vm_compute in P; discriminate].
  assert (E : mexec (mconf0 0) x).
  { apply (play_exec _ _ _ lost_merge); [|exact P]. repeat constructor. }
  vm_compute in P. injection P as P.
  destruct (H 0 x 0%nat 1 (MCas 0 3 true) E) as (y & T & R); [now subst x|].
  destruct (lost_merge_stuck 0 x y 0 (Merge 1) 0 3 E T) as [n S]; [now subst x|].
  rewrite R in S. discriminate.
Qed.

(* the calls of threads that race for a slot array behave as if each probe were
   one atomic step on a map from slots to values *)
Lemma once_atomic V (b : N) (path : list N) (size : N) (x : ostore (entry V)) :
  oexec (oinit size) x ->
  exists h : heap V,
    aexec b path size (Conf [] []) (Conf h (List.map abs_th (ths x))) /\
    forall idx, idx < size -> lookup (b, path ++ [idx]) h = cell (sh x) idx.
Proof. apply once_refines. Qed.
