(* cht/oncebox.rs under interference: a slot array (OnceBoxSlice) whose cells
   (OnceBox) are read and initialised by any number of threads.  Every load and
   every compare_exchange is a step of its own. *)
From Coq Require Import Arith NArith List Bool Lia.
From Verif Require Import Word Af Maps ChtMath Cht Conc.
Import ListNotations.
Local Open Scope N_scope.

Section Once.
Context {V : Type}.

(* oncebox.rs:73-77: the pointer to the cells (null or the array) and the size.
   A cell (12-14) is null or points to its value. *)
Record oslice : Type := OSlice { o_size : N; o_cells : option (list (option V)) }.

(* oncebox.rs:80-85 *)
Definition onew (size : N) : oslice := OSlice size None.

Inductive ocall : Type := OGet (idx : N) | OGetOrInit (idx : N) (v : V).

Definition ocall_idx (c : ocall) : N := match c with OGet i | OGetOrInit i _ => i end.

(* what a call returns: get's Option, get_or_init's (&T, bool), or the panic of
   an index outside the array *)
Inductive ores : Type := OFound (o : option V) | OStored (v : V) (its_us : bool) | OPanic.

Inductive opc : Type :=
| OG0 (* get, 93: load the array pointer *)
| OG1 (* 98 and 24: load the cell *)
| OI0 (* get_or_make_slice, 117: load the array pointer *)
| OI1 (* 130-135: compare_exchange the array pointer *)
| OI2 (* OnceBox::get_or_init, 34 and 24: load the cell *)
| OI3 (* 38-43: compare_exchange the cell *)
| ODone (r : ores).

Definition ostart (c : ocall) : opc := match c with OGet _ => OG0 | OGetOrInit _ _ => OI0 end.

(* 120-123: an array of null cells *)
Definition fresh_cells (size : N) : list (option V) := repeat None (N.to_nat size).

Definition cell (s : oslice) (idx : N) : option V :=
  match o_cells s with
  | None => None
  | Some l => match nth_error l (N.to_nat idx) with Some (Some v) => Some v | _ => None end
  end.

Definition ostep (_ : nat) (s : oslice) (c : ocall) (p : opc) : option (oslice * opc) :=
  match p, c with
  | OG0, OGet idx => (* 93-96 *)
    match o_cells s with
    | None => Some (s, ODone (OFound None))
    | Some _ => Some (s, OG1)
    end
  | OG1, OGet idx => (* 97-98: slice.get(idx) is None outside the array *)
    Some (s, ODone (OFound (cell s idx)))
  | OI0, OGetOrInit idx v => (* 117-120 *)
    match o_cells s with
    | None => Some (s, OI1)
    | Some _ => Some (s, OI2)
    end
  | OI1, OGetOrInit idx v => (* 130-150: the loser drops its own array *)
    match o_cells s with
    | None => Some (OSlice (o_size s) (Some (fresh_cells (o_size s))), OI2)
    | Some _ => Some (s, OI2)
    end
  | OI2, OGetOrInit idx v => (* 113 indexes the array; 34-36 *)
    match o_cells s with
    | None => Some (s, ODone OPanic) (* not reached: the array pointer is set *)
    | Some l =>
      match nth_error l (N.to_nat idx) with
      | None => Some (s, ODone OPanic)
      | Some (Some w) => Some (s, ODone (OStored w false))
      | Some None => Some (s, OI3)
      end
    end
  | OI3, OGetOrInit idx v => (* 38-57: the loser drops its own value *)
    match o_cells s with
    | None => Some (s, ODone OPanic)
    | Some l =>
      match nth_error l (N.to_nat idx) with
      | None => Some (s, ODone OPanic)
      | Some (Some w) => Some (s, ODone (OStored w false))
      | Some None =>
        Some (OSlice (o_size s) (Some (set_nth (N.to_nat idx) (Some v) l)),
              ODone (OStored v true))
      end
    end
  | _, _ => None
  end.

Definition oexec := exec (St := oslice) ostart (fun _ => True) ostep.
Definition oinit (size : N) : conf oslice ocall opc := Conf (onew size) [].

(* ---------- the invariant ---------- *)

Definition owf (s : oslice) : Prop :=
  match o_cells s with None => True | Some l => length l = N.to_nat (o_size s) end.

Definition winner (x : conf oslice ocall opc) (i : nat) (idx : N) (v : V) : Prop :=
  nth_error (ths x) i = Some (OGetOrInit idx v, ODone (OStored v true)).

(* threads past the array load know that the array is there *)
Definition past (s : oslice) (p : opc) : Prop :=
  match p with OG1 | OI2 | OI3 => o_cells s <> None | _ => True end.

Record oinv (size : N) (x : conf oslice ocall opc) : Prop := {
  oi_wf : owf (sh x);
  oi_size : o_size (sh x) = size;
  oi_past : forall i c p, nth_error (ths x) i = Some (c, p) -> past (sh x) p;
  oi_set : forall idx v, cell (sh x) idx = Some v -> exists i, winner x i idx v;
  oi_win : forall i idx v, winner x i idx v -> cell (sh x) idx = Some v;
  oi_one : forall i j idx v w, winner x i idx v -> winner x j idx w -> i = j;
  oi_stored : forall i c v b, nth_error (ths x) i = Some (c, ODone (OStored v b)) ->
    cell (sh x) (ocall_idx c) = Some v /\ (b = true -> c = OGetOrInit (ocall_idx c) v);
  oi_found : forall i c v, nth_error (ths x) i = Some (c, ODone (OFound (Some v))) ->
    cell (sh x) (ocall_idx c) = Some v;
  oi_panic : forall i c, nth_error (ths x) i = Some (c, ODone OPanic) -> size <= ocall_idx c
}.

Lemma oinv_init size : oinv size (oinit size).
Proof.
  split; try reflexivity; try exact Logic.I; unfold winner; simpl.
  - intros [|i]; discriminate.
  - discriminate.
  - intros [|i]; discriminate.
  - intros [|i]; discriminate.
  - intros [|i]; discriminate.
  - intros [|i]; discriminate.
  - intros [|i]; discriminate.
Qed.

Lemma cell_fresh size n idx : cell (OSlice size (Some (fresh_cells n))) idx = None.
Proof.
  unfold cell, fresh_cells. simpl. destruct (nth_error _ _) as [[v|]|] eqn:E; auto.
  apply nth_error_In, repeat_spec in E. discriminate.
Qed.

Lemma cell_set size l i v idx : nth_error l (N.to_nat i) = Some None ->
  cell (OSlice size (Some (set_nth (N.to_nat i) (Some v) l))) idx =
  if idx =? i then Some v else cell (OSlice size (Some l)) idx.
Proof.
  intros E. unfold cell. simpl. rewrite nth_set_nth by (eapply nth_some_lt; eauto).
  destruct (N.eqb_spec idx i) as [->|NE].
  - now rewrite Nat.eqb_refl.
  - destruct (Nat.eqb_spec (N.to_nat i) (N.to_nat idx)); [lia|easy].
Qed.

(* a call that returns without filling a cell reports what the cells hold *)
Definition told (s : oslice) (c : ocall) (p : opc) : Prop :=
  match p with
  | ODone (OFound (Some v)) => cell s (ocall_idx c) = Some v
  | ODone (OStored v b) => cell s (ocall_idx c) = Some v /\ b = false
  | ODone OPanic => o_size s <= ocall_idx c
  | _ => True
  end.

(* a step changes the cells only by filling an empty one, and then it returns *)
Lemma ostep_cases i s c p s' p' : owf s -> past s p -> ostep i s c p = Some (s', p') ->
  o_size s' = o_size s /\ owf s' /\ past s' p' /\ (o_cells s <> None -> o_cells s' <> None) /\
  (((forall idx, cell s' idx = cell s idx) /\ told s c p') \/
   exists idx v, c = OGetOrInit idx v /\ p' = ODone (OStored v true) /\ cell s idx = None /\
     forall j, cell s' j = if j =? idx then Some v else cell s j).
Proof.
  intros W P E.
  assert (SAME : s' = s -> past s p' -> told s c p' ->
    o_size s' = o_size s /\ owf s' /\ past s' p' /\ (o_cells s <> None -> o_cells s' <> None) /\
    (((forall idx, cell s' idx = cell s idx) /\ told s c p') \/
    exists idx v, c = OGetOrInit idx v /\ p' = ODone (OStored v true) /\ cell s idx = None /\
     forall j, cell s' j = if j =? idx then Some v else cell s j)).
  { intros -> A B. auto 10. }
  assert (OUT : forall l idx, o_cells s = Some l -> nth_error l (N.to_nat idx) = None ->
    o_size s <= idx).
  { intros l idx Q H. apply nth_error_None in H. unfold owf in W. rewrite Q in W. rewrite W in H. lia. }
  assert (CELL : forall l idx w, o_cells s = Some l -> nth_error l (N.to_nat idx) = Some w ->
    cell s idx = w).
  { intros l idx w Q H. unfold cell. rewrite Q, H. now destruct w. }
  unfold past in P.
  destruct p, c; simpl in E; try discriminate E.
  - destruct (o_cells s) eqn:Q; injection E as <- <-; apply SAME; unfold past; rewrite ?Q; easy.
  - injection E as <- <-. apply SAME; unfold told; simpl; auto. now destruct (cell s idx).
  - destruct (o_cells s) eqn:Q; injection E as <- <-; apply SAME; unfold past; rewrite ?Q; easy.
  - destruct (o_cells s) as [l|] eqn:Q; injection E as <- <-.
    + apply SAME; unfold past; rewrite ?Q; easy.
    + clear SAME. simpl. split; [easy|].
      split; [unfold owf, fresh_cells; simpl; now rewrite repeat_length|].
      split; [easy|]. split; [easy|]. left. split; [|easy].
      intros j. rewrite cell_fresh. unfold cell. now rewrite Q.
  - destruct (o_cells s) as [l|] eqn:Q; [|easy].
    destruct (nth_error l (N.to_nat idx)) as [[w|]|] eqn:Q2; injection E as <- <-;
      apply SAME; unfold past, told; simpl; rewrite ?Q; auto; try easy; eauto.
  - destruct (o_cells s) as [l|] eqn:Q; [|easy].
    destruct (nth_error l (N.to_nat idx)) as [[w|]|] eqn:Q2; injection E as <- <-;
      try (apply SAME; unfold past, told; simpl; rewrite ?Q; auto; try easy; eauto; fail).
    clear SAME. simpl. split; [easy|].
    split; [unfold owf in *; rewrite Q in W; simpl; now rewrite set_nth_length|].
    split; [easy|]. split; [easy|]. right. exists idx, v. split; [easy|]. split; [easy|].
    split; [eauto|]. intros j. rewrite cell_set by easy. unfold cell. now rewrite Q.
Qed.

Lemma oinv_step size x y : oinv size x -> cstep ostart (fun _ => True) ostep x y -> oinv size y.
Proof.
  intros J T. destruct J as [W Z P ST WN ONE STO FO PA].
  destruct T as [s ts c _|s ts i c l s' l' E1 E2].
  - assert (X : forall i c1 p1, nth_error (ts ++ [(c, ostart c)]) i = Some (c1, p1) ->
      nth_error ts i = Some (c1, p1) \/ (c1 = c /\ p1 = ostart c)).
    { intros i c1 p1 E. destruct (Nat.lt_ge_cases i (length ts)).
      - left. now rewrite nth_error_app1 in E.
      - right. rewrite nth_error_app2 in E by easy.
        destruct (i - length ts)%nat as [|n]; simpl in E; [|now destruct n].
        now injection E as <- <-. }
    assert (X2 : forall i c1 r, nth_error (ts ++ [(c, ostart c)]) i = Some (c1, ODone r) ->
      nth_error ts i = Some (c1, ODone r)).
    { intros i c1 r E. destruct (X _ _ _ E) as [|[_ D]]; [easy|]. destruct c; discriminate. }
    split; simpl in *; auto.
    + intros i c1 p1 E. destruct (X _ _ _ E) as [E'|[-> ->]]; [eauto|]. destruct c; simpl; auto.
    + intros idx v E. destruct (ST _ _ E) as [i Wi]. exists i. unfold winner in *. simpl in *.
      rewrite nth_error_app1; [easy|]. eapply nth_some_lt; eauto.
    + intros i idx v E. apply (WN i). now apply X2 in E.
    + intros i j idx v w A B. apply (ONE i j idx v w); eapply X2; eauto.
    + intros i c1 v b E. apply (STO i c1 v b). eauto.
    + intros i c1 v E. eapply FO; eauto.
    + intros i c1 E. eapply PA; eauto.
  - assert (X : forall j c1 p1, nth_error (set_nth i (c, l') ts) j = Some (c1, p1) ->
      (j = i /\ c1 = c /\ p1 = l') \/ (j <> i /\ nth_error ts j = Some (c1, p1))).
    { intros j c1 p1 E. rewrite nth_set_nth in E by (eapply nth_some_lt; eauto).
      destruct (Nat.eqb_spec i j) as [->|]; [left; now injection E as <- <-|right; auto]. }
    assert (NW : forall idx v, ~ winner (Conf s ts) i idx v).
    { intros idx v Q. unfold winner in Q. simpl in Q. rewrite E1 in Q. injection Q as -> ->.
      discriminate. }
    simpl in *.
    destruct (ostep_cases i s c l s' l' W (P _ _ _ E1) E2) as (Z' & W' & P' & KEEP & D).
    split; simpl; auto.
    + congruence.
    + intros j c1 p1 E. destruct (X _ _ _ E) as [(-> & -> & ->)|[_ E']]; [easy|].
      specialize (P _ _ _ E'). destruct p1; simpl in *; auto.
    + intros idx v Q. destruct D as [[EQ _]|(idx' & v' & -> & -> & N0 & EQ)].
      * rewrite EQ in Q. destruct (ST _ _ Q) as [j Wj]. exists j. unfold winner in *. simpl in *.
        rewrite nth_set_nth by (eapply nth_some_lt; eauto).
        destruct (Nat.eqb_spec i j) as [->|]; [|easy]. exfalso. eapply NW; exact Wj.
      * rewrite EQ in Q. destruct (N.eqb_spec idx idx') as [->|].
        -- injection Q as <-. exists i. unfold winner. simpl.
           rewrite nth_set_nth by (eapply nth_some_lt; eauto). now rewrite Nat.eqb_refl.
        -- destruct (ST _ _ Q) as [j Wj]. exists j. unfold winner in *. simpl in *.
           rewrite nth_set_nth by (eapply nth_some_lt; eauto).
           destruct (Nat.eqb_spec i j) as [->|]; [|easy]. exfalso. eapply NW; exact Wj.
    + intros j idx v Wj. apply X in Wj. destruct Wj as [(-> & <- & <-)|[NE Wj]].
      * destruct D as [[EQ [_ D]]|(idx' & v' & Q & Q2 & N0 & EQ)]; [discriminate D|].
        injection Q as -> ->. rewrite EQ. now rewrite N.eqb_refl.
      * pose proof (WN j idx v Wj) as Q. destruct D as [[EQ _]|(idx' & v' & _ & _ & N0 & EQ)].
        -- now rewrite EQ.
        -- rewrite EQ. destruct (N.eqb_spec idx idx') as [->|]; [congruence|easy].
    + intros j k idx v w A B.
      destruct D as [[_ D]|(idx' & v' & Q & Q2 & N0 & EQ)].
      * assert (forall v0, (OGetOrInit idx v0, ODone (OStored v0 true)) <> (c, l')) as NL.
        { intros v0 C. injection C as <- <-. now destruct D. }
        apply X in A. apply X in B.
        destruct A as [(-> & A1 & A2)|[NA A]]; [exfalso; eapply NL; rewrite <- A1, <- A2; eauto|].
        destruct B as [(-> & B1 & B2)|[NB B]]; [exfalso; eapply NL; rewrite <- B1, <- B2; eauto|].
        eapply (ONE j k); eauto.
      * subst c l'. apply X in A. apply X in B.
        destruct A as [(-> & A1 & A2)|[NA A]], B as [(-> & B1 & B2)|[NB B]]; auto.
        -- injection A1 as -> ->. apply WN in B. congruence.
        -- injection B1 as -> ->. apply WN in A. congruence.
        -- eapply (ONE j k); eauto.
    + intros j c1 v b E. destruct (X _ _ _ E) as [(-> & -> & <-)|[NE E']].
      * destruct D as [[EQ [Q ->]]|(idx' & v' & -> & Q2 & N0 & EQ)].
        -- rewrite EQ. split; [easy|discriminate].
        -- injection Q2 as -> ->. simpl. rewrite EQ, N.eqb_refl. easy.
      * destruct (STO _ _ _ _ E') as [Q Q2]. split; [|easy].
        destruct D as [[EQ _]|(idx' & v' & _ & _ & N0 & EQ)]; [now rewrite EQ|].
        rewrite EQ. destruct (N.eqb_spec (ocall_idx c1) idx') as [QE|]; [congruence|easy].
    + intros j c1 v E. destruct (X _ _ _ E) as [(-> & -> & <-)|[NE E']].
      * destruct D as [[EQ Q]|(idx' & v' & -> & Q2 & N0 & EQ)]; [now rewrite EQ|discriminate].
      * pose proof (FO _ _ _ E') as Q.
        destruct D as [[EQ _]|(idx' & v' & _ & _ & N0 & EQ)]; [now rewrite EQ|].
        rewrite EQ. destruct (N.eqb_spec (ocall_idx c1) idx') as [QE|]; [congruence|easy].
    + intros j c1 E. destruct (X _ _ _ E) as [(-> & -> & <-)|[NE E']]; [|eauto].
      destruct D as [[EQ Q]|(idx' & v' & -> & Q2 & N0 & EQ)]; [now rewrite <- Z|discriminate].
Qed.

Lemma oinv_exec size x : oexec (oinit size) x -> oinv size x.
Proof.
  intros E. unfold oexec in E. revert E. apply exec_ind_l; [apply oinv_init|].
  intros y z _ A B. eapply oinv_step; eauto.
Qed.

(* cells are never emptied or overwritten *)
Lemma cell_stays size x y idx v : oexec (oinit size) x -> oexec x y ->
  cell (sh x) idx = Some v -> cell (sh y) idx = Some v.
Proof.
  intros A B Q. destruct (oi_set _ _ (oinv_exec _ _ A) _ _ Q) as [i Wi].
  apply (oi_win size _ (oinv_exec size y (exec_trans _ _ _ _ _ _ A B)) i).
  unfold winner in *. eapply exec_done; eauto. intros s. reflexivity.
Qed.

(* every call that is still under way can take a step, and takes at most four *)
Definition osteps_left (p : opc) : nat :=
  match p with OG0 => 2 | OG1 => 1 | OI0 => 4 | OI1 => 3 | OI2 => 2 | OI3 => 1 | ODone _ => 0 end.

(* the program counters of get and those of get_or_init *)
Definition fits (c : ocall) (p : opc) : Prop :=
  match c, p with
  | OGet _, (OG0 | OG1) | OGetOrInit _ _, (OI0 | OI1 | OI2 | OI3) | _, ODone _ => True
  | _, _ => False
  end.

Lemma fits_exec x y : oexec x y -> (forall i c p, nth_error (ths x) i = Some (c, p) -> fits c p) ->
  forall i c p, nth_error (ths y) i = Some (c, p) -> fits c p.
Proof.
  intros E. induction E as [|x y z E IH T]; [easy|]. intros A. specialize (IH A). clear A.
  destruct T as [s ts c _|s ts i c l s' l' E1 E2]; simpl in *; intros j c1 p1 Q.
  - destruct (Nat.lt_ge_cases j (length ts)).
    + rewrite nth_error_app1 in Q by easy. eauto.
    + rewrite nth_error_app2 in Q by easy.
      destruct (j - length ts)%nat as [|n]; simpl in Q; [|now destruct n].
      injection Q as <- <-. destruct c; exact Logic.I.
  - rewrite nth_set_nth in Q by (eapply nth_some_lt; eauto).
    destruct (Nat.eqb_spec i j) as [->|]; [|eauto]. injection Q as <- <-.
    destruct l, c; simpl in E2; try discriminate E2;
      try (destruct (o_cells s) as [l|]; [|injection E2 as <- <-; exact Logic.I]);
      try (destruct (nth_error l (N.to_nat idx)) as [[w|]|]); injection E2 as <- <-; exact Logic.I.
Qed.

Lemma ostep_progress i s c p : fits c p -> ostep i s c p = None -> exists r, p = ODone r.
Proof.
  destruct p, c; simpl; intros F E; try easy; eauto; exfalso;
    try (destruct (o_cells s) as [l|]; [|discriminate E]);
    try (destruct (nth_error l (N.to_nat idx)) as [[w|]|]); discriminate E.
Qed.

Lemma ostep_decreases i s c p s' p' : ostep i s c p = Some (s', p') ->
  (osteps_left p' < osteps_left p)%nat.
Proof.
  destruct p, c; simpl; intros E; try discriminate E;
    try (destruct (o_cells s) as [l|]; [|injection E as <- <-; simpl; lia]);
    try (destruct (nth_error l (N.to_nat idx)) as [[w|]|]); injection E as <- <-; simpl; lia.
Qed.

End Once.
Arguments oslice V : clear implicits.
Arguments ocall V : clear implicits.
Arguments ores V : clear implicits.
Arguments opc V : clear implicits.

(* ---------- the calls behave as if they were atomic ---------- *)

(* The same calls with slot_get and slot_get_or_init of Cht.v as one step each:
   this is how the other machines use a slot array. *)
Section Atomic.
Context {V : Type}.
Variable b : N.
Variable path : list N.
Variable size : N.

Inductive apc : Type := AWait | ADone (r : ores (entry V)).

Definition astep (_ : nat) (h : heap V) (c : ocall (entry V)) (p : apc)
    : option (heap V * apc) :=
  match p, c with
  | AWait, OGet idx => Some (h, ADone (OFound (slot_get h b path size idx)))
  | AWait, OGetOrInit idx v =>
    match slot_get_or_init h b path size idx v with
    | Ok (h', e, its_us) => Some (h', ADone (OStored e its_us))
    | _ => Some (h, ADone OPanic)
    end
  | _, _ => None
  end.

Definition aexec := exec (St := heap V) (fun _ => AWait) (fun _ : ocall (entry V) => True) astep.

Definition abs_pc (p : opc (entry V)) : apc := match p with ODone r => ADone r | _ => AWait end.
Definition abs_th (t : ocall (entry V) * opc (entry V)) : ocall (entry V) * apc :=
  (fst t, abs_pc (snd t)).
(* the heap holds what the cells hold *)
Definition same_cells (s : oslice (entry V)) (h : heap V) : Prop :=
  forall idx, idx < size -> lookup (b, path ++ [idx]) h = cell s idx.

Lemma slot_get_cell s h idx : owf s -> o_size s = size -> same_cells s h ->
  slot_get h b path size idx = cell s idx.
Proof.
  intros W Z C. unfold slot_get. destruct (N.ltb_spec idx size); [now apply C|].
  unfold cell, owf in *. destruct (o_cells s) as [l|]; [|easy].
  destruct (nth_error l (N.to_nat idx)) eqn:Q; [|easy].
  apply nth_some_lt in Q. lia.
Qed.

Definition ref_inv (x : conf (oslice (entry V)) (ocall (entry V)) (opc (entry V))) : Prop :=
  oinv size x /\ (forall i c p, nth_error (ths x) i = Some (c, p) -> fits c p) /\
  exists h, aexec (Conf [] []) (Conf h (List.map abs_th (ths x))) /\ same_cells (sh x) h.

Lemma once_refines x : oexec (oinit size) x ->
  exists h, aexec (Conf [] []) (Conf h (List.map abs_th (ths x))) /\ same_cells (sh x) h.
Proof.
  intros E. unfold oexec in E.
  enough (ref_inv x) as G by apply G.
  revert E. apply exec_ind_l.
  { split; [apply oinv_init|]. split; [intros [|i]; discriminate|].
    exists []. split; [apply ex_refl|]. intros idx _. reflexivity. }
  intros y z EY (J & F & h & EH & C) T.
  assert (J' : oinv size z) by (eapply oinv_step; eauto). split; [easy|].
  assert (F' : forall i c p, nth_error (ths z) i = Some (c, p) -> fits c p).
  { eapply fits_exec; [|exact F]. apply exec_one. exact T. }
  split; [easy|].
  destruct T as [s ts c _|s ts i c l s' l' E1 E2]; simpl in *.
  - exists h. split; [|easy]. rewrite map_app. simpl.
    replace (abs_th (c, ostart c)) with (c, AWait) by (destruct c; reflexivity).
    eapply ex_step; [exact EH|]. now constructor.
  - pose proof (oi_wf _ _ J) as W. pose proof (oi_size _ _ J) as Z. simpl in W, Z.
    pose proof (oi_past _ _ J _ _ _ E1) as P. simpl in P.
    assert (MS : forall p1, List.map abs_th (set_nth i (c, p1) ts) =
      set_nth i (c, abs_pc p1) (List.map abs_th ts)).
    { intros p1. now rewrite map_set_nth. }
    assert (Q1 : nth_error (List.map abs_th ts) i = Some (c, abs_pc l)).
    { rewrite nth_error_map, E1. reflexivity. }
    assert (STUT : (forall idx, cell s' idx = cell s idx) -> abs_pc l' = abs_pc l ->
      exists h0, aexec (Conf [] []) (Conf h0 (List.map abs_th (set_nth i (c, l') ts))) /\
        same_cells s' h0).
    { intros A B. exists h. rewrite MS, B, set_nth_same by easy. split; [easy|].
      intros j Hj. rewrite A. now apply C. }
    assert (ATOM : forall h1, astep i h c (abs_pc l) = Some (h1, abs_pc l') -> same_cells s' h1 ->
      exists h0, aexec (Conf [] []) (Conf h0 (List.map abs_th (set_nth i (c, l') ts))) /\
        same_cells s' h0).
    { intros h1 A B. exists h1. rewrite MS. split; [|easy].
      eapply ex_step; [exact EH|]. econstructor; eauto. }
    assert (Z2 : o_size s = size) by easy.
    assert (INL : forall l0 idx, o_cells s = Some l0 ->
      match nth_error l0 (N.to_nat idx) with None => size <= idx | Some _ => idx < size end).
    { intros l0 idx Q. unfold owf in W. rewrite Q in W.
      destruct (nth_error l0 (N.to_nat idx)) eqn:Q2.
      - apply nth_some_lt in Q2. lia.
      - apply nth_error_None in Q2. lia. }
    assert (INI : forall idx v, slot_get_or_init h b path size idx v =
      if idx <? size then
        match cell s idx with
        | Some e => Ok (h, e, false)
        | None => Ok (update (b, path ++ [idx]) v h, v, true)
        end
      else Panic).
    { intros idx v. unfold slot_get_or_init. destruct (N.ltb_spec idx size); [|easy].
      now rewrite C. }
    unfold past in P.
    destruct l, c; simpl in E2; try discriminate E2.
    + destruct (o_cells s) eqn:Q; injection E2 as <- <-.
      * apply STUT; auto.
      * apply (ATOM h); [|easy]. simpl. rewrite (slot_get_cell s h idx) by auto.
        unfold cell. now rewrite Q.
    + injection E2 as <- <-. apply (ATOM h); [|easy]. simpl.
      now rewrite (slot_get_cell s h idx) by auto.
    + destruct (o_cells s) eqn:Q; injection E2 as <- <-; apply STUT; auto.
    + destruct (o_cells s) eqn:Q; injection E2 as <- <-; apply STUT; auto.
      intros j. rewrite cell_fresh. unfold cell. now rewrite Q.
    + destruct (o_cells s) as [l0|] eqn:Q; [|easy]. specialize (INL l0 idx eq_refl).
      destruct (nth_error l0 (N.to_nat idx)) as [[w|]|] eqn:Q2; injection E2 as <- <-.
      * apply (ATOM h); [|easy]. simpl. rewrite INI. apply N.ltb_lt in INL. rewrite INL.
        unfold cell. now rewrite Q, Q2.
      * apply STUT; auto.
      * apply (ATOM h); [|easy]. simpl. rewrite INI. apply N.ltb_ge in INL. now rewrite INL.
    + destruct (o_cells s) as [l0|] eqn:Q; [|easy]. specialize (INL l0 idx eq_refl).
      destruct (nth_error l0 (N.to_nat idx)) as [[w|]|] eqn:Q2; injection E2 as <- <-.
      * apply (ATOM h); [|easy]. simpl. rewrite INI. apply N.ltb_lt in INL. rewrite INL.
        unfold cell. now rewrite Q, Q2.
      * apply (ATOM (update (b, path ++ [idx]) v h)).
        -- simpl. rewrite INI. pose proof INL as L1. apply N.ltb_lt in L1. rewrite L1.
           unfold cell. now rewrite Q, Q2.
        -- intros j Hj. destruct s as [sz cs]. simpl in Q. subst cs. simpl o_size.
           rewrite lookup_update.
           rewrite cell_set by easy. destruct (N.eqb_spec j idx) as [->|NE].
           ++ now rewrite eqb_refl.
           ++ rewrite eqb_neq; [now apply C|]. intros X. injection X as X.
              apply app_inj_tail in X. now destruct X.
      * apply (ATOM h); [|easy]. simpl. rewrite INI. apply N.ltb_ge in INL. now rewrite INL.
Qed.
End Atomic.
