(* Two retry loops under interference: the update of the set of globally
   withdrawn muis (tree_bitmap/mod.rs:526-579) and AtomicBitmap::merge_with
   (tree_bitmap/atomic_bitmap.rs:34-52). *)
From Coq Require Import Arith NArith List Bool Lia.
From Verif Require Import Word Maps Conc.
Import ListNotations.
Local Open Scope N_scope.

(* ---------- global marks ---------- *)

(* tree_bitmap/mod.rs:256: the set behind the atomic pointer.  A pointer is the
   serial number of the allocation it points to: every compare_exchange offers a
   fresh allocation (mod.rs:566 Owned::new), and no allocation is reused while a
   guard is held.  g_log is a history variable: the marks in the order in which
   their compare_exchange succeeded; no step reads it. *)
Record gstate : Type := GState { g_set : nset; g_ptr : N; g_log : list (nat * (bool * N)) }.
Definition ginit : gstate := GState [] 0 [].

(* mark_mui_as_withdrawn (true) and mark_mui_as_active (false) *)
Definition gcall : Type := (bool * N)%type.

(* what one mark does to the set: mod.rs:537 and 552 *)
Definition apply_mark (c : gcall) (s : nset) : nset :=
  if fst c then set_insert (snd c) s else set_remove (snd c) s.

Inductive gpc : Type :=
| GLoad (* 531 and 546: load the pointer; 533-537 and 548-552: clone and change *)
| GCas (current : N) (new : nset) (failed : bool) (* 563-569 *)
| GDone.

(* update_withdrawn_muis_bmin never assigns `current`; after a failure `new` is a
   clone of the set that won (571-575).  [failed] is a history variable. *)
Definition gstep (i : nat) (s : gstate) (c : gcall) (p : gpc) : option (gstate * gpc) :=
  match p with
  | GLoad => Some (s, GCas (g_ptr s) (apply_mark c (g_set s)) false)
  | GCas current new failed =>
    if g_ptr s =? current
    then Some (GState new (g_ptr s + 1) (g_log s ++ [(i, c)]), GDone)
    else Some (s, GCas current (g_set s) true)
  | GDone => None
  end.

Definition gstart (_ : gcall) : gpc := GLoad.
Definition gexec := exec (St := gstate) gstart (fun _ => True) gstep.
Definition gconf0 : conf gstate gcall gpc := Conf ginit [].

(* replaying marks one after the other *)
Definition replay (l : list gcall) : nset := fold_left (fun s c => apply_mark c s) l [].

Definition gI (s : gstate) (p : gpc) (c : gcall) (i : nat) : Prop :=
  match p with
  | GLoad => ~ In i (List.map fst (g_log s))
  | GCas current new failed =>
    ~ In i (List.map fst (g_log s)) /\ current <= g_ptr s /\
    (current = g_ptr s -> failed = false /\ new = apply_mark c (g_set s)) /\
    (failed = true -> current < g_ptr s)
  | GDone => In (i, c) (g_log s)
  end.

Record ginv (x : conf gstate gcall gpc) : Prop := {
  gi_set : g_set (sh x) = replay (List.map snd (g_log (sh x)));
  gi_ids : NoDup (List.map fst (g_log (sh x)));
  gi_call : forall i c, In (i, c) (g_log (sh x)) -> nth_error (ths x) i = Some (c, GDone);
  gi_th : forall i c p, nth_error (ths x) i = Some (c, p) -> gI (sh x) p c i
}.

Lemma replay_snoc l c : replay (l ++ [c]) = apply_mark c (replay l).
Proof. unfold replay. now rewrite fold_left_app. Qed.

Lemma ginv_init : ginv gconf0.
Proof.
  split; simpl.
  - reflexivity.
  - constructor.
  - easy.
  - intros [|i]; discriminate.
Qed.

Lemma ginv_step x y : ginv x -> cstep gstart (fun _ => True) gstep x y -> ginv y.
Proof.
  intros [A B CL TH] T. destruct T as [s ts c _|s ts i c l s' l' E1 E2]; simpl in *.
  - split; simpl; auto.
    + intros j c0 H. rewrite nth_error_app1; [now apply CL|].
      apply CL in H. eapply nth_some_lt; eauto.
    + intros j c0 p0 E. destruct (Nat.lt_ge_cases j (length ts)).
      * rewrite nth_error_app1 in E by easy. now apply TH.
      * rewrite nth_error_app2 in E by easy.
        destruct (j - length ts)%nat as [|n] eqn:D; simpl in E; [|now destruct n].
        injection E as <- <-. simpl. intros H1. apply in_map_iff in H1.
        destruct H1 as [[j' c'] [Q H1]]. simpl in Q. subst j'. apply CL in H1.
        apply nth_some_lt in H1. lia.
  - pose proof (TH _ _ _ E1) as Il.
    assert (LT : (i < length ts)%nat) by (eapply nth_some_lt; eauto).
    destruct l as [|current new failed|]; simpl in E2; [|destruct (N.eqb_spec (g_ptr s) current) as [Q|Q]|discriminate].
    + injection E2 as <- <-. split; simpl; auto.
      * intros j c0 H. rewrite nth_set_nth by easy. destruct (Nat.eqb_spec i j) as [->|]; auto.
        exfalso. apply Il. now apply (in_map fst) in H.
      * intros j c0 p0 E. rewrite nth_set_nth in E by easy.
        destruct (Nat.eqb_spec i j) as [->|]; auto. injection E as <- <-. simpl.
        repeat split; auto; try lia; try discriminate.
    + injection E2 as <- <-. subst current. destruct Il as (NI & _ & EQ & _).
      destruct (EQ eq_refl) as [-> ->]. clear EQ.
      split; simpl; auto.
      * rewrite map_app. simpl. rewrite replay_snoc. now rewrite A.
      * rewrite map_app. simpl. apply NoDup_rev in B. rewrite <- (rev_involutive (_ ++ _)).
        apply NoDup_rev. rewrite rev_app_distr. simpl. constructor; [|easy].
        now rewrite <- in_rev.
      * intros j c0 H. apply in_app_iff in H. rewrite nth_set_nth by easy.
        destruct H as [H|[H|[]]].
        -- destruct (Nat.eqb_spec i j) as [->|]; [|now apply CL].
           exfalso. apply NI. now apply (in_map fst) in H.
        -- injection H as -> ->. now rewrite Nat.eqb_refl.
      * intros j c0 p0 E. rewrite nth_set_nth in E by easy.
        destruct (Nat.eqb_spec i j) as [->|NE].
        -- injection E as <- <-. simpl. apply in_app_iff. right. now left.
        -- pose proof (TH _ _ _ E) as Ij. destruct p0; simpl in *.
           ++ rewrite map_app, in_app_iff. simpl. intros [|[|[]]]; auto.
           ++ destruct Ij as (N1 & L1 & Q1 & F1). split.
              { rewrite map_app, in_app_iff. simpl. intros [|[|[]]]; auto. }
              split; [lia|]. split; [lia|]. intros F. specialize (F1 F). lia.
           ++ apply in_app_iff. now left.
    + injection E2 as <- <-. destruct Il as (NI & LE & EQ & FA).
      split; simpl; auto.
      * intros j c0 H. rewrite nth_set_nth by easy. destruct (Nat.eqb_spec i j) as [->|]; auto.
        exfalso. apply NI. now apply (in_map fst) in H.
      * intros j c0 p0 E. rewrite nth_set_nth in E by easy.
        destruct (Nat.eqb_spec i j) as [->|]; auto. injection E as <- <-. simpl.
        repeat split; auto; try lia.
Qed.

Lemma ginv_exec x : gexec gconf0 x -> ginv x.
Proof.
  intros E. unfold gexec in E. revert E. apply exec_ind_l; [apply ginv_init|].
  intros y z _ A B. eapply ginv_step; eauto.
Qed.

(* a call whose compare_exchange failed once never returns, whatever happens *)
Lemma lost_mark_stuck x y i c cur new : gexec gconf0 x -> gexec x y ->
  nth_error (ths x) i = Some (c, GCas cur new true) ->
  exists new', nth_error (ths y) i = Some (c, GCas cur new' true).
Proof.
  intros X E. revert new. unfold gexec in E. induction E as [|x y z E IH T]; intros new H; [eauto|].
  destruct (IH X _ H) as [n1 H1]. clear IH H.
  assert (J : ginv y) by (apply ginv_exec; eapply exec_trans; eauto).
  destruct T as [s ts c0 _|s ts j c0 l s' l' E1 E2]; simpl in *.
  - exists n1. rewrite nth_error_app1; [easy|]. eapply nth_some_lt; eauto.
  - rewrite nth_set_nth by (eapply nth_some_lt; eauto).
    destruct (Nat.eqb_spec j i) as [->|]; [|eauto].
    rewrite E1 in H1. injection H1 as -> ->. simpl in E2.
    pose proof (gi_th _ J _ _ _ E1) as (_ & _ & _ & F). simpl in F. specialize (F eq_refl).
    destruct (N.eqb_spec (g_ptr s) cur); [lia|]. injection E2 as <- <-. eauto.
Qed.

(* the set is that of the calls that have returned, one after the other *)
Lemma marks_replay x : gexec gconf0 x ->
  exists order : list nat, NoDup order /\
    (forall i, In i order <-> exists c, nth_error (ths x) i = Some (c, GDone)) /\
    g_set (sh x) = replay (List.map (fun i =>
      match nth_error (ths x) i with Some (c, _) => c | None => (true, 0) end) order).
Proof.
  intros E. apply ginv_exec in E. destruct E as [A B CL TH].
  exists (List.map fst (g_log (sh x))). split; [easy|]. split.
  - intros i. split.
    + intros H. apply in_map_iff in H. destruct H as [[j c] [Q H]]. simpl in Q. subst j.
      exists c. now apply CL.
    + intros [c H]. apply TH in H. simpl in H. now apply (in_map fst) in H.
  - rewrite A. f_equal. rewrite map_map. apply map_ext_in. intros [i c] H. simpl.
    now rewrite (CL _ _ H).
Qed.

(* a call during which no other compare_exchange succeeds returns at its second step *)
Lemma mark_alone i s c : exists l,
  gstep i s c GLoad = Some (s, l) /\
  gstep i s c l = Some (GState (apply_mark c (g_set s)) (g_ptr s + 1) (g_log s ++ [(i, c)]), GDone).
Proof.
  eexists. split; [reflexivity|]. simpl. now rewrite N.eqb_refl.
Qed.

(* ---------- merge_with ---------- *)

(* Calls on one bitmap: merge_with, and the update of another thread that has
   its compare_exchange succeed (tree_bitmap_node.rs:171-195 and 214-235), which
   adds bits in one step. *)
Inductive mcall : Type := Merge (node : N) | AddBits (bits : N).

Inductive mpc : Type :=
| MStart
| MCas (current new : N) (failed : bool) (* atomic_bitmap.rs:42 *)
| MDone.

(* 34-52: `current` is loaded once (36); the binding in the Err arm (46) is a new
   variable, only `new` is assigned (47).  [failed] is a history variable. *)
Definition mstep (_ : nat) (s : N) (c : mcall) (p : mpc) : option (N * mpc) :=
  match p, c with
  | MStart, Merge node => Some (s, MCas s (N.lor s node) false)
  | MStart, AddBits bits => Some (N.lor s bits, MDone)
  | MCas current new failed, Merge node =>
    if s =? current then Some (new, MDone)
    else Some (s, MCas current (N.lor s node) true)
  | _, _ => None
  end.

Definition mexec := exec (St := N) (fun _ => MStart) (fun _ : mcall => True) mstep.
Definition mconf0 (bits : N) : conf N mcall mpc := Conf bits [].

(* every bit of a is a bit of b *)
Definition bits_in (a b : N) : Prop := forall i, N.testbit a i = true -> N.testbit b i = true.

Lemma bits_in_refl a : bits_in a a.
Proof. intros i. easy. Qed.
Lemma bits_in_trans a b c : bits_in a b -> bits_in b c -> bits_in a c.
Proof. intros A B i H. auto. Qed.
Lemma bits_in_lor_l a b : bits_in a (N.lor a b).
Proof. intros i H. now rewrite N.lor_spec, H. Qed.
Lemma bits_in_lor_r a b : bits_in b (N.lor a b).
Proof. intros i H. rewrite N.lor_spec, H. apply orb_true_r. Qed.
Lemma bits_in_antisym a b : bits_in a b -> bits_in b a -> a = b.
Proof.
  intros A B. apply N.bits_inj. intros i. specialize (A i). specialize (B i).
  destruct (N.testbit a i), (N.testbit b i); auto; symmetry; auto.
Qed.

Definition mI (s : N) (c : mcall) (p : mpc) : Prop :=
  match p, c with
  | MStart, _ => True
  | MCas current new failed, Merge node =>
    bits_in current s /\ bits_in (N.lor current node) new /\
    (failed = true -> current <> s) /\ (failed = false -> new = N.lor current node)
  | MCas _ _ _, AddBits _ => False
  | MDone, Merge node => bits_in node s
  | MDone, AddBits bits => bits_in bits s
  end.

Lemma mI_stable s s' c p : bits_in s s' -> mI s c p -> mI s' c p.
Proof.
  intros R. destruct p, c; simpl; auto.
  - intros (A & B & F & G). split; [eapply bits_in_trans; eauto|]. split; [easy|]. split; [|easy].
    intros H E. subst s'. apply (F H). now apply bits_in_antisym.
  - intros A. eapply bits_in_trans; eauto.
  - intros A. eapply bits_in_trans; eauto.
Qed.

Lemma mstep_ok i s c p s' p' : mI s c p -> mstep i s c p = Some (s', p') ->
  mI s' c p' /\ bits_in s s'.
Proof.
  destruct p, c; simpl; intros I E; try discriminate E.
  - injection E as <- <-. simpl. split; [|apply bits_in_refl].
    split; [apply bits_in_refl|]. split; [apply bits_in_refl|]. easy.
  - injection E as <- <-. simpl. split; [apply bits_in_lor_r|apply bits_in_lor_l].
  - destruct I as (A & B & F & G). destruct (N.eqb_spec s current) as [->|NE].
    + injection E as <- <-. simpl. split.
      * eapply bits_in_trans; [apply bits_in_lor_r|exact B].
      * eapply bits_in_trans; [apply bits_in_lor_l|exact B].
    + injection E as <- <-. simpl. split; [|apply bits_in_refl].
      split; [easy|]. split; [|split; [congruence|discriminate]].
      intros j H. rewrite N.lor_spec in *. apply orb_true_iff in H. apply orb_true_iff.
      destruct H; auto.
Qed.

Lemma mok bits x : mexec (mconf0 bits) x ->
  all_ok (fun _ _ => True) (fun s _ _ c p => mI s c p) x.
Proof.
  intros E. unfold mexec in E.
  eapply (all_ok_exec (fun _ => MStart) (fun _ => True) mstep (fun _ _ => True)
    (fun s _ _ c p => mI s c p) bits_in (fun _ _ _ => True)); try exact E; auto using bits_in_refl.
  - intros s s' _ _ _ c l _ _ _ R _ I. eapply mI_stable; eauto.
  - intros s cs i c l s' l' _ _ I T. destruct (mstep_ok i s c l s' l' I T). auto.
  - split; [easy|]. intros [|i]; discriminate.
Qed.

Lemma mgrow bits x y : mexec (mconf0 bits) x -> mexec x y -> bits_in (sh x) (sh y).
Proof.
  intros A E. unfold mexec in E.
  eapply (guarantee_exec (fun _ => MStart) (fun _ => True) mstep (fun _ _ => True)
    (fun s _ _ c p => mI s c p) bits_in (fun _ _ _ => True)); try exact E; auto using bits_in_refl.
  - intros s s' _ _ _ c l _ _ _ R _ I. eapply mI_stable; eauto.
  - intros s cs i c l s' l' _ _ I T. destruct (mstep_ok i s c l s' l' I T). auto.
  - intros a b c. apply bits_in_trans.
  - now apply (mok bits).
Qed.

(* nothing is lost: bits only grow, and a merge that returned has its bits in *)
Lemma merge_keeps bits x y i node : mexec (mconf0 bits) x -> mexec x y ->
  nth_error (ths x) i = Some (Merge node, MDone) -> bits_in (N.lor node (sh x)) (sh y).
Proof.
  intros A E H. pose proof (mgrow _ _ _ A E) as G.
  pose proof (proj2 (mok _ _ A) _ _ _ H) as I. simpl in I.
  intros j T. rewrite N.lor_spec in T. apply orb_true_iff in T. destruct T as [T|T]; auto.
Qed.

(* a merge that lost one compare_exchange never returns *)
Lemma lost_merge_stuck bits x y i c cur new : mexec (mconf0 bits) x -> mexec x y ->
  nth_error (ths x) i = Some (c, MCas cur new true) ->
  exists new', nth_error (ths y) i = Some (c, MCas cur new' true).
Proof.
  intros X E. revert new. unfold mexec in E. induction E as [|x y z E IH T]; intros new H; [eauto|].
  destruct (IH X _ H) as [n1 H1]. clear IH H.
  assert (J : mexec (mconf0 bits) y) by (eapply exec_trans; eauto). apply mok in J.
  destruct T as [s ts c0 _|s ts j c0 l s' l' E1 E2]; simpl in *.
  - exists n1. rewrite nth_error_app1; [easy|]. eapply nth_some_lt; eauto.
  - rewrite nth_set_nth by (eapply nth_some_lt; eauto).
    destruct (Nat.eqb_spec j i) as [->|]; [|eauto].
    rewrite E1 in H1. injection H1 as -> ->.
    pose proof (proj2 J _ _ _ E1) as I. destruct c; simpl in E2, I; [|easy].
    destruct I as (_ & _ & F & _).
    destruct (N.eqb_spec s cur) as [Q|]; [symmetry in Q; now apply F in Q|].
    injection E2 as <- <-. eauto.
Qed.
