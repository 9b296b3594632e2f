(* Schedules of the whole store, and the executions that refute a claim about it. *)
From Coq Require Import Arith NArith List Bool Lia.
From Verif Require Import Word Af BitSpan Spec Maps Cht Node Tree ChainProofs TreeProofs MultiMap PrefixCht
  PrefixChtProofs Lsm Rib StarCast RibProofs RibOk HistSpec Ask Queries Facts1 SameSpec Conc ConcTree ConcTreeInv
  ConcStore ConcMarks ConcStoreInv ConcCalls ConcSpec ConcFacts ConcQuiet ConcWhole WholeSpec ConcWholeSim
  ConcWholeFacts ConcWholeRead Examples ConcDemo ConcRefute.
Import ListNotations.
Local Open Scope N_scope.

Inductive wact : Type := WStart (c : wcall) | WSteps (i n : nat).
Definition wgo1 (ov : bool) (x : wstore) (a : wact) : wstore :=
  match a with
  | WStart c => Conf (sh x) (ths x ++ [(c, wstart c)])
  | WSteps i n => runs wstart (wstep ov) n i x
  end.
Definition wgo (ov : bool) (x : wstore) (l : list wact) : wstore := fold_left (wgo1 ov) l x.
Definition rib0 (f : af) (st : strategy) : rib :=
  match rib_init f st with Ok r => r | _ => Rib st (Tree [] [] 0 false) pcht_init None counters_new end.
Definition wat0 (st : strategy) : wstore := wconf0 (rib0 IPv4 st) (rib0 IPv6 st).

Definition legal_wact (a : wact) : bool :=
  match a with WStart (WStore f c) => legal_act f (Start c) | _ => true end.

Lemma wgo_exec ov l : forall x, forallb legal_wact l = true -> wexec ov x (wgo ov x l).
Proof.
  induction l as [|a l IH]; intros x H; cbn [wgo fold_left forallb] in *; [apply ex_refl|].
  apply andb_true_iff in H. destruct H as [A B].
  eapply exec_trans; [|exact (IH _ B)]. destruct a as [c|i n]; cbn [wgo1].
  - apply exec_one. destruct x as [s ts]. apply (cs_call wstart wlegal (wstep ov) s ts c).
    destruct c as [f c| |]; try exact I. destruct c as [p r ups|st p m t|p|p m iw]; cbn in A |- *;
      try (apply wf_pidb_spec; assumption).
    apply andb_true_iff in A. destruct A as [A1 A2].
    split; [now apply wf_pidb_spec|]. now destruct st.
  - apply runs_exec.
Qed.
Lemma rib0_ok f st : rib_init f st = Ok (rib0 f st).
Proof. destruct f, st; reflexivity. Qed.
Lemma wgo_reach ov st l : forallb legal_wact l = true -> wreach ov st (wgo ov (wat0 st) l).
Proof.
  intros H. exists (rib0 IPv4 st), (rib0 IPv6 st). split; [apply rib0_ok|]. split; [apply rib0_ok|].
  now apply wgo_exec.
Qed.
Lemma wgo_app ov x l1 l2 : wgo ov x (l1 ++ l2) = wgo ov (wgo ov x l1) l2.
Proof. apply fold_left_app. Qed.

Definition widleb (x : wstore) : bool :=
  forallb (fun t => match wret_of (snd t) with None | Some (RetCall RetPanic) => false | _ => true end) (ths x).
Lemma widleb_ok x : widleb x = true -> widle x.
Proof.
  unfold widleb. rewrite forallb_forall. intros H i c (l & N).
  specialize (H (c, l) (nth_error_In _ _ N)). cbn [snd] in H.
  destruct (wret_of l) as [v|] eqn:R; [|discriminate]. exists v. split; [now exists l|]. intros ->. discriminate.
Qed.
Definition wf_callb (c : wcall) : bool :=
  match c with
  | WStore _ (CInsert _ r _) => (r_mui r <? 2 ^ 32) && (r_ltime r <? 2 ^ 64)
  | WStore _ (CMark _ _ m t) => (m <? 2 ^ 32) && (t <? 2 ^ 64)
  | WStore _ (CRecords _ (Some m) _) => m <? 2 ^ 32
  | WGlobal _ _ m | WBoth m => m <? 2 ^ 32
  | _ => true
  end.
Lemma wwfb_ok x : forallb (fun t => wf_callb (fst t)) (ths x) = true -> wwf_calls x.
Proof.
  rewrite forallb_forall. intros H i c (l & N). specialize (H (c, l) (nth_error_In _ _ N)). cbn [fst] in H.
  destruct c as [f c|f wd m|m].
  - destruct c as [p r ups|sm p m t|p|p [m|] iw]; cbn [wf_callb] in H; try exact I.
    + apply andb_true_iff in H. destruct H as [A B]. apply N.ltb_lt in A, B. now split.
    + apply andb_true_iff in H. destruct H as [A B]. apply N.ltb_lt in A, B. now split.
    + now apply N.ltb_lt in H.
  - now apply N.ltb_lt in H.
  - now apply N.ltb_lt in H.
Qed.

(* ---------- C82: a look-up that sees a record as active that was never so ---------- *)

(* the look-up has loaded the empty set of withdrawn muis *)
Definition loaded : wstore := wgo false (wat0 MemoryOnly) [WStart (WStore IPv4 (CRecords p4 None true)); WSteps 0 1].
(* mui 1 is marked as withdrawn, and that call returns *)
Definition mui_down : wstore := wgo false loaded [WStart (WGlobal IPv4 true 1); WSteps 1 all].
(* then a record of it is inserted, and the look-up goes on *)
Definition seen_up : wstore := wgo false mui_down [WStart (WStore IPv4 (ins p4 1 1 [1])); WSteps 2 all; WSteps 0 all].

Lemma fam_still ov f x y : wexec ov x y ->
  (forall i g c, wstarted y i (WStore g c) -> match c with CRecords _ _ _ => True | _ => False end) ->
  (forall i g c l, nth_error (ths x) i = Some (WStore g c, WRun l) -> False) ->
  fam (sh y) f = fam (sh x) f /\ (forall i g c l, nth_error (ths y) i = Some (WStore g c, WRun l) -> False).
Proof.
  intros E. induction E as [|x y z E IH T]; intros H N0; [easy|].
  destruct IH as [Ef Nr]; [|exact N0|].
  { intros i g c S. apply (H i g c). eapply wstarted_exec; [|exact S]. exact (exec_one _ _ _ _ _ T). }
  destruct T as [s ts c0 Lc|s ts j c0 l0 s' l' Nj St]; cbn [sh ths] in *.
  - split; [exact Ef|]. intros i g c l N.
    destruct (Nat.lt_ge_cases i (length ts)) as [Q|Q].
    + rewrite nth_error_app1 in N by easy. exact (Nr _ _ _ _ N).
    + rewrite nth_error_app2 in N by easy. destruct (i - length ts)%nat as [|n] eqn:Z; [|now destruct n].
      cbn in N. injection N as -> N. assert (i = length ts) as -> by lia.
      specialize (H (length ts) g c). destruct c; try discriminate N;
        (apply H; eexists; cbn [ths]; rewrite nth_error_app2, Nat.sub_diag by easy; reflexivity).
  - assert (Nx : forall g c l, l0 = WRun l -> c0 = WStore g c -> False)
      by (intros g c l -> ->; exact (Nr _ _ _ _ Nj)).
    assert (Q : fam s' f = fam s f /\ forall g c l, l' = WRun l -> c0 = WStore g c -> False).
    { destruct c0 as [g c|g wd m|m].
      - destruct l0 as [l| | |r| |k|g0 k]; try (destruct c; discriminate St).
        + now elim (Nx g c l).
        + destruct c; try discriminate St. injection St as <- <-. split; [easy|discriminate].
        + destruct c; try discriminate St. injection St as <- <-. split; [easy|].
          intros ? ? ? W. unfold wlook in W. destruct (rb_strat _);
            try (destruct (vstep _ _ _ _ _ _) as [[? [| | | |]]|]; discriminate W).
          destruct (rib_get_value _ _ _ _ _); discriminate W.
      - destruct l0 as [l| | |r| |k|g0 k]; try discriminate St. cbn [wstep] in St.
        destruct (gstep _ _ _ _) as [[a b]|]; [|discriminate St]. injection St as <- <-. split; [apply fam_marks|discriminate].
      - destruct l0 as [l| | |r| |k|g0 k]; try discriminate St. cbn [wstep] in St.
        destruct (gstep _ _ _ _) as [[a b]|]; [|discriminate St]. injection St as <- <-. split; [apply fam_marks|].
        intros; discriminate. }
    destruct Q as [Q1 Q2]. split; [congruence|]. intros i g c l N.
    rewrite nth_set_nth in N by (exact (nth_some_lt _ _ _ Nj)).
    destruct (Nat.eqb_spec j i) as [->|Ne]; [|exact (Nr _ _ _ _ N)]. injection N as -> ->. exact (Q2 _ _ _ eq_refl eq_refl).
Qed.

Lemma read_no_moment :
  ~ (forall ov st x x1 y i f p mui iw o, wreach ov st x -> wexec ov x x1 -> wexec ov x1 y -> (length (ths x) <= i)%nat ->
     wwf_calls y -> wreturned y i (WStore f (CRecords p mui iw)) (RetGot (ROk o)) ->
     exists w, (wexec ov x w /\ wexec ov w x1 \/ wexec ov x1 w /\ wexec ov w y) /\
       ask (store_now (sh w)) (QGet (f, p) mui iw) = Ok (ARecords (ROk o))).
Proof.
  intros H.
  assert (E1 : wexec false (wat0 MemoryOnly) loaded) by (apply wgo_exec; vm_compute; reflexivity).
  assert (E2 : wexec false loaded mui_down) by (apply wgo_exec; vm_compute; reflexivity).
  assert (E3 : wexec false mui_down seen_up) by (apply wgo_exec; vm_compute; reflexivity).
  assert (R0 : wreach false MemoryOnly (wat0 MemoryOnly)) by (apply (wgo_reach false MemoryOnly []); reflexivity).
  assert (Wy : wwf_calls seen_up) by (apply wwfb_ok; vm_compute; reflexivity).
  assert (Ry : wreturned seen_up 0 (WStore IPv4 (CRecords p4 None true)) (RetGot (ROk (Some [act 1 1 [1]])))).
  { eexists. split; [vm_compute; reflexivity|reflexivity]. }
  destruct (H false MemoryOnly (wat0 MemoryOnly) mui_down seen_up 0%nat IPv4 p4 None true (Some [act 1 1 [1]])
    R0 (exec_trans _ _ _ _ _ _ E1 E2) E3 (Nat.le_0_l _) Wy Ry) as (w & [[A B]|[A B]] & Q).
  - (* before: no record of the prefix *)
    destruct (fam_still false IPv4 (wat0 MemoryOnly) w A) as [Ef _].
    + intros i g c S. apply (wstarted_exec _ _ _ _ _ B) in S. destruct S as (l & N). vm_compute in N.
      destruct i as [|[|[|i]]]; try discriminate N. injection N as _ <- _. exact I.
    + intros [|i]; discriminate.
    + rewrite ask_get_now, Ef in Q. revert Q. generalize (g_set (marks (sh w) IPv4)). intros b. vm_compute. discriminate.
  - (* after: the mui is withdrawn *)
    pose proof (marks_still false IPv4 mui_down w A) as Ms.
    assert (Mw : marks (sh w) IPv4 = marks (sh mui_down) IPv4).
    { apply Ms. intros i c S M. apply (wstarted_exec _ _ _ _ _ B) in S. destruct S as (l & N). vm_compute in N.
      destruct i as [|[|[|[|i]]]]; try discriminate N; injection N as <- _; try discriminate M.
      exists RetMarked. eexists. split; [vm_compute; reflexivity|reflexivity]. }
    destruct (wsim_exec false MemoryOnly _ w R0 (exec_trans _ _ _ _ _ _ (exec_trans _ _ _ _ _ _ E1 E2) A) IPv4) as (z & Rz & Si).
    pose proof Si as [Es _]. destruct (reach_sok _ _ _ _ Rz) as [G _].
    rewrite ask_get_now, Mw in Q. unfold rib_get_value in Q.
    cbn [with_marks set_tree rb_strat rb_pcht rb_tree t_withdrawn rb_lsm] in Q.
    rewrite <- Es, (g_strat _ _ _ _ _ G) in Q.
    assert (Wp : wf_pid IPv4 p4) by (apply wf_pidb_spec; reflexivity).
    rewrite (get_records_ok IPv4 _ p4 None true _ (g_table _ _ _ _ _ G) Wp) in Q. cbn [bind Ask.lift] in Q.
    assert (Z : forall v, get_filtered_records v None true (g_set (marks (sh mui_down) IPv4)) <> Some [act 1 1 [1]]).
    { intros v X. replace (g_set (marks (sh mui_down) IPv4)) with [1] in X by (vm_compute; reflexivity).
      unfold get_filtered_records in X. cbn in X. unfold as_records_with_rewritten_status in X.
      destruct v as [|[m u] [|]]; try discriminate X. cbn in X. unfold record_of, rewrite_status in X.
      injection X as Xm _ Xs _. cbn in Xm. subst m. cbn in Xs. discriminate Xs. }
    destruct (pfxs IPv4 _ p4) as [v|]; [|discriminate Q]. injection Q as Q. exact (Z _ Q).
Qed.

(* ---------- C81: the mark of both families is not one call ---------- *)

(* mark_mui_as_withdrawn has marked mui 1 for IPv4; mark_mui_as_active_v4 undoes it *)
Definition half_undone : wstore := wgo false (wat0 MemoryOnly) [
  WStart (WBoth 1); WSteps 0 2; WStart (WGlobal IPv4 false 1); WSteps 1 all].
(* mark_mui_as_active_v6 comes and returns before IPv6 is marked *)
Definition half_marked : wstore := wgo false half_undone [WStart (WGlobal IPv6 false 1); WSteps 2 all; WSteps 0 all].

Lemma both_not_one :
  ~ (forall ov st x y, wreach ov st x -> wexec ov x y -> widle y -> wwf_calls y -> wno_activations y ->
     exists h1 h2, whole_order as_one x h1 /\ whole_order as_one y (h2 ++ h1) /\
       exists s, after st (List.map snd (h2 ++ h1)) s /\
         forall q, for_records q = true -> wf_query q -> answer_alike (ask (store_now (sh y)) q) (ask s q)).
Proof.
  intros H. destruct (H false MemoryOnly half_undone half_marked) as (h1 & h2 & O1 & O2 & s & Af & An).
  - apply wgo_reach. vm_compute. reflexivity.
  - apply wgo_exec. vm_compute. reflexivity.
  - apply widleb_ok. vm_compute. reflexivity.
  - apply wwfb_ok. vm_compute. reflexivity.
  - intros i f p m t (l & N). vm_compute in N. destruct i as [|[|[|[|i]]]]; discriminate N.
  - set (e0 := (0%nat, GlobalWithdrawnBoth 1)). set (e1 := (1%nat, GlobalActive IPv4 1)). set (e2 := (2%nat, GlobalActive IPv6 1)).
    assert (Gw : forall f, g_withdrawn (List.map snd (h2 ++ h1)) f 1 = match f with IPv4 => false | IPv6 => true end).
    { intros f. pose proof (rib_ok_ans _ _ _ _ (proj2 (after_rib _ _ _ f Af))) as RA.
      rewrite <- (ta_gw _ _ _ (ra_tree _ _ _ _ RA)).
      destruct (An (QWithdrawn f 1) eq_refl eq_refl) as (a & b & A & B & C).
      cbn [ask] in A, B. injection A as <-. injection B as <-. cbn in C. injection C as C.
      unfold mui_is_withdrawn, rib_mui_is_withdrawn in C. rewrite <- C. destruct f; vm_compute; reflexivity. }
    assert (I1 : In e1 h1).
    { apply (wo_all _ _ _ O1 1%nat (WGlobal IPv4 false 1) _ RetMarked); [|reflexivity|now left].
      eexists. split; [vm_compute; reflexivity|reflexivity]. }
    assert (N2 : ~ In e2 h1).
    { intros I. destruct (wo_calls _ _ _ O1 _ _ I) as (c & (l & N) & _). vm_compute in N. discriminate N. }
    assert (I2 : In e2 h2).
    { assert (I : In e2 (h2 ++ h1)).
      { apply (wo_all _ _ _ O2 2%nat (WGlobal IPv6 false 1) _ RetMarked); [|reflexivity|now left].
        eexists. split; [vm_compute; reflexivity|reflexivity]. }
      apply in_app_or in I. now destruct I. }
    assert (All : forall e, In e (h2 ++ h1) -> e = e0 \/ e = e1 \/ e = e2).
    { intros [i o] I. destruct (wo_calls _ _ _ O2 _ _ I) as (c & (l & N) & O). vm_compute in N.
      destruct i as [|[|[|[|i]]]]; try discriminate N; injection N as <- _; destruct O as [<-|[]]; auto. }
    pose proof (wo_once _ _ _ O2) as ND.
    destruct (in_split _ _ I2) as (c & d & E). rewrite E in *. rewrite <- app_assoc in *. cbn [app] in *.
    destruct c as [|e c].
    + specialize (Gw IPv6). cbn in Gw. discriminate Gw.
    + assert (e = e0) as ->.
      { destruct (All e (or_introl eq_refl)) as [-> | [-> | ->]]; [easy|exfalso..]; inversion ND as [|? ? X _]; subst; apply X;
          apply in_or_app; right; [right; apply in_or_app; now right|now left]. }
      specialize (Gw IPv4). cbn in Gw. discriminate Gw.
Qed.
