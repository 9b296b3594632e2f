(* Concrete schedules of a long reader beside the calls of the store, and the
   claims that they refute.  Nothing here is part of the model. *)
From Coq Require Import Arith NArith List Bool Lia.
From Verif Require Import Word Af BitSpan Spec Maps Cht Tree Iter MultiMap Rib Conc ConcTree ConcStore
  ConcSpec ConcScan ConcScanSpec Examples ConcDemo ConcRefute.
Import ListNotations.
Local Open Scope N_scope.

(* an action of the store's calls, or at most n steps of the reader *)
Inductive ract : Type := Do (a : sact) | Own (n : nat).

Section R.
Context {S : Type} (f : af) (ov : bool) (over : S -> bool) (next : tree -> S -> S).
Fixpoint own (n : nat) (t : tree) (s : S) : S :=
  match n with
  | O => s
  | Datatypes.S n => if over s then s else own n t (next t s)
  end.
Definition play_beside1 (z : cstore * S) (a : ract) : cstore * S :=
  match a with
  | Do a => (go1 f ov (fst z) a, snd z)
  | Own n => (fst z, own n (tree_of (fst z)) (snd z))
  end.
Definition play_beside (z : cstore * S) (l : list ract) : cstore * S := fold_left play_beside1 l z.
Definition legal_ract (a : ract) : bool := match a with Do a => legal_act f a | Own _ => true end.

Lemma beside_calls x0 s0 n x y s : sexec f ov x y -> beside f ov over next x0 s0 n x s ->
  beside f ov over next x0 s0 n y s.
Proof.
  intros E B. induction E as [|a b c E IH T]; [easy|]. eapply be_call; [now apply IH|exact T].
Qed.

Lemma beside_own x0 s0 k : forall n x s, beside f ov over next x0 s0 n x s ->
  exists n', beside f ov over next x0 s0 n' x (own k (tree_of x) s).
Proof.
  induction k as [|k IH]; intros n x s B; simpl; [eauto|].
  destruct (over s) eqn:O; [eauto|]. eapply IH. eapply be_own; eauto.
Qed.

Lemma play_beside_ok l : forall x0 s0 n x s, forallb legal_ract l = true ->
  beside f ov over next x0 s0 n x s ->
  exists n', beside f ov over next x0 s0 n' (fst (play_beside (x, s) l)) (snd (play_beside (x, s) l)).
Proof.
  induction l as [|a l IH]; intros x0 s0 n x s H B; [simpl; eauto|].
  simpl in H. apply andb_true_iff in H. destruct H as [A H].
  change (play_beside (x, s) (a :: l)) with (play_beside (play_beside1 (x, s) a) l).
  destruct a as [a|k]; cbn [play_beside1 fst snd].
  - eapply IH; [easy|]. eapply beside_calls; [|exact B]. apply (go_exec f ov [a]). simpl.
    simpl in A. now rewrite A.
  - destruct (beside_own x0 s0 k n x s B) as [n' B']. eapply IH; eauto.
Qed.

(* what the store's calls do in such a schedule *)
Fixpoint of_calls (l : list ract) : list sact :=
  match l with [] => [] | Do a :: l => a :: of_calls l | Own _ :: l => of_calls l end.
Lemma play_beside_calls l : forall z, fst (play_beside z l) = go f ov (fst z) (of_calls l).
Proof.
  induction l as [|[a|n] l IH]; intros z; [easy| |].
  - change (play_beside z (Do a :: l)) with (play_beside (play_beside1 z (Do a)) l). now rewrite IH.
  - change (play_beside z (Own n :: l)) with (play_beside (play_beside1 z (Own n)) l). now rewrite IH.
Qed.
End R.

Definition scan_play (f : af) (ov : bool) (p : pid) (x : cstore) (l : list ract) : cstore * mscan :=
  play_beside f ov scan_over (mnext f p) (x, mscan0) l.
Lemma scan_play_ok f ov p x l : forallb (legal_ract f) l = true ->
  exists n, scans f ov p x n (fst (scan_play f ov p x l)) (snd (scan_play f ov p x l)).
Proof. intros H. eapply play_beside_ok; [easy|]. apply be_start. Qed.

Definition look_play (f : af) (ov once : bool) (p : pid) (x : cstore) (l : list ract) : cstore * bscan :=
  play_beside f ov look_over (bnext f once p) (x, bscan0 once p) l.
Lemma look_play_ok f ov once p x l : forallb (legal_ract f) l = true ->
  exists n, looks f ov once p x n (fst (look_play f ov once p x l)) (snd (look_play f ov once p x l)).
Proof. intros H. eapply play_beside_ok; [easy|]. apply be_start. Qed.

Definition root4 : pid := pf4 0 0 0 0 0.
Definition ten8 : pid := pf4 10 0 0 0 8.
Definition ten16 : pid := pf4 10 1 0 0 16.
Definition ten24 : pid := pf4 10 1 2 0 24.
Definition low4 : pid := pf4 32 0 0 0 4.
Definition before4 : cstore := go IPv4 true (at0 IPv4 MemoryOnly) [Start (ins ten16 1 1 [1]); Steps 0 all].

(* a scan of everything stops after the prefixes of the first node; 32.0.0.0/4
   is inserted, which that node holds; then 10.0.0.0/8; the scan goes on *)
Definition late_scan : list ract :=
  [Own 3; Do (Start (ins low4 2 1 [2])); Do (Steps 1 all); Do (Start (ins ten8 3 1 [3]));
   Do (Steps 2 all); Own all].
Definition late_scan_end : cstore * mscan := scan_play IPv4 true root4 before4 late_scan.

(* the insert of 10.0.0.0/8 is cut short after it has set the pointer bit of
   the first node; then the scan comes past *)
Definition cut_scan : list ract :=
  [Do (Start (ins (pf4 160 0 0 0 8) 2 1 [2])); Do (Steps 1 7); Own all].
Definition cut_scan_end : cstore * mscan := scan_play IPv4 true root4 before4 cut_scan.

(* the search for 10.1.2.0/24 is past length 24 when that prefix is inserted,
   and then 10.0.0.0/8; the search goes on *)
Definition late_look : list ract :=
  [Own 10; Do (Start (ins ten24 2 1 [2])); Do (Steps 0 all); Do (Start (ins ten8 3 1 [3]));
   Do (Steps 1 all); Own all].
Definition empty4 : cstore := at0 IPv4 MemoryOnly.
Definition late_look_end : cstore * bscan := look_play IPv4 true true ten24 empty4 late_look.
(* the same with 10.1.0.0/16 there before *)
Definition less_look : list ract :=
  [Own 10; Do (Start (ins ten8 3 1 [3])); Do (Steps 1 all); Own all].
Definition less_look_end : cstore * bscan := look_play IPv4 true false ten24 before4 less_look.

(* ---------- C71: neither is a snapshot ---------- *)

Lemma wf4 p : wf_pidb IPv4 p = true -> wf_pid IPv4 p.
Proof. apply wf_pidb_spec. Qed.

Definition late1 : cstore := go IPv4 true before4 [Start (ins low4 2 1 [2]); Steps 1 all].
Lemma late1_exec : sexec IPv4 true before4 late1.
Proof. apply go_exec. vm_compute. reflexivity. Qed.
Lemma late_scan_exec : sexec IPv4 true late1 (fst late_scan_end).
Proof.
  unfold late_scan_end, scan_play. rewrite play_beside_calls. cbn [of_calls late_scan fst].
  unfold late1. change [Start (ins low4 2 1 [2]); Steps 1 all; Start (ins ten8 3 1 [3]); Steps 2 all]
    with ([Start (ins low4 2 1 [2]); Steps 1 all] ++ [Start (ins ten8 3 1 [3]); Steps 2 all]).
  rewrite go_app. apply go_exec. vm_compute. reflexivity.
Qed.
Lemma late_scan_scans : exists n, scans IPv4 true root4 before4 n (fst late_scan_end) (snd late_scan_end).
Proof. apply scan_play_ok. vm_compute. reflexivity. Qed.

Lemma scan_no_snapshot :
  ~ (forall f ov st p x0 x1 n x s a b i r ups rep, reach f ov st x0 -> wf_pid f p ->
     scans f ov p x0 n x s -> sc_pc s = MDone true -> sexec f ov x0 x1 -> sexec f ov x1 x ->
     returned x1 i (CInsert a r ups) (RetIns (ROk rep)) -> 0 < p_len a -> covers f p a ->
     p_len p < BITS f -> (forall j r ups, started x j (CInsert b r ups) -> begins_after x1 j) ->
     In b (given s) -> In a (given s)).
Proof.
  intros H. destruct late_scan_scans as [n B].
  assert (I : In low4 (given (snd late_scan_end))).
  - refine (H IPv4 true MemoryOnly root4 before4 late1 n (fst late_scan_end)
      (snd late_scan_end) low4 ten8 1%nat (act 2 1 [2]) None (Report 0 true true 1)
      _ _ B _ late1_exec late_scan_exec _ _ _ _ _ _).
    + apply go_reach. vm_compute. reflexivity.
    + apply wf4. vm_compute. reflexivity.
    + vm_compute. reflexivity.
    + ret.
    + vm_compute. reflexivity.
    + split; [vm_compute; discriminate|]. simpl. intros k K. lia.
    + vm_compute. reflexivity.
    + intros j r ups (l & N). unfold begins_after.
      replace (length (ths late1)) with 2%nat by (vm_compute; reflexivity).
      destruct j as [|[|j]]; [| |lia]; exfalso; vm_compute in N; injection N; intros; discriminate.
    + vm_compute. left. reflexivity.
  - vm_compute in I. destruct I as [I|[I|[]]]; discriminate I.
Qed.

Definition late0 : cstore := go IPv4 true empty4 [Start (ins ten24 2 1 [2]); Steps 0 all].
Lemma late0_exec : sexec IPv4 true empty4 late0.
Proof. apply go_exec. vm_compute. reflexivity. Qed.
Lemma late_look_exec : sexec IPv4 true late0 (fst late_look_end).
Proof.
  unfold late_look_end, look_play. rewrite play_beside_calls. cbn [of_calls late_look fst].
  unfold late0. change [Start (ins ten24 2 1 [2]); Steps 0 all; Start (ins ten8 3 1 [3]); Steps 1 all]
    with ([Start (ins ten24 2 1 [2]); Steps 0 all] ++ [Start (ins ten8 3 1 [3]); Steps 1 all]).
  rewrite go_app. apply go_exec. vm_compute. reflexivity.
Qed.
Lemma late_look_looks : exists n, looks IPv4 true true ten24 empty4 n (fst late_look_end) (snd late_look_end).
Proof. apply look_play_ok. vm_compute. reflexivity. Qed.

Lemma longest_no_snapshot :
  ~ (forall f ov st p x0 x1 n x s a b i r ups rep, reach f ov st x0 -> wf_pid f p ->
     looks f ov true p x0 n x s -> look_over s = true -> sexec f ov x0 x1 -> sexec f ov x1 x ->
     returned x1 i (CInsert a r ups) (RetIns (ROk rep)) -> 0 < p_len a -> covers f a p ->
     (forall j r ups, started x j (CInsert b r ups) -> begins_after x1 j) ->
     matches s = [b] -> p_len a <= p_len b).
Proof.
  intros H. destruct late_look_looks as [n B].
  assert (I : p_len ten24 <= p_len ten8).
  - refine (H IPv4 true MemoryOnly ten24 empty4 late0 n (fst late_look_end)
      (snd late_look_end) ten24 ten8 0%nat (act 2 1 [2]) None (Report 0 true true 1)
      _ _ B _ late0_exec late_look_exec _ _ _ _ _).
    + apply (go_reach IPv4 true MemoryOnly []). reflexivity.
    + apply wf4. vm_compute. reflexivity.
    + vm_compute. reflexivity.
    + ret.
    + vm_compute. reflexivity.
    + apply covers_refl.
    + intros j r ups (l & N). unfold begins_after.
      replace (length (ths late0)) with 1%nat by (vm_compute; reflexivity).
      destruct j as [|j]; [|lia]; exfalso; vm_compute in N; injection N; intros; discriminate.
    + vm_compute. reflexivity.
  - vm_compute in I. now apply I.
Qed.
