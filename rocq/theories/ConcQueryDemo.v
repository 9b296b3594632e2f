(* Schedules of queries beside the calls of the whole store, and the executions
   that refute a claim about them.  Nothing here is part of the model. *)
From Coq Require Import Arith NArith List Bool Lia.
From Verif Require Import Word Af BitSpan Spec Maps Cht Node Tree Iter MultiMap RecordSet PrefixCht Lsm Rib StarCast
  HistSpec Ask Conc ConcTree ConcStore ConcMarks ConcSpec ConcScan ConcWhole WholeSpec ConcQuery QuerySpec
  Examples ConcDemo ConcRefute ConcScanDemo ConcWholeDemo.
Import ListNotations.
Local Open Scope N_scope.

(* an action of the store's calls, or at most n steps of the query *)
Inductive qact : Type := Call (a : wact) | Mine (n : nat).

Section Q.
Context {S : Type} (ov : bool) (over : S -> bool) (next : wstate -> S -> S).
Fixpoint mine (n : nat) (t : wstate) (s : S) : S :=
  match n with
  | O => s
  | Datatypes.S n => if over s then s else mine n t (next t s)
  end.
Definition play_query1 (z : wstore * S) (a : qact) : wstore * S :=
  match a with
  | Call a => (wgo1 ov (fst z) a, snd z)
  | Mine n => (fst z, mine n (sh (fst z)) (snd z))
  end.
Definition play_query (z : wstore * S) (l : list qact) : wstore * S := fold_left play_query1 l z.
Definition legal_qact (a : qact) : bool := match a with Call a => legal_wact a | Mine _ => true end.

Lemma wbeside_calls x0 s0 n x y s : wexec ov x y -> wbeside ov over next x0 s0 n x s ->
  wbeside ov over next x0 s0 n y s.
Proof. intros E B. induction E as [|a b c E IH T]; [easy|]. eapply wb_call; [now apply IH|exact T]. Qed.
Lemma wbeside_mine x0 s0 k : forall n x s, wbeside ov over next x0 s0 n x s ->
  exists n', wbeside ov over next x0 s0 n' x (mine k (sh x) s).
Proof.
  induction k as [|k IH]; intros n x s B; simpl; [eauto|].
  destruct (over s) eqn:O; [eauto|]. eapply IH. eapply wb_own; eauto.
Qed.
Lemma play_query_ok l : forall x0 s0 n x s, forallb legal_qact l = true -> wbeside ov over next x0 s0 n x s ->
  exists n', wbeside ov over next x0 s0 n' (fst (play_query (x, s) l)) (snd (play_query (x, s) l)).
Proof.
  induction l as [|a l IH]; intros x0 s0 n x s H B; [simpl; eauto|].
  simpl in H. apply andb_true_iff in H. destruct H as [A H].
  change (play_query (x, s) (a :: l)) with (play_query (play_query1 (x, s) a) l).
  destruct a as [a|k]; cbn [play_query1 fst snd].
  - eapply IH; [easy|]. eapply wbeside_calls; [|exact B]. apply (wgo_exec ov [a]). cbn [forallb].
    simpl in A. now rewrite A.
  - destruct (wbeside_mine x0 s0 k n x s B) as [n' B']. eapply IH; eauto.
Qed.
(* what the store's calls do in such a schedule *)
Fixpoint calls_of (l : list qact) : list wact :=
  match l with [] => [] | Call a :: l => a :: calls_of l | Mine _ :: l => calls_of l end.
Lemma play_query_calls l : forall z, fst (play_query z l) = wgo ov (fst z) (calls_of l).
Proof.
  induction l as [|[a|n] l IH]; intros z; [easy| |].
  - change (play_query z (Call a :: l)) with (play_query (play_query1 z (Call a)) l). now rewrite IH.
  - change (play_query z (Mine n :: l)) with (play_query (play_query1 z (Mine n)) l). now rewrite IH.
Qed.
End Q.

Definition match_play (ov : bool) (f : af) (p : pid) (o : matchopts) (x : wstore) (l : list qact) : wstore * atpc :=
  play_query ov match_over (match_next f p o) (x, match_start p) l.
Lemma match_play_ok ov f p o x l : forallb legal_qact l = true ->
  exists n, matching ov f p o x n (fst (match_play ov f p o x l)) (snd (match_play ov f p o x l)).
Proof. intros H. eapply play_query_ok; [easy|]. apply wb_start. Qed.
Definition each_play (ov : bool) (f : af) (k : each) (x : wstore) (l : list qact) : wstore * itpc :=
  play_query ov each_over (each_next f k) (x, each_start k) l.
Lemma each_play_ok ov f k x l : forallb legal_qact l = true ->
  exists n, iterating ov f k x n (fst (each_play ov f k x l)) (snd (each_play ov f k x l)).
Proof. intros H. eapply play_query_ok; [easy|]. apply wb_start. Qed.

(* 10.1.0.0/16 is there; the insert of 10.1.2.0/24 has set the bit of the tree,
   and has not stored its record; then the query is made *)
Definition had16 : wstore := wgo true (wat0 MemoryOnly) [WStart (WStore IPv4 (ins ten16 1 1 [1])); WSteps 0 all].
Definition longest : matchopts := MatchOpts LongestMatch false false false None false.
Definition unfilled : list qact := [Call (WStart (WStore IPv4 (ins ten24 2 1 [2]))); Call (WSteps 1 42); Mine all].
Definition unfilled_end : wstore * atpc := match_play true IPv4 ten24 longest had16 unfilled.

(* the search is past length 24 when 10.1.2.0/24 is inserted, then 10.0.0.0/8;
   the search goes on *)
Definition no16 : wstore := wat0 MemoryOnly.
Definition then24 : wstore := wgo true no16 [WStart (WStore IPv4 (ins ten24 2 1 [2])); WSteps 0 all].
Definition behind : list qact := [Mine 10; Call (WStart (WStore IPv4 (ins ten24 2 1 [2]))); Call (WSteps 0 all);
  Call (WStart (WStore IPv4 (ins ten8 3 1 [3]))); Call (WSteps 1 all); Mine all].
Definition behind_end : wstore * atpc := match_play true IPv4 ten24 longest no16 behind.

(* 160.0.0.0/8 is there; the insert of 10.0.0.0/8 has set the pointer bit of the
   first node, and has not stored the node *)
Definition high8 : pid := pf4 160 0 0 0 8.
Definition had8 : wstore := wgo true (wat0 MemoryOnly) [WStart (WStore IPv4 (ins high8 1 1 [1])); WSteps 0 all].
Definition within : matchopts := MatchOpts ExactMatch false false true None false.
Definition no_node : list qact := [Call (WStart (WStore IPv4 (ins ten8 2 1 [2]))); Call (WSteps 1 8); Mine all].
Definition no_node_end : wstore * atpc := match_play true IPv4 root4 within had8 no_node.
Definition no_node_each : wstore * itpc := each_play true IPv4 EachPrefix had8 no_node.
(* the bit of the prefix is set, its record is not stored *)
Definition no_record : list qact := [Call (WStart (WStore IPv4 (ins ten8 2 1 [2]))); Call (WSteps 1 17); Mine all].
Definition no_record_end : wstore * itpc := each_play true IPv4 EachPrefix had8 no_record.

Definition only_activeb (x : wstore) : bool :=
  forallb (fun t => match fst t with WStore _ (CInsert _ r _) => match r_status r with Active => true | _ => false end | _ => false end) (ths x).
Lemma only_active_ok x : only_activeb x = true -> only_active x.
Proof.
  unfold only_activeb. rewrite forallb_forall. intros H i c (l & N). specialize (H (c, l) (nth_error_In _ _ N)). cbn [fst] in H.
  destruct c as [f c|f wd m|m]; try discriminate H. destruct c as [p r ups|sm p m t|p|p m iw]; try discriminate H.
  exists f, p, r, ups. split; [reflexivity|]. now destruct (r_status r).
Qed.

Ltac wf4 := apply wf4; vm_compute; reflexivity.
Definition coversb (f : af) (p q : pid) : bool :=
  (p_len p <=? p_len q) &&
  forallb (fun n => Bool.eqb (addr_bit f p (N.of_nat n)) (addr_bit f q (N.of_nat n))) (List.seq 0 (N.to_nat (p_len p))).
Lemma coversb_ok f p q : coversb f p q = true -> covers f p q.
Proof.
  unfold coversb. rewrite andb_true_iff, forallb_forall. intros [A B]. apply N.leb_le in A. split; [exact A|].
  intros i L. specialize (B (N.to_nat i)). rewrite N2Nat.id in B. apply eqb_prop, B. apply in_seq. lia.
Qed.

Lemma longest_lost :
  ~ (forall ov st f p o x0 n x r q, wreach ov st x0 -> wf_pid f p -> matching ov f p o x0 n x (AtEnd (ROk r)) -> wwf_calls x ->
     only_active x -> mo_mui o = None -> mo_type o = LongestMatch ->
     was_inserted x0 f q -> 0 < p_len q -> covers f q p -> qr_prefix r <> None).
Proof.
  intros H.
  destruct (match_play_ok true IPv4 ten24 longest had16 unfilled) as [n B]; [vm_compute; reflexivity|].
  assert (E : snd (match_play true IPv4 ten24 longest had16 unfilled) = AtEnd (ROk (QueryResult EmptyMatch None [] None None)))
    by (vm_compute; reflexivity).
  rewrite E in B. refine (H true MemoryOnly IPv4 ten24 longest had16 n _ _ ten16 _ _ B _ _ eq_refl eq_refl _ _ _ eq_refl).
  - apply wgo_reach. vm_compute. reflexivity.
  - wf4.
  - apply wwfb_ok. vm_compute. reflexivity.
  - apply only_active_ok. vm_compute. reflexivity.
  - exists 0%nat. do 3 eexists. eexists. split; [vm_compute; reflexivity|vm_compute; reflexivity].
  - vm_compute. reflexivity.
  - apply coversb_ok. vm_compute. reflexivity.
Qed.

Lemma then24_exec : wexec true no16 then24.
Proof. apply wgo_exec. vm_compute. reflexivity. Qed.
Lemma behind_exec : wexec true then24 (fst behind_end).
Proof.
  unfold behind_end, match_play. rewrite play_query_calls. cbn [calls_of behind fst]. unfold then24.
  change [WStart (WStore IPv4 (ins ten24 2 1 [2])); WSteps 0 all; WStart (WStore IPv4 (ins ten8 3 1 [3])); WSteps 1 all]
    with ([WStart (WStore IPv4 (ins ten24 2 1 [2])); WSteps 0 all] ++ [WStart (WStore IPv4 (ins ten8 3 1 [3])); WSteps 1 all]).
  rewrite wgo_app. apply wgo_exec. vm_compute. reflexivity.
Qed.

Lemma match_no_snapshot :
  ~ (forall ov st f p o x0 x1 n x r a b, wreach ov st x0 -> wf_pid f p -> matching ov f p o x0 n x (AtEnd (ROk r)) -> wwf_calls x ->
     only_active x -> mo_mui o = None -> mo_type o = LongestMatch ->
     wexec ov x0 x1 -> wexec ov x1 x -> was_inserted x1 f a -> 0 < p_len a -> covers f a p ->
     ~ being_inserted x1 f b -> qr_prefix r = Some (f, b) -> p_len a <= p_len b).
Proof.
  intros H.
  destruct (match_play_ok true IPv4 ten24 longest no16 behind) as [n B]; [vm_compute; reflexivity|].
  assert (E : snd (match_play true IPv4 ten24 longest no16 behind) =
    AtEnd (ROk (QueryResult LongestMatch (Some (IPv4, ten8)) [act 3 1 [3]] None None))) by (vm_compute; reflexivity).
  rewrite E in B.
  assert (I : p_len ten24 <= p_len ten8).
  - refine (H true MemoryOnly IPv4 ten24 longest no16 then24 n _ _ ten24 ten8 _ _ B _ _ eq_refl eq_refl then24_exec behind_exec _ _ _ _ eq_refl).
    + apply (wgo_reach true MemoryOnly []). reflexivity.
    + wf4.
    + apply wwfb_ok. vm_compute. reflexivity.
    + apply only_active_ok. vm_compute. reflexivity.
    + exists 0%nat. do 3 eexists. eexists. split; [vm_compute; reflexivity|vm_compute; reflexivity].
    + vm_compute. reflexivity.
    + apply coversb_ok. vm_compute. reflexivity.
    + intros (i & r & ups & l & N). vm_compute in N. destruct i as [|[|i]]; discriminate N.
  - vm_compute in I. now apply I.
Qed.

Lemma more_lost :
  ~ (forall ov st f p o x0 n x r q, wreach ov st x0 -> wf_pid f p -> matching ov f p o x0 n x (AtEnd (ROk r)) -> wwf_calls x ->
     only_active x -> mo_mui o = None -> mo_more o = true ->
     was_inserted x0 f q -> p_len p < p_len q -> covers f p q -> exists l, in_set (qr_more r) ((f, q), l)).
Proof.
  intros H.
  destruct (match_play_ok true IPv4 root4 within had8 no_node) as [n B]; [vm_compute; reflexivity|].
  assert (E : snd (match_play true IPv4 root4 within had8 no_node) =
    AtEnd (ROk (QueryResult EmptyMatch None [] None (Some (RecordSet [] []))))) by (vm_compute; reflexivity).
  rewrite E in B.
  assert (I : exists l, in_set (Some (RecordSet [] [])) ((IPv4, high8), l)).
  - refine (H true MemoryOnly IPv4 root4 within had8 n _ _ high8 _ _ B _ _ eq_refl eq_refl _ _ _).
    + apply wgo_reach. vm_compute. reflexivity.
    + wf4.
    + apply wwfb_ok. vm_compute. reflexivity.
    + apply only_active_ok. vm_compute. reflexivity.
    + exists 0%nat. do 3 eexists. eexists. split; [vm_compute; reflexivity|vm_compute; reflexivity].
    + vm_compute. reflexivity.
    + apply coversb_ok. vm_compute. reflexivity.
  - destruct I as (l & rs & m & [= <-] & Q & J). vm_compute in Q. injection Q as <-. destruct J.
Qed.
Lemma each_lost :
  ~ (forall ov st f x0 n x g q, wreach ov st x0 -> iterating ov f EachPrefix x0 n x (ItEnd g) -> wwf_calls x ->
     only_active x -> was_inserted x0 f q -> 0 < p_len q -> exists l, In (ROk ((f, q), l)) g).
Proof.
  intros H.
  destruct (each_play_ok true IPv4 EachPrefix had8 no_node) as [n B]; [vm_compute; reflexivity|].
  assert (E : snd (each_play true IPv4 EachPrefix had8 no_node) = ItEnd []) by (vm_compute; reflexivity).
  rewrite E in B.
  assert (I : exists l, In (ROk ((IPv4, high8), l)) ([] : list (result prefixrecord))).
  - refine (H true MemoryOnly IPv4 had8 n _ _ high8 _ B _ _ _ _).
    + apply wgo_reach. vm_compute. reflexivity.
    + apply wwfb_ok. vm_compute. reflexivity.
    + apply only_active_ok. vm_compute. reflexivity.
    + exists 0%nat. do 3 eexists. eexists. split; [vm_compute; reflexivity|vm_compute; reflexivity].
    + vm_compute. reflexivity.
  - destruct I as (l & []).
Qed.
Lemma each_empty :
  ~ (forall ov st f x0 n x g a l, wreach ov st x0 -> iterating ov f EachPrefix x0 n x (ItEnd g) -> wwf_calls x ->
     only_active x -> In (ROk (a, l)) g -> l <> []).
Proof.
  intros H.
  destruct (each_play_ok true IPv4 EachPrefix had8 no_record) as [n B]; [vm_compute; reflexivity|].
  assert (E : snd (each_play true IPv4 EachPrefix had8 no_record) =
    ItEnd [ROk ((IPv4, ten8), []); ROk ((IPv4, high8), [act 1 1 [1]])]) by (vm_compute; reflexivity).
  rewrite E in B. refine (H true MemoryOnly IPv4 had8 n _ _ (IPv4, ten8) [] _ B _ _ _ eq_refl).
  - apply wgo_reach. vm_compute. reflexivity.
  - apply wwfb_ok. vm_compute. reflexivity.
  - apply only_active_ok. vm_compute. reflexivity.
  - now left.
Qed.
