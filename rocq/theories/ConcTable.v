(* The steps of a walk along a chain of the prefix table among other threads. *)
From Coq Require Import Arith NArith List Bool Lia.
From Verif Require Import Word Af BitSpan Maps ChtMath Cht Node Tree ChainProofs MultiMap
  PrefixCht PrefixChtProofs Lsm Rib Conc ConcTree ConcTreeProofs ConcStore.
Import ListNotations.
Local Open Scope N_scope.

Section P.
Variable f : af.

Definition pI (h : heap pval) (id : pid) (q : ppc) : Prop :=
  match q with PGet w | PInit w => walk_ok PSTRIDE f h id w end.

Definition poI (h : heap pval) (id : pid) (o : pout) : Prop :=
  match o with PMore q => pI h id q | PFound k _ => at_id h k id end.

Definition pmu (q : ppc) : N :=
  match q with
  | PGet w => 2 * (32 - w_level w) + 2
  | PInit w => 2 * (32 - w_level w) + 1
  end.

(* the walk has not found an empty slot *)
Definition is_get (q : ppc) : bool := match q with PGet _ => true | PInit _ => false end.
Definition hits (o : pout) : bool := match o with PMore q => is_get q | PFound _ b => b end.

(* nothing changes but that an empty entry may appear for id *)
Definition pquiet (id : pid) (h h' : heap pval) : Prop :=
  forall id', pfxs f h' id' = pfxs f h id' \/
    id' = id /\ pfxs f h id' = None /\ pfxs f h' id' = Some pval_new.

Lemma pI_grows h h' id q : grows h h' -> pI h id q -> pI h' id q.
Proof. intros G. destruct q; simpl; eauto using walk_ok_grows. Qed.

Lemma at_id_pfxs h k id v s : pinv f h -> lookup k h = Some (Entry id v s) ->
  pfxs f h id = Some v.
Proof.
  intros I L. unfold pfxs.
  assert (find f PSTRIDE h id = Some (Entry id v s)) as ->; [|easy].
  apply find_spec; auto. now exists k.
Qed.

Lemma pfxs_at_id h id v : pinv f h -> pfxs f h id = Some v ->
  exists k s, lookup k h = Some (Entry id v s).
Proof.
  intros I E. unfold pfxs in E. destruct (find f PSTRIDE h id) as [[i w s]|] eqn:F; [|discriminate].
  simpl in E. injection E as <-. apply find_spec in F; auto. destruct F as (k & L & Ei).
  simpl in Ei. subst i. eauto.
Qed.

Lemma pfxs_grows h h' id : pinv f h -> pinv f h' -> grows h h' -> pfxs f h id <> None ->
  pfxs f h' id <> None.
Proof.
  intros I I' G N. destruct (pfxs f h id) as [v|] eqn:E; [|easy].
  destruct (pfxs_at_id h id v I E) as (k & s & L). destruct (G _ _ L) as ([i v' s'] & L' & Ei & _).
  simpl in Ei. subst i. now rewrite (at_id_pfxs h' k id v' s' I' L').
Qed.

Lemma modify_pfxs h k id g : pinv f h -> at_id h k id ->
  pinv f (modify k g h) /\ forall id', pfxs f (modify k g h) id' =
    if pid_eqb id' id then option_map g (pfxs f h id) else pfxs f h id'.
Proof.
  intros I (e & L & E). subst id. unfold modify. rewrite L.
  destruct (pfxs_write f h k e (g (e_val e)) I L) as [I' N']. split; [easy|].
  intros id'. rewrite N'. destruct (pid_eqb id' (e_id e)) eqn:Q; [|easy].
  destruct e as [i v s]. simpl in *. now rewrite (at_id_pfxs h k i v s I L).
Qed.

Lemma hash_pat id k : pdom f id -> (k < nlev id)%nat ->
  hash_id f id (N.of_nat k) = Ok (hidx f id (N.of_nat k)).
Proof. intros D K. apply hash_id_ok; [apply D|]. unfold nlev in K. lia. Qed.

Lemma pwalk_none (h : heap pval) id k : (k < nlev id)%nat ->
  (forall j, (j < k)%nat -> exists e, lookup (kof f PSTRIDE id j) h = Some e /\ e_id e <> id) ->
  lookup (kof f PSTRIDE id k) h = None -> pfxs f h id = None.
Proof.
  intros K O L. pose proof (walk_vac PSTRIDE PSTRIDE_nz f h id k K O L) as V.
  unfold pfxs, find. now rewrite V.
Qed.

Lemma pwalk_level h id w : pdom f id -> walk_ok PSTRIDE f (h : heap pval) id w -> w_level w < 32.
Proof.
  intros D (k & K & -> & _). simpl. unfold nlev in K.
  pose proof (nlevels_le f (p_len id) (proj1 (proj1 D))). lia.
Qed.

Lemma pcheck_ok h id k e b : pinv f h -> pdom f id -> (k < nlev id)%nat ->
  (forall j, (j < k)%nat -> exists e, lookup (kof f PSTRIDE id j) h = Some e /\ e_id e <> id) ->
  lookup (kof f PSTRIDE id k) h = Some e ->
  exists o, pcheck id (Walk (p_len id / PSTRIDE) (hpath f id k) (slots_at (p_len id) k) (N.of_nat k))
      (hidx f id (N.of_nat k)) e b = Ok o /\ poI h id o /\ (b = true -> hits o = true) /\
    match o with PMore q => pmu q < 2 * (32 - N.of_nat k) + 1 | _ => True end.
Proof.
  intros I D K O L. unfold pcheck. rewrite walk_key. cbn [w_level w_b w_path].
  destruct (pid_eqb id (e_id e)) eqn:Q.
  - apply pid_eqb_spec in Q. eexists. split; [reflexivity|]. split; [exists e; auto|]. auto.
  - assert (NE : e_id e <> id).
    { intros X. rewrite X, pid_eqb_refl in Q. discriminate. }
    destruct (walk_next PSTRIDE PSTRIDE_nz f h id k e I D K O L NE) as (A & B & C & K2 & E).
    rewrite A. cbn [bind]. eexists. split; [reflexivity|]. split; [exact E|]. split; [easy|].
    pose proof (pwalk_level h id _ D E). cbn [w_level pmu] in *. lia.
Qed.

Lemma pstep_ok h id q : pinv f h -> wf_pid f id -> pI h id q ->
  exists h' o, pstep f id h q = Ok (h', o) /\ pinv f h' /\ grows h h' /\ pquiet id h h' /\
    poI h' id o /\ (pfxs f h id <> None -> is_get q = true -> hits o = true) /\
    (is_get q = true -> h' = h) /\
    match o with PMore q' => pmu q' < pmu q | _ => True end.
Proof.
  intros I Wp. assert (D : pdom f id) by (now apply pdom_wf).
  destruct q as [w|w]; simpl; intros R; pose proof (pwalk_level h id w D R) as LV.
  - destruct R as (k & K & -> & O). cbn [w_level w_b w_path w_slots] in *.
    rewrite hash_pat by auto. cbn [bind].
    rewrite (slot_get_level f PSTRIDE) by (auto; unfold nlev in K; lia).
    destruct (lookup (kof f PSTRIDE id k) h) as [e|] eqn:L.
    + destruct (pcheck_ok h id k e true I D K O L) as (o & E & P & Hit & M). rewrite E. cbn [bind].
      exists h, o. split; [reflexivity|]. split; [easy|]. split; [apply grows_refl|].
      split; [now left|]. split; [easy|]. split; [auto|]. split; [easy|]. destruct o; auto; lia.
    + eexists h, _. split; [reflexivity|]. split; [easy|]. split; [apply grows_refl|].
      split; [now left|]. split; [exists k; auto|].
      split; [intros X; exfalso; apply X; now apply (pwalk_none h id k)|]. split; [easy|]. simpl. lia.
  - destruct R as (k & K & -> & O). cbn [w_level w_b w_path w_slots] in *.
    rewrite hash_pat by auto. cbn [bind].
    rewrite (lvl_succ f id) by (auto; try apply D; lia). cbn [bind].
    rewrite (size_next f) by (auto; try apply D; lia). cbn [bind].
    rewrite (slot_init_level f PSTRIDE) by (auto; unfold nlev in K; lia).
    rewrite slots_at_S.
    destruct (lookup (kof f PSTRIDE id k) h) as [e|] eqn:L; cbn [bind].
    + destruct (pcheck_ok h id k e false I D K O L) as (o & E & P & _ & M). rewrite E. cbn [bind].
      exists h, o. split; [reflexivity|]. split; [easy|]. split; [apply grows_refl|].
      split; [now left|]. split; [easy|]. split; [easy|]. split; [easy|]. destruct o; auto; lia.
    + pose proof (walk_vac PSTRIDE PSTRIDE_nz f h id k K O L) as V.
      unfold pcheck. cbn [e_id]. rewrite pid_eqb_refl. cbn [bind]. rewrite walk_key.
      eexists _, _. split; [reflexivity|].
      split; [now apply (inv_insert f PSTRIDE PSTRIDE_nz)|].
      split; [now apply grows_insert|].
      split.
      { intros id'. unfold pfxs. rewrite (find_insert f PSTRIDE PSTRIDE_nz) by auto.
        destruct (pid_eqb id' id) eqn:Q; [|now left]. right. apply pid_eqb_spec in Q. subst id'.
        split; [easy|]. split; [|easy]. fold (pfxs f h id). now apply (pwalk_none h id k). }
      split; [|easy]. exists (Entry id pval_new (slots_at (p_len id) (S k))).
      split; [apply lookup_update_same|easy].
Qed.

(* ---------- replaying critical sections ---------- *)

Definition apply_op (m : mmap) (o : recop) : mmap :=
  match o with
  | OUp r => fst (upsert_record m r)
  | OMark s mui ltime => mark_for_mui s m mui ltime
  end.
Definition ops_of (id : pid) (log : list (nat * pid * recop)) : list recop :=
  List.map snd (filter (fun e => pid_eqb (snd (fst e)) id) log).
(* the record map of a prefix after these critical sections, run one by one *)
Definition replay (id : pid) (log : list (nat * pid * recop)) : mmap :=
  fold_left apply_op (ops_of id log) [].

Lemma ops_of_app id a b : ops_of id (a ++ b) = ops_of id a ++ ops_of id b.
Proof. unfold ops_of. now rewrite filter_app, map_app. Qed.

Lemma replay_snoc id log i p o : replay id (log ++ [(i, p, o)]) =
  if pid_eqb p id then apply_op (replay id log) o else replay id log.
Proof.
  unfold replay. rewrite ops_of_app, fold_left_app. unfold ops_of at 1. simpl.
  destruct (pid_eqb p id); easy.
Qed.

Lemma apply_op_keeps m o mui : lookup mui m <> None -> lookup mui (apply_op m o) <> None.
Proof.
  intros H. destruct o as [r|s mu lt]; simpl.
  - rewrite lookup_update. destruct (eqb mui (r_mui r)); easy.
  - rewrite mark_lookup. destruct (mui =? mu); [|easy]. now destruct (lookup mui m).
Qed.

Lemma fold_keeps l mui : forall m, lookup mui m <> None -> lookup mui (fold_left apply_op l m) <> None.
Proof. induction l as [|o l IH]; simpl; auto. intros m H. apply IH. now apply apply_op_keeps. Qed.

Lemma replay_keeps id a b mui : lookup mui (replay id a) <> None ->
  lookup mui (replay id (a ++ b)) <> None.
Proof. unfold replay. rewrite ops_of_app, fold_left_app. apply fold_keeps. Qed.

Lemma apply_op_NoDup m o : NoDup (keys m) -> NoDup (keys (apply_op m o)).
Proof. destruct o; simpl; [apply update_NoDup|apply mark_NoDup]. Qed.
Lemma replay_NoDup id log : NoDup (keys (replay id log)).
Proof.
  unfold replay. generalize (ops_of id log). intros l.
  assert (H : forall m, NoDup (keys m) -> NoDup (keys (fold_left apply_op l m))).
  { induction l as [|o l IH]; simpl; auto. intros m H. apply IH. now apply apply_op_NoDup. }
  apply H. constructor.
Qed.

End P.
