(* Each kind of step of the store keeps the invariant. *)
From Coq Require Import Arith NArith List Bool Lia.
From Verif Require Import Word Af BitSpan Maps ChtMath Cht Node Tree ChainProofs TreeProofs
  MultiMap PrefixCht PrefixChtProofs Lsm LsmProofs Rib Conc ConcTree ConcTreeProofs ConcTreeInv
  ConcTreeStep ConcTreeEnd ConcTreeSeen ConcStore ConcTable ConcStoreInv.
Import ListNotations.
Local Open Scope N_scope.

Lemma pid_eqb_sym p q : pid_eqb p q = pid_eqb q p.
Proof.
  destruct (pid_eqb q p) eqn:E.
  - apply pid_eqb_spec in E. subst. apply pid_eqb_refl.
  - apply pid_eqb_neq. intros ->. rewrite pid_eqb_refl in E. discriminate.
Qed.

Section Steps.
Variable f : af.
Variable ov : bool.
Variable st : strategy.
Variable n0 : nat.
Variable s0 : sstate.

Notation G := (sG f st s0).

Lemma sO_same i s s' : ss_log s' = ss_log s -> ss_made s' = ss_made s ->
  ss_counted s' = ss_counted s -> sO i s s'.
Proof. intros A B D j _. now rewrite A, B, D. Qed.

(* a step that changes neither tree, records, disk, log nor the counters of prefixes *)
Definition same (s s' : sstate) : Prop :=
  rb_strat (ss_rib s') = rb_strat (ss_rib s) /\ rb_lsm (ss_rib s') = rb_lsm (ss_rib s) /\
  stree s' = stree s /\ pheap s' = pheap s /\ ss_log s' = ss_log s /\ ss_made s' = ss_made s /\
  ss_counted s' = ss_counted s /\ c_prefixes (rb_cnt (ss_rib s')) = c_prefixes (rb_cnt (ss_rib s)).

Lemma G_same s s' cs i : G s cs -> same s s' -> G s' cs /\ sR s s' /\ sO i s s'.
Proof.
  intros [A B D E F H I J K M N O P Q U V X Y Z] (S1 & S2 & S3 & S4 & S5 & S6 & S7 & S8).
  assert (OD : forall k, on_disk s k <-> on_disk s' k) by (intros k; unfold on_disk; now rewrite S2).
  assert (RR : sR s s').
  { unfold sR. rewrite S3, S4, S5, S6, S7. split; [apply tR_refl|]. split; [apply grows_refl|].
    split; [exists []; now rewrite app_nil_r|]. split; [apply OD|]. split; apply incl_refl. }
  split; [|split; [exact RR|now apply sO_same]].
  constructor; rewrite ?S1, ?S2, ?S3, ?S4, ?S5, ?S6, ?S7, ?S8; auto.
  - intros W i0 p r X0. apply OD. eauto.
  - eapply sR_trans; eauto.
Qed.

(* a write to disk *)
Lemma G_lsm s cs i k v l : G s cs -> rb_lsm (ss_rib s) = Some l ->
  (st = WriteAhead -> exists j p r ups, nth_error cs j = Some (CInsert p r ups) /\
     k = lkey f p r /\ v = r_meta r) ->
  let s' := set_rib s (set_lsm (ss_rib s) (kv_insert k v l)) in
  G s' cs /\ sR s s' /\ sO i s s' /\ on_disk s' k.
Proof.
  intros [A B D E F H I J K M N O P Q U V X Y Z] L W s'.
  pose proof (E _ L) as KO.
  assert (OD : forall k0, on_disk s k0 -> on_disk s' k0).
  { intros k0 (l0 & v0 & L0 & I0). rewrite L in L0. injection L0 as <-.
    destruct (list_eq_dec N.eq_dec k0 k) as [->|NE].
    - exists (kv_insert k v l), v. split; [easy|]. apply kv_insert_In; auto.
    - exists (kv_insert k v l), v0. split; [easy|]. apply kv_insert_In; auto. }
  assert (RR : sR s s').
  { split; [apply tR_refl|]. split; [apply grows_refl|].
    split; [exists []; now rewrite app_nil_r|]. split; [exact OD|]. split; apply incl_refl. }
  split; [|split; [exact RR|split; [now apply sO_same|]]].
  - constructor; auto.
    + intros X0. discriminate X0.
    + intros l0 X0. injection X0 as <-. now apply kv_insert_ok.
    + intros W0 i0 p0 r0 X0. apply OD. eauto.
    + intros W0 l0 k0 v0 X0 I0. injection X0 as <-. apply kv_insert_In in I0; auto.
      destruct I0 as [[-> ->]|[_ I0]]; eauto.
    + eapply sR_trans; eauto.
  - exists (kv_insert k v l), v. split; [easy|]. apply kv_insert_In; auto.
Qed.

(* a change of the table that leaves the records alone *)
Lemma G_table_step s cs i h' ver' : G s cs -> pinv f h' -> grows (pheap s) h' ->
  (forall id, match pfxs f h' id with
              | Some v => pv_recs v = replay id (ss_log s)
              | None => ops_of id (ss_log s) = []
              end) ->
  let s' := SState (set_pheap (ss_rib s) h') ver' (ss_log s) (ss_made s) (ss_counted s) in
  G s' cs /\ sR s s' /\ sO i s s'.
Proof.
  intros [A B D E F H I J K M N O P Q U V X Y Z] PI GR RE s'.
  assert (RR : sR s s').
  { split; [apply tR_refl|]. split; [exact GR|].
    split; [exists []; now rewrite app_nil_r|]. split; [auto|]. split; apply incl_refl. }
  split; [|split; [exact RR|now apply sO_same]].
  constructor; auto. eapply sR_trans; eauto.
Qed.

(* a change of an entry that leaves its records alone *)
Lemma G_modify s cs i k p g ver' : G s cs -> at_id (pheap s) k p ->
  (forall v, pv_recs (g v) = pv_recs v) ->
  let s' := SState (set_pheap (ss_rib s) (modify k g (pheap s))) ver' (ss_log s) (ss_made s)
              (ss_counted s) in
  G s' cs /\ sR s s' /\ sO i s s' /\ at_id (pheap s') k p.
Proof.
  intros Gs AT RG s'. destruct (modify_pfxs f (pheap s) k p g (g_table _ _ _ _ _ Gs) AT) as [PI PF].
  destruct (G_table_step s cs i (modify k g (pheap s)) ver' Gs PI (grows_modify _ _ _)) as (A & B & D).
  - intros id. rewrite PF. pose proof (g_recs _ _ _ _ _ Gs id) as X.
    destruct (pid_eqb id p) eqn:Q; [|exact X]. apply pid_eqb_spec in Q. subst id.
    destruct (pfxs f (pheap s) p); simpl; [|easy]. now rewrite RG.
  - split; [exact A|]. split; [exact B|]. split; [exact D|].
    eapply at_id_grows; [apply grows_modify|exact AT].
Qed.

(* a step of a walk along a chain *)
Lemma G_walk s cs i p q : G s cs -> wf_pid f p -> pI f (pheap s) p q ->
  exists h' o, pstep f p (pheap s) q = Ok (h', o) /\
    let s' := set_rib s (set_pheap (ss_rib s) h') in
    G s' cs /\ sR s s' /\ sO i s s' /\ poI f (pheap s') p o /\
    (pfxs f (pheap s) p <> None -> is_get q = true -> hits o = true) /\
    match o with PMore q' => pmu q' < pmu q | _ => True end.
Proof.
  intros Gs Wp PQ.
  destruct (pstep_ok f (pheap s) p q (g_table _ _ _ _ _ Gs) Wp PQ)
    as (h' & o & E & PI & GR & QU & PO & HI & _ & MU).
  exists h', o. split; [exact E|].
  destruct (G_table_step s cs i h' (ss_ver s) Gs PI GR) as (A & B & D).
  - intros id. pose proof (g_recs _ _ _ _ _ Gs id) as X.
    destruct (QU id) as [->|(-> & N & ->)]; [exact X|]. rewrite N in X. simpl.
    unfold replay. now rewrite X.
  - split; [exact A|]. split; [exact B|]. split; [exact D|]. split; [exact PO|]. split; [exact HI|exact MU].
Qed.

Lemma NoDup_snoc {A} (l : list A) x : NoDup l -> ~ In x l -> NoDup (l ++ [x]).
Proof.
  intros N I. apply NoDup_rev in N. rewrite <- (rev_involutive (l ++ [x])). apply NoDup_rev.
  rewrite rev_app_distr. simpl. constructor; auto. now rewrite <- in_rev.
Qed.

(* a critical section *)
Lemma G_op s cs i c k p g op : G s cs -> nth_error cs i = Some c -> op_call c p op ->
  ~ logged s i -> at_id (pheap s) k p ->
  (forall v, deref k (pheap s) = Ok v -> pv_recs (g v) = apply_op (pv_recs v) op) ->
  (st = WriteAhead -> forall r, op = OUp r -> on_disk s (lkey f p r)) ->
  let s' := add_log (set_rib s (set_pheap (ss_rib s) (modify k g (pheap s)))) (i, p, op) in
  G s' cs /\ sR s s' /\ sO i s s' /\ at_id (pheap s') k p /\ cs_at s' i p op (ss_log s).
Proof.
  intros Gs Nc OC NL AT RG WA s'.
  destruct (modify_pfxs f (pheap s) k p g (g_table _ _ _ _ _ Gs) AT) as [PI PF].
  destruct (at_id_lookup _ _ _ AT) as (v & DR & sl & LK).
  pose proof (at_id_pfxs f _ _ _ _ _ (g_table _ _ _ _ _ Gs) LK) as PV.
  destruct Gs as [A B D E F H I J K M N O P Q U V X Y Z].
  assert (RR : sR s s').
  { split; [apply tR_refl|]. split; [apply grows_modify|].
    split; [exists [(i, p, op)]; easy|]. split; [auto|]. split; apply incl_refl. }
  split; [|split; [exact RR|split; [|split]]].
  - constructor; auto.
    + intros id. change (pheap s') with (modify k g (pheap s)).
      change (ss_log s') with (ss_log s ++ [(i, p, op)]). rewrite PF.
      pose proof (I id) as X0. rewrite replay_snoc. rewrite (pid_eqb_sym p id).
      destruct (pid_eqb id p) eqn:Q0.
      * apply pid_eqb_spec in Q0. subst id. rewrite PV in *. simpl. rewrite RG by easy. now rewrite X0.
      * destruct (pfxs f (pheap s) id); [easy|]. rewrite ops_of_app, X0. unfold ops_of. simpl.
        now rewrite (pid_eqb_sym p id), Q0.
    + unfold tids. simpl. rewrite map_app. simpl. now apply NoDup_snoc.
    + intros i0 p0 o0 X0. apply in_app_or in X0. destruct X0 as [X0|[X0|[]]]; [eauto|].
      injection X0 as <- <- <-. eauto.
    + intros W i0 p0 r0 X0. apply in_app_or in X0. destruct X0 as [X0|[X0|[]]].
      * now apply (M W i0).
      * injection X0 as <- <- X0. now apply WA.
    + eapply sR_trans; eauto.
  - intros j NE. split; [|easy]. unfold tids. simpl. rewrite map_app. simpl.
    rewrite in_app_iff. simpl. split; [|auto]. intros [X0|[X0|[]]]; [easy|congruence].
  - eapply at_id_grows; [apply grows_modify|exact AT].
  - exists []. easy.
Qed.

(* a step in the tree *)
Lemma G_tree_step s cs i p r ups t' made' : G s cs -> nth_error cs i = Some (CInsert p r ups) ->
  tG f (insp cs) t' -> tR (stree s) t' ->
  (made' = ss_made s \/ made' = ss_made s ++ [i]) ->
  (forall q, wf_pid f q -> present f t' q = true ->
     present f (stree s) q = true \/ q = p /\ In i made') ->
  let s' := SState (set_tree (ss_rib s) t') (ss_ver s) (ss_log s) made' (ss_counted s) in
  G s' cs /\ sR s s' /\ sO i s s'.
Proof.
  intros [A B D E F H I J K M N O P Q U V X Y Z] Nc TG TR MD PR s'.
  assert (IM : incl (ss_made s) made').
  { destruct MD as [->| ->]; [apply incl_refl|apply incl_appl, incl_refl]. }
  assert (RR : sR s s').
  { split; [exact TR|]. split; [apply grows_refl|].
    split; [exists []; now rewrite app_nil_r|]. split; [auto|]. split; [exact IM|apply incl_refl]. }
  split; [|split; [exact RR|]].
  - constructor; auto.
    + intros j X0. simpl in X0. destruct MD as [->| ->]; [auto|].
      apply in_app_or in X0. destruct X0 as [X0|[<-|[]]]; eauto.
    + intros q Wq X0. destruct (PR q Wq X0) as [X1|[-> X1]].
      * destruct (P q Wq X1) as (j & r' & u' & X2 & X3). exists j, r', u'. split; [now apply IM|easy].
      * exists i, r, ups. easy.
    + eapply sR_trans; eauto.
  - intros j NE. split; [easy|]. split; [|easy]. simpl. destruct MD as [->| ->]; [easy|].
    rewrite in_app_iff. simpl. split; [|auto]. intros [X0|[X0|[]]]; [easy|congruence].
Qed.

(* counting a prefix *)
Lemma G_count s cs i p r ups : G s cs -> nth_error cs i = Some (CInsert p r ups) ->
  wf_pid f p -> ~ In i (ss_counted s) ->
  let s' := SState (set_cnt (ss_rib s) (inc_prefixes_count (rb_cnt (ss_rib s)) (p_len p)))
              (ss_ver s) (ss_log s) (ss_made s) (ss_counted s ++ [i]) in
  G s' cs /\ sR s s' /\ sO i s s'.
Proof.
  intros [A B D E F H I J K M N O P Q U V X Y Z] Nc Wp NI s'.
  assert (RR : sR s s').
  { split; [apply tR_refl|]. split; [apply grows_refl|].
    split; [exists []; now rewrite app_nil_r|]. split; [auto|]. split; [apply incl_refl|].
    apply incl_appl, incl_refl. }
  pose proof (BITS_le f) as B1. destruct Wp as [Hl _].
  split; [|split; [exact RR|]].
  - constructor; auto.
    + intros j X0. apply in_app_or in X0. destruct X0 as [X0|[<-|[]]]; eauto.
    + now apply NoDup_snoc.
    + simpl. now rewrite inc_nth_length.
    + simpl. rewrite sumN_inc by (rewrite V; lia). rewrite X, app_length. simpl. lia.
    + eapply sR_trans; eauto.
  - intros j NE. split; [easy|]. split; [easy|]. simpl.
    rewrite in_app_iff. simpl. split; [|auto]. intros [X0|[X0|[]]]; [easy|congruence].
Qed.

End Steps.
