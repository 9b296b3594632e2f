(* A call that runs undisturbed, from any state that concurrent calls can reach:
   it does what the sequential function does, and that function succeeds. *)
From Coq Require Import Arith NArith List Bool Lia.
From Verif Require Import Word Af BitSpan Spec Maps ChtMath Cht Node Tree ChainProofs TreeProofs
  MultiMap PrefixCht PrefixChtProofs Lsm Rib Conc ConcTree ConcTreeProofs ConcTreeInv ConcStore
  ConcStoreInv ConcCalls ConcSpec ConcFacts AloneSpec ConcAlone.
Import ListNotations.
Local Open Scope N_scope.

(* ---------- from the steps of one call to configurations ---------- *)

Section Lift.
Variables (f : af) (ov : bool).

Lemma runs_one n i s ts c l s' l' : nth_error ts i = Some (c, l) -> ststep f ov i s c l = Some (s', l') ->
  runs cstart (ststep f ov) (S n) i (Conf s ts) = runs cstart (ststep f ov) n i (Conf s' (set_nth i (c, l') ts)).
Proof. intros N E. cbn [runs]. unfold play1. cbn [ths sh]. now rewrite N, E. Qed.

Lemma star_only {A} (g : A -> option A) (st : A -> sstate * cpc) i c :
  (forall a b, g a = Some b -> ststep f ov i (fst (st a)) c (snd (st a)) = Some (st b)) ->
  forall a b, star g a b -> forall ts, nth_error ts i = Some (c, snd (st a)) ->
  exists n, runs cstart (ststep f ov) n i (Conf (fst (st a)) ts) =
    Conf (fst (st b)) (set_nth i (c, snd (st b)) ts).
Proof.
  intros H a b Sr. induction Sr as [a|a b d G Sr IH]; intros ts N.
  - exists O. cbn [runs]. now rewrite set_nth_same.
  - pose proof (nth_some_lt _ _ _ N) as Lt.
    destruct (IH (set_nth i (c, snd (st b)) ts)) as [n E].
    { rewrite nth_set_nth by easy. now rewrite Nat.eqb_refl. }
    exists (S n). rewrite (runs_one _ _ _ _ _ _ _ _ N (eq_trans (H _ _ G) (f_equal Some (surjective_pairing _)))).
    rewrite E. f_equal. clear. revert i. induction ts as [|t ts IH]; intros [|i]; cbn; auto. now rewrite IH.
Qed.

Lemma alone x i c rb' v : nth_error (ths x) i = Some (c, cstart c) -> slegal f c ->
  in_sequence f (ss_rib (sh x)) c = Ok (rb', v) ->
  exists y, only f ov i x y /\ returned y i c v /\ ss_rib (sh y) = rb'.
Proof.
  destruct x as [s ts]. cbn [sh ths]. intros N Lg E. pose proof (nth_some_lt _ _ _ N) as Lt.
  assert (Fin : forall s' l', (exists n, runs cstart (ststep f ov) n i (Conf s ts) = Conf s' (set_nth i (c, l') ts)) ->
    ret_of l' = Some v -> ss_rib s' = rb' ->
    exists y, only f ov i (Conf s ts) y /\ returned y i c v /\ ss_rib (sh y) = rb').
  { intros s' l' [n R] Rt Rb. exists (Conf s' (set_nth i (c, l') ts)). split; [now exists n|].
    split; [|exact Rb]. exists l'. split; [|exact Rt]. cbn [ths]. rewrite nth_set_nth by easy. now rewrite Nat.eqb_refl. }
  destruct c as [p r ups|sm p mui lt|p|p mui iw]; cbn [in_sequence] in E.
  - bd E. destruct a as [rb1 o]. injection E as <- <-.
    destruct (insert_alone f ov i p r ups s _ _ Heqr0) as (s' & Rb & S).
    apply (Fin s' (LIns (IDone o))); [|reflexivity|exact Rb].
    exact (star_only _ (fun a => (fst a, LIns (snd a))) i (CInsert p r ups)
      (fun a b G => f_equal (lift LIns) (eq_trans G (f_equal Some (surjective_pairing b)))) _ _ S ts N).
  - assert (M : exists rb1 o, rib_mark f (ss_rib s) sm p mui lt = Ok (rb1, o) /\ rb1 = rb' /\ RetMark o = v).
    { unfold rib_mark. destruct sm; bd E; destruct a as [rb1 o]; injection E as <- <-; exists rb1, o; repeat split. }
    destruct M as (rb1 & o & M & -> & <-).
    destruct (mark_alone f i sm p mui lt s _ _ (proj2 Lg) M) as (s' & Rb & S).
    apply (Fin s' (LMark (KDone o))); [|reflexivity|exact Rb].
    exact (star_only _ (fun a => (fst a, LMark (snd a))) i (CMark sm p mui lt)
      (fun a b G => f_equal (lift LMark) (eq_trans G (f_equal Some (surjective_pairing b)))) _ _ S ts N).
  - bd E. injection E as <- <-. rename a into b. cbn [rib_contains] in Heqr.
    pose proof (contains_alone _ _ _ _ Heqr) as S.
    apply (Fin s (LHas (XDone b))); [|reflexivity..].
    refine (star_only _ (fun a => (s, LHas a)) i (CContains p) _ _ _ S ts N).
    intros a b' G. cbn [fst snd ststep]. unfold gx in G. unfold stree.
    destruct a; try discriminate G; destruct (xstep f p _ _); try discriminate G; injection G as ->; reflexivity.
  - bd E. injection E as <- <-.
    pose proof (records_alone _ _ _ _ _ _ Heqr) as S.
    apply (Fin s (LVal (VDone a))); [|reflexivity..].
    exact (star_only _ (fun a => (fst a, LVal (snd a))) i (CRecords p mui iw)
      (fun a b G => f_equal (lift LVal) (eq_trans G (f_equal Some (surjective_pairing b)))) _ _ S ts N).
Qed.

(* ---------- the sequential functions do not fail on a store that calls are at work on ---------- *)

Lemma set_total t p mui : ninv f (t_heap t) -> ptr16 f (t_heap t) -> wf_pid f p ->
  exists t' b, set_prefix_exists f t p mui = Ok (t', ROk (0, b)) /\
    b = (if p_len p =? 0 then t_default t else stored f (t_heap t) p) /\
    ninv f (t_heap t') /\ ptr16 f (t_heap t').
Proof.
  intros I P Wp. unfold set_prefix_exists. destruct (N.eqb_spec (p_len p) 0) as [Z|Z].
  - unfold update_default_route_prefix_meta, root_node_id.
    destruct (retrieve_node_mut_ok f (t_heap t) (0,0) mui I) as (h1 & k & e & R & I1 & Lk & Ei & Ev & N1 & Len1).
    { split; [|easy]. repeat split; simpl; try lia; auto. }
    rewrite R. cbn [bind]. eexists _, _. split; [rewrite negb_involutive; reflexivity|].
    split; [reflexivity|]. cbn [t_heap]. split; [exact I1|].
    intros id v Q. rewrite N1 in Q. destruct (pid_eqb id (0,0)) eqn:X.
    + injection Q as <-. rewrite Ev. destruct (nodes f (t_heap t) (0, 0)) eqn:Y; [exact (P _ _ Y)|reflexivity].
    + exact (P _ _ Q).
  - destruct (set_prefix_exists_loop_ok f p mui Wp DESCENT_FUEL (t_heap t) (t_nodes t) 0 0)
      as (h' & cnt' & acc' & E & I' & A & N & _); auto; [lia|..].
    { destruct Wp. pose proof (BITS_le f). unfold DESCENT_FUEL. lia. }
    assert (Rt : (trunc (BITS f) (p_bits p) 0, 0) = (0, 0)).
    { rewrite trunc_0; [easy|]. apply Wp. }
    rewrite Rt in *. unfold root_node_id. rewrite E. cbn [bind]. rewrite A by easy.
    eexists _, _. split; [reflexivity|]. split; [reflexivity|]. split; [exact I'|].
    cbn [t_heap]. intros id v Q. rewrite N in Q.
    destruct (N.leb_spec 0 (p_len id)); [|lia]. unfold touch in Q.
    destruct (on_path f p id) eqn:O; [|exact (P _ _ Q)]. injection Q as <-. cbn [nv_ptr].
    assert (B : nv_ptr (old_or_new (nodes f (t_heap t) id)) < 2 ^ 16).
    { destruct (nodes f (t_heap t) id) eqn:Y; [exact (P _ _ Y)|reflexivity]. }
    destruct (p_len id + 4 <? p_len p); [|exact B]. apply lor_lt; [exact B|].
    apply pow2_lt. unfold ptr_bit, nib. pose proof (slice_lt (BITS f) (p_bits p) (p_len id) 4). lia.
Qed.

Lemma upsert_total rb p r ups : ninv f (t_heap (rb_tree rb)) -> ptr16 f (t_heap (rb_tree rb)) ->
  pinv f (pc_heap (rb_pcht rb)) -> wf_pid f p -> (rb_lsm rb = None -> rb_strat rb = MemoryOnly) ->
  exists rb' rep, rib_upsert_prefix f rb p r ups = Ok (rb', ROk rep) /\ rp_cas rep = 0.
Proof.
  intros I P T Wp Ls. unfold rib_upsert_prefix.
  destruct (pc_upsert_ok f (rb_pcht rb) p r ups T Wp) as (h' & E & _).
  destruct (rb_strat rb); destruct (rb_lsm rb) as [l|]; try discriminate (Ls eq_refl);
    cbn [set_lsm rb_pcht]; try (rewrite E; cbn [bind]; eexists _, _; split; reflexivity).
  destruct (set_total (rb_tree rb) p (r_mui r) I P Wp) as (t' & b & Es & _). rewrite Es. cbn [bind].
  eexists _, _. split; reflexivity.
Qed.

Lemma insert_total rb p r ups : ninv f (t_heap (rb_tree rb)) -> ptr16 f (t_heap (rb_tree rb)) ->
  pinv f (pc_heap (rb_pcht rb)) -> wf_pid f p -> (rb_lsm rb = None -> rb_strat rb = MemoryOnly) ->
  exists rb' rep, rib_insert f rb p r ups = Ok (rb', ROk rep) /\ rp_cas rep = 0.
Proof.
  intros I P T Wp Ls. unfold rib_insert.
  destruct (set_total (rb_tree rb) p (r_mui r) I P Wp) as (t' & b & Es & _ & I' & P'). rewrite Es. cbn [bind].
  destruct (upsert_total (set_tree rb t') p r ups I' P' T Wp Ls) as (rb1 & rep & Eu & C). rewrite Eu. cbn [bind].
  eexists _, _. split; [reflexivity|]. cbn [rp_cas]. now rewrite C.
Qed.

Lemma mark_total rb sm p mui lt : pinv f (pc_heap (rb_pcht rb)) -> wf_pid f p ->
  exists rb' v, rib_mark f rb sm p mui lt = Ok (rb', v).
Proof.
  intros T Wp. unfold rib_mark, rib_mark_mui_as_withdrawn_for_prefix, rib_mark_mui_as_active_for_prefix.
  assert (M : forall s, exists rb1 o, rib_mark_in_memory f rb p mui lt s = Ok (rb1, o)).
  { intros s. unfold rib_mark_in_memory.
    destruct (retrieve_prefix_mut_ok f (pc_heap (rb_pcht rb)) p T Wp) as (h' & k & e & E & _). rewrite E. cbn [bind].
    destruct (negb _); eexists _, _; reflexivity. }
  destruct (M Active) as (ra & oa & Ma). destruct (M Withdrawn) as (rw & ow & Mw).
  destruct sm, (rb_strat rb); rewrite ?Ma, ?Mw; cbn [bind];
    repeat match goal with |- exists a b, match ?X with _ => _ end = _ => destruct X end; eexists _, _; reflexivity.
Qed.

Lemma call_total st x c : reach f ov st x -> slegal f c ->
  exists rb' v, in_sequence f (ss_rib (sh x)) c = Ok (rb', v) /\ v <> RetPanic /\
    (forall p r ups, c = CInsert p r ups -> exists rep, v = RetIns (ROk rep) /\ rp_cas rep = 0).
Proof.
  intros R Lg. destruct (reach_sok _ _ _ _ R) as [G _].
  pose proof (g_table _ _ _ _ _ G) as T. destruct (g_tree _ _ _ _ _ G) as [Tr _].
  pose proof (g_cht _ _ _ Tr) as I.
  assert (P : ptr16 f (t_heap (rb_tree (ss_rib (sh x))))) by (intros id v Q; exact (proj2 (g_node _ _ _ Tr _ _ Q))).
  assert (Ls : rb_lsm (ss_rib (sh x)) = None -> rb_strat (ss_rib (sh x)) = MemoryOnly).
  { intros N. rewrite (g_strat _ _ _ _ _ G). exact (g_lsm _ _ _ _ _ G N). }
  destruct c as [p r ups|sm p mui lt|p|p mui iw]; cbn [in_sequence slegal] in *.
  - destruct (insert_total (ss_rib (sh x)) p r ups I P T Lg Ls) as (rb' & rep & E & C). rewrite E. cbn [bind fst snd].
    eexists _, _. split; [reflexivity|]. split; [discriminate|]. intros p0 r0 ups0 _. exists rep. split; [reflexivity|exact C].
  - destruct (mark_total (ss_rib (sh x)) sm p mui lt T (proj1 Lg)) as (rb' & v & E). unfold rib_mark in E.
    destruct sm; rewrite E; cbn [bind fst snd]; eexists _, _; (split; [reflexivity|]; split; discriminate).
  - cbn [rib_contains]. rewrite (prefix_exists_ok f (rb_tree (ss_rib (sh x))) p I Lg). cbn [bind].
    eexists _, _; (split; [reflexivity|]; split; discriminate).
  - change (pinv f (pc_heap (rb_pcht (ss_rib (sh x))))) in T. rewrite (get_records_ok f _ p mui iw _ T Lg). cbn [bind].
    eexists _, _; (split; [reflexivity|]; split; discriminate).
Qed.

Lemma only_same i x y z c v v' : only f ov i x y -> only f ov i x z ->
  returned y i c v -> returned z i c v' -> y = z.
Proof.
  intros [n A] [m B] (l & Ny & Ry) (l' & Nz & Rz).
  assert (Stop : forall w d k u, nth_error (ths w) i = Some (d, k) -> ret_of k = Some u ->
    forall j, runs cstart (ststep f ov) j i w = w).
  { intros w d k u N Rt [|j]; [reflexivity|]. cbn [runs]. unfold play1. rewrite N.
    now rewrite (ret_none f ov i (sh w) d k u Rt). }
  assert (Add : forall a b w, runs cstart (ststep f ov) (a + b) i w = runs cstart (ststep f ov) b i (runs cstart (ststep f ov) a i w)).
  { induction a as [|a IH]; intros b w; [reflexivity|]. cbn [Nat.add runs].
    destruct (play1 cstart (ststep f ov) w (Run i)) eqn:P; [apply IH|].
    destruct b; cbn [runs]; [reflexivity|]. now rewrite P. }
  rewrite <- (Stop y _ _ _ Ny Ry m), <- A, <- Add, Nat.add_comm, Add, B. exact (Stop z _ _ _ Nz Rz n).
Qed.

Lemma alone_like_sequence st x c : reach f ov st x -> slegal f c ->
  let i := length (ths x) in
  exists rb' v y, in_sequence f (ss_rib (sh x)) c = Ok (rb', v) /\ v <> RetPanic /\
    only f ov i (begin x c) y /\ returned y i c v /\ ss_rib (sh y) = rb' /\
    (forall z v', only f ov i (begin x c) z -> returned z i c v' -> z = y /\ v' = v).
Proof.
  intros R Lg i. destruct (call_total st x c R Lg) as (rb' & v & E & NP & _).
  assert (N : nth_error (ths (begin x c)) i = Some (c, cstart c)).
  { unfold begin, i. cbn [ths]. rewrite nth_error_app2, Nat.sub_diag by lia. reflexivity. }
  destruct (alone (begin x c) i c rb' v N Lg E) as (y & O & Rt & Rb).
  exists rb', v, y. repeat (split; [assumption|]). intros z v' Oz Rz.
  pose proof (only_same _ _ _ _ _ _ _ Oz O Rz Rt) as ->. split; [reflexivity|].
  destruct Rt as (l & A & B), Rz as (l' & A' & B'). rewrite A in A'. injection A' as <-. congruence.
Qed.

Lemma alone_first_try st x p r ups : reach f ov st x -> wf_pid f p ->
  let c := CInsert p r ups in let i := length (ths x) in
  exists y rep, only f ov i (begin x c) y /\ returned y i c (RetIns (ROk rep)) /\ rp_cas rep = 0.
Proof.
  intros R Lg c i. destruct (call_total st x c R Lg) as (rb' & v & E & NP & H).
  destruct (H _ _ _ eq_refl) as (rep & -> & C).
  assert (N : nth_error (ths (begin x c)) i = Some (c, cstart c)).
  { unfold begin, i. cbn [ths]. rewrite nth_error_app2, Nat.sub_diag by lia. reflexivity. }
  destruct (alone (begin x c) i c rb' _ N Lg E) as (y & O & Rt & Rb). exists y, rep. repeat split; assumption.
Qed.

End Lift.

Lemma like_sequence f ov st x c : reach f ov st x -> slegal f c ->
  let i := length (ths x) in
  exists rb' v y, in_sequence f (ss_rib (sh x)) c = Ok (rb', v) /\ v <> RetPanic /\
    only f ov i (begin x c) y /\ returned y i c v /\ ss_rib (sh y) = rb' /\
    (forall z v', only f ov i (begin x c) z -> returned z i c v' -> z = y /\ v' = v).
Proof. exact (alone_like_sequence f ov st x c). Qed.

Lemma first_try f ov st x p r ups : reach f ov st x -> wf_pid f p ->
  let c := CInsert p r ups in let i := length (ths x) in
  exists y rep, only f ov i (begin x c) y /\ returned y i c (RetIns (ROk rep)) /\ rp_cas rep = 0.
Proof. exact (alone_first_try f ov st x p r ups). Qed.
