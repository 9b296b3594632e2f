(* The stored path selections under concurrency: where they come from, when the
   flag that they are outdated is set, and when a selecting insert has selected. *)
From Coq Require Import Arith NArith List Bool Lia.
From Verif Require Import Word Af BitSpan Spec Maps ChtMath Cht Node Tree ChainProofs TreeProofs
  Iter IterProofs MultiMap PrefixCht PrefixChtProofs Lsm LsmProofs Rib RibProofs HistSpec Queries Conc ConcTree
  ConcTreeProofs ConcTreeInv ConcTreeStep ConcTreeEnd ConcTreeSeen ConcStore ConcTable ConcStoreInv
  ConcStoreStep ConcInsert ConcCalls ConcSpec ConcFacts ConcCount.
Import ListNotations.
Local Open Scope N_scope.

Section Sel.
Variable f : af.

Definition sel_at (s : sstate) (p : pid) : option N * option N :=
  match pfxs f (pheap s) p with Some v => pv_sel v | None => (None, None) end.
Definition out_at (s : sstate) (p : pid) : bool :=
  match pfxs f (pheap s) p with Some v => pv_out v | None => false end.

Lemma modify_sel s s' k p g : pinv f (pheap s) -> at_id (pheap s) k p ->
  pheap s' = modify k g (pheap s) ->
  (exists v, pfxs f (pheap s) p = Some v /\ sel_at s' p = pv_sel (g v) /\ out_at s' p = pv_out (g v) /\
     sel_at s p = pv_sel v /\ out_at s p = pv_out v) /\
  forall q, q <> p -> sel_at s' q = sel_at s q /\ out_at s' q = out_at s q.
Proof.
  intros I AT E. destruct (modify_pfxs f (pheap s) k p g I AT) as [_ PF].
  unfold sel_at, out_at. rewrite E. split.
  - destruct AT as ([i0 v sl] & L & Ei). simpl in Ei. subst i0.
    pose proof (at_id_pfxs f _ _ _ _ _ I L) as PV. exists v.
    rewrite PF, pid_eqb_refl, PV. easy.
  - intros q NE. rewrite PF. destruct (pid_eqb q p) eqn:Q; [|easy].
    apply pid_eqb_spec in Q. easy.
Qed.

(* a step leaves the selection of a prefix alone, or flags it, or stores one *)
Definition stores_sel (s : sstate) (c : scall) (l : cpc) (p : pid) (sel : option N * option N) : Prop :=
  exists r ups b k o cur, c = CInsert p r ups /\ l = LIns (ICasSel b k o sel cur).

Lemma quiet_sel s s' p : pquiet f p (pheap s) (pheap s') -> forall q,
  sel_at s' q = sel_at s q /\ out_at s' q = out_at s q.
Proof.
  intros Q q. unfold sel_at, out_at. destruct (Q q) as [->|(-> & -> & ->)]; easy.
Qed.

Lemma sel_step st ov n0 s0 s cs i c l s' l' : sG f st s0 s cs -> sI f ov st n0 s0 s cs i c l ->
  slegal f c -> ststep f ov i s c l = Some (s', l') ->
  forall q, (sel_at s' q = sel_at s q /\ (out_at s' q = out_at s q \/ out_at s' q = true)) \/
    (stores_sel s c l q (sel_at s' q) /\ out_at s' q = false).
Proof.
  intros G I Lc T q.
  assert (SAME : pheap s' = pheap s -> (sel_at s' q = sel_at s q /\ (out_at s' q = out_at s q \/ out_at s' q = true)) \/
    (stores_sel s c l q (sel_at s' q) /\ out_at s' q = false)).
  { intros X. left. unfold sel_at, out_at. rewrite X. auto. }
  pose proof (g_table _ _ _ _ _ G) as PI.
  assert (MOD : forall k p g, at_id (pheap s) k p -> pheap s' = modify k g (pheap s) ->
     (forall v, pv_sel (g v) = pv_sel v /\ (pv_out (g v) = pv_out v \/ pv_out (g v) = true)) ->
     sel_at s' q = sel_at s q /\ (out_at s' q = out_at s q \/ out_at s' q = true)).
  { intros k p g AT E H. destruct (modify_sel s s' k p g PI AT E) as [(v & _ & A & B & C & D) F].
    destruct (pid_eqb q p) eqn:Q.
    - apply pid_eqb_spec in Q. subst q. destruct (H v) as [H1 H2]. rewrite A, B, C, D, H1. auto.
    - destruct (F q) as [F1 F2]; [intros ->; rewrite pid_eqb_refl in Q; discriminate|].
      rewrite F1, F2. auto. }
  destruct (ststep_cases _ _ _ _ _ _ _ _ T) as
    [(p & r & ups & pc & pc' & -> & -> & -> & W)|
     [(sm & p & mui & lt & pc & pc' & -> & -> & -> & W)|[-> _]]]; [| |now apply SAME].
  - simpl in I. unfold istep in W. destruct pc; cbv zeta in W.
    + destruct (tnext _ _ _ _ _ _). injection W as <- <-. now apply SAME.
    + destruct (rb_lsm (ss_rib s)); injection W as <- <-; now apply SAME.
    + destruct I as (S & P & NL & WA & PQ & FR).
      destruct (pstep_ok f (pheap s) p p0 PI Lc PQ) as (h' & o & E & _ & _ & QU & _).
      rewrite E in W. injection W as <- <-. left.
      destruct (quiet_sel s (set_rib s (set_pheap (ss_rib s) h')) p QU q). auto.
    + destruct I as (S & P & NL & WA & AT). injection W as <- <-. left.
      apply (MOD k p set_ps_outdated AT eq_refl). intros v. simpl. auto.
    + destruct I as (S & P & NL & WA & AT & _).
      destruct (deref k (pheap s)) as [v| |]; [|injection W as <- <-; now apply SAME..].
      destruct (upsert_record (pv_recs v) r) as [m o]. injection W as <- <-. left.
      apply (MOD k p (fun v => set_recs v m) AT eq_refl). intros v0. simpl. auto.
    + injection W as <- <-. now apply SAME.
    + injection W as <- <-. now apply SAME.
    + destruct (deref k (pheap s)) as [v| |]; [destruct ups|..]; injection W as <- <-; now apply SAME.
    + destruct (deref k (pheap s)) as [v| |]; injection W as <- <-; now apply SAME.
    + destruct I as (S & P & AT & U & UP).
      destruct (deref k (pheap s)) as [v| |]; [|injection W as <- <-; now apply SAME..].
      destruct (_ && _); injection W as <- <-; [|now apply SAME].
      match goal with |- context [sel_at ?x q] => match x with SState _ _ _ _ _ => set (s1 := x) end end.
      destruct (modify_sel s s1 k p (fun v => PVal (pv_recs v) sel false) PI AT eq_refl)
        as [(v0 & _ & A & B & C & D) F].
      destruct (pid_eqb q p) eqn:Q.
      * apply pid_eqb_spec in Q. subst q. right. rewrite A, B. split; [|easy]. unfold stores_sel. simpl. eauto 10.
      * left. destruct (F q) as [F1 F2]; [intros ->; rewrite pid_eqb_refl in Q; discriminate|].
        rewrite F1, F2. auto.
    + injection W as <- <-. destruct (rb_lsm (ss_rib s)); now apply SAME.
    + destruct (tnext _ _ _ _ _ _). injection W as <- <-. now apply SAME.
    + destruct (rb_lsm (ss_rib s)); injection W as <- <-; now apply SAME.
    + injection W as <- <-. now apply SAME.
    + injection W as <- <-. now apply SAME.
    + discriminate.
    + discriminate.
  - simpl in I. unfold kstep in W. destruct pc; cbv zeta in W.
    + destruct (rb_strat (ss_rib s)); try (injection W as <- <-; now apply SAME).
      destruct (rb_lsm (ss_rib s)); injection W as <- <-; now apply SAME.
    + destruct I as (S & NL & PQ & FR). destruct Lc as [Lc _].
      destruct (pstep_ok f (pheap s) p p0 PI Lc PQ) as (h' & o & E & _ & _ & QU & _).
      rewrite E in W. injection W as <- <-. left.
      destruct (quiet_sel s (set_rib s (set_pheap (ss_rib s) h')) p QU q). auto.
    + destruct I as (S & NL & AT). injection W as <- <-. left.
      eapply (MOD k p _ AT eq_refl). intros v0. simpl. auto.
    + destruct (deref k (pheap s)); injection W as <- <-; now apply SAME.
    + destruct (rb_lsm (ss_rib s)); injection W as <- <-; now apply SAME.
    + destruct recs as [|b recs]; [injection W as <- <-; now apply SAME|].
      destruct (rb_lsm (ss_rib s)); [|injection W as <- <-; now apply SAME].
      destruct (rewrite_header_for_record _ _ _ _ _); injection W as <- <-; now apply SAME.
    + discriminate.
    + discriminate.
Qed.
End Sel.

(* ---------- what a caller sees ---------- *)

(* the best and backup stored with a prefix; the prefix table knows it or not *)
Definition selection_of (f : af) (x : cstore) (p : pid) : option (option N * option N) :=
  match retrieve_prefix f (pc_heap (table_of x)) p with
  | Ok (Some (_, e)) => Some (pv_sel (e_val e))
  | _ => None
  end.

Lemma sel_of_at f ov st x p sel : reach f ov st x -> wf_pid f p -> selection_of f x p = Some sel ->
  sel_at f (sh x) p = sel.
Proof.
  intros R W. destruct (reach_sok _ _ _ _ R) as [G _].
  pose proof (retrieve_prefix_ok f (pheap (sh x)) p (g_table _ _ _ _ _ G) W) as E.
  unfold selection_of, sel_at, table_of. fold (pheap (sh x)).
  destruct (retrieve_prefix f (pheap (sh x)) p) as [[[k e]|]| |]; try contradiction; try discriminate.
  destruct E as (_ & _ & ->). congruence.
Qed.

Lemma sel_at_of f ov st x p : reach f ov st x -> wf_pid f p -> pfxs f (pheap (sh x)) p <> None ->
  selection_of f x p = Some (sel_at f (sh x) p).
Proof.
  intros R W. destruct (reach_sok _ _ _ _ R) as [G _].
  pose proof (retrieve_prefix_ok f (pheap (sh x)) p (g_table _ _ _ _ _ G) W) as E.
  unfold selection_of, sel_at. unfold table_of. fold (pheap (sh x)).
  destruct (retrieve_prefix f (pheap (sh x)) p) as [[[k e]|]| |]; try contradiction;
    now destruct E as (_ & _ & ->).
Qed.

Lemma out_at_of f ov st x p : reach f ov st x -> wf_pid f p -> pfxs f (pheap (sh x)) p <> None ->
  rib_is_ps_outdated f (ss_rib (sh x)) p = Ok (ROk (out_at f (sh x) p)).
Proof.
  intros R W. destruct (reach_sok _ _ _ _ R) as [G _].
  pose proof (retrieve_prefix_ok f (pheap (sh x)) p (g_table _ _ _ _ _ G) W) as E.
  unfold rib_is_ps_outdated, out_at. fold (pheap (sh x)).
  destruct (retrieve_prefix f (pheap (sh x)) p) as [[[k e]|]| |]; try contradiction; cbn [bind];
    now destruct E as (_ & _ & ->).
Qed.

Lemma replay_selection p t l : selection t (fun m => rec_after p m l) (best_backup (replay p l) t).
Proof.
  apply best_backup_selection; [apply replay_NoDup|]. intros k. apply replay_rec.
Qed.

(* ---------- where a selection comes from ---------- *)

Definition chosen (x : cstore) (p : pid) (sel : option N * option N) : Prop :=
  exists i r t l1 l2, started x i (CInsert p r (Some t)) /\ order x = l1 ++ l2 /\
    In (i, p, OUp r) l1 /\ sel = best_backup (replay p l1) t.

(* the same of call i: over the records after its own upsert *)
Definition picked (x : cstore) (i : nat) (c : scall) (sel : option N * option N) : Prop :=
  exists p r t l1 l2, c = CInsert p r (Some t) /\ order x = l1 ++ l2 /\
    In (i, p, OUp r) l1 /\ sel = best_backup (replay p l1) t.

Lemma picked_chosen x i c sel : started x i c -> picked x i c sel -> chosen x (prefix_of c) sel.
Proof. intros A (p & r & t & l1 & l2 & -> & B & C & D). exists i, r, t, l1, l2. auto. Qed.

Definition holds_sel (l : cpc) : option (option N * option N) :=
  match l with
  | LIns (ILoadSel _ _ _ sel) | LIns (ICasSel _ _ _ sel _) => Some sel
  | _ => None
  end.

Lemma holds_cht st b o pn mn : holds_sel (LIns (after_cht st b o pn mn)) = None.
Proof.
  unfold after_cht, after_upsert, after_route. destruct st, o as [[? ?]|], mn, (snd b); easy.
Qed.
Lemma holds_count st ups b k o : holds_sel (LIns (after_count st ups b k o)) = None.
Proof. unfold after_count. destruct ups; [easy|apply holds_cht]. Qed.
Lemma holds_upsert b rep : holds_sel (LIns (after_upsert b rep)) = None.
Proof. unfold after_upsert, after_route. destruct (rp_mui_new rep), (snd b); easy. Qed.
Lemma holds_begin f rb p b : holds_sel (LIns (or_ipanic (begin_upsert f rb p b))) = None.
Proof.
  unfold begin_upsert. destruct (rb_strat rb); try (destruct (walk_start f PSTRIDE p); easy);
    destruct (rb_lsm rb); easy.
Qed.

(* a call gets a selection by IBest, and keeps it *)
Lemma holds_step f ov i s c l s' l' sel : ststep f ov i s c l = Some (s', l') ->
  holds_sel l' = Some sel ->
  holds_sel l = Some sel \/
  exists p r t b k o v, c = CInsert p r (Some t) /\ l = LIns (IBest b k o) /\
    deref k (pheap s) = Ok v /\ sel = best_backup (pv_recs v) t.
Proof.
  intros T H. destruct (ststep_cases _ _ _ _ _ _ _ _ T) as
    [(p & r & ups & pc & pc' & -> & -> & -> & W)|
     [(sm & p & mui & lt & pc & pc' & -> & -> & -> & W)|[-> [(p & pc & pc' & -> & -> & ->)|
      (p & m & iw & pc & pc' & -> & -> & ->)]]]]; try discriminate H.
  unfold istep in W. destruct pc; cbv zeta in W.
  - destruct (tnext _ _ _ _ _ _) as [tr t']. injection W as <- <-.
    destruct t'; try discriminate H. destruct r0 as [[? ?]|]; [|discriminate H].
    rewrite holds_begin in H. discriminate.
  - destruct (rb_lsm (ss_rib s)); injection W as <- <-; [|discriminate H].
    destruct (walk_start f PSTRIDE p); discriminate H.
  - destruct (pstep f p (pheap s) p0) as [[h o]| |]; injection W as <- <-; [|discriminate H..].
    destruct o as [|? []]; discriminate H.
  - injection W as <- <-. discriminate H.
  - destruct (deref k (pheap s)) as [v| |]; [|injection W as <- <-; discriminate H..].
    destruct (upsert_record (pv_recs v) r) as [m o]. injection W as <- <-.
    destruct o, found; try discriminate H; rewrite ?holds_count, ?holds_cht in H; discriminate H.
  - injection W as <- <-. destruct found; [|discriminate H]. rewrite holds_count in H. discriminate H.
  - injection W as <- <-. rewrite holds_cht in H. discriminate H.
  - destruct (deref k (pheap s)) as [v| |] eqn:D; [destruct ups as [t|]|..];
      injection W as <- <-; try discriminate H.
    injection H as <-. right. exists p, r, t, b, k, o, v. easy.
  - destruct (deref k (pheap s)) as [v| |]; injection W as <- <-; try discriminate H.
    destruct (sel_eqb (pv_sel v) sel0); [|now left]. rewrite holds_cht in H. discriminate H.
  - destruct (deref k (pheap s)) as [v| |]; [|injection W as <- <-; discriminate H..].
    destruct (_ && _); injection W as <- <-; [|discriminate H]. rewrite holds_cht in H. discriminate H.
  - injection W as <- <-. rewrite holds_upsert in H. discriminate H.
  - destruct (tnext _ _ _ _ _ _) as [tr t']. injection W as <- <-.
    destruct t'; try discriminate H. destruct r0 as [[? ?]|]; discriminate H.
  - destruct (rb_lsm (ss_rib s)); injection W as <- <-; [|discriminate H].
    rewrite holds_upsert in H. discriminate H.
  - injection W as <- <-. unfold after_route in H. destruct (snd b); discriminate H.
  - injection W as <- <-. discriminate H.
  - discriminate.
  - discriminate.
Qed.

Lemma chosen_exec f ov st x y p sel : reach f ov st x -> sexec f ov x y -> chosen x p sel -> chosen y p sel.
Proof.
  intros R E (i & r & t & l1 & l2 & (l & A) & B & C & D).
  destruct (conc_order_extends f ov st x y R E) as [[l3 O] _].
  destruct (exec_call _ _ _ x y i _ l E A) as [l' A'].
  exists i, r, t, l1, (l2 ++ l3). split; [now exists l'|]. split; [|easy].
  rewrite O, B. now rewrite app_assoc.
Qed.

Lemma picked_exec f ov st x y i c sel : reach f ov st x -> sexec f ov x y -> picked x i c sel ->
  picked y i c sel.
Proof.
  intros R E (p & r & t & l1 & l2 & A & B & C & D).
  destruct (conc_order_extends f ov st x y R E) as [[l3 O] _].
  exists p, r, t, l1, (l2 ++ l3). split; [easy|]. split; [|easy].
  rewrite O, B. now rewrite app_assoc.
Qed.

Lemma reach_step f ov st x y : reach f ov st x -> cstep cstart (slegal f) (ststep f ov) x y ->
  reach f ov st y.
Proof. intros A B. eapply reach_exec; eauto. now apply exec_one. Qed.

Lemma sel_inv f ov st x : reach f ov st x ->
  (forall p, sel_at f (sh x) p = (None, None) \/ chosen x p (sel_at f (sh x) p)) /\
  (forall i c l sel, nth_error (ths x) i = Some (c, l) -> holds_sel l = Some sel ->
     picked x i c sel).
Proof.
  revert x. apply reach_ind.
  - intros rb H. split.
    + intros p. left. unfold sel_at. destruct (pfxs f (pheap (sh (sconf0 rb))) p) as [v|] eqn:E; [|easy].
      assert (R : reach f ov st (sconf0 rb)) by (exists rb; split; [easy|apply ex_refl]).
      destruct (pfxs_at_id f _ p v (g_table _ _ _ _ _ (proj1 (reach_sok _ _ _ _ R))) E) as (k & sl & L).
      unfold rib_init in H. destruct (tree_new f); [|discriminate..].
      cbn in H. injection H as <-. discriminate L.
    + intros [|i] c l sel E; discriminate E.
  - intros s ts c R [A B] Lc.
    assert (T : cstep cstart (slegal f) (ststep f ov) (Conf s ts) (Conf s (ts ++ [(c, cstart c)])))
      by (now constructor).
    pose proof (exec_one _ _ _ _ _ T) as E. split.
    + intros p. destruct (A p) as [X|X]; [now left|right]. exact (chosen_exec f ov st _ _ _ _ R E X).
    + intros i c0 l sel N H. cbn [ths] in N. destruct (Nat.lt_ge_cases i (length ts)) as [Hi|Hi].
      * rewrite nth_error_app1 in N by easy. exact (picked_exec f ov st _ _ _ _ _ R E (B _ _ _ _ N H)).
      * rewrite nth_error_app2 in N by easy. destruct (i - length ts)%nat as [|n]; simpl in N; [|now destruct n].
        injection N as <- <-. destruct c; discriminate H.
  - intros s ts i c l s' l' R [A B] N T.
    assert (E : sexec f ov (Conf s ts) (Conf s' (set_nth i (c, l') ts))).
    { apply exec_one. econstructor; eauto. }
    pose proof (reach_sok _ _ _ _ R) as SK.
    assert (ST : started (Conf s ts) i c) by (now exists l).
    pose proof (wf_call _ _ _ _ _ _ _ _ SK ST) as Lc.
    pose proof (proj2 SK i c l N) as I. cbn [sh] in I.
    split.
    + intros q. destruct (sel_step f st ov _ _ s _ i c l s' l' (proj1 SK) I Lc T q) as [[X _]|[X _]].
      * cbn [sh] in *. rewrite X. destruct (A q) as [Y|Y]; [now left|right].
        exact (chosen_exec f ov st _ _ _ _ R E Y).
      * right. destruct X as (r & ups & b & k & o & cur & -> & ->).
        apply (chosen_exec f ov st (Conf s ts) _ _ _ R E).
        apply (picked_chosen (Conf s ts) i (CInsert q r ups)); [exact ST|].
        exact (B i _ _ _ N eq_refl).
    + intros j c0 l0 sel N0 H0. cbn [ths] in N0.
      rewrite nth_set_nth in N0 by (eapply nth_some_lt; eauto).
      destruct (Nat.eqb_spec i j) as [->|]; [|exact (picked_exec f ov st _ _ _ _ _ R E (B _ _ _ _ N0 H0))].
      injection N0 as <- <-.
      destruct (holds_step f ov j s c l s' l' sel T H0) as [H|(p & r & t & b & k & o & v & -> & -> & D & ->)].
      * exact (picked_exec f ov st _ _ _ _ _ R E (B _ _ _ _ N H)).
      * apply (picked_exec f ov st (Conf s ts) _ _ _ _ R E).
        destruct I as (S & P & AT & (l1 & (l2 & CA) & U) & UP).
        destruct (at_id_lookup _ _ _ AT) as (v0 & DR & sl & LK). rewrite DR in D. injection D as <-.
        pose proof (at_id_pfxs f _ _ _ _ _ (g_table _ _ _ _ _ (proj1 SK)) LK) as PV.
        pose proof (g_recs _ _ _ _ _ (proj1 SK) p) as RC. cbn [sh] in RC, PV. rewrite PV in RC.
        exists p, r, t, (ss_log s), []. split; [easy|]. unfold order. cbn [sh].
        split; [now rewrite app_nil_r|]. split; [|now rewrite RC].
        rewrite CA. apply in_or_app. right. now left.
Qed.

Lemma conc_selection f ov st x p sel : reach f ov st x -> wf_pid f p ->
  selection_of f x p = Some sel -> sel <> (None, None) ->
  exists i r t l1 l2, started x i (CInsert p r (Some t)) /\ order x = l1 ++ l2 /\
    In (i, p, OUp r) l1 /\ selection t (fun m => rec_after p m l1) sel.
Proof.
  intros R W S NE. pose proof (sel_of_at f ov st x p sel R W S) as E.
  destruct (proj1 (sel_inv f ov st x R) p) as [X|(i & r & t & l1 & l2 & A & B & C & D)]; [congruence|].
  exists i, r, t, l1, l2. repeat (split; [assumption|]). rewrite <- E, D. apply replay_selection.
Qed.

Lemma conc_best f ov st x p r : reach f ov st x -> wf_pid f p ->
  rib_best_path f (ss_rib (sh x)) p = Ok (Some (ROk r)) ->
  rec_after p (r_mui r) (order x) = Some r /\ r_status r = Active /\
  exists k, selection_of f x p = Some (Some (r_mui r), k).
Proof.
  intros R W. destruct (reach_sok _ _ _ _ R) as [G _].
  pose proof (retrieve_prefix_ok f (pheap (sh x)) p (g_table _ _ _ _ _ G) W) as E.
  pose proof (g_recs _ _ _ _ _ G p) as RC.
  unfold rib_best_path, selection_of, table_of. fold (pheap (sh x)).
  destruct (retrieve_prefix f (pheap (sh x)) p) as [[[k e]|]| |]; try contradiction; try discriminate.
  cbn [bind]. destruct E as (_ & _ & E). rewrite E in RC.
  destruct (pv_sel (e_val e)) as [[m|] k'] eqn:S; cbn [fst]; [|discriminate].
  destruct (get_record_for_mui (pv_recs (e_val e)) m false) as [r0|] eqn:Q; [|discriminate].
  intros X. injection X as ->. unfold get_record_for_mui in Q. rewrite RC in Q.
  destruct (replay_rec p m (ss_log (sh x))) as [L K]. rewrite L in Q.
  fold (order x) in *. destruct (rec_after p m (order x)) as [r1|] eqn:RA; [|discriminate].
  cbn [option_map] in Q. specialize (K _ eq_refl).
  destruct (v_status (mmval_of r1)) eqn:SS; cbn [status_eqb orb] in Q; try discriminate Q.
  injection Q as <-. rewrite <- K in *. rewrite record_of_mmval. split; [easy|].
  split; [exact SS|]. eauto.
Qed.

(* ---------- calls that begin after a point in time ---------- *)

Lemma exec_from_ind f ov x (P : cstore -> Prop) : P x ->
  (forall s ts c, sexec f ov x (Conf s ts) -> P (Conf s ts) -> slegal f c ->
     P (Conf s (ts ++ [(c, cstart c)]))) ->
  (forall s ts i c l s' l', sexec f ov x (Conf s ts) -> P (Conf s ts) ->
     nth_error ts i = Some (c, l) -> ststep f ov i s c l = Some (s', l') ->
     P (Conf s' (set_nth i (c, l') ts))) ->
  forall y, sexec f ov x y -> P y.
Proof.
  intros A B C. apply exec_ind_l; [easy|]. intros y z E Y T.
  destruct T; [now apply B|eapply C; eauto].
Qed.

(* the upsert has found the entry of its prefix and flagged its selection *)
Definition flagged_pc (pc : ipc) : bool :=
  match pc with
  | IUpsert _ _ _ | IRoute _ _ _ | IPrefix _ | IBest _ _ _ | ILoadSel _ _ _ _ | ICasSel _ _ _ _ _
  | IHist _ _ _ | IRibRoute _ _ | IRibPrefix _ _ | IDone (ROk _) => true
  | _ => false
  end.

Lemma flagged_begin f rb p b : flagged_pc (or_ipanic (begin_upsert f rb p b)) = false.
Proof.
  unfold begin_upsert. destruct (rb_strat rb); try (destruct (walk_start f PSTRIDE p); easy);
    destruct (rb_lsm rb); easy.
Qed.

Lemma flagged_step f ov i s p r ups pc s' pc' : istep f ov i s p r ups pc = Some (s', pc') ->
  flagged_pc pc' = true ->
  flagged_pc pc = true \/
  (exists b k, pc = IOutdate b k /\ s' = set_rib s (set_pheap (ss_rib s) (modify k set_ps_outdated (pheap s)))) \/
  (exists b q k, pc = IWalk b q /\ pc' = IUpsert b k false) \/
  (exists b t, pc = ITree2 b t) \/ (exists b b2, pc = IShort b b2).
Proof.
  intros W H. unfold istep in W. destruct pc; cbv zeta in W; try (now left).
  - destruct (tnext _ _ _ _ _ _) as [tr t']. injection W as <- <-.
    destruct t'; try discriminate H. destruct r0 as [[? ?]|]; [|discriminate H].
    rewrite flagged_begin in H. discriminate.
  - destruct (rb_lsm (ss_rib s)); injection W as <- <-; [|discriminate H].
    destruct (walk_start f PSTRIDE p); discriminate H.
  - destruct (pstep f p (pheap s) p0) as [[h o]| |]; injection W as <- <-; [|discriminate H..].
    destruct o as [|? []]; try discriminate H. right; right; left. eauto.
  - injection W as <- <-. right; left. eauto.
  - right; right; right; left. eauto.
  - right; right; right; right. eauto.
Qed.

Section Since.
Variable f : af.
Variable ov : bool.
Variable st : strategy.
Variable x : cstore.
Hypothesis Rx : reach f ov st x.
Hypothesis NP : st <> PersistOnly.
Variable p : pid.
Hypothesis E0 : entry0 f (sh x) p.

Lemma since_flagged y : sexec f ov x y ->
  (forall j r t, started y j (CInsert p r (Some t)) -> exists v, returned x j (CInsert p r (Some t)) v) ->
  forall j r ups pc, begins_after x j -> nth_error (ths y) j = Some (CInsert p r ups, LIns pc) ->
    flagged_pc pc = true -> out_at f (sh y) p = true.
Proof.
  revert y. apply (exec_from_ind f ov x (fun y =>
  (forall j r t, started y j (CInsert p r (Some t)) -> exists v, returned x j (CInsert p r (Some t)) v) ->
  forall j r ups pc, begins_after x j -> nth_error (ths y) j = Some (CInsert p r ups, LIns pc) ->
    flagged_pc pc = true -> out_at f (sh y) p = true)).
  - intros _ j r ups pc B N. unfold begins_after in B. pose proof (nth_some_lt _ _ _ N). lia.
  - intros s ts c E IH Lc H j r ups pc B N F. cbn [sh ths] in *.
    assert (H' : forall j r t, started (Conf s ts) j (CInsert p r (Some t)) ->
      exists v, returned x j (CInsert p r (Some t)) v).
    { intros j0 r0 t0 (l0 & N0). apply H. exists l0. cbn [ths] in *.
      rewrite nth_error_app1; [easy|]. eapply nth_some_lt; eauto. }
    destruct (Nat.lt_ge_cases j (length ts)) as [Hj|Hj].
    + rewrite nth_error_app1 in N by easy. exact (IH H' j r ups pc B N F).
    + rewrite nth_error_app2 in N by easy. destruct (j - length ts)%nat as [|n]; simpl in N; [|now destruct n].
      injection N as -> X. injection X as <-. discriminate F.
  - intros s ts i c l s' l' E IH N T H j r ups pc B N0 F. cbn [sh ths] in *.
    assert (H' : forall j r t, started (Conf s ts) j (CInsert p r (Some t)) ->
      exists v, returned x j (CInsert p r (Some t)) v).
    { intros j0 r0 t0 (l0 & N1). apply H. unfold started. cbn [ths] in *.
      rewrite nth_set_nth by (eapply nth_some_lt; eauto).
      destruct (Nat.eqb_spec i j0) as [->|]; [|eauto]. rewrite N in N1. injection N1 as -> ->. eauto. }
    specialize (IH H').
    destruct (reach_from f ov st x _ Rx E) as [SK _].
    assert (E' : sexec f ov x (Conf s' (set_nth i (c, l') ts))).
    { eapply exec_trans; [exact E|]. apply exec_one. econstructor; eauto. }
    destruct (reach_from f ov st x _ Rx E') as [SK' _].
    assert (ST : started (Conf s ts) i c) by (now exists l).
    pose proof (wf_call _ _ _ _ _ _ _ _ SK ST) as Lc.
    pose proof (proj2 SK i c l N) as I. cbn [sh] in I.
    assert (KEEP : out_at f s p = true -> out_at f s' p = true).
    { intros O. destruct (sel_step f st ov _ _ s _ i c l s' l' (proj1 SK) I Lc T p) as [[_ [X|X]]|[X _]].
      - now rewrite X.
      - easy.
      - exfalso. destruct X as (r1 & ups1 & b & k & o & cur & -> & ->). cbn [sI iI] in I.
        destruct ups1 as [t|]; [|tauto].
        destruct (H' i r1 t ST) as (v & RV).
        destruct (returned_stays f ov x (Conf s ts) i _ v E RV) as (l1 & N1 & R1).
        cbn [ths] in N1. rewrite N in N1. injection N1 as <-. discriminate R1. }
    rewrite nth_set_nth in N0 by (eapply nth_some_lt; eauto).
    destruct (Nat.eqb_spec i j) as [->|]; [|exact (KEEP (IH j r ups pc B N0 F))].
    injection N0 as -> ->.
    destruct (ststep_cases _ _ _ _ _ _ _ _ T) as
      [(p1 & r1 & ups1 & pc1 & pc' & X1 & -> & X2 & W)|
       [(sm & p1 & mui & lt & pc1 & pc' & X1 & _)|[_ [(p1 & pc1 & pc' & X1 & _)|
        (p1 & m & iw & pc1 & pc' & X1 & _)]]]]; try discriminate X1.
    injection X1 as <- <- <-. injection X2 as <-.
    destruct (flagged_step f ov j s p r ups pc1 s' pc W F) as
      [A|[(b & k & -> & ->)|[(b & q & k & -> & ->)|[(b & t & ->)|(b & b2 & ->)]]]].
    + exact (KEEP (IH j r ups pc1 B N A)).
    + destruct I as (_ & _ & _ & _ & AT).
      match goal with |- out_at f ?x p = _ => destruct (modify_sel f s x k p set_ps_outdated (g_table _ _ _ _ _ (proj1 SK)) AT eq_refl)
        as [(v & _ & _ & O & _) _] end. rewrite O. easy.
    + assert (N' : nth_error (ths (Conf s' (set_nth j (CInsert p r ups, LIns (IUpsert b k false)) ts))) j =
        Some (CInsert p r ups, LIns (IUpsert b k false))).
      { cbn [ths]. rewrite nth_set_nth by (eapply nth_some_lt; eauto). now rewrite Nat.eqb_refl. }
      pose proof (proj2 SK' j _ _ N') as I'. cbn [sI iI] in I'.
      destruct I' as (_ & _ & _ & _ & _ & FR). discriminate (FR B E0).
    + destruct I as (X & _). easy.
    + destruct I as (X & _). easy.
Qed.

(* the selection has been updated *)
Definition sel_done (pc : ipc) : bool :=
  match pc with
  | IHist _ _ _ | IRibRoute _ _ | IRibPrefix _ _ | IDone (ROk _) => true
  | _ => false
  end.

Lemma sel_done_begin rb b : sel_done (or_ipanic (begin_upsert f rb p b)) = false.
Proof.
  unfold begin_upsert. destruct (rb_strat rb); try (destruct (walk_start f PSTRIDE p); easy);
    destruct (rb_lsm rb); easy.
Qed.

Lemma sel_done_step i s r t pc s' pc' : istep f ov i s p r (Some t) pc = Some (s', pc') ->
  sel_done pc' = true ->
  sel_done pc = true \/
  (exists b k o sel v, pc = ILoadSel b k o sel /\ deref k (pheap s) = Ok v /\ pv_sel v = sel /\ s' = s) \/
  (exists b k o sel cur, pc = ICasSel b k o sel cur /\
     pheap s' = modify k (fun v => PVal (pv_recs v) sel false) (pheap s)) \/
  (exists b k, pc = IUpsert b k false) \/ (exists b, pc = IPrefix b) \/ (exists b b2, pc = IShort b b2).
Proof.
  intros W H. unfold istep in W. destruct pc; cbv zeta in W; try (now left).
  - destruct (tnext _ _ _ _ _ _) as [tr t']. injection W as <- <-.
    destruct t'; try discriminate H. destruct r0 as [[? ?]|]; [|discriminate H].
    rewrite sel_done_begin in H. discriminate.
  - destruct (rb_lsm (ss_rib s)); injection W as <- <-; [|discriminate H].
    destruct (walk_start f PSTRIDE p); discriminate H.
  - destruct (pstep f p (pheap s) p0) as [[h o]| |]; injection W as <- <-; [|discriminate H..].
    destruct o as [|? []]; discriminate H.
  - injection W as <- <-. discriminate H.
  - destruct (deref k (pheap s)) as [v| |]; [|injection W as <- <-; discriminate H..].
    destruct (upsert_record (pv_recs v) r) as [m o]. injection W as <- <-.
    destruct o, found; try discriminate H. right; right; right; left. eauto.
  - injection W as <- <-. destruct found; discriminate H.
  - right; right; right; right; left. eauto.
  - destruct (deref k (pheap s)) as [v| |]; injection W as <- <-; discriminate H.
  - destruct (deref k (pheap s)) as [v| |] eqn:D; injection W as <- <-; try discriminate H.
    destruct (sel_eqb (pv_sel v) sel) eqn:Q; [|discriminate H]. apply sel_eqb_spec in Q.
    right; left. exists b, k, o, sel, v. auto.
  - destruct (deref k (pheap s)) as [v| |]; [|injection W as <- <-; discriminate H..].
    destruct (_ && _); injection W as <- <-; [|discriminate H].
    right; right; left. exists b, k, o, sel, cur. easy.
  - destruct (tnext _ _ _ _ _ _) as [tr t']. injection W as <- <-.
    destruct t'; try discriminate H. destruct r0 as [[? ?]|]; discriminate H.
  - right; right; right; right; right. eauto.
Qed.

Definition selected_between (y : cstore) (j : nat) (r : record) (t : tbi) : Prop :=
  exists z l1 l2, sexec f ov x z /\ sexec f ov z y /\ order z = l1 ++ l2 /\
    In (j, p, OUp r) l1 /\ sel_at f (sh z) p = best_backup (replay p l1) t.

Lemma since_selected y : sexec f ov x y ->
  forall j r t pc, begins_after x j -> nth_error (ths y) j = Some (CInsert p r (Some t), LIns pc) ->
    sel_done pc = true -> selected_between y j r t.
Proof.
  revert y. apply (exec_from_ind f ov x (fun y =>
  forall j r t pc, begins_after x j -> nth_error (ths y) j = Some (CInsert p r (Some t), LIns pc) ->
    sel_done pc = true -> selected_between y j r t)).
  - intros j r t pc B N. unfold begins_after in B. pose proof (nth_some_lt _ _ _ N). lia.
  - intros s ts c E IH Lc j r t pc B N F. cbn [sh ths] in *.
    destruct (Nat.lt_ge_cases j (length ts)) as [Hj|Hj].
    + rewrite nth_error_app1 in N by easy. destruct (IH j r t pc B N F) as (z & l1 & l2 & A1 & A2 & A3).
      exists z, l1, l2. split; [easy|]. split; [|easy]. eapply exec_trans; [exact A2|].
      apply exec_one. now constructor.
    + rewrite nth_error_app2 in N by easy. destruct (j - length ts)%nat as [|n]; simpl in N; [|now destruct n].
      injection N as -> X. injection X as <-. discriminate F.
  - intros s ts i c l s' l' E IH N T j r t pc B N0 F. cbn [sh ths] in *.
    assert (E1 : sexec f ov (Conf s ts) (Conf s' (set_nth i (c, l') ts))).
    { apply exec_one. econstructor; eauto. }
    pose proof (exec_trans _ _ _ _ _ _ E E1) as E'.
    assert (OLD : forall pc0, nth_error ts j = Some (CInsert p r (Some t), LIns pc0) -> sel_done pc0 = true ->
      selected_between (Conf s' (set_nth i (c, l') ts)) j r t).
    { intros pc0 N1 F1. destruct (IH j r t pc0 B N1 F1) as (z & l1 & l2 & A1 & A2 & A3).
      exists z, l1, l2. split; [easy|]. split; [|easy]. eapply exec_trans; [exact A2|exact E1]. }
    rewrite nth_set_nth in N0 by (eapply nth_some_lt; eauto).
    destruct (Nat.eqb_spec i j) as [->|]; [|exact (OLD pc N0 F)].
    injection N0 as -> ->.
    destruct (reach_from f ov st x _ Rx E) as [SK _].
    pose proof (proj2 SK j _ l N) as I. cbn [sh] in I.
    pose proof (reach_exec f ov st x _ Rx E) as Rs.
    pose proof (reach_exec f ov st x _ Rx E') as Rs'.
    pose proof (proj2 (sel_inv f ov st _ Rs) j (CInsert p r (Some t)) l) as PK.
    destruct (ststep_cases _ _ _ _ _ _ _ _ T) as
      [(p1 & r1 & ups1 & pc1 & pc' & X1 & -> & X2 & W)|
       [(sm & p1 & mui & lt & pc1 & pc' & X1 & _)|[_ [(p1 & pc1 & pc' & X1 & _)|
        (p1 & m & iw & pc1 & pc' & X1 & _)]]]]; try discriminate X1.
    injection X1 as <- <- <-. injection X2 as <-.
    destruct (sel_done_step j s r t pc1 s' pc W F) as
      [A|[(b & k & o & sel & v & -> & D & Q & ->)|[(b & k & o & sel & cur & -> & M)|
       [(b & k & ->)|[(b & ->)|(b & b2 & ->)]]]]].
    + exact (OLD pc1 N A).
    + destruct (picked_exec f ov st _ _ j _ sel Rs E1 (PK sel N eq_refl)) as (p2 & r2 & t2 & l1 & l2 & Y & O & In1 & S).
      injection Y as <- <- <-.
      eexists _, l1, l2. split; [exact E'|]. split; [apply ex_refl|]. split; [exact O|]. split; [exact In1|].
      rewrite <- S, <- Q. cbn [sh]. destruct I as (_ & _ & AT & _).
      destruct (at_id_lookup _ _ _ AT) as (v0 & DR & sl & LK). rewrite DR in D. injection D as <-.
      pose proof (at_id_pfxs f _ _ _ _ _ (g_table _ _ _ _ _ (proj1 SK)) LK) as PV. cbn [sh] in PV.
      unfold sel_at. now rewrite PV.
    + destruct (picked_exec f ov st _ _ j _ sel Rs E1 (PK sel N eq_refl)) as (p2 & r2 & t2 & l1 & l2 & Y & O & In1 & S).
      injection Y as <- <- <-.
      eexists _, l1, l2. split; [exact E'|]. split; [apply ex_refl|]. split; [exact O|]. split; [exact In1|].
      rewrite <- S. cbn [sh]. destruct I as (_ & _ & AT & _).
      destruct (modify_sel f s s' k p _ (g_table _ _ _ _ _ (proj1 SK)) AT M)
        as [(v & _ & A & _) _]. exact A.
    + destruct I as (_ & _ & _ & _ & _ & FR). discriminate (FR B E0).
    + destruct I as (_ & _ & _ & FR). now destruct (FR B).
    + destruct I as (X & _). easy.
Qed.
End Since.

Lemma flagged_ok (rep : report) : flagged_pc (IDone (ROk rep)) = true. Proof. easy. Qed.

Lemma conc_flagged f ov st x y i j p r ups a r' ups' rep : reach f ov st x -> st <> PersistOnly ->
  returned x i (CInsert p r ups) (RetIns a) -> sexec f ov x y -> begins_after x j ->
  returned y j (CInsert p r' ups') (RetIns (ROk rep)) ->
  (forall k r t, started y k (CInsert p r (Some t)) -> exists v, returned x k (CInsert p r (Some t)) v) ->
  rib_is_ps_outdated f (ss_rib (sh y)) p = Ok (ROk true).
Proof.
  intros R NP D E B (l & N & V) H.
  pose proof (proj2 (returned_there f ov st x i p r ups a R D) NP) as E0.
  pose proof (reach_exec f ov st x y R E) as Ry.
  destruct l as [pc|pc|pc|pc]; try (destruct pc; discriminate V).
  destruct pc as [| | | | | | | | | | | | | | | [rep0|e] |]; try discriminate V.
  assert (Wp : wf_pid f p).
  { apply (wf_prefix f ov st _ _ x i (CInsert p r ups) (reach_sok _ _ _ _ R)).
    destruct D as (l & N1 & _). now exists l. }
  rewrite (out_at_of f ov st y p Ry Wp).
  - now rewrite (since_flagged f ov st x R NP p E0 y E H j r' ups' (IDone (ROk rep0)) B N eq_refl).
  - destruct (reach_from f ov st x y R E) as [SK RR].
    apply (pfxs_grows f (pheap (sh x))); auto.
    + apply (g_table _ _ _ _ _ (proj1 (reach_sok _ _ _ _ R))).
    + apply (g_table _ _ _ _ _ (proj1 SK)).
    + apply RR.
Qed.

Lemma conc_selects f ov st x y i j p r ups a r' t rep : reach f ov st x -> st <> PersistOnly ->
  returned x i (CInsert p r ups) (RetIns a) -> sexec f ov x y -> begins_after x j ->
  returned y j (CInsert p r' (Some t)) (RetIns (ROk rep)) ->
  exists z l1 l2 sel, sexec f ov x z /\ sexec f ov z y /\ order z = l1 ++ l2 /\
    In (j, p, OUp r') l1 /\ selection_of f z p = Some sel /\
    selection t (fun m => rec_after p m l1) sel.
Proof.
  intros R NP D E B (l & N & V).
  pose proof (proj2 (returned_there f ov st x i p r ups a R D) NP) as E0.
  destruct l as [pc|pc|pc|pc]; try (destruct pc; discriminate V).
  destruct pc as [| | | | | | | | | | | | | | | [rep0|e] |]; try discriminate V.
  assert (Wp : wf_pid f p).
  { apply (wf_prefix f ov st _ _ x i (CInsert p r ups) (reach_sok _ _ _ _ R)).
    destruct D as (l & N1 & _). now exists l. }
  destruct (since_selected f ov st x R NP p E0 y E j r' t (IDone (ROk rep0)) B N eq_refl)
    as (z & l1 & l2 & A1 & A2 & A3 & A4 & A5).
  exists z, l1, l2, (sel_at f (sh z) p). repeat (split; [assumption|]).
  split; [|rewrite A5; apply replay_selection].
  apply (sel_at_of f ov st z p (reach_exec f ov st x z R A1) Wp).
  destruct (reach_from f ov st x z R A1) as [SK RR].
  apply (pfxs_grows f (pheap (sh x))); auto.
  - apply (g_table _ _ _ _ _ (proj1 (reach_sok _ _ _ _ R))).
  - apply (g_table _ _ _ _ _ (proj1 SK)).
  - apply RR.
Qed.
