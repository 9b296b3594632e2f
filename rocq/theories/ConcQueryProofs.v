(* Invariants of the queries beside concurrent calls. *)
From Coq Require Import Arith NArith List Bool Lia.
From Verif Require Import Word Af BitSpan Spec Maps ChtMath Cht Node Tree ChainProofs TreeProofs Iter
  MultiMap RecordSet PrefixCht PrefixChtProofs Lsm LsmProofs Rib StarCast RibProofs HistSpec Ask
  Conc ConcTree ConcTreeProofs ConcTreeInv ConcTable ConcStore
  ConcMarks ConcStoreInv ConcCalls ConcSpec ConcFacts ConcScan ConcScanProofs ConcScanSpec ConcScanFacts
  ConcWhole WholeSpec ConcWholeSim ConcWholeFacts ConcWholeRead ConcQuery QuerySpec.
Import ListNotations.
Local Open Scope N_scope.

(* ---------- a family beside the whole store ---------- *)

Lemma sim_exec ov st f w w' x : reach f ov st x -> sim st f w x -> wexec ov w w' ->
  exists x', sexec f ov x x' /\ sim st f w' x'.
Proof.
  intros R S E. induction E as [w|w w1 w' E IH T]; [exists x; split; [apply ex_refl|exact S]|].
  destruct (IH S) as (x1 & E1 & S1).
  destruct (sim_step ov st f _ _ x1 (reach_exec _ _ _ _ _ R E1) S1 T) as (x' & E2 & S2).
  exists x'. split; [eapply exec_trans; eauto|exact S2].
Qed.

Lemma sim_ins st f w x i q r ups : sim st f w x -> started x i (CInsert q r ups) ->
  wstarted w i (WStore f (CInsert q r ups)).
Proof.
  intros [_ F] (l & N). destruct (Forall2_nth_r _ _ _ _ _ F N) as ([c l'] & N' & P).
  exists l'. unfold pj in P. cbn [fst snd] in P.
  assert (Z : ~ elsewhere (CInsert q r ups, l)) by (intros [Q _]; discriminate Q).
  destruct c as [g c|g wd m|m]; [|contradiction..].
  destruct (af_eqb g f) eqn:Q; [|contradiction]. apply af_eqb_spec in Q. subst g.
  assert (Ec : c = CInsert q r ups).
  { destruct l' as [l0| |bm pc|r0| |g|g g0]; try contradiction P.
    - destruct P as [P _]. now injection P as <- _.
    - destruct P as [P _]. now injection P as <- _.
    - destruct P as [P _]. now injection P as <- _.
    - destruct P as [P _]. cbn in P. easy.
    - destruct P as [P _]. cbn in P. easy. }
  now subst c.
Qed.

Lemma sim_ins_back st f w x i q r ups : sim st f w x -> wstarted w i (WStore f (CInsert q r ups)) ->
  started x i (CInsert q r ups).
Proof.
  intros S (l & N). destruct (nth_pj st f w x i _ _ S N) as (u & Nu & P).
  unfold pj in P. cbn [fst snd] in P. rewrite af_refl in P.
  destruct l as [l| |bm pc|r0| |g|g g0]; try contradiction P.
  - destruct P as [-> _]. now exists l.
  - now destruct P.
  - now destruct P as (_ & [] & _).
  - now destruct P as (_ & _ & []).
  - now destruct P as (_ & _ & []).
Qed.

Lemma sim_ins_ret st f w x i q r ups a : sim st f w x ->
  wreturned w i (WStore f (CInsert q r ups)) (RetCall (RetIns a)) -> returned x i (CInsert q r ups) (RetIns a).
Proof.
  intros S (l & N & V). destruct (nth_pj st f w x i _ _ S N) as (u & Nu & P).
  unfold pj in P. cbn [fst snd] in P. rewrite af_refl in P.
  destruct l as [l| |bm pc|r0| |g|g g0]; try contradiction P; try discriminate V.
  destruct P as [-> _]. cbn [wret_of] in V. destruct (ret_of l) as [v|] eqn:E; [|discriminate V].
  injection V as ->. now exists l.
Qed.

Lemma sim_tree st f w x : sim st f w x -> tree_of x = tree_in (sh w) f.
Proof. intros [E _]. unfold tree_of, tree_in. now rewrite E. Qed.

Lemma beside_more {S} f ov over (next : tree -> S -> S) x0 s0 n x y s :
  beside f ov over next x0 s0 n x s -> sexec f ov x y -> beside f ov over next x0 s0 n y s.
Proof.
  intros B E. induction E as [x|x y z E IH T]; [easy|]. eapply be_call; [now apply IH|exact T].
Qed.

(* ---------- the iterators over the tree ---------- *)

Definition scan_run (f : af) (ov : bool) (za : cstore) (n : nat) (z : cstore) (sc : scan) : Prop :=
  match sc with
  | SMore p m => scans f ov p za n z m
  | SLess once p b => looks f ov once p za n z b
  end.
Definition cut_off (sc : scan) : Prop := match sc with SMore _ m => sc_pc m = MDone false | _ => False end.

(* the iterator began between x0 and x, and has made n steps; if it was cut off, inserts were under way *)
Definition sub (ov : bool) (st : strategy) (f : af) (x0 x : wstore) (n : nat) (sc : scan) : Prop :=
  exists xa za z, wexec ov x0 xa /\ wexec ov xa x /\ reach f ov st za /\ sim st f xa za /\ sim st f x z /\
    scan_run f ov za n z sc /\
    (cut_off sc -> exists w zw, wexec ov x0 w /\ wexec ov w x /\ sim st f w zw /\ ~ inserts_done zw).

Definition scan_pfx (sc : scan) : pid := match sc with SMore p _ | SLess _ p _ => p end.

Lemma scan_run_exec f ov za n z sc : scan_run f ov za n z sc -> sexec f ov za z.
Proof. destruct sc; apply beside_exec. Qed.
Lemma scan_run_more f ov za n z z' sc : scan_run f ov za n z sc -> sexec f ov z z' -> scan_run f ov za n z' sc.
Proof. destruct sc; apply beside_more. Qed.

Lemma sub_start ov st f x0 x sc : wreach ov st x0 -> wexec ov x0 x ->
  (forall z, scan_run f ov z 0 z sc) -> ~ cut_off sc -> sub ov st f x0 x 0 sc.
Proof.
  intros R E B C. destruct (wsim_exec ov st x0 x R E f) as (z & Rz & S).
  exists x, z, z. split; [exact E|]. split; [apply ex_refl|]. split; [exact Rz|]. split; [exact S|].
  split; [exact S|]. split; [apply B|]. intros Q. contradiction.
Qed.
Lemma sub_more ov st f x0 x p : wreach ov st x0 -> wexec ov x0 x -> sub ov st f x0 x 0 (more_from p).
Proof. intros R E. apply sub_start; [exact R|exact E| |discriminate]. intros z. apply be_start. Qed.
Lemma sub_less ov st f x0 x once p : wreach ov st x0 -> wexec ov x0 x -> sub ov st f x0 x 0 (less_from once p).
Proof. intros R E. apply sub_start; [exact R|exact E| |exact (fun Q => Q)]. intros z. apply be_start. Qed.

Lemma sub_exec ov st f x0 x y n sc : sub ov st f x0 x n sc -> wexec ov x y -> sub ov st f x0 y n sc.
Proof.
  intros (xa & za & z & A & B & C & D & F & G & H) E.
  pose proof (reach_exec _ _ _ _ _ C (scan_run_exec _ _ _ _ _ _ G)) as Rz.
  destruct (sim_exec ov st f x y z Rz F E) as (z' & E' & S').
  exists xa, za, z'. split; [exact A|]. split; [eapply exec_trans; eauto|]. split; [exact C|]. split; [exact D|].
  split; [exact S'|]. split; [eapply scan_run_more; eauto|].
  intros Q. destruct (H Q) as (w & zw & H1 & H2 & H3). exists w, zw. split; [exact H1|].
  split; [eapply exec_trans; eauto|exact H3].
Qed.

Lemma stage_going sc : scan_stage sc = Going ->
  match sc with SMore _ m => scan_over m = false | SLess _ _ b => look_over b = false end.
Proof.
  destruct sc as [p m|once p b]; cbn; unfold scan_over, look_over.
  - destruct (sc_pc m); easy.
  - destruct (bs_pc b); easy.
Qed.

Lemma sub_own ov st f x0 x n sc : wf_pid f (scan_pfx sc) -> sub ov st f x0 x n sc -> scan_stage sc = Going ->
  sub ov st f x0 x (S n) (scan_next f (tree_in (sh x) f) sc).
Proof.
  intros W (xa & za & z & A & B & C & D & F & G & H) Q. pose proof (stage_going _ Q) as O.
  exists xa, za, z. split; [exact A|]. split; [exact B|]. split; [exact C|]. split; [exact D|].
  split; [exact F|]. rewrite <- (sim_tree st f x z F). split.
  - destruct sc as [p m|once p b]; apply be_own; [exact G|exact O|exact G|exact O].
  - destruct sc as [p m|once p b]; cbn [scan_next cut_off]; [|easy]. intros Cu. exists x, z.
    split; [eapply exec_trans; eauto|]. split; [apply ex_refl|]. split; [exact F|].
    exact (conc_scan_cut f ov st p za n z m C W G O Cu).
Qed.

Lemma sub_sound ov st f x0 x n sc : wf_pid f (scan_pfx sc) -> sub ov st f x0 x n sc ->
  scan_stage sc <> Broken /\ forall q, In q (scan_out sc) -> being_inserted x f q /\ wf_pid f q /\ 0 < p_len q /\
    match sc with
    | SMore p _ => covers f p q
    | SLess once p _ => covers f q p /\ (once = false -> p_len q < p_len p)
    end.
Proof.
  intros W (xa & za & z & A & B & C & D & F & G & _).
  pose proof (reach_exec _ _ _ _ _ C (scan_run_exec _ _ _ _ _ _ G)) as Rz.
  assert (K : forall q, (exists i r ups, started z i (CInsert q r ups)) -> being_inserted x f q /\ wf_pid f q).
  { intros q (i & r & ups & S). split.
    - exists i, r, ups. exact (sim_ins st f x z i q r ups F S).
    - exact (wf_prefix _ _ _ _ _ _ _ _ (reach_sok _ _ _ _ Rz) S). }
  destruct sc as [p m|once p b]; cbn [scan_run scan_pfx] in *.
  - destruct (conc_scan_sound f ov st p za n z m C W G) as (NP & _ & H). split.
    + cbn. intros Q. destruct (sc_pc m); try discriminate Q. now elim NP.
    + cbn [scan_out]. intros q I. apply in_rev in I. destruct (H q I) as (H1 & H2 & H3).
      destruct (K q H1). auto.
  - destruct (conc_looks_sound f ov st once p za n z b C W G) as (NP & H). split.
    + cbn. intros Q. destruct (bs_pc b); try discriminate Q. now elim NP.
    + cbn [scan_out]. intros q I. apply in_rev in I. destruct (H q I) as (H1 & H2 & H3 & H4).
      destruct (K q H1). auto.
Qed.

(* every prefix that was there before *)
Lemma sub_before ov st f x0 x n sc : sub ov st f x0 x n sc -> forall q, was_inserted x0 f q ->
  exists za z, reach f ov st za /\ sim st f x z /\ scan_run f ov za n z sc /\
    exists i r ups rep, returned za i (CInsert q r ups) (RetIns (ROk rep)).
Proof.
  intros (xa & za & z & A & B & C & D & F & G & _) q (i & r & ups & rep & V).
  exists za, z. split; [exact C|]. split; [exact F|]. split; [exact G|]. exists i, r, ups, rep.
  exact (sim_ins_ret st f xa za i q r ups (ROk rep) D (wreturned_exec _ _ _ _ _ _ A V)).
Qed.

Lemma sub_not_cut ov st f x0 x n sc : sub ov st f x0 x n sc -> no_inserts x0 x f -> ~ cut_off sc.
Proof.
  intros (xa & za & z & _ & _ & _ & _ & _ & _ & H) NI Q. destruct (H Q) as (w & zw & A & B & S & K).
  apply K. intros i q r ups St.
  destruct (NI i q r ups) as (a & V).
  { eapply wstarted_exec; [exact B|]. exact (sim_ins st f w zw i q r ups S St). }
  exists a. exact (sim_ins_ret st f w zw i q r ups a S (wreturned_exec _ _ _ _ _ _ A V)).
Qed.

(* ---------- a look-up of records ---------- *)

Definition vJ (f : af) (h : heap pval) (p : pid) (pc : ConcStore.gpc) : Prop :=
  match pc with
  | VStart => True
  | VGet w => walk_ok PSTRIDE f h p w
  | VRead k => at_id h k p
  | _ => False
  end.

Lemma vJ_step f ov st z p mui iw bmin pc : reach f ov st z -> wf_pid f p -> vJ f (pheap (sh z)) p pc ->
  exists s1 pc1, vstep f (ConcStore.set_rib (sh z) (with_marks (ss_rib (sh z)) bmin)) p mui iw pc = Some (s1, pc1) /\
    match pc1 with
    | VDone o => PrefixCht.get_records_for_prefix f (rb_pcht (ss_rib (sh z))) p mui iw bmin = Ok o
    | _ => vJ f (pheap (sh z)) p pc1
    end.
Proof.
  intros R Wp J. destruct (reach_sok _ _ _ _ R) as [G _]. pose proof (g_table _ _ _ _ _ G) as PI.
  assert (D : pdom f p) by (now apply pdom_wf).
  pose proof (get_records_ok f (rb_pcht (ss_rib (sh z))) p mui iw bmin PI Wp) as GR.
  destruct pc as [|w|k|o|]; try contradiction J; cbn [vstep];
    change (pheap (ConcStore.set_rib (sh z) (with_marks (ss_rib (sh z)) bmin))) with (pheap (sh z));
    (eexists; eexists; split; [reflexivity|]).
  - destruct (walk_start_ok PSTRIDE PSTRIDE_nz f (pheap (sh z)) p D) as (w & E1 & O & _). rewrite E1. exact O.
  - destruct J as (k & K & -> & O). cbn [w_level w_b w_path w_slots] in *.
    rewrite hash_pat by auto. cbn [bind].
    rewrite (slot_get_level f PSTRIDE) by (auto; unfold nlev in K; lia).
    destruct (lookup (kof f PSTRIDE p k) (pheap (sh z))) as [e|] eqn:L.
    + destruct (pid_eqb p (e_id e)) eqn:Q.
      * apply pid_eqb_spec in Q. rewrite walk_key. exists e. auto.
      * assert (NE : e_id e <> p).
        { intros X. rewrite X, pid_eqb_refl in Q. discriminate. }
        destruct (walk_next PSTRIDE PSTRIDE_nz f (pheap (sh z)) p k e PI D K O L NE) as (A & B & C & K2 & E).
        rewrite A. cbn [bind]. exact E.
    + pose proof (pwalk_none f (pheap (sh z)) p k K O L) as PN. unfold pheap in PN. now rewrite GR, PN.
  - destruct (at_id_lookup _ _ _ J) as (v & DR & sl & LK). rewrite DR.
    pose proof (at_id_pfxs f _ _ _ _ _ PI LK) as PV. unfold pheap in *. now rewrite GR, PV.
Qed.

Definition lookW (ov : bool) (f : af) (mui : option N) (iw : bool) (x0 x : wstore) (c : pid) (l : wpc) : Prop :=
  match l with
  | WAsk => True
  | WLook bmin pc => exists w1, wexec ov x0 w1 /\ wexec ov w1 x /\ bmin = g_set (marks (sh w1) f) /\
      vJ f (pheap (fam (sh x) f)) c pc
  | WGot r => exists v, r = ROk v /\ looked_up ov x0 x f c mui iw v
  | _ => False
  end.

Lemma looked_exec ov x0 x y f c mui iw v : looked_up ov x0 x f c mui iw v -> wexec ov x y ->
  looked_up ov x0 y f c mui iw v.
Proof.
  intros (w1 & w2 & A & B & C & D) E. exists w1, w2. split; [exact A|]. split; [exact B|].
  split; [eapply exec_trans; eauto|exact D].
Qed.

Lemma lookW_exec ov st f mui iw x0 x y c l : wreach ov st x0 -> wexec ov x0 x -> wexec ov x y ->
  lookW ov f mui iw x0 x c l -> lookW ov f mui iw x0 y c l.
Proof.
  intros R E0 E. destruct l as [l| |bmin pc|r| |g|g g0]; cbn [lookW]; auto.
  - intros (w1 & A & B & C & D). exists w1. split; [exact A|]. split; [eapply exec_trans; eauto|]. split; [exact C|].
    destruct (wsim_exec ov st x0 x R E0 f) as (z & Rz & S). destruct (sim_exec ov st f x y z Rz S E) as (z' & E' & S').
    destruct (reach_from f ov st z z' Rz E') as [_ (_ & Gr & _)].
    destruct S as [Es _], S' as [Es' _]. rewrite <- Es in D. rewrite <- Es'.
    destruct pc; cbn [vJ] in *; auto.
    + eapply walk_ok_grows; eauto.
    + eapply at_id_grows; eauto.
  - intros (v & A & B). exists v. split; [exact A|]. eapply looked_exec; eauto.
Qed.

Lemma lookW_own ov st f mui iw x0 x c l : wreach ov st x0 -> wexec ov x0 x -> wwf_calls x ->
  wf_pid f c -> wf_mui mui -> lookW ov f mui iw x0 x c l ->
  lookW ov f mui iw x0 x c (value_next f c mui iw (sh x) l).
Proof.
  intros R E W Wc Wm L. destruct l as [l| |bmin pc|r| |g|g g0]; cbn [value_next]; auto.
  - cbn [lookW]. exists x. split; [exact E|]. split; [apply ex_refl|]. split; [reflexivity|exact I].
  - cbn [lookW] in L. destruct L as (w1 & A & B & -> & J).
    destruct (whole_get_ok ov st x0 w1 x f c mui iw R E W Wc Wm) as (v & Q).
    assert (Got : forall u, ask (marks_of w1 x) (QGet (f, c) mui iw) = Ok (ARecords u) ->
      lookW ov f mui iw x0 x c (WGot u)).
    { intros u Eu. rewrite Eu in Q. injection Q as ->. exists v. split; [reflexivity|]. exists w1, x.
      split; [exact A|]. split; [exact B|]. split; [apply ex_refl|exact Eu]. }
    rewrite ask_get in Q, Got.
    destruct (wsim_exec ov st x0 x R E f) as (z & Rz & S). pose proof S as [Es _].
    pose proof (g_strat _ _ _ _ _ (proj1 (reach_sok _ _ _ _ Rz))) as Gst. rewrite Es in Gst.
    unfold wlook. rewrite Gst.
    assert (Dec : st = PersistOnly \/ st <> PersistOnly) by (destruct st; auto; right; discriminate).
    destruct Dec as [Eo|NP].
    + rewrite Eo. destruct (rib_get_value f (with_marks (ss_rib (fam (sh x) f)) (g_set (marks (sh w1) f))) c mui iw)
        as [u| |]; [|discriminate Q..]. apply Got. reflexivity.
    + rewrite <- Es in J. destruct (vJ_step f ov st z c mui iw (g_set (marks (sh w1) f)) pc Rz Wc J) as (s1 & pc1 & V & K).
      rewrite Es in V, K.
      assert (Ew : forall P : wpc -> Prop, P match pc1 with VDone o => WGot (ROk o) | VPanic => WPanic
          | _ => WLook (g_set (marks (sh w1) f)) pc1 end ->
        P (match st with PersistOnly =>
             match rib_get_value f (with_marks (ss_rib (fam (sh x) f)) (g_set (marks (sh w1) f))) c mui iw with
             | Ok r => WGot r | _ => WPanic end
           | _ => match vstep f (ConcStore.set_rib (fam (sh x) f) (with_marks (ss_rib (fam (sh x) f)) (g_set (marks (sh w1) f)))) c mui iw pc with
             | Some (_, VDone o) => WGot (ROk o)
             | Some (_, VPanic) | None => WPanic
             | Some (_, pc') => WLook (g_set (marks (sh w1) f)) pc'
             end end)).
      { intros P HP. rewrite V. destruct st; try (destruct pc1; exact HP). now elim NP. }
      apply Ew. destruct pc1 as [|w|k|o|]; try contradiction K;
        try (cbn [lookW]; exists w1; split; [exact A|]; split; [exact B|]; split; [reflexivity|exact K]).
      apply Got. unfold rib_get_value. cbn [with_marks set_tree rb_strat rb_pcht rb_tree t_withdrawn].
      rewrite Gst, K. destruct st; try reflexivity. now elim NP.
Qed.
