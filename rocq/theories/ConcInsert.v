(* One step of an insert among other calls. *)
From Coq Require Import Arith NArith List Bool Lia.
From Verif Require Import Word Af BitSpan Maps ChtMath Cht Node Tree ChainProofs TreeProofs
  MultiMap PrefixCht PrefixChtProofs Lsm LsmProofs Rib Conc ConcTree ConcTreeProofs ConcTreeInv
  ConcTreeStep ConcTreeEnd ConcTreeSeen ConcStore ConcTable ConcStoreInv ConcStoreStep.
Import ListNotations.
Local Open Scope N_scope.

(* how many steps are left *)
Definition imu (p : pid) (pc : ipc) : N :=
  match pc with
  | ITree t => tmu p t + TSTEPS + 200
  | ITree2 _ t => tmu p t + 10
  | IAhead _ => 190
  | IWalk _ q => pmu q + 100
  | IOutdate _ _ => 20
  | IUpsert _ _ _ => 19
  | IRoute _ _ _ => 18
  | IPrefix _ => 17
  | IBest _ _ _ => 16
  | ILoadSel _ _ _ _ => 15
  | ICasSel _ _ _ _ _ => 14
  | IHist _ _ _ => 13
  | IShort _ _ => 9
  | IRibRoute _ _ => 5
  | IRibPrefix _ _ => 4
  | IDone _ | IPanic => 0
  end.
Definition ISTEPS : N := 2 * TSTEPS + 200.

Section Ins.
Variable f : af.
Variable ov : bool.
Variable st : strategy.
Variable n0 : nat.
Variable s0 : sstate.

Notation G := (sG f st s0).
Notation iI := (iI f ov st n0 s0).
Notation pre := (pre f n0 s0).

Lemma made_has_made t : made t <-> has_made t = true.
Proof.
  destruct t; simpl; try easy.
  - destruct existed; easy.
  - destruct r as [[a []]|]; easy.
Qed.

Section Here.
Variable s : sstate.
Variable cs : list scall.
Variable i : nat.
Variable p : pid.
Variable r : record.
Variable ups : option tbi.

Lemma after_route_ok b rep : pre s i p b -> kept f st s i p r rep -> newok f st n0 s0 i p rep ->
  iI s i p r ups (after_route b rep) /\ imu p (after_route b rep) <= 4.
Proof.
  intros P K N. unfold after_route. destruct (snd b) eqn:B; [|split; [|simpl; lia]].
  2:{ simpl. auto. }
  destruct P as (P1 & P2 & P3 & P4). split; [|simpl; lia].
  split; [easy|]. split; [easy|]. split; [intros X; apply P2 in X; congruence|].
  split; [intros X; now destruct P3|]. split; [easy|].
  simpl. intros X Y _ Z. now apply N.
Qed.

Lemma after_upsert_ok b rep : pre s i p b -> kept f st s i p r rep -> newok f st n0 s0 i p rep ->
  iI s i p r ups (after_upsert b rep) /\ imu p (after_upsert b rep) <= 5.
Proof.
  intros P K N. unfold after_upsert. destruct (rp_mui_new rep).
  - split; [|simpl; lia]. simpl. auto.
  - destruct (after_route_ok b rep P K N). split; [easy|lia].
Qed.

Lemma after_cht_ok b o pn mn : st <> PersistOnly -> pre s i p b -> upserted s i p r o ->
  (fresh n0 i -> entry0 f s0 p -> pn = false) ->
  iI s i p r ups (after_cht st b o pn mn) /\ imu p (after_cht st b o pn mn) <= 13.
Proof.
  intros NP P U N.
  set (rep := Report 0 pn mn (match o with Some (_, n) => n | None => 1 end)).
  assert (NW : newok f st n0 s0 i p rep) by (intros _ X Y; now apply N).
  assert (H : (exists old n, st = PersistHistory /\ o = Some (old, n) /\
                 after_cht st b o pn mn = IHist b rep old) \/
              (kept f st s i p r rep /\ after_cht st b o pn mn = after_upsert b rep)).
  { clear NW N. unfold after_cht, kept. destruct st; try (right; split; [now exists o|easy]); [|easy].
    destruct o as [[old n]|]; [left; exists old, n; easy|right]. split; [|easy].
    exists None. split; [easy|]. split; [easy|]. discriminate. }
  destruct H as [(old & n & E1 & E2 & ->)|[K ->]].
  - split; [|simpl; lia]. simpl. rewrite E2 in U. split; [easy|]. split; [easy|]. split; [|easy].
    exists n. split; [easy|]. unfold rep. now rewrite E2.
  - destruct (after_upsert_ok b rep P K NW). split; [easy|lia].
Qed.

Lemma after_count_ok b k o : st <> PersistOnly -> pre s i p b -> at_id (pheap s) k p ->
  upserted s i p r o ->
  iI s i p r ups (after_count st ups b k o) /\ imu p (after_count st ups b k o) <= 16.
Proof.
  intros NP P A U.
  assert (H : (ups <> None /\ after_count st ups b k o = IBest b k o) \/
              after_count st ups b k o = after_cht st b o false true).
  { unfold after_count. destruct ups; auto. left. easy. }
  destruct H as [[NU ->]| ->].
  - split; [|simpl; lia]. simpl. auto.
  - destruct (after_cht_ok b o false true NP P U); [easy|]. split; [easy|lia].
Qed.

End Here.

Lemma begin_upsert_ok s cs i p r ups b : G s cs -> wf_pid f p -> pre s i p b -> ~ logged s i ->
  forall rb, rb_strat rb = st -> rb_lsm rb = rb_lsm (ss_rib s) ->
  iI s i p r ups (or_ipanic (begin_upsert f rb p b)) /\
  imu p (or_ipanic (begin_upsert f rb p b)) <= TSTEPS + 199.
Proof.
  intros Gs Wp P NL rb E1 E2.
  assert (D : pdom f p) by (now apply pdom_wf).
  destruct (walk_start_ok PSTRIDE PSTRIDE_nz f (pheap s) p D) as (w & E & O & L0).
  pose proof (g_lsm _ _ _ _ _ Gs) as GL.
  assert (H : (st = WriteAhead /\ begin_upsert f rb p b = Ok (IAhead b)) \/
              (st <> PersistOnly /\ st <> WriteAhead /\ begin_upsert f rb p b = Ok (IWalk b (PGet w))) \/
              (st = PersistOnly /\ begin_upsert f rb p b = Ok (ITree2 b TStart))).
  { unfold begin_upsert. rewrite E1, E2, E. clear Gs E1. cbn [bind].
    destruct st, (rb_lsm (ss_rib s)); auto; try discriminate (GL eq_refl); right; left; easy. }
  destruct H as [[S ->]|[(S1 & S2 & ->)|[S ->]]]; cbn [or_ipanic].
  - split; [simpl; auto|unfold TSTEPS; simpl; lia].
  - split; [simpl; repeat (split; auto); congruence|unfold TSTEPS; simpl; rewrite L0; lia].
  - split; [simpl; auto|]. pose proof (start_mu f p Wp). cbn [imu]. lia.
Qed.

Lemma istep_ok s cs i p r ups pc s' pc' : G s cs -> nth_error cs i = Some (CInsert p r ups) ->
  iI s i p r ups pc -> istep f ov i s p r ups pc = Some (s', pc') ->
  G s' cs /\ iI s' i p r ups pc' /\ sR s s' /\ sO i s s' /\ imu p pc' < imu p pc.
Proof.
  intros Gs Nc I E.
  assert (Wf : forall q, insp cs q -> wf_pid f q).
  { intros q (j & r' & u' & N'). pose proof (g_legal _ _ _ _ _ Gs) as LG. rewrite Forall_forall in LG.
    apply nth_error_In in N'. exact (LG _ N'). }
  assert (Cp : insp cs p) by (exists i, r, ups; easy).
  pose proof (Wf p Cp) as Wp.
  pose proof (g_strat _ _ _ _ _ Gs) as ST.
  assert (PO : forall s1, G s1 cs -> sR s s1 -> ss_made s1 = ss_made s ->
    ss_counted s1 = ss_counted s -> forall b, pre s i p b -> pre s1 i p b).
  { intros s1 G1 R1 M1 C1 b. apply (pre_O f st n0 s0 s s1 cs cs); auto; congruence. }
  assert (UR : forall s1 o, sR s s1 -> upserted s i p r o -> upserted s1 i p r o)
    by (intros; eapply upserted_R; eauto).
  assert (AR : forall s1 k, sR s s1 -> at_id (pheap s) k p -> at_id (pheap s1) k p).
  { intros s1 k (_ & R1 & _). now apply at_id_grows. }
  destruct pc as [t|b|b q|b k|b k fd|b k fd|b|b k o|b k o sel|b k o sel cur|b rep old|b t|b b2
    |b rep|b rep|res|]; simpl in I; unfold istep in E; [..|discriminate|discriminate].
  - (* ITree *)
    destruct I as (I1 & I2 & I3 & I4 & I5 & I6).
    pose proof (tnext_good f ov (insp cs) Wf p (r_mui r) (stree s) t Cp (g_tree _ _ _ _ _ Gs) I1) as GD.
    pose proof (tnext_seen f ov (insp cs) p (r_mui r) (stree s) t Wp (g_tree _ _ _ _ _ Gs) I1) as SN.
    fold (stree s) in E.
    destruct (tnext f ov p (r_mui r) (stree s) t) as [tr t'] eqn:TN. simpl in SN.
    destruct GD as (D1 & D2 & D3 & D4 & D5 & D6); [exact I2|].
    injection E as <- <-.
    set (made' := note_made i t t' (ss_made s)).
    assert (MD : made' = ss_made s \/ made' = ss_made s ++ [i]).
    { unfold made', note_made. destruct (_ && _); auto. }
    assert (MT : In i made' <-> made t').
    { unfold made', note_made. rewrite made_has_made. rewrite made_has_made in I3, D5.
      rewrite made_has_made in D5.
      destruct (has_made t) eqn:HM.
      - rewrite D5 by easy. simpl. tauto.
      - destruct (has_made t'); simpl.
        + rewrite in_app_iff. simpl. tauto.
        + tauto. }
    destruct (G_tree_step f st s0 s cs i p r ups tr made' Gs Nc D1 D3 MD) as (G1 & R1 & O1).
    { intros q Wq X. destruct (D6 q Wq X) as [X1|[-> X1]]; [auto|]. right. split; [easy|now apply MT]. }
    set (s1 := SState (set_tree (ss_rib s) tr) (ss_ver s) (ss_log s) made' (ss_counted s)) in *.
    split; [exact G1|].
    assert (SEEN : fresh n0 i -> there f s0 p -> may_make t' = false).
    { intros X Y. apply SN; [|now apply I6]. eapply there_now; eauto. }
    cut (match t' with
         | TDone (ROk b) => pre s1 i p b
         | TDone (RErr e) => False
         | TPanic => ~ acc_safe ov p
         | _ => iI s1 i p r ups (ITree t')
         end).
    { intros X. destruct t'; try (split; [exact X|]; split; [exact R1|]; split; [exact O1|]; cbn [imu];
        lia).
      - destruct r0 as [b|]; [|easy].
        destruct (begin_upsert_ok s1 cs i p r ups b G1 Wp X I4 (ss_rib s) ST eq_refl) as [X1 X2].
        split; [exact X1|]. split; [exact R1|]. split; [exact O1|]. cbn [imu]. lia. }
    assert (LV : live t' -> iI s1 i p r ups (ITree t')).
    { intros X. simpl. split; [exact D2|]. split; [exact X|]. split; [exact MT|]. auto. }
    destruct t'; try (apply LV; exact Logic.I); try exact D2.
    destruct r0 as [[rc ex]|]; [|exact D2]. split; [exact D2|]. simpl in *.
    split; [intros X; now apply MT|]. split; [exact I5|].
    intros X Y. specialize (SEEN X Y). now apply negb_false_iff in SEEN.
  - (* IAhead *)
    destruct I as (S & P & NL).
    destruct (rb_lsm (ss_rib s)) as [l|] eqn:L.
    2:{ pose proof (g_lsm _ _ _ _ _ Gs L). congruence. }
    injection E as <- <-. unfold persist_record_w_long_key.
    destruct (G_lsm f st s0 s cs i (lkey f p r) (r_meta r) l Gs L) as (G1 & R1 & O1 & OD).
    { intros _. exists i, p, r, ups. easy. }
    assert (D : pdom f p) by (now apply pdom_wf).
    destruct (walk_start_ok PSTRIDE PSTRIDE_nz f (pheap s) p D) as (w & E & O & L0).
    rewrite E. cbn [bind or_ipanic]. split; [exact G1|]. split; [|split; [exact R1|split; [exact O1|]]].
    + simpl. split; [congruence|]. split; [now apply PO|]. split; [exact NL|]. auto.
    + simpl. rewrite L0. lia.
  - (* IWalk *)
    destruct I as (S & P & NL & WA & PQ & FR).
    destruct (G_walk f st s0 s cs i p q Gs Wp PQ) as (h' & o & E1 & G1 & R1 & O1 & PO1 & HI & MU).
    rewrite E1 in E. injection E as <- <-. split; [exact G1|].
    assert (P1 : pre (set_rib s (set_pheap (ss_rib s) h')) i p b) by (now apply PO).
    assert (WA1 : st = WriteAhead -> on_disk (set_rib s (set_pheap (ss_rib s) h')) (lkey f p r)).
    { intros X. apply R1. now apply WA. }
    assert (HI1 : fresh n0 i -> entry0 f s0 p -> hits o = true).
    { intros X Y. apply HI; [eapply entry_now; eauto|now apply FR]. }
    destruct o as [q'|k fd].
    { split; [simpl; repeat (split; auto)|]. split; [exact R1|]. split; [exact O1|]. cbn [imu]. lia. }
    destruct fd; (split; [simpl; repeat (split; auto)|]; split; [exact R1|]; split; [exact O1|]);
      destruct q; simpl; lia.
  - (* IOutdate *)
    destruct I as (S & P & NL & WA & AT). injection E as <- <-.
    destruct (G_modify f st s0 s cs i k p set_ps_outdated (ss_ver s) Gs AT) as (G1 & R1 & O1 & AT1);
      [easy|].
    split; [exact G1|]. split; [|split; [exact R1|split; [exact O1|simpl; lia]]].
    simpl. split; [easy|]. split; [now apply (PO _ G1 R1)|]. split; [exact NL|].
    split; [intros X; apply R1; now apply WA|]. auto.
  - (* IUpsert *)
    destruct I as (S & P & NL & WA & AT & FR).
    destruct (at_id_lookup _ _ _ AT) as (v & DR & sl & LK). rewrite DR in E.
    pose proof (at_id_pfxs f _ _ _ _ _ (g_table _ _ _ _ _ Gs) LK) as PV.
    pose proof (g_recs _ _ _ _ _ Gs p) as RC. rewrite PV in RC.
    destruct (upsert_record (pv_recs v) r) as [m o] eqn:UE.
    injection E as <- <-.
    destruct (G_op f st s0 s cs i (CInsert p r ups) k p (fun v => set_recs v m) (OUp r) Gs Nc)
      as (G1 & R1 & O1 & AT1 & CA); auto.
    { now split. }
    { intros v0 X. rewrite DR in X. injection X as <-. simpl. change m with (fst (m, o)).
      rewrite <- UE. easy. }
    { intros X r0 Y. injection Y as <-. now apply WA. }
    match type of G1 with sG _ _ _ ?x _ => set (s1 := x) in * end.
    assert (P1 : pre s1 i p b) by (now apply (PO _ G1 R1)).
    assert (U1 : upserted s1 i p r o).
    { exists (ss_log s). split; [exact CA|]. rewrite <- RC, UE. easy. }
    split; [exact G1|].
    cut (iI s1 i p r ups
           match o, fd with
           | None, _ => IRoute b k fd
           | Some _, false => after_cht (rb_strat (ss_rib s)) b o false false
           | Some _, true => after_count (rb_strat (ss_rib s)) ups b k o
           end /\ imu p
           match o, fd with
           | None, _ => IRoute b k fd
           | Some _, false => after_cht (rb_strat (ss_rib s)) b o false false
           | Some _, true => after_count (rb_strat (ss_rib s)) ups b k o
           end <= 18).
    { intros [X1 X2]. split; [exact X1|]. split; [exact R1|]. split; [exact O1|]. cbn [imu]. lia. }
    rewrite ST. destruct o as [[old n]|].
    + destruct fd.
      * destruct (after_count_ok s1 i p r ups b k (Some (old, n)) S P1 AT1 U1). split; [easy|lia].
      * destruct (after_cht_ok s1 i p r ups b (Some (old, n)) false false S P1 U1); [easy|].
        split; [easy|lia].
    + split; [simpl; auto|simpl; lia].
  - (* IRoute *)
    destruct I as (S & P & AT & U & FR). injection E as <- <-.
    match goal with |- sG _ _ _ ?x _ /\ _ => set (s1 := x) end.
    destruct (G_same f st s0 s s1 cs i Gs) as (G1 & R1 & O1); [repeat (split; try easy)|].
    assert (P1 : pre s1 i p b) by (now apply (PO _ G1 R1)).
    assert (U1 : upserted s1 i p r None) by (now apply UR).
    split; [exact G1|]. rewrite ST. destruct fd.
    + destruct (after_count_ok s1 i p r ups b k None S P1 AT U1) as [X1 X2].
      split; [exact X1|]. split; [exact R1|]. split; [exact O1|]. cbn [imu]. lia.
    + split; [|split; [exact R1|split; [exact O1|simpl; lia]]].
      simpl. repeat (split; auto). intros X Y. discriminate (FR X Y).
  - (* IPrefix *)
    destruct I as (S & P & U & FR). injection E as <- <-.
    match goal with |- sG _ _ _ ?x _ /\ _ => set (s1 := x) end.
    destruct (G_same f st s0 s s1 cs i Gs) as (G1 & R1 & O1); [repeat (split; try easy)|].
    assert (P1 : pre s1 i p b) by (now apply (PO _ G1 R1)).
    assert (U1 : upserted s1 i p r None) by (now apply UR).
    split; [exact G1|]. rewrite ST.
    destruct (after_cht_ok s1 i p r ups b None true true S P1 U1) as [X1 X2].
    { intros X Y. now destruct (FR X). }
    split; [exact X1|]. split; [exact R1|]. split; [exact O1|]. cbn [imu]. lia.
  - (* IBest *)
    destruct I as (S & P & AT & U & UP).
    destruct (at_id_lookup _ _ _ AT) as (v & DR & sl & LK). rewrite DR in E.
    destruct ups as [tb|] eqn:UE; [|easy]. injection E as <- <-.
    split; [exact Gs|]. split; [simpl; auto|]. split; [apply sR_refl|]. split; [now apply sO_same|].
    simpl. lia.
  - (* ILoadSel *)
    destruct I as (S & P & AT & U & UP).
    destruct (at_id_lookup _ _ _ AT) as (v & DR & sl & LK). rewrite DR in E.
    injection E as <- <-. split; [exact Gs|]. rewrite ST.
    destruct (sel_eqb (pv_sel v) sel).
    + destruct (after_cht_ok s i p r ups b o false true S P U) as [X1 X2]; [easy|].
      split; [exact X1|]. split; [apply sR_refl|]. split; [now apply sO_same|]. cbn [imu]. lia.
    + split; [simpl; auto|]. split; [apply sR_refl|]. split; [now apply sO_same|]. simpl. lia.
  - (* ICasSel *)
    destruct I as (S & P & AT & U & UP).
    destruct (at_id_lookup _ _ _ AT) as (v & DR & sl & LK). rewrite DR in E.
    destruct ((ver s k =? fst cur) && Bool.eqb (pv_out v) (snd cur)).
    + injection E as <- <-. rewrite ST.
      destruct (G_modify f st s0 s cs i k p (fun v => PVal (pv_recs v) sel false)
        (update k (ver s k + 1) (ss_ver s)) Gs AT) as (G1 & R1 & O1 & AT1); [easy|].
      match type of G1 with sG _ _ _ ?x _ => set (s1 := x) in * end.
      assert (P1 : pre s1 i p b) by (now apply (PO _ G1 R1)).
      assert (U1 : upserted s1 i p r o) by (now apply UR).
      destruct (after_cht_ok s1 i p r ups b o false true S P1 U1) as [X1 X2]; [easy|].
      split; [exact G1|]. split; [exact X1|]. split; [exact R1|]. split; [exact O1|]. cbn [imu]. lia.
    + injection E as <- <-. split; [exact Gs|].
      split; [|split; [apply sR_refl|split; [now apply sO_same|simpl; lia]]].
      destruct P as (P1 & P2 & P3 & P4). simpl. repeat (split; auto). eauto.
  - (* IHist *)
    destruct I as (S & P & (n & U & UC) & NW).
    destruct (rb_lsm (ss_rib s)) as [l|] eqn:L.
    2:{ pose proof (g_lsm _ _ _ _ _ Gs L). congruence. }
    injection E as <- <-. unfold persist_record_w_long_key.
    destruct (G_lsm f st s0 s cs i (lkey f p (record_of (r_mui r) old))
      (r_meta (record_of (r_mui r) old)) l Gs L) as (G1 & R1 & O1 & OD); [congruence|].
    match type of G1 with sG _ _ _ ?x _ => set (s1 := x) in * end.
    assert (P1 : pre s1 i p b) by (now apply (PO _ G1 R1)).
    assert (K : kept f st s1 i p r rep).
    { unfold kept. rewrite S. exists (Some (old, n)). split; [now apply UR|]. split; [exact UC|].
      intros old' n' X. injection X as <- <-. exact OD. }
    destruct (after_upsert_ok s1 i p r ups b rep P1 K NW) as [X1 X2].
    split; [exact G1|]. split; [exact X1|]. split; [exact R1|]. split; [exact O1|]. cbn [imu]. lia.
  - (* ITree2 *)
    destruct I as (S & P & I1 & I2).
    pose proof (tnext_good f ov (insp cs) Wf p (r_mui r) (stree s) t Cp (g_tree _ _ _ _ _ Gs) I1) as GD.
    fold (stree s) in E.
    destruct (tnext f ov p (r_mui r) (stree s) t) as [tr t'] eqn:TN.
    destruct GD as (D1 & D2 & D3 & D4 & D5 & D6); [exact I2|].
    injection E as <- <-.
    destruct (G_tree_step f st s0 s cs i p r ups tr (ss_made s) Gs Nc D1 D3 (or_introl eq_refl))
      as (G1 & R1 & O1).
    { intros q Wq X. destruct (D6 q Wq X) as [X1|[-> X1]]; [auto|]. left.
      apply (inserted_present f (insp cs)). apply P. }
    change (SState (set_tree (ss_rib s) tr) (ss_ver s) (ss_log s) (ss_made s) (ss_counted s))
      with (set_rib s (set_tree (ss_rib s) tr)) in *.
    split; [exact G1|].
    assert (P1 : pre (set_rib s (set_tree (ss_rib s) tr)) i p b) by (now apply (PO _ G1 R1)).
    assert (LV : live t' -> iI (set_rib s (set_tree (ss_rib s) tr)) i p r ups (ITree2 b t')).
    { intros X. simpl. auto. }
    assert (T0 : 0 < tmu p t) by lia.
    destruct t'; try (split; [apply LV; exact Logic.I|]; split; [exact R1|]; split; [exact O1|];
      cbn [imu]; lia).
    + destruct r0 as [b2|]; [|easy]. split; [simpl; auto|]. split; [exact R1|]. split; [exact O1|].
      cbn [imu]. lia.
    + split; [exact D2|]. split; [exact R1|]. split; [exact O1|]. cbn [imu]. lia.
  - (* IShort *)
    destruct I as (S & P).
    destruct (rb_lsm (ss_rib s)) as [l|] eqn:L.
    2:{ pose proof (g_lsm _ _ _ _ _ Gs L). congruence. }
    injection E as <- <-. unfold persist_record_w_short_key.
    match goal with |- context [kv_insert ?k ?v l] =>
      destruct (G_lsm f st s0 s cs i k v l Gs L) as (G1 & R1 & O1 & OD); [congruence|] end.
    match type of G1 with sG _ _ _ ?x _ => set (s1 := x) in * end.
    assert (P1 : pre s1 i p b) by (now apply (PO _ G1 R1)).
    assert (K : kept f st s1 i p r (Report (fst b2) (snd b2) true 0)) by (unfold kept; now rewrite S).
    destruct (after_upsert_ok s1 i p r ups b (Report (fst b2) (snd b2) true 0) P1 K) as [X1 X2].
    { intros X. easy. }
    split; [exact G1|]. split; [exact X1|]. split; [exact R1|]. split; [exact O1|]. cbn [imu]. lia.
  - (* IRibRoute *)
    destruct I as (P & K & NW). injection E as <- <-.
    match goal with |- sG _ _ _ ?x _ /\ _ => set (s1 := x) end.
    destruct (G_same f st s0 s s1 cs i Gs) as (G1 & R1 & O1); [repeat (split; try easy)|].
    assert (P1 : pre s1 i p b) by (now apply (PO _ G1 R1)).
    assert (K1 : kept f st s1 i p r rep) by (eapply kept_R; eauto).
    destruct (after_route_ok s1 i p r ups b rep P1 K1 NW) as [X1 X2].
    split; [exact G1|]. split; [exact X1|]. split; [exact R1|]. split; [exact O1|]. cbn [imu]. lia.
  - (* IRibPrefix *)
    destruct I as (P & K & B). injection E as <- <-. pose proof P as (P1 & P2 & P3 & P4).
    destruct (G_count f st s0 s cs i p r ups Gs Nc Wp P3) as (G1 & R1 & O1).
    match type of G1 with sG _ _ _ ?x _ => set (s1 := x) in * end.
    assert (K1 : kept f st s1 i p r rep) by (eapply kept_R; eauto).
    split; [exact G1|]. split; [|split; [exact R1|split; [exact O1|simpl; lia]]].
    split; [exact P1|]. split; [exact K1|].
    split; [intros _; apply in_or_app; right; now left|]. split; [easy|].
    split; [intros X Y; rewrite (P4 X Y) in B; discriminate|].
    intros _ X Y. rewrite (P4 X Y) in B. discriminate.
Qed.

End Ins.
