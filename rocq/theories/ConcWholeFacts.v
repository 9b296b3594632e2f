(* The whole store after concurrent calls answers as after the same calls one
   after the other. *)
From Coq Require Import Arith NArith List Bool Lia.
From Verif Require Import Word Af BitSpan Spec Maps ChtMath Cht Node Tree ChainProofs TreeProofs
  MultiMap PrefixCht PrefixChtProofs Lsm Rib StarCast RibProofs RibLsm RibOk HistSpec Ask Queries Facts1 SameSpec SameProofs
  Conc ConcTree ConcTreeProofs ConcTreeInv ConcStore
  ConcMarks ConcStoreInv ConcCalls ConcSpec ConcFacts ConcOnly ConcSerial ConcQuiet AloneSpec ConcAlone ConcSolo
  ConcWhole WholeSpec ConcWholeSim.
Import ListNotations.
Local Open Scope N_scope.

(* ---------- the part of a history that concerns one family ---------- *)

Definition belongs (f : af) (e : nat * op) : bool :=
  match snd e with
  | Insert p _ _ | MarkWithdrawn p _ _ | MarkActive p _ _ => af_eqb f (fst p)
  | _ => false
  end.
Definition part (f : af) (h : list (nat * op)) : list (nat * op) := filter (belongs f) h.

Lemma af_refl f : af_eqb f f = true. Proof. now destruct f. Qed.
Lemma family_eq f p q : prefix_eqb (f, p) q = af_eqb f (fst q) && pid_eqb p (snd q).
Proof. reflexivity. Qed.

Ltac part_cases IH := match goal with |- context [belongs ?f (?i, ?o)] =>
  let Q := fresh "Q" in destruct (belongs f (i, o)) eqn:Q; unfold belongs in Q; cbn [snd] in Q end.

Lemma part_last f p m h : last_rec (List.map snd (part f h)) (f, p) m = last_rec (List.map snd h) (f, p) m.
Proof.
  induction h as [|[i o] h IH]; [easy|]. unfold part in *. cbn [filter].
  destruct (belongs f (i, o)) eqn:Q; cbn [List.map snd last_rec].
  - destruct o; auto; rewrite IH; reflexivity.
  - rewrite IH. unfold belongs in Q. cbn [snd] in Q.
    destruct o; auto; rewrite family_eq, Q; reflexivity.
Qed.
Lemma part_po f p m h : po_rec (List.map snd (part f h)) (f, p) m = po_rec (List.map snd h) (f, p) m.
Proof.
  induction h as [|[i o] h IH]; [easy|]. unfold part in *. cbn [filter].
  destruct (belongs f (i, o)) eqn:Q; cbn [List.map snd po_rec].
  - destruct o; auto; rewrite IH; reflexivity.
  - rewrite IH. unfold belongs in Q. cbn [snd] in Q.
    destruct o; auto; rewrite family_eq, Q; reflexivity.
Qed.
Lemma part_inserted f p h : HistSpec.inserted (List.map snd (part f h)) (f, p) =
  HistSpec.inserted (List.map snd h) (f, p).
Proof.
  induction h as [|[i o] h IH]; [easy|]. unfold part, HistSpec.inserted in *. cbn [filter].
  destruct (belongs f (i, o)) eqn:Q; cbn [List.map snd existsb]; rewrite IH; [reflexivity|].
  unfold belongs in Q. cbn [snd] in Q. destruct o; auto; rewrite family_eq, Q; reflexivity.
Qed.
Lemma part_via f id m h : via (List.map snd (part f h)) f id m = via (List.map snd h) f id m.
Proof.
  unfold via. f_equal. induction h as [|[i o] h IH]; [easy|]. unfold part in *. cbn [filter].
  destruct (belongs f (i, o)) eqn:Q; cbn [List.map snd existsb]; rewrite IH; [reflexivity|].
  unfold belongs in Q. cbn [snd] in Q. destruct o; auto; rewrite Q; reflexivity.
Qed.
Lemma part_visited f id h : visited (List.map snd (part f h)) f id = visited (List.map snd h) f id.
Proof.
  unfold visited. f_equal. induction h as [|[i o] h IH]; [easy|]. unfold part in *. cbn [filter].
  destruct (belongs f (i, o)) eqn:Q; cbn [List.map snd existsb]; rewrite IH; [reflexivity|].
  unfold belongs in Q. cbn [snd] in Q. destruct o; auto; rewrite Q; reflexivity.
Qed.

Lemma part_app f a b : part f (a ++ b) = part f a ++ part f b.
Proof. apply filter_app. Qed.
Lemma part_own f d : (forall e, In e d -> belongs f e = true) -> part f d = d.
Proof.
  induction d as [|e d IH]; intros H; [easy|]. unfold part in *. cbn [filter].
  rewrite H by (now left). f_equal. apply IH. intros e' I. apply H. now right.
Qed.
Lemma part_none f d : (forall e, In e d -> belongs f e = false) -> part f d = [].
Proof.
  induction d as [|e d IH]; intros H; [easy|]. unfold part in *. cbn [filter].
  rewrite H by (now left). apply IH. intros e' I. apply H. now right.
Qed.
Lemma belongs_one f g e : belongs f e = true -> belongs g e = true -> f = g.
Proof. unfold belongs. destruct (snd e); try discriminate; destruct f, g, (fst p); easy. Qed.
Lemma belongs_global f e : belongs f e = true -> is_global e = false.
Proof. unfold belongs, is_global. now destruct (snd e). Qed.

(* marks of prefixes and inserts do not change the global marks *)
Lemma gw_app f m : forall d h, (forall e, In e d -> is_global e = false) ->
  g_withdrawn (List.map snd (d ++ h)) f m = g_withdrawn (List.map snd h) f m.
Proof.
  induction d as [|[i o] d IH]; intros h H; [easy|]. cbn [app List.map snd g_withdrawn].
  pose proof (H _ (or_introl eq_refl)) as Q. unfold is_global in Q. cbn [snd] in Q.
  destruct o; try discriminate; apply IH; intros e I; apply H; now right.
Qed.

Lemma filters_NoDup {A} (ps : list (A -> bool)) h : (forall e, In e h -> exists p, In p ps /\ p e = true) ->
  (forall p, In p ps -> NoDup (filter p h)) -> NoDup h.
Proof.
  induction h as [|a h IH]; intros C N; [constructor|]. constructor.
  - intros I. destruct (C a (or_introl eq_refl)) as (p & Ip & Pa). specialize (N p Ip). cbn [filter] in N.
    rewrite Pa in N. inversion N as [|? ? X Y]; subst. apply X. now apply filter_In.
  - apply IH.
    + intros e I. apply C. now right.
    + intros p Ip. specialize (N p Ip). cbn [filter] in N. destruct (p a); [now inversion N|easy].
Qed.

(* ---------- the history of one family ---------- *)

Definition good (st : strategy) (f : af) (x : cstore) (h : list (nat * op)) : Prop :=
  match st with PersistOnly => sinv f x h | _ => h = hist f x end.

Lemma good_calls ov st f x h : reach f ov st x -> good st f x h ->
  forall i o, In (i, o) h -> exists c, started x i c /\ as_op f c = Some o.
Proof.
  intros R G. assert (M : st <> PersistOnly -> h = hist f x -> forall i o, In (i, o) h ->
    exists c, started x i c /\ as_op f c = Some o).
  { intros NP ->. exact (so_calls _ _ _ (hist_order f ov st x R NP)). }
  destruct st; try (apply M; [discriminate|exact G]). exact (si_calls _ _ _ G).
Qed.
Lemma good_once ov st f x h : reach f ov st x -> good st f x h -> NoDup (List.map fst h).
Proof.
  intros R G. assert (M : st <> PersistOnly -> h = hist f x -> NoDup (List.map fst h)).
  { intros NP ->. exact (so_once _ _ _ (hist_order f ov st x R NP)). }
  destruct st; try (apply M; [discriminate|exact G]). exact (si_once _ _ _ G).
Qed.
Lemma as_op_belongs f c o i : as_op f c = Some o -> belongs f (i, o) = true.
Proof.
  destruct c as [p r ups|sm p m t|p|p m iw]; try discriminate.
  - intros E. injection E as <-. apply af_refl.
  - destruct sm; intros E; injection E as <-; apply af_refl.
Qed.
Lemma good_belongs ov st f x h : reach f ov st x -> good st f x h -> forall e, In e h -> belongs f e = true.
Proof.
  intros R G [i o] I. destruct (good_calls _ _ _ _ _ R G _ _ I) as (c & _ & E). exact (as_op_belongs _ _ _ _ E).
Qed.

Lemma good_init f st rb : rib_init f st = Ok rb -> good st f (sconf0 rb) [].
Proof. intros E. destruct st; try reflexivity. exact (sinv_init f rb E). Qed.

Lemma good_exec ov st f x y h : reach f ov st x -> good st f x h -> sexec f ov x y ->
  (st = PersistOnly -> wf_calls y /\ no_activations y) -> exists d, good st f y (d ++ h).
Proof.
  intros R G E C.
  assert (M : st <> PersistOnly -> h = hist f x -> exists d, d ++ h = hist f y).
  { intros NP ->. destruct (hist_extends f ov st x y R E) as (d & H). exists d. now rewrite H. }
  destruct st; try (apply M; [discriminate|exact G]).
  destruct (C eq_refl) as [W NA]. exact (sinv_exec f ov x h R G y E W NA).
Qed.

Lemma good_order ov st f x h : reach f ov st x -> good st f x h -> (st = PersistOnly -> wf_calls x) ->
  serial_order f x h.
Proof.
  intros R G W. assert (M : st <> PersistOnly -> h = hist f x -> serial_order f x h).
  { intros NP ->. exact (hist_order f ov st x R NP). }
  destruct st; try (apply M; [discriminate|exact G]). exact (sinv_serial f ov x h R (W eq_refl) G).
Qed.

Lemma good_ans ov st f x h : reach f ov st x -> good st f x h -> (st = PersistOnly -> wf_calls x) -> idle x ->
  rib_ans st f (List.map snd h) (ss_rib (sh x)).
Proof.
  intros R G W Id. assert (M : st <> PersistOnly -> h = hist f x -> rib_ans st f (List.map snd h) (ss_rib (sh x))).
  { intros NP ->. exact (hist_ans f ov st x R NP Id). }
  destruct st; try (apply M; [discriminate|exact G]). exact (sinv_ans f ov x h R (W eq_refl) G Id).
Qed.

(* ---------- from the calls of a family to those of the store ---------- *)

Lemma sim_started st f w x i c o : sim st f w x -> started x i c -> as_op f c = Some o ->
  wstarted w i (WStore f c).
Proof.
  intros [_ F] (l & N) O. destruct (Forall2_nth_r _ _ _ _ _ F N) as ([c' l'] & N' & P).
  unfold pj in P. cbn [fst snd] in P. destruct c' as [g c'|g wd m|m].
  - destruct (af_eqb g f) eqn:Q.
    + apply af_eqb_spec in Q. subst g. exists l'.
      destruct l'; try contradiction P.
      * destruct P as [E _]. now injection E as -> _.
      * destruct P as [E _]. now injection E as -> _.
      * destruct P as [E _]. now injection E as -> _.
      * destruct P as [E _]. cbn in E. now subst c'.
      * destruct P as [E _]. cbn in E. now subst c'.
    + destruct P as [E _]. cbn in E. subst c. discriminate O.
  - destruct P as [E _]. cbn in E. subst c. discriminate O.
  - destruct P as [E _]. cbn in E. subst c. discriminate O.
Qed.
Lemma sim_wf st f w x : sim st f w x -> wwf_calls w -> wf_calls x.
Proof.
  intros S W. split.
  - intros i p r ups B. exact (W _ _ (sim_started st f w x i _ _ S B eq_refl)).
  - intros i sm p m t B.
    assert (O : exists o, as_op f (CMark sm p m t) = Some o) by (destruct sm; eexists; reflexivity).
    destruct O as (o & O). exact (W _ _ (sim_started st f w x i _ _ S B O)).
Qed.
Lemma sim_activations st f w x : sim st f w x -> wno_activations w -> no_activations x.
Proof. intros S W i p m t B. exact (W _ _ _ _ _ (sim_started st f w x i _ _ S B eq_refl)). Qed.

Lemma sim_returned st f w x i c v : sim st f w x -> wreturned w i (WStore f c) (RetCall v) -> v <> RetPanic ->
  returned x i c v.
Proof.
  intros S (l & N & V) NP. destruct (nth_pj st f w x i _ _ S N) as (u & Nu & P).
  unfold pj in P. cbn [fst snd] in P. rewrite af_refl in P.
  destruct l; try discriminate V.
  - destruct P as [-> _]. exists l. split; [exact Nu|]. cbn [wret_of] in V. destruct (ret_of l); [|discriminate].
    now injection V as ->.
  - injection V as <-. now elim NP.
  - contradiction P.
  - contradiction P.
Qed.

Lemma sim_idle st f w x : sim st f w x -> widle w -> idle x.
Proof.
  intros S Id i c (l & N). destruct S as [Es F]. destruct (Forall2_nth_r _ _ _ _ _ F N) as ([c' l'] & N' & P).
  destruct (Id i c' (ex_intro _ _ N')) as (v & (l1 & N1 & V) & NV).
  rewrite N' in N1. injection N1 as <-.
  assert (El : elsewhere (c, l) -> exists v0, returned x i c v0 /\ v0 <> RetPanic).
  { intros [_ [b B]]. cbn in B. subst l. exists (RetHas b). split; [|discriminate]. exists (LHas (XDone b)). easy. }
  unfold pj in P. cbn [fst snd] in P. destruct c' as [g c'|g wd m|m]; [|exact (El P)..].
  destruct (af_eqb g f); [|exact (El P)].
  destruct l'; try discriminate V; try contradiction P.
  - destruct P as [E _]. injection E as <- <-. cbn [wret_of] in V. destruct (ret_of l) as [v0|] eqn:Rv; [|discriminate].
    injection V as <-. exists v0. split; [now exists l|]. intros ->. now elim NV.
  - destruct P as (_ & [o O] & _). cbn in O. subst l. exists (RetRecs o). split; [|discriminate].
    exists (LVal (VDone o)). easy.
  - destruct P as (_ & [o O] & _). cbn in O. subst l. exists (RetRecs o). split; [|discriminate].
    exists (LVal (VDone o)). easy.
Qed.

(* ---------- the invariant ---------- *)

Definition gok (s : gstate) (c : gcall) (g : ConcMarks.gpc) : Prop :=
  match g with
  | GCas current new failed => current <= ConcMarks.g_ptr s /\ (current = ConcMarks.g_ptr s -> new = apply_mark c (g_set s))
  | _ => True
  end.
Definition gth (s : wstate) (h : list (nat * op)) (i : nat) (c : wcall) (l : wpc) : Prop :=
  match c, l with
  | WStore _ _, _ => forall o, is_global (i, o) = true -> ~ In (i, o) h
  | WGlobal f wd m, WMark g => gok (marks s f) (wd, m) g /\
      (In (i, global_op f wd m) h <-> g = GDone)
  | WBoth m, WMark2 f g => gok (marks s f) (true, m) g /\
      (In (i, GlobalWithdrawn IPv4 m) h <-> f = IPv6) /\
      (In (i, GlobalWithdrawn IPv6 m) h <-> f = IPv6 /\ g = GDone) /\
      (f = IPv4 -> g <> GDone)
  | _, _ => False
  end.

Record winv (ov : bool) (st : strategy) (w : wstore) (h : list (nat * op)) : Prop := {
  wv_fam : forall f, exists x, reach f ov st x /\ sim st f w x /\ good st f x (part f h);
  wv_set : forall f m, mem m (g_set (marks (sh w) f)) = g_withdrawn (List.map snd h) f m;
  wv_ids : NoDup (filter is_global h);
  wv_kinds : forall e, In e h -> is_global e = true \/ exists f, belongs f e = true;
  wv_global : forall i o, In (i, o) h -> is_global (i, o) = true -> exists c, wstarted w i c /\ In o (as_ops c);
  wv_th : forall i c l, nth_error (ths w) i = Some (c, l) -> gth (sh w) h i c l
}.

Lemma wstarted_exec ov x y i c : wexec ov x y -> wstarted x i c -> wstarted y i c.
Proof. intros E (l & N). destruct (exec_call _ _ _ x y i c l E N) as [l' N']. now exists l'. Qed.

Lemma mem_apply wd m n s : mem n (apply_mark (wd, m) s) = if n =? m then wd else mem n s.
Proof.
  unfold apply_mark. cbn [fst snd]. destruct wd.
  - rewrite mem_insert. now destruct (n =? m).
  - rewrite mem_remove. now destruct (n =? m).
Qed.

Lemma gth_ext s h h' i c l : (forall o, is_global (i, o) = true -> (In (i, o) h <-> In (i, o) h')) ->
  gth s h i c l -> gth s h' i c l.
Proof.
  intros E. unfold gth. destruct c as [g c|g wd m|m].
  - intros H o Q I. apply (H o Q). now apply E.
  - destruct l; try easy. intros [A B]. split; [exact A|]. rewrite <- E; [exact B|]. now destruct wd.
  - destruct l; try easy. intros (A & B & C & D). split; [exact A|]. split; [|split; [|exact D]]; rewrite <- E; easy.
Qed.

(* the histories of the two families grow by themselves *)
Lemma winv_join ov st w w' h dg : winv ov st w h -> cstep wstart wlegal (wstep ov) w w' ->
  (st = PersistOnly -> wwf_calls w' /\ wno_activations w') ->
  (forall e, In e dg -> is_global e = true) ->
  (forall f m, mem m (g_set (marks (sh w') f)) = g_withdrawn (List.map snd (dg ++ h)) f m) ->
  NoDup (filter is_global (dg ++ h)) ->
  (forall i o, In (i, o) dg -> exists c, wstarted w' i c /\ In o (as_ops c)) ->
  (forall i c l, nth_error (ths w') i = Some (c, l) -> gth (sh w') (dg ++ h) i c l) ->
  exists d, winv ov st w' (d ++ h).
Proof.
  intros V T C Gd Gs Gn Gc Gt. destruct V as [A _ _ K G _].
  assert (F : forall f, exists x d, reach f ov st x /\ sim st f w' x /\ good st f x (d ++ part f h) /\
    forall e, In e d -> belongs f e = true).
  { intros f. destruct (A f) as (x & R & S & Gx). destruct (sim_step ov st f w w' x R S T) as (x' & E & S').
    destruct (good_exec ov st f x x' _ R Gx E) as (d & Gy).
    - intros Eo. destruct (C Eo) as [W NA]. split; [exact (sim_wf _ _ _ _ S' W)|exact (sim_activations _ _ _ _ S' NA)].
    - exists x', d. pose proof (reach_exec _ _ _ _ _ R E) as R'. split; [exact R'|]. split; [exact S'|]. split; [exact Gy|].
      intros e I. apply (good_belongs _ _ _ _ _ R' Gy). apply in_or_app. now left. }
  destruct (F IPv4) as (x4 & d4 & R4 & S4 & G4 & B4). destruct (F IPv6) as (x6 & d6 & R6 & S6 & G6 & B6).
  assert (Dg : forall f, part f dg = []).
  { intros f. apply part_none. intros e I. destruct (belongs f e) eqn:Q; [|easy].
    apply belongs_global in Q. rewrite (Gd e I) in Q. discriminate. }
  assert (D46 : part IPv4 d6 = []).
  { apply part_none. intros e I. destruct (belongs IPv4 e) eqn:Q; [|easy].
    pose proof (belongs_one _ _ _ Q (B6 e I)). discriminate. }
  assert (D64 : part IPv6 d4 = []).
  { apply part_none. intros e I. destruct (belongs IPv6 e) eqn:Q; [|easy].
    pose proof (belongs_one _ _ _ Q (B4 e I)). discriminate. }
  assert (NG4 : forall e, In e d4 -> is_global e = false) by (intros e I; exact (belongs_global _ _ (B4 e I))).
  assert (NG6 : forall e, In e d6 -> is_global e = false) by (intros e I; exact (belongs_global _ _ (B6 e I))).
  assert (InG : forall i o, is_global (i, o) = true -> (In (i, o) (dg ++ h) <-> In (i, o) ((d4 ++ d6 ++ dg) ++ h))).
  { intros i o Q. rewrite !in_app_iff. split; [intros [I|I]; auto|]. intros [[I|[I|I]]|I]; auto.
    - rewrite (NG4 _ I) in Q. discriminate.
    - rewrite (NG6 _ I) in Q. discriminate. }
  assert (FN : forall d, (forall e, In e d -> is_global e = false) -> filter is_global d = []).
  { induction d as [|e d IH]; intros X; [easy|]. cbn. rewrite X by (now left). apply IH. intros e' I. apply X. now right. }
  exists (d4 ++ d6 ++ dg). split.
  - intros [|].
    + exists x4. split; [exact R4|]. split; [exact S4|].
      rewrite !part_app, (part_own IPv4 d4 B4), D46, Dg, !app_nil_r. exact G4.
    + exists x6. split; [exact R6|]. split; [exact S6|].
      rewrite !part_app, (part_own IPv6 d6 B6), D64, Dg, !app_nil_r. exact G6.
  - intros f m. rewrite Gs. rewrite <- !app_assoc. rewrite (gw_app f m d4) by exact NG4.
    now rewrite (gw_app f m d6) by exact NG6.
  - rewrite !filter_app, (FN d4 NG4), (FN d6 NG6). cbn [app]. now rewrite filter_app in Gn.
  - intros e I. rewrite !in_app_iff in I. destruct I as [[I|[I|I]]|I]; eauto.
  - intros i o I Q. apply InG in I; [|exact Q]. apply in_app_or in I. destruct I as [I|I]; [eauto|].
    destruct (G i o I Q) as (c & S & O). exists c. split; [|exact O].
    eapply wstarted_exec; [|exact S]. apply exec_one. exact T.
  - intros i c l N. eapply gth_ext; [|exact (Gt i c l N)]. exact (InG i).
Qed.

Lemma gok_other s g n c i : (forall cur new fl, g = GCas cur new fl -> cur <= ConcMarks.g_ptr s) ->
  gok (GState n (ConcMarks.g_ptr s + 1) (ConcMarks.g_log s ++ i)) c g.
Proof.
  intros H. destruct g as [|cur new fl|]; cbn; auto. specialize (H _ _ _ eq_refl). split; [lia|]. intros E. lia.
Qed.
Lemma gok_le s c g : gok s c g -> forall cur new fl, g = GCas cur new fl -> cur <= ConcMarks.g_ptr s.
Proof. intros G cur new fl ->. apply G. Qed.

(* the marks of the others still stand after one has succeeded *)
Lemma gth_cas s f new i0 c0 i h j c l : i <> j -> gth s h j c l ->
  gth (set_marks s f (GState new (ConcMarks.g_ptr (marks s f) + 1) (ConcMarks.g_log (marks s f) ++ [(i0, c0)]))) h j c l.
Proof.
  intros NE. unfold gth. destruct c as [g c|g wd m|m]; [easy| |].
  - destruct l; try easy. intros [A B]. split; [|exact B].
    destruct (af_eqb f g) eqn:Q.
    + apply af_eqb_spec in Q. subst g. rewrite marks_set_same. apply gok_other. exact (gok_le _ _ _ A).
    + now rewrite marks_set_other.
  - destruct l; try easy. intros [A B]. split; [|exact B].
    destruct (af_eqb f f0) eqn:Q.
    + apply af_eqb_spec in Q. subst f0. rewrite marks_set_same. apply gok_other. exact (gok_le _ _ _ A).
    + now rewrite marks_set_other.
Qed.

Lemma gw_cons f g wd m n (h : list (nat * op)) (i : nat) : g_withdrawn (List.map snd ((i, global_op g wd m) :: h)) f n =
  if af_eqb f g && (n =? m) then wd else g_withdrawn (List.map snd h) f n.
Proof. cbn [List.map snd]. unfold global_op. destruct wd; reflexivity. Qed.

(* a mark succeeds *)
Lemma winv_mark ov st s ts i c l h f wd m fl cur new l' :
  winv ov st (Conf s ts) h -> nth_error ts i = Some (c, l) ->
  let s' := set_marks s f (GState new (ConcMarks.g_ptr (marks s f) + 1) (ConcMarks.g_log (marks s f) ++ [(i, (wd, m))])) in
  wstep ov i s c l = Some (s', l') ->
  (st = PersistOnly -> wwf_calls (Conf s' (set_nth i (c, l') ts)) /\ wno_activations (Conf s' (set_nth i (c, l') ts))) ->
  gok (marks s f) (wd, m) (GCas cur new fl) -> ConcMarks.g_ptr (marks s f) = cur ->
  In (global_op f wd m) (as_ops c) -> ~ In (i, global_op f wd m) h ->
  gth s' ((i, global_op f wd m) :: h) i c l' ->
  exists d, winv ov st (Conf s' (set_nth i (c, l') ts)) (d ++ h).
Proof.
  intros V N s' T C [Go1 Go2] P Op NI Gt.
  assert (Li : (i < length ts)%nat) by (eapply nth_some_lt; eauto).
  assert (Cs : cstep wstart wlegal (wstep ov) (Conf s ts) (Conf s' (set_nth i (c, l') ts))) by (econstructor; eauto).
  assert (Ig : forall j, is_global (j, global_op f wd m) = true) by (intros j; now destruct wd).
  apply (winv_join ov st (Conf s ts) (Conf s' (set_nth i (c, l') ts)) h [(i, global_op f wd m)] V Cs C).
  - intros e [<-|[]]. apply Ig.
  - intros g n. cbn [app sh]. rewrite gw_cons. subst s'.
    destruct (af_eqb g f) eqn:Q.
    + apply af_eqb_spec in Q. subst g. rewrite marks_set_same. cbn [g_set andb].
      rewrite (Go2 (eq_sym P)), mem_apply. destruct (n =? m); [easy|]. exact (wv_set _ _ _ _ V f n).
    + rewrite marks_set_other by (now destruct f, g). exact (wv_set _ _ _ _ V g n).
  - cbn [app filter]. rewrite Ig. constructor; [|exact (wv_ids _ _ _ _ V)]. rewrite filter_In. tauto.
  - intros j o [E|[]]. injection E as <- <-. exists c. split; [|exact Op]. exists l'. cbn [ths].
    rewrite nth_set_nth by easy. now rewrite Nat.eqb_refl.
  - intros j c1 l1 N1. cbn [ths sh app] in *. rewrite nth_set_nth in N1 by easy.
    destruct (Nat.eqb_spec i j) as [->|NE].
    + injection N1 as <- <-. exact Gt.
    + pose proof (wv_th _ _ _ _ V j c1 l1 N1) as Old. cbn [sh] in Old.
      apply (gth_cas s f new i (wd, m) i h j c1 l1 NE) in Old.
      eapply gth_ext; [|exact Old]. intros o Q. cbn [In]. split; [now right|].
      intros [E|I]; [|exact I]. injection E as -> _. now elim NE.
Qed.

(* nothing happens to the marks *)
Lemma winv_keep ov st s ts i c l s' l' h : winv ov st (Conf s ts) h -> nth_error ts i = Some (c, l) ->
  wstep ov i s c l = Some (s', l') ->
  (st = PersistOnly -> wwf_calls (Conf s' (set_nth i (c, l') ts)) /\ wno_activations (Conf s' (set_nth i (c, l') ts))) ->
  (forall f, marks s' f = marks s f) -> gth s h i c l' ->
  exists d, winv ov st (Conf s' (set_nth i (c, l') ts)) (d ++ h).
Proof.
  intros V N T C M Gt.
  assert (Li : (i < length ts)%nat) by (eapply nth_some_lt; eauto).
  assert (Cs : cstep wstart wlegal (wstep ov) (Conf s ts) (Conf s' (set_nth i (c, l') ts))) by (econstructor; eauto).
  assert (Gm : forall j c1 l1, gth s h j c1 l1 -> gth s' h j c1 l1).
  { intros j c1 l1. unfold gth. destruct c1 as [g c1|g wd m|m]; [easy| |]; destruct l1; try easy; now rewrite M. }
  apply (winv_join ov st (Conf s ts) (Conf s' (set_nth i (c, l') ts)) h [] V Cs C).
  - intros e [].
  - intros f m. cbn [sh app]. rewrite M. exact (wv_set _ _ _ _ V f m).
  - exact (wv_ids _ _ _ _ V).
  - intros j o [].
  - intros j c1 l1 N1. cbn [ths sh app] in *. rewrite nth_set_nth in N1 by easy.
    destruct (Nat.eqb_spec i j) as [->|NE].
    + injection N1 as <- <-. now apply Gm.
    + apply Gm. exact (wv_th _ _ _ _ V j c1 l1 N1).
Qed.

Lemma marks_same s f x g : x = marks s f -> marks (set_marks s f x) g = marks s g.
Proof. intros ->. now destruct f, g. Qed.

Lemma winv_step ov st w w' h : winv ov st w h -> cstep wstart wlegal (wstep ov) w w' ->
  (st = PersistOnly -> wwf_calls w' /\ wno_activations w') -> exists d, winv ov st w' (d ++ h).
Proof.
  intros V T C. destruct T as [s ts c Lc|s ts i c l s' l' N T].
  - apply (winv_join ov st (Conf s ts) _ h [] V); [now constructor|exact C|easy|exact (wv_set _ _ _ _ V)|exact (wv_ids _ _ _ _ V)|easy|].
    intros j c1 l1 N1. cbn [ths sh app] in *. destruct (Nat.lt_ge_cases j (length ts)) as [H|H].
    + rewrite nth_error_app1 in N1 by easy. exact (wv_th _ _ _ _ V j c1 l1 N1).
    + rewrite nth_error_app2 in N1 by easy. destruct (j - length ts)%nat as [|n] eqn:D; simpl in N1; [|now destruct n].
      injection N1 as <- <-.
      assert (NI : forall o, ~ In (j, o) h \/ is_global (j, o) = false).
      { intros o. destruct (is_global (j, o)) eqn:Q; [left|now right]. intros I.
        destruct (wv_global _ _ _ _ V j o I Q) as (c1 & (l1 & N1) & _). cbn [ths] in N1.
        apply nth_some_lt in N1. lia. }
      assert (NI' : forall o, is_global (j, o) = true -> ~ In (j, o) h).
      { intros o Q. destruct (NI o); [easy|congruence]. }
      unfold gth. destruct c as [g c|g wd m|m]; cbn [wstart].
      * exact NI'.
      * split; [exact Logic.I|]. split; [|discriminate]. intros I. exfalso. eapply NI'; [|exact I]. now destruct wd.
      * split; [exact Logic.I|]. split; [|split; [|discriminate]].
        -- split; [|discriminate]. intros I. exfalso. eapply NI'; [|exact I]. reflexivity.
        -- split; [|intros [X _]; discriminate X]. intros I. exfalso. eapply NI'; [|exact I]. reflexivity.
  - pose proof (wv_th _ _ _ _ V i c l N) as Gt. cbn [sh ths] in *.
    destruct c as [g c|g wd m|m].
    + apply (winv_keep ov st s ts i (WStore g c) l s' l' h V N T C); [|exact Gt].
      intros f. destruct l; cbn [wstep] in T; destruct c; try discriminate T;
        try (injection T as <- <-; reflexivity);
        destruct (ststep g ov i (fam s g) _ _) as [[x1 l1]|]; try discriminate T;
        injection T as <- <-; apply marks_fam.
    + cbn [gth] in Gt. destruct l as [| | | | |q|]; try contradiction Gt. destruct Gt as [Go In1]. pose proof T as T0.
      cbn [wstep] in T.
      destruct q as [|cur new fl|]; cbn [gstep] in T; [| |discriminate T].
      * injection T as <- <-. eapply winv_keep; eauto.
        -- intros f. now apply marks_same.
        -- split; [|split; [|discriminate]].
           ++ split; [apply N.le_refl|]. easy.
           ++ intros I. apply In1 in I. discriminate I.
      * destruct (N.eqb_spec (ConcMarks.g_ptr (marks s g)) cur) as [P|P]; injection T as <- <-.
        -- eapply winv_mark; eauto.
           ++ now left.
           ++ intros I. apply In1 in I. discriminate I.
           ++ split; [exact Logic.I|]. split; [reflexivity|]. intros _. now left.
        -- eapply winv_keep; eauto.
           ++ intros f. now apply marks_same.
           ++ split; [|split; [|discriminate]].
              ** split; [apply Go|]. intros E. now elim P.
              ** intros I. apply In1 in I. discriminate I.
    + cbn [gth] in Gt. destruct l as [| | | | | |f q]; try contradiction Gt. destruct Gt as (Go & In1 & In2 & Nd). pose proof T as T0.
      cbn [wstep] in T.
      destruct q as [|cur new fl|]; cbn [gstep] in T; [| |discriminate T].
      * injection T as <- <-. replace (match f with IPv4 | _ => WMark2 f (GCas (ConcMarks.g_ptr (marks s f)) (apply_mark (true, m) (g_set (marks s f))) false) end)
          with (WMark2 f (GCas (ConcMarks.g_ptr (marks s f)) (apply_mark (true, m) (g_set (marks s f))) false)) in * by (now destruct f).
        eapply winv_keep; eauto.
        -- intros f'. now apply marks_same.
        -- split; [split; [apply N.le_refl|easy]|]. split; [exact In1|]. split; [|discriminate].
           split; [|intros [_ X]; discriminate X]. intros I. apply In2 in I. destruct I as [_ I]. discriminate I.
      * destruct (N.eqb_spec (ConcMarks.g_ptr (marks s f)) cur) as [P|P]; injection T as <- <-.
        -- destruct f.
           ++ eapply (winv_mark ov st s ts i (WBoth m) _ h IPv4 true m); eauto.
              ** now left.
              ** intros I. apply In1 in I. discriminate I.
              ** split; [exact Logic.I|]. split; [|split; [|discriminate]].
                 --- split; [reflexivity|]. intros _. now left.
                 --- split; [|intros [_ X]; discriminate X]. intros [I|I]; [discriminate I|].
                     apply In2 in I. destruct I as [I _]. discriminate I.
           ++ eapply (winv_mark ov st s ts i (WBoth m) _ h IPv6 true m); eauto.
              ** right. now left.
              ** intros I. apply In2 in I. destruct I as [_ I]. discriminate I.
              ** split; [exact Logic.I|]. split; [|split; [|discriminate]].
                 --- split; [reflexivity|]. intros _. right. now apply In1.
                 --- split; [easy|]. intros _. now left.
        -- replace (match f with IPv4 | _ => WMark2 f (GCas cur (g_set (marks s f)) true) end)
             with (WMark2 f (GCas cur (g_set (marks s f)) true)) in * by (now destruct f).
           eapply winv_keep; eauto.
           ++ intros f'. now apply marks_same.
           ++ split; [|split; [exact In1|split; [|discriminate]]].
              ** split; [apply Go|]. intros E. now elim P.
              ** split; [|intros [_ X]; discriminate X]. intros I. apply In2 in I. destruct I as [_ I]. discriminate I.
Qed.

(* ---------- what follows ---------- *)

Lemma winv_init ov st rb4 rb6 : rib_init IPv4 st = Ok rb4 -> rib_init IPv6 st = Ok rb6 ->
  winv ov st (wconf0 rb4 rb6) [].
Proof.
  intros E4 E6. split; try easy.
  - intros [|].
    + exists (sconf0 rb4). split; [exists rb4; split; [easy|apply ex_refl]|]. split; [split; [easy|constructor]|].
      exact (good_init IPv4 st rb4 E4).
    + exists (sconf0 rb6). split; [exists rb6; split; [easy|apply ex_refl]|]. split; [split; [easy|constructor]|].
      exact (good_init IPv6 st rb6 E6).
  - intros [|] m; reflexivity.
  - constructor.
  - intros [|i] c l N; discriminate N.
Qed.

Lemma wwf_back ov x y : wexec ov x y -> wwf_calls y -> wwf_calls x.
Proof. intros E W i c S. exact (W i c (wstarted_exec _ _ _ _ _ E S)). Qed.
Lemma wna_back ov x y : wexec ov x y -> wno_activations y -> wno_activations x.
Proof. intros E W i f p m t S. exact (W _ _ _ _ _ (wstarted_exec _ _ _ _ _ E S)). Qed.

Lemma winv_exec ov st x y h : winv ov st x h -> wexec ov x y ->
  (st = PersistOnly -> wwf_calls y /\ wno_activations y) -> exists d, winv ov st y (d ++ h).
Proof.
  intros V E. induction E as [x|x y z E IH T]; intros C; [now exists []|].
  destruct (IH V) as (d & Vy).
  { intros Eo. destruct (C Eo) as [W NA]. pose proof (exec_one _ _ _ _ _ T) as X.
    split; [exact (wwf_back ov y z X W)|exact (wna_back ov y z X NA)]. }
  destruct (winv_step ov st y z _ Vy T C) as (d' & Vz). exists (d' ++ d). now rewrite <- app_assoc.
Qed.

Lemma winv_order ov st w h : winv ov st w h -> (st = PersistOnly -> wwf_calls w) -> whole_order as_ops w h.
Proof.
  intros V C. pose proof V as [A _ D K G Th].
  assert (Sub : forall f e, In e (part f h) -> In e h) by (intros f e I; now apply filter_In in I).
  split.
  - apply (filters_NoDup [is_global; belongs IPv4; belongs IPv6]).
    + intros e I. destruct (K e I) as [Q|([|] & Q)].
      * exists is_global. split; [now left|exact Q].
      * exists (belongs IPv4). split; [right; now left|exact Q].
      * exists (belongs IPv6). split; [right; right; now left|exact Q].
    + assert (NF : forall f, NoDup (filter (belongs f) h)).
      { intros f. destruct (A f) as (x & R & S & Gx). pose proof (good_once _ _ _ _ _ R Gx) as N.
        now apply NoDup_map_inv in N. }
      intros p [<-|[<-|[<-|[]]]]; [exact D|apply NF..].
  - intros i o I. destruct (K _ I) as [Q|(f & Q)]; [exact (G i o I Q)|].
    destruct (A f) as (x & R & S & Gx).
    destruct (good_calls _ _ _ _ _ R Gx i o) as (c & Sc & O); [now apply filter_In|].
    exists (WStore f c). split; [exact (sim_started _ _ _ _ _ _ _ S Sc O)|]. cbn. rewrite O. now left.
  - intros i c o v Rt Ef Io. pose proof Rt as (l & N & V1). destruct c as [f c|f wd m|m].
    + cbn [as_ops] in Io. destruct (as_op f c) as [o'|] eqn:O; [|destruct Io]. destruct Io as [<-|[]].
      destruct (A f) as (x & R & S & Gx). apply (Sub f).
      pose proof (good_order _ _ _ _ _ R Gx (fun Eo => sim_wf _ _ _ _ S (C Eo))) as SO.
      destruct v as [v|r|].
      * assert (NP : v <> RetPanic) by (intros ->; discriminate Ef).
        apply (so_all _ _ _ SO i c o' v); [exact (sim_returned _ _ _ _ _ _ _ S Rt NP)|exact Ef|exact O].
      * (* a look-up of records *)
        exfalso. destruct (nth_pj st f w x i _ _ S N) as (u & _ & P). unfold pj in P. cbn [fst snd] in P.
        rewrite af_refl in P. destruct l as [l| | |r0| |q|f0 q]; try discriminate V1.
        -- cbn [wret_of] in V1. destruct (ret_of l); discriminate V1.
        -- destruct P as (_ & _ & P). destruct c; try contradiction P. discriminate O.
        -- destruct q; discriminate V1.
        -- destruct f0, q; discriminate V1.
      * exfalso. destruct (nth_pj st f w x i _ _ S N) as (u & _ & P). unfold pj in P. cbn [fst snd] in P.
        rewrite af_refl in P. destruct l as [l| | |r0| |q|f0 q]; try discriminate V1; try contradiction P.
        cbn [wret_of] in V1. destruct (ret_of l); discriminate V1.
    + destruct Io as [<-|[]]. pose proof (Th _ _ _ N) as Gt. cbn [gth] in Gt. destruct l as [| | | | |q|]; try contradiction Gt.
      apply Gt. destruct q; try discriminate V1. reflexivity.
    + pose proof (Th _ _ _ N) as Gt. cbn [gth] in Gt. destruct l as [| | | | | |f q]; try contradiction Gt.
      destruct Gt as (_ & I4 & I6 & _).
      assert (f = IPv6 /\ q = GDone) as [-> ->] by (destruct f, q; try discriminate V1; easy).
      destruct Io as [<-|[<-|[]]]; [now apply I4|now apply I6].
Qed.

Lemma winv_wf ov st w h : winv ov st w h -> wwf_calls w -> wf_history (List.map snd h).
Proof.
  intros V W. pose proof V as [A _ _ K G _]. apply Forall_forall. intros o I. apply in_map_iff in I.
  destruct I as ([i o'] & E & I). cbn in E. subst o'. destruct (K _ I) as [Q|(f & Q)].
  - destruct (G i o I Q) as (c & S & O). specialize (W i c S). destruct c as [f c|f wd m|m].
    + cbn [as_ops] in O. destruct (as_op f c) as [o'|] eqn:Z; [|destruct O]. destruct O as [->|[]].
      pose proof (as_op_belongs f c o i Z) as B. apply belongs_global in B. congruence.
    + destruct O as [<-|[]]. destruct wd; exact W.
    + destruct O as [<-|[<-|[]]]; exact W.
  - destruct (A f) as (x & R & S & Gx).
    pose proof (serial_wf f ov st x (part f h) R (sim_wf _ _ _ _ S W) (good_calls _ _ _ _ _ R Gx)) as F.
    unfold wf_history in F. rewrite Forall_forall in F. apply F. apply in_map_iff. exists (i, o). split; [easy|].
    now apply filter_In.
Qed.

Lemma winv_ans ov st w h f : winv ov st w h -> (st = PersistOnly -> wwf_calls w) -> widle w ->
  rib_ans st f (List.map snd h) (rib_now (sh w) f).
Proof.
  intros V C Id. pose proof V as [A B _ _ _ _]. destruct (A f) as (x & R & S & Gx).
  pose proof (good_ans _ _ _ _ _ R Gx (fun Eo => sim_wf _ _ _ _ S (C Eo)) (sim_idle _ _ _ _ S Id)) as [Q1 Q2 Q3 Q4].
  pose proof S as [Es _]. rewrite Es in Q1, Q2, Q3, Q4. unfold rib_now.
  split.
  - exact Q1.
  - destruct Q2 as [T1 T2 T3 _ T5 T6]. split; cbn [with_marks set_tree rb_tree t_heap t_default t_withdrawn].
    + exact T1.
    + intros p Wp Lp. rewrite <- part_inserted. now apply T2.
    + rewrite <- part_inserted. exact T3.
    + exact (B f).
    + intros id m. rewrite <- part_via. apply T5.
    + intros id. rewrite <- part_visited. apply T6.
  - intros NP. destruct (Q3 NP) as [M1 M2]. split; [exact M1|].
    cbn [with_marks set_tree rb_pcht]. intros p Wp. specialize (M2 p Wp).
    destruct (pfxs f (pc_heap (rb_pcht (ss_rib (fam (sh w) f)))) p) as [v|].
    + destruct M2 as [N1 N2]. split; [exact N1|]. intros m. rewrite N2. f_equal. apply part_last.
    + intros m. rewrite <- part_last. apply M2.
  - intros Eo. destruct (Q4 Eo) as (d & D1 & D2). exists d. split; [exact D1|].
    eapply short_rel_ext; [|exact D2]. intros p m. apply part_po.
Qed.

(* at any moment, as far as the records and the marks go *)
Definition filled (t : tree) (rb : rib) : rib :=
  set_tree rb (Tree (t_heap t) (t_withdrawn (rb_tree rb)) (t_nodes t) (t_default t)).
Lemma winv_lsm ov st w h f : winv ov st w h -> st = PersistOnly ->
  exists l, rb_lsm (ss_rib (fam (sh w) f)) = Some l /\ short_rel f (List.map snd h) l.
Proof.
  intros V ->. destruct (wv_fam _ _ _ _ V f) as (x & R & [Es _] & Gx). destruct (reach_sok _ _ _ _ R) as [G _].
  rewrite <- Es. destruct (rb_lsm (ss_rib (sh x))) as [l|] eqn:L.
  - exists l. split; [easy|]. eapply short_rel_ext; [|exact (si_disk _ _ _ Gx l L)]. intros p m. apply part_po.
  - pose proof (g_lsm _ _ _ _ _ G L). discriminate.
Qed.
Lemma winv_filled ov st w h f t : winv ov st w h -> tree_ans f (List.map snd h) t ->
  rib_ans st f (List.map snd h) (filled t (rib_now (sh w) f)).
Proof.
  intros V [T1 T2 T3 T4 T5 T6]. destruct (wv_fam _ _ _ _ V f) as (x & R & [Es _] & Gx).
  destruct (reach_sok _ _ _ _ R) as [G _]. split.
  - cbn. rewrite <- Es. exact (g_strat _ _ _ _ _ G).
  - split; auto. exact (wv_set _ _ _ _ V f).
  - intros NP. pose proof (hist_mem f ov st x R) as [M1 M2]. unfold table_of in M1, M2. rewrite Es in M1, M2.
    assert (E : part f h = hist f x) by (destruct st; easy).
    split; [exact M1|]. cbn [filled set_tree rib_now with_marks rb_pcht]. intros p Wp. specialize (M2 p Wp).
    rewrite <- E in M2. destruct (pfxs f (pc_heap (rb_pcht (ss_rib (fam (sh w) f)))) p) as [v|].
    + destruct M2 as [N1 N2]. split; [exact N1|]. intros m. rewrite N2. f_equal. apply part_last.
    + intros m. rewrite <- part_last. apply M2.
  - intros Eo. exact (winv_lsm ov st w h f V Eo).
Qed.

Lemma winv_answers ov st w h : winv ov st w h -> wwf_calls w ->
  exists s, after st (List.map snd h) s /\
    forall q, for_records q = true -> wf_query q -> widle w \/ looks_up q = true ->
      answer_alike (ask (store_now (sh w)) q) (ask s q).
Proof.
  intros V W. pose proof (winv_wf ov st w h V W) as WH.
  destruct (run_ok st _ WH) as (s & Ru & _). exists s.
  assert (Af : after st (List.map snd h) s) by (now split). split; [exact Af|].
  assert (B : forall g, rib_ans st g (List.map snd h) (rib_of s g)).
  { intros g. apply rib_ok_ans. exact (proj2 (after_rib _ _ _ g Af)). }
  intros q F Wq [Id|L].
  - apply (ask_same st (List.map snd h)); auto.
    intros g. pose proof (winv_ans ov st w h g V (fun _ => W) Id) as X. now destruct g.
  - set (s' := Store (filled (rb_tree (rib_of s IPv4)) (rib_now (sh w) IPv4))
                     (filled (rb_tree (rib_of s IPv6)) (rib_now (sh w) IPv6))).
    assert (E : ask (store_now (sh w)) q = ask s' q).
    { destruct q; try discriminate L; cbn [ask]; try reflexivity; [destruct p as [[|] p]|destruct f|destruct f];
        reflexivity. }
    rewrite E. apply (ask_same st (List.map snd h)); auto.
    intros g. pose proof (winv_filled ov st w h g _ V (ra_tree _ _ _ _ (B g))) as X. now destruct g.
Qed.

Lemma moments_reach ov st x l : moments ov st (x :: l) -> wreach ov st x.
Proof.
  remember (x :: l) as xs eqn:E. intros M. revert x l E. induction M as [x R|x y l0 M IH X]; intros z l E.
  - injection E as <- _. exact R.
  - injection E as <- _. destruct (IH x l0 eq_refl) as (a & b & A & B & Z). exists a, b. split; [easy|].
    split; [easy|]. eapply exec_trans; eauto.
Qed.

(* for the moments of one execution there is one order of the calls *)
Lemma whole_serial ov st x l : moments ov st (x :: l) -> wwf_calls x ->
  (st = PersistOnly -> wno_activations x) ->
  exists hs, growing hs /\ Forall2 (fun y h => whole_order as_ops y h /\
    (exists s, after st (List.map snd h) s /\
       forall q, for_records q = true -> wf_query q -> widle y \/ looks_up q = true ->
         answer_alike (ask (store_now (sh y)) q) (ask s q)))
    (x :: l) hs.
Proof.
  intros M W NA.
  assert (Good : forall y h, winv ov st y h -> wwf_calls y -> whole_order as_ops y h /\
    (exists s, after st (List.map snd h) s /\
       forall q, for_records q = true -> wf_query q -> widle y \/ looks_up q = true ->
         answer_alike (ask (store_now (sh y)) q) (ask s q))).
  { intros y h V Wy. split; [exact (winv_order ov st y h V (fun _ => Wy))|]. exact (winv_answers ov st y h V Wy). }
  enough (Z : exists h hs, winv ov st x h /\ growing (h :: hs) /\
    Forall2 (fun y h => whole_order as_ops y h /\
    (exists s, after st (List.map snd h) s /\
       forall q, for_records q = true -> wf_query q -> widle y \/ looks_up q = true ->
         answer_alike (ask (store_now (sh y)) q) (ask s q))) (x :: l) (h :: hs)).
  { destruct Z as (h & hs & _ & G & F). now exists (h :: hs). }
  remember (x :: l) as xs eqn:E. revert x l E W NA. induction M as [x R|x y l0 M IH X]; intros z l E W NA.
  - injection E as <- <-. destruct R as (a & b & A & B & R).
    destruct (winv_exec ov st _ x [] (winv_init ov st a b A B) R) as (d & V).
    { intros Eo. split; [exact W|exact (NA Eo)]. }
    rewrite app_nil_r in V. exists d, []. split; [exact V|]. split; [constructor|].
    constructor; [exact (Good x d V W)|constructor].
  - injection E as <- <-. pose proof (wwf_back ov x y X W) as Wx.
    destruct (IH x l0 eq_refl Wx) as (h & hs & V & G & F).
    { intros Eo. exact (wna_back ov x y X (NA Eo)). }
    destruct (winv_exec ov st x y h V X) as (d & Vy).
    { intros Eo. split; [exact W|exact (NA Eo)]. }
    exists (d ++ h), (h :: hs). split; [exact Vy|]. split; [now constructor|].
    constructor; [exact (Good y _ Vy W)|exact F].
Qed.
