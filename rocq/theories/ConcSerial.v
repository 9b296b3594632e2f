(* PersistOnly: what concurrent calls leave on disk is what the same calls leave
   there one after the other, in an order that keeps that of calls of which one
   returned before the other began; as long as no record is marked active. *)
From Coq Require Import Arith NArith List Bool Lia.
From Verif Require Import Word Af BitSpan Spec Maps ChtMath Cht Node Tree ChainProofs TreeProofs
  Iter IterProofs MultiMap PrefixCht PrefixChtProofs Lsm LsmProofs Rib StarCast RibProofs RibLsm RibOk HistSpec
  Facts1 Conc ConcTree ConcTreeProofs ConcTreeInv ConcTreeStep ConcTreeEnd ConcTreeSeen ConcStore ConcTable
  ConcStoreInv ConcStoreStep ConcInsert ConcCalls ConcSpec ConcFacts ConcCount ConcSelect ConcOnly.
Import ListNotations.
Local Open Scope N_scope.

(* the call as one of a history of calls that are made one after the other *)
Definition as_op (f : af) (c : scall) : option op :=
  match c with
  | CInsert p r ups => Some (Insert (f, p) r ups)
  | CMark Withdrawn p m t => Some (MarkWithdrawn (f, p) m t)
  | CMark _ p m t => Some (MarkActive (f, p) m t)
  | _ => None
  end.

(* h, the last call first, is an order of the calls of x; all that have returned
   are in it *)
Record an_order (f : af) (x : cstore) (h : list (nat * op)) : Prop := {
  ao_once : NoDup (List.map fst h);
  ao_calls : forall i o, In (i, o) h -> exists c, started x i c /\ as_op f c = Some o;
  ao_all : forall i c o v, returned x i c v -> v <> RetPanic -> as_op f c = Some o -> In (i, o) h
}.

Definition no_activations (x : cstore) : Prop := forall i p m t, ~ started x i (CMark Active p m t).

(* ---------- the threads ---------- *)

Definition done_ins (pc : ipc) : bool :=
  match pc with IRibRoute _ _ | IRibPrefix _ _ | IDone (ROk _) => true | _ => false end.

Definition placed (f : af) (h : list (nat * op)) (i : nat) (c : scall) (l : cpc) : Prop :=
  match c, l with
  | CInsert p r ups, LIns pc =>
    if done_ins pc then In (i, Insert (f, p) r ups) h else ~ In i (List.map fst h)
  | CMark sm p m t, LMark pc =>
    match pc with
    | KStart => ~ In i (List.map fst h)
    | KRewrite [] | KDone _ => exists o, as_op f c = Some o /\ In (i, o) h
    | KRewrite [b] => ~ In i (List.map fst h) /\ po_rec (List.map snd h) (f, p) m <> None
    | _ => False
    end
  | _, _ => True
  end.

Record sinv (f : af) (x : cstore) (h : list (nat * op)) : Prop := {
  si_once : NoDup (List.map fst h);
  si_calls : forall i o, In (i, o) h -> exists c, started x i c /\ as_op f c = Some o;
  si_disk : forall d, disk_of x = Some d -> short_rel f (List.map snd h) d;
  si_ths : forall i c l, nth_error (ths x) i = Some (c, l) -> placed f h i c l
}.

Lemma done_route b rep : done_ins (after_route b rep) = true.
Proof. unfold after_route. now destruct (snd b). Qed.
Lemma done_upsert b rep : done_ins (after_upsert b rep) = true.
Proof. unfold after_upsert. destruct (rp_mui_new rep); [easy|apply done_route]. Qed.
Lemma done_begin f rb p b : done_ins (or_ipanic (begin_upsert f rb p b)) = false.
Proof.
  unfold begin_upsert. destruct (rb_strat rb); try (destruct (walk_start f PSTRIDE p); easy);
    destruct (rb_lsm rb); easy.
Qed.

Lemma only_ins_step f ov n0 s0 s i p r ups pc s' pc' :
  iI f ov PersistOnly n0 s0 s i p r ups pc -> istep f ov i s p r ups pc = Some (s', pc') ->
  (rb_lsm (ss_rib s') = rb_lsm (ss_rib s) /\ done_ins pc' = done_ins pc) \/
  (done_ins pc = false /\ done_ins pc' = true /\ exists d, rb_lsm (ss_rib s) = Some d /\
     rb_lsm (ss_rib s') = Some (kv_insert (short_key f p (r_mui r)) (sval r) d)).
Proof.
  intros I E. unfold istep in E. destruct pc; cbv zeta in E; cbn [iI] in I;
    try (destruct I as (X & _); exfalso; now apply X); try (destruct I as (X & _); discriminate X).
  - destruct (tnext f ov p (r_mui r) (rb_tree (ss_rib s)) t) as [tr t']. injection E as <- <-. left.
    split; [easy|]. destruct t'; try easy. destruct r0 as [[? ?]|]; [|easy]. apply done_begin.
  - destruct (tnext f ov p (r_mui r) (rb_tree (ss_rib s)) t) as [tr t']. injection E as <- <-. left.
    split; [easy|]. destruct t'; try easy. destruct r0 as [[? ?]|]; easy.
  - destruct (rb_lsm (ss_rib s)) as [d|] eqn:D; injection E as <- <-; [|left; split; [now rewrite D|easy]].
    right. split; [easy|]. split; [apply done_upsert|]. exists d. easy.
  - injection E as <- <-. left. split; [easy|]. apply done_route.
  - injection E as <- <-. now left.
  - discriminate.
  - discriminate.
Qed.

(* ---------- the invariant ---------- *)

Lemma started_op f x h i c o : sinv f x h -> started x i c -> as_op f c = Some o ->
  In i (List.map fst h) -> In (i, o) h.
Proof.
  intros [A B _ _] (l & N) O I. apply in_map_iff in I. destruct I as ([j o'] & E & I). cbn in E. subst j.
  destruct (B _ _ I) as (c' & (l' & N') & O'). rewrite N in N'. injection N' as <- <-.
  rewrite O in O'. injection O' as <-. exact I.
Qed.

Lemma order_wf f ov x h : reach f ov PersistOnly x -> wf_calls x -> sinv f x h -> wf_history (List.map snd h).
Proof.
  intros R [W1 W2] [_ B _ _]. apply Forall_forall. intros o I. apply in_map_iff in I.
  destruct I as ([i o'] & E & I). cbn in E. subst o'. destruct (B _ _ I) as (c & S & O).
  pose proof (wf_prefix _ _ _ _ _ _ _ _ (reach_sok _ _ _ _ R) S) as Wp.
  destruct c as [p r ups|sm p m t|p|p m iw]; try discriminate O.
  - injection O as <-. split; [exact Wp|]. eapply W1; eauto.
  - destruct sm; injection O as <-; (split; [exact Wp|]); eapply W2; eauto.
Qed.

Lemma placed_cons f h i o j c l : i <> j -> placed f h j c l ->
  (forall p m, po_rec (List.map snd h) p m <> None -> po_rec (o :: List.map snd h) p m <> None) ->
  placed f ((i, o) :: h) j c l.
Proof.
  intros NE P M.
  assert (NI : ~ In j (List.map fst h) -> ~ In j (List.map fst ((i, o) :: h))).
  { intros X [Y|Y]; [cbn in Y; congruence|auto]. }
  destruct c as [p r ups|sm p m t|p|p m iw], l as [pc|pc|pc|pc]; cbn in P |- *; auto.
  - destruct (done_ins pc); [now right|auto].
  - destruct pc as [| | | | |[|b [|b' recs]]| |]; auto.
    + destruct P as (o' & A & B). exists o'. split; [easy|now right].
    + destruct P as [A B]. split; [auto|]. now apply M.
    + destruct P as (o' & A & B). exists o'. split; [easy|now right].
Qed.

Lemma po_stays o h p m : po_rec h p m <> None -> po_rec (o :: h) p m <> None.
Proof.
  intros H. destruct o; cbn [po_rec]; auto.
  - now destruct (_ && _).
  - destruct (_ && _); [|easy]. now destruct (po_rec h p m).
  - destruct (_ && _); [|easy]. now destruct (po_rec h p m).
Qed.

Lemma sinv_call f s ts c h : sinv f (Conf s ts) h -> sinv f (Conf s (ts ++ [(c, cstart c)])) h.
Proof.
  intros [A B C D]. split; auto.
  - intros i o I. destruct (B i o I) as (c' & (l & N) & O). exists c'. split; [|easy]. exists l.
    cbn [ths] in *. rewrite nth_error_app1; [easy|]. eapply nth_some_lt; eauto.
  - intros i c0 l N. cbn [ths] in N. destruct (Nat.lt_ge_cases i (length ts)) as [Hi|Hi].
    + rewrite nth_error_app1 in N by easy. exact (D i c0 l N).
    + assert (NI : ~ In i (List.map fst h)).
      { intros I. apply in_map_iff in I. destruct I as ([j o] & E & I). cbn in E. subst j.
        destruct (B _ _ I) as (c' & (l' & N') & _). apply nth_some_lt in N'. cbn [ths] in N'. lia. }
      rewrite nth_error_app2 in N by easy. destruct (i - length ts)%nat as [|n]; simpl in N; [|now destruct n].
      injection N as <- <-. destruct c; cbn; auto.
Qed.

(* a step of call i that puts nothing in the order *)
Lemma sinv_same f s ts i c l s' l' h : sinv f (Conf s ts) h -> nth_error ts i = Some (c, l) ->
  rb_lsm (ss_rib s') = rb_lsm (ss_rib s) -> placed f h i c l' ->
  sinv f (Conf s' (set_nth i (c, l') ts)) h.
Proof.
  intros [A B C D] N L P. split; auto.
  - intros j o I. destruct (B j o I) as (c' & (l0 & N0) & O). exists c'. split; [|easy].
    unfold started. cbn [ths] in *. rewrite nth_set_nth by (eapply nth_some_lt; eauto).
    destruct (Nat.eqb_spec i j) as [->|]; [|eauto]. rewrite N in N0. injection N0 as <- <-. eauto.
  - unfold disk_of in *. cbn [sh] in *. now rewrite L.
  - intros j c0 l0 N0. cbn [ths] in *. rewrite nth_set_nth in N0 by (eapply nth_some_lt; eauto).
    destruct (Nat.eqb_spec i j) as [->|]; [injection N0 as <- <-; exact P|eauto].
Qed.

(* a step that puts call i at the end *)
Lemma sinv_place f s ts i c l s' l' h o : sinv f (Conf s ts) h -> nth_error ts i = Some (c, l) ->
  as_op f c = Some o -> ~ In i (List.map fst h) ->
  (forall d, rb_lsm (ss_rib s') = Some d -> short_rel f (o :: List.map snd h) d) ->
  placed f ((i, o) :: h) i c l' ->
  sinv f (Conf s' (set_nth i (c, l') ts)) ((i, o) :: h).
Proof.
  intros [A B C D] N O NI L P.
  assert (S : forall j c', started (Conf s ts) j c' -> started (Conf s' (set_nth i (c, l') ts)) j c').
  { intros j c' (l0 & N0). unfold started. cbn [ths] in *. rewrite nth_set_nth by (eapply nth_some_lt; eauto).
    destruct (Nat.eqb_spec i j) as [->|]; [|eauto]. rewrite N in N0. injection N0 as <- <-. eauto. }
  split.
  - cbn. constructor; auto.
  - intros j o' [X|I].
    + injection X as <- <-. exists c. split; [|easy]. apply S. now exists l.
    + destruct (B j o' I) as (c' & S' & O'). exists c'. auto.
  - exact L.
  - intros j c0 l0 N0. cbn [ths] in *. rewrite nth_set_nth in N0 by (eapply nth_some_lt; eauto).
    destruct (Nat.eqb_spec i j) as [->|NE]; [injection N0 as <- <-; exact P|].
    apply placed_cons; auto. intros p m. apply po_stays.
Qed.

Lemma sinv_run f ov s ts i c l s' l' h : reach f ov PersistOnly (Conf s ts) ->
  wf_calls (Conf s ts) -> no_activations (Conf s ts) -> sinv f (Conf s ts) h ->
  nth_error ts i = Some (c, l) -> ststep f ov i s c l = Some (s', l') ->
  exists h', sinv f (Conf s' (set_nth i (c, l') ts)) (h' ++ h).
Proof.
  intros R W NA V N T. pose proof (reach_sok _ _ _ _ R) as SK.
  assert (ST : started (Conf s ts) i c) by (now exists l).
  pose proof (wf_prefix _ _ _ _ _ _ _ _ SK ST) as Wp.
  pose proof (proj2 SK i c l N) as I. cbn [sh] in I.
  pose proof (si_ths _ _ _ V i c l N) as P.
  pose proof (order_wf f ov _ h R W V) as WH.
  destruct (ststep_cases _ _ _ _ _ _ _ _ T) as
    [(p & r & ups & pc & pc' & -> & -> & -> & Q)|
     [(sm & p & m & t & pc & pc' & -> & -> & -> & Q)|[-> X]]].
  - cbn [sI prefix_of] in I, Wp. cbn [placed] in P.
    destruct (only_ins_step f ov _ _ s i p r ups pc s' pc' I Q) as [[L D]|(D & D' & d & L & L')].
    + exists []. apply (sinv_same f s ts i _ (LIns pc)); auto. cbn [placed]. rewrite D. exact P.
    + exists [(i, Insert (f, p) r ups)]. apply (sinv_place f s ts i _ (LIns pc)); auto.
      * now rewrite D in P.
      * intros d' X. rewrite L' in X. injection X as <-.
        apply (short_rel_write f (List.map snd h) _ d p (r_mui r) r); auto.
        -- exact (si_disk _ _ _ V d L).
        -- exact (proj1 (proj1 W i p r ups ST)).
        -- intros q n. simpl. now rewrite prefix_eqb_af.
      * cbn [placed]. rewrite D'. now left.
  - cbn [prefix_of] in Wp. assert (WM : m < 2 ^ 32 /\ t < 2 ^ 64) by exact (proj2 W i sm p m t ST).
    assert (sm = Withdrawn) as ->.
    { destruct sm; [exfalso; eapply NA; eauto| |easy].
      destruct (wf_call _ _ _ _ _ _ _ _ SK ST) as [_ X]. now destruct X. }
    pose proof (only_mark_step f ov s ts i Withdrawn p m t pc s' pc' R W N Q) as Z.
    destruct Z as [(d & -> & -> & D & ->)|[(b & recs & d & -> & -> & D & D')|(-> & ->)]].
    + pose proof (si_disk _ _ _ V d D) as SR. unfold records_with_keys_for_prefix_mui.
      rewrite (kv_prefix_short f (List.map snd h)) by (auto; tauto). cbn [placed] in P.
      destruct (po_rec (List.map snd h) (f, p) m) as [r|] eqn:PR.
      * exists []. apply (sinv_same f s ts i _ (LMark KStart)); auto. cbn. rewrite PR. easy.
      * exists [(i, MarkWithdrawn (f, p) m t)].
        apply (sinv_place f s ts i _ (LMark KStart)); auto.
        -- intros d' X. rewrite D in X. injection X as <-.
           apply (short_rel_ext f (List.map snd h)); auto. intros q n. simpl. rewrite prefix_eqb_af.
           destruct (pid_eqb q p && (n =? m)) eqn:B; [|easy].
           apply andb_true_iff in B. destruct B as [B1 B2]. apply pid_eqb_spec in B1.
           apply N.eqb_eq in B2. subst. now rewrite PR.
        -- cbn. eexists. split; [reflexivity|now left].
    + cbn [placed] in P. destruct recs as [|b' recs]; [|now destruct P]. destruct P as [NI PR].
      destruct (po_rec (List.map snd h) (f, p) m) as [r|] eqn:PE; [|now destruct PR].
      pose proof (po_rec_mui _ _ _ _ PE) as Mu.
      exists [(i, MarkWithdrawn (f, p) m t)].
      apply (sinv_place f s ts i _ (LMark (KRewrite [b]))); auto.
      * intros d' X. rewrite D' in X. injection X as <-.
        rewrite <- (app_nil_r (value_header t Withdrawn)).
        apply (short_marked f (List.map snd h) d p m t (MarkWithdrawn (f, p) m t)) with (r' := Rec m t Withdrawn []);
          try tauto; auto.
        -- exact (si_disk _ _ _ V d D).
        -- simpl. rewrite prefix_eqb_refl, N.eqb_refl. simpl. rewrite PE. simpl. now rewrite Mu.
      * cbn. eexists. split; [reflexivity|now left].
    + exists []. apply (sinv_same f s ts i _ (LMark (KRewrite []))); auto.
      assert (Z : s' = s) by (cbn in Q; congruence). now rewrite Z.
  - exists []. apply (sinv_same f s ts i c l); auto.
    destruct X as [(p & pc & pc' & -> & -> & ->)|(p & m & iw & pc & pc' & -> & -> & ->)]; exact Logic.I.
Qed.

Lemma sinv_exec f ov x h : reach f ov PersistOnly x -> sinv f x h ->
  forall y, sexec f ov x y -> wf_calls y -> no_activations y -> exists h', sinv f y (h' ++ h).
Proof.
  intros R V. apply (exec_from_ind f ov x (fun y => wf_calls y -> no_activations y ->
    exists h', sinv f y (h' ++ h))).
  - intros _ _. now exists [].
  - intros s ts c E IH Lc W NA.
    assert (E1 : sexec f ov (Conf s ts) (Conf s (ts ++ [(c, cstart c)]))) by (apply exec_one; now constructor).
    destruct IH as (h' & V').
    + eapply wf_calls_back; eauto.
    + intros i p m t S. eapply NA, started_exec; eauto.
    + exists h'. now apply sinv_call.
  - intros s ts i c l s' l' E IH N T W NA.
    assert (E1 : sexec f ov (Conf s ts) (Conf s' (set_nth i (c, l') ts))).
    { apply exec_one. econstructor; eauto. }
    assert (W' : wf_calls (Conf s ts)) by (eapply wf_calls_back; eauto).
    assert (NA' : no_activations (Conf s ts)) by (intros j p m t S; eapply NA, started_exec; eauto).
    destruct (IH W' NA') as (h' & V').
    destruct (sinv_run f ov s ts i c l s' l' (h' ++ h) (reach_exec _ _ _ _ _ R E) W' NA' V' N T) as (h2 & V2).
    exists (h2 ++ h'). now rewrite <- app_assoc.
Qed.

Lemma sinv_init f rb : rib_init f PersistOnly = Ok rb -> sinv f (sconf0 rb) [].
Proof.
  intros H. split.
  - constructor.
  - intros i o [].
  - intros d D. unfold rib_init in H. destruct (tree_new f); [|discriminate..].
    cbn in H. injection H as <-. injection D as <-. apply short_rel_init.
  - intros [|i] c l N; discriminate N.
Qed.

Lemma kv_get_ext l l' : kv_ok l -> kv_ok l' -> (forall k v, In (k, v) l <-> In (k, v) l') -> l = l'.
Proof.
  revert l'. induction l as [|[k v] l IH]; intros [|[k' v'] l'] O O' H.
  - easy.
  - exfalso. apply (H k' v'). now left.
  - exfalso. apply (H k v). now left.
  - inversion O as [|? ? O1 F]; subst. inversion O' as [|? ? O1' F']; subst.
    rewrite Forall_forall in F, F'.
    assert (KV : (k, v) = (k', v')).
    { destruct (proj1 (H k v) (or_introl eq_refl)) as [E|I]; [easy|].
      destruct (proj2 (H k' v') (or_introl eq_refl)) as [E|I']; [easy|].
      exfalso. apply F' in I. apply F in I'. unfold klt in *. cbn in *.
      apply (blt_irrefl k). eapply blt_trans; eauto. }
    injection KV as <- <-. f_equal. apply IH; auto.
    intros k0 v0. split; intros I.
    + destruct (proj1 (H k0 v0) (or_intror I)) as [E|J]; [|easy].
      injection E as <- <-. apply F in I. exfalso. exact (blt_irrefl _ I).
    + destruct (proj2 (H k0 v0) (or_intror I)) as [E|J]; [|easy].
      injection E as <- <-. apply F' in I. exfalso. exact (blt_irrefl _ I).
Qed.

Lemma short_rel_fun f h l l' : short_rel f h l -> short_rel f h l' -> l = l'.
Proof.
  intros [O K G] [O' K' G']. apply kv_get_ext; auto. intros k v.
  split; intros I.
  - destruct (K k v I) as (id & m & W & Hm & ->). apply kv_get_In; auto. rewrite G', <- G by auto.
    now apply kv_get_In.
  - destruct (K' k v I) as (id & m & W & Hm & ->). apply kv_get_In; auto. rewrite G, <- G' by auto.
    now apply kv_get_In.
Qed.

Lemma sinv_order f ov x h : reach f ov PersistOnly x -> wf_calls x -> sinv f x h -> an_order f x h.
Proof.
  intros R W V. pose proof V as [A B _ D]. split; auto.
  intros i c o v (l & N & RV) NP O. pose proof (D i c l N) as P.
  pose proof (proj2 (reach_sok _ _ _ _ R) i c l N) as I.
  destruct c as [p r ups|sm p m t|p|p m iw], l as [pc|pc|pc|pc]; try discriminate O; try contradiction I.
  - destruct pc; try discriminate RV; [|now injection RV as <-].
    destruct r0; cbn in P; [now injection O as <-|].
    cbn [sI iI] in I. destruct I as (_ & _ & I & _). now destruct I.
  - destruct pc; try discriminate RV; [|now injection RV as <-].
    cbn [placed] in P. destruct P as (o' & A1 & A2). rewrite O in A1. now injection A1 as <-.
Qed.

Lemma sinv_disk f ov x h st : reach f ov PersistOnly x -> sinv f x h ->
  after PersistOnly (List.map snd h) st -> rb_lsm (rib_of st f) = disk_of x.
Proof.
  intros R V A. destruct (after_rib _ _ _ f A) as [_ [_ _ _ _ L]]. cbn in L.
  destruct (rb_lsm (rib_of st f)) as [l|]; [|destruct L].
  destruct (disk_of x) as [d|] eqn:D.
  - f_equal. apply (short_rel_fun f (List.map snd h)); auto. apply (si_disk _ _ _ V d D).
  - pose proof (g_lsm _ _ _ _ _ (proj1 (reach_sok _ _ _ _ R)) D). discriminate.
Qed.

Lemma conc_only_serial f ov x y : reach f ov PersistOnly x -> sexec f ov x y ->
  wf_calls y -> no_activations y ->
  exists h1 h2, an_order f x h1 /\ an_order f y (h2 ++ h1) /\
    (exists st, after PersistOnly (List.map snd h1) st /\ rb_lsm (rib_of st f) = disk_of x) /\
    (exists st, after PersistOnly (List.map snd (h2 ++ h1)) st /\ rb_lsm (rib_of st f) = disk_of y).
Proof.
  intros R E W NA. pose proof (reach_exec _ _ _ _ _ R E) as Ry.
  assert (Wx : wf_calls x) by (eapply wf_calls_back; eauto).
  assert (NAx : no_activations x) by (intros j p m t S; eapply NA, started_exec; eauto).
  pose proof R as (rb & H & E0).
  assert (R0 : reach f ov PersistOnly (sconf0 rb)) by (exists rb; split; [easy|apply ex_refl]).
  destruct (sinv_exec f ov (sconf0 rb) [] R0 (sinv_init f rb H) x E0 Wx NAx) as (h1 & V1).
  rewrite app_nil_r in V1.
  destruct (sinv_exec f ov x h1 R V1 y E W NA) as (h2 & V2).
  exists h1, h2. split; [eapply sinv_order; eauto|]. split; [eapply sinv_order; eauto|].
  split.
  - pose proof (order_wf f ov x h1 R Wx V1) as WH.
    destruct (run_ok PersistOnly _ WH) as (st & Ru & _). exists st.
    assert (A : after PersistOnly (List.map snd h1) st) by (now split).
    split; [exact A|eapply sinv_disk; eauto].
  - pose proof (order_wf f ov y (h2 ++ h1) Ry W V2) as WH.
    destruct (run_ok PersistOnly _ WH) as (st & Ru & _). exists st.
    assert (A : after PersistOnly (List.map snd (h2 ++ h1)) st) by (now split).
    split; [exact A|eapply sinv_disk; eauto].
Qed.
