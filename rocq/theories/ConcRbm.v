(* The mui indexes of the nodes (NodeSet's rbm_index) while any number of inserts
   are under way: a mui stands in the index of a node only if an insert with that
   mui on its way through the node was called, and an insert leaves its mui in
   every node it goes through. *)
From Coq Require Import Arith NArith List Bool Lia.
From Verif Require Import Word Af BitSpan Maps ChtMath Cht Node Tree ChainProofs TreeProofs
  RibProofs ConcMarks ConcTree ConcTreeProofs ConcTreeInv ConcTreeStep.
Import ListNotations.
Local Open Scope N_scope.

Section R.
Variable f : af.
Notation W := (BITS f).

(* no mui is new but [m] in the node [id] *)
Definition rgrow (id : pid) (m : N) (h h' : heap nodeval) : Prop :=
  forall id' v' m', nodes f h' id' = Some v' -> mem m' (nv_rbm v') = true ->
    (exists v, nodes f h id' = Some v /\ mem m' (nv_rbm v) = true) \/ (id' = id /\ m' = m).

Lemma rgrow_refl id m h : rgrow id m h h.
Proof. intros id' v' m' E M. left. eauto. Qed.

Lemma rgrow_insert h id m k : ninv f h -> ndom f id ->
  locate f NSTRIDE (nlev id) h id 0 = LVac k ->
  rgrow id m h (update (kof f NSTRIDE id k) (Entry id node_new (slots_at (p_len id) (S k))) h).
Proof.
  intros I D L id' v' m' E M. unfold nodes in E.
  rewrite (find_insert f NSTRIDE NSTRIDE_nz) in E by auto.
  destruct (pid_eqb id' id).
  - simpl in E. injection E as <-. easy.
  - left. exists v'. easy.
Qed.

Lemma rgrow_rbm h id m k : ninv f h -> at_id h k id ->
  rgrow id m h (modify k (fun v => update_rbm_index v m) h) /\
  exists v, nodes f (modify k (fun v => update_rbm_index v m) h) id = Some v /\
    mem m (nv_rbm v) = true.
Proof.
  intros I A. destruct (modify_nodes f h k id (fun v => update_rbm_index v m) I A) as [_ N].
  destruct (at_id_lookup _ _ _ A) as (v & _ & s & L).
  pose proof (at_id_nodes f h k id v s I L) as NV. split.
  - intros id' v' m' E M. rewrite N in E. destruct (pid_eqb id' id) eqn:Q; [|left; eauto].
    apply pid_eqb_spec in Q. subst id'. rewrite NV in E. injection E as <-. simpl in M.
    rewrite mem_insert in M. apply orb_true_iff in M. destruct M as [M|M].
    + apply N.eqb_eq in M. auto.
    + left. eauto.
  - eexists. split; [rewrite N, pid_eqb_refl, NV; reflexivity|].
    simpl. now rewrite mem_insert, N.eqb_refl.
Qed.

Lemma rgrow_set h id m k b x : ninv f h -> at_id h k id ->
  rgrow id m h (modify k (set_arr b x) h).
Proof.
  intros I A id' v' m' E M. left.
  destruct (modify_nodes f h k id (set_arr b x) I A) as [_ N]. rewrite N in E.
  destruct (pid_eqb id' id) eqn:Q; [|eauto].
  apply pid_eqb_spec in Q. subst id'. destruct (nodes f h id) as [v|]; [|discriminate].
  injection E as <-. exists v. split; [easy|]. now destruct b.
Qed.

Lemma rcheck_rgrow (id : pid) w index e o : rcheck id w index e = Ok o ->
  match o with RFound _ => False | _ => True end.
Proof.
  unfold rcheck. destruct (pid_eqb id (e_id e)).
  - intros E. now injection E as <-.
  - destruct (add8 (w_level w) 1); [|easy|easy]. cbn [bind].
    destruct (nodeset_size (p_len id) _); [|easy|easy]. cbn [bind].
    destruct (0 <? _); intros E; now injection E as <-.
Qed.

Lemma rstep_rgrow h id m r h' o : ninv f h -> ndom f id -> rI f h id r ->
  rstep f id m h r = Ok (h', o) ->
  rgrow id m h h' /\
  (match o with
   | RFound _ => exists v, nodes f h' id = Some v /\ mem m (nv_rbm v) = true
   | _ => True
   end).
Proof.
  intros I D R E. destruct r as [w|w|k]; simpl in R.
  - unfold rstep in E. destruct (hash_id f id (w_level w)) as [index| |]; [|easy|easy].
    cbn [bind] in E.
    destruct (slot_get h (w_b w) (w_path w) (w_slots w) index) as [e|].
    + destruct (rcheck id w index e) as [o'| |] eqn:Q; [|easy|easy]. cbn [bind] in E.
      injection E as <- <-. split; [apply rgrow_refl|]. apply rcheck_rgrow in Q. now destruct o'.
    + injection E as <- <-. split; [apply rgrow_refl|easy].
  - destruct R as (k & K & -> & O). unfold rstep in E. cbn [w_level w_b w_path w_slots] in E.
    rewrite hash_at in E by auto. cbn [bind] in E.
    rewrite (lvl_succ f id) in E by (auto; try apply D; lia). cbn [bind] in E.
    rewrite (size_next f) in E by (auto; try apply D; lia). cbn [bind] in E.
    rewrite (slot_init_level f NSTRIDE) in E by (auto; unfold nlev in K; lia).
    rewrite slots_at_S in E.
    destruct (lookup (kof f NSTRIDE id k) h) as [e|] eqn:L; cbn [bind] in E.
    + match type of E with bind ?x _ = _ => destruct x as [o'| |] eqn:Q; [|easy|easy] end.
      cbn [bind] in E. injection E as <- <-. split; [apply rgrow_refl|].
      apply rcheck_rgrow in Q. now destruct o'.
    + pose proof (walk_vac NSTRIDE NSTRIDE_nz f h id k K O L) as V.
      match type of E with bind ?x _ = _ => destruct x as [o'| |] eqn:Q; [|easy|easy] end.
      cbn [bind] in E. injection E as <- <-. split; [now apply rgrow_insert|].
      apply rcheck_rgrow in Q. now destruct o'.
  - simpl in E. injection E as <- <-. now apply rgrow_rbm.
Qed.

Lemma sstep_rgrow h id m s h' o : ninv f h -> ndom f id -> sI f h id s ->
  sstep f id m node_new h s = Ok (h', o) -> rgrow id m h h'.
Proof.
  intros I D R E. destruct s as [w|w|k todo rc|]; simpl in R; [| | |easy].
  - unfold sstep in E. destruct (hash_id f id (w_level w)) as [index| |]; [|easy|easy].
    cbn [bind] in E.
    destruct (slot_get h (w_b w) (w_path w) (w_slots w) index) as [e|].
    + destruct (pid_eqb id (e_id e)); [injection E as <- _; apply rgrow_refl|].
      destruct (add8 (w_level w) 1); [|easy|easy]. cbn [bind] in E.
      destruct (nodeset_size (p_len id) _); [|easy|easy]. cbn [bind] in E.
      destruct (0 <? _); injection E as <- _; apply rgrow_refl.
    + injection E as <- _. apply rgrow_refl.
  - destruct R as (k & K & -> & O). unfold sstep in E. cbn [w_level w_b w_path w_slots] in E.
    rewrite hash_at in E by auto. cbn [bind] in E.
    rewrite (lvl_succ f id) in E by (auto; try apply D; lia). cbn [bind] in E.
    rewrite (size_next f) in E by (auto; try apply D; lia). cbn [bind] in E.
    rewrite (slot_init_level f NSTRIDE) in E by (auto; unfold nlev in K; lia).
    rewrite slots_at_S in E.
    destruct (lookup (kof f NSTRIDE id k) h) as [e|] eqn:L; cbn [bind] in E.
    + destruct (pid_eqb (e_id e) id); injection E as <- _; apply rgrow_refl.
    + pose proof (walk_vac NSTRIDE NSTRIDE_nz f h id k K O L) as V.
      cbn [e_id] in E. rewrite pid_eqb_refl in E. injection E as <- _. now apply rgrow_insert.
  - destruct R as (A & -> & ->). simpl in E. injection E as <- _. now apply rgrow_rbm.
Qed.

(* ---------- one insert ---------- *)

(* the inserts called: prefix and mui *)
Variable D : pid -> N -> Prop.

Definition mG (h : heap nodeval) : Prop :=
  forall id v m, nodes f h id = Some v -> mem m (nv_rbm v) = true ->
    (id = (0, 0) /\ m = 0) \/ exists p, D p m /\ through f p id = true.

Definition mdone (h : heap nodeval) (p : pid) (m s : N) : Prop :=
  forall s0, s0 mod 4 = 0 -> s0 < s ->
    exists v, nodes f h (anc f p s0) = Some v /\ mem m (nv_rbm v) = true.
Definition mthru (h : heap nodeval) (p : pid) (m : N) : Prop :=
  forall id, through f p id = true -> exists v, nodes f h id = Some v /\ mem m (nv_rbm v) = true.

Definition mI (p : pid) (m : N) (h : heap nodeval) (pc : tpc) : Prop :=
  match pc with
  | TStart | TDefault _ _ | TPanic | TDone (RErr _) => True
  | TNode fr _ => mdone h p m (fr_start fr)
  | TLoadPtr fr _ | TLoadPfx fr _ _ | TTestPtr fr _ _ | TCasPtr fr _ _ _ | TCasPfx fr _ _ _
  | TCount fr _ | TStore fr _ _ _ => mdone h p m (fr_end fr)
  | TDone (ROk _) => mthru h p m
  end.

Lemma mem_hle h h' id m : ninv f h -> ninv f h' -> hle h h' ->
  (exists v, nodes f h id = Some v /\ mem m (nv_rbm v) = true) ->
  exists v, nodes f h' id = Some v /\ mem m (nv_rbm v) = true.
Proof.
  intros I I' H (v & N & T). destruct (nodes_hle f h h' id v I I' H N) as (v' & N' & (_ & _ & A)).
  exists v'. auto.
Qed.

Lemma mthru_hle h h' p m : ninv f h -> ninv f h' -> hle h h' -> mthru h p m -> mthru h' p m.
Proof. intros I I' H A id T. apply (mem_hle h); auto. Qed.

Lemma mI_hle p m h h' pc : ninv f h -> ninv f h' -> hle h h' -> mI p m h pc -> mI p m h' pc.
Proof.
  intros I I' H.
  assert (A : forall s, mdone h p m s -> mdone h' p m s).
  { intros s A s0 M0 L0. apply (mem_hle h); auto. }
  destruct pc as [| | | | | | | | | |[]|]; simpl; auto. now apply mthru_hle.
Qed.

Lemma mG_rgrow h h' id p m : mG h -> rgrow id m h h' -> D p m -> through f p id = true -> mG h'.
Proof.
  intros G R Dp T id' v' m' N M. destruct (R _ _ _ N M) as [(v & N0 & M0)|[-> ->]].
  - exact (G _ _ _ N0 M0).
  - right. eauto.
Qed.

Lemma mdone_thru h p m s : 0 < p_len p -> p_len p <= s -> mdone h p m s -> mthru h p m.
Proof.
  intros L Le A id T. unfold through in T.
  destruct (N.eqb_spec (p_len p) 0); [lia|]. rewrite orb_false_r in T.
  apply on_path_inv in T. destruct T as (T1 & T2 & T3). rewrite T3. simpl p_len. apply A; [easy|lia].
Qed.

Lemma next_turn_start p e c a pc : next_turn f p e c a = Ok pc ->
  exists fr r, pc = TNode fr r /\ fr_start fr = e.
Proof.
  unfold next_turn, add8, sub8, STRIDE_SIZE. destruct (N.leb_spec (e + 4) 255); [|easy].
  cbn [bind]. intros E.
  match type of E with bind ?x _ = _ => destruct x as [nl| |]; [|easy|easy] end. cbn [bind] in E.
  destruct (N.leb_spec 4 (e + 4)); [|easy]. cbn [bind] in E.
  match type of E with bind ?x _ = _ => destruct x as [bs| |]; [|easy|easy] end. cbn [bind] in E.
  match type of E with bind ?x _ = _ => destruct x as [w| |]; [|easy|easy] end. cbn [bind] in E.
  injection E as <-. eexists _, _. split; [reflexivity|]. simpl. lia.
Qed.

Lemma go_on_start ov p fr c a b pc : go_on f ov p fr c a b = Ok pc ->
  exists fr' r, pc = TNode fr' r /\ fr_start fr' = fr_end fr.
Proof.
  unfold go_on. destruct (add32 ov (fr_acc fr) a); [|easy|easy]. cbn [bind].
  destruct (add32 ov _ b); [|easy|easy]. cbn [bind].
  destruct (add32 ov (fr_acc fr) _); [|easy|easy]. cbn [bind]. apply next_turn_start.
Qed.

Lemma through_anc p s : s mod 4 = 0 -> s < p_len p -> through f p (anc f p s) = true.
Proof. intros M L. unfold through. now rewrite on_path_anc. Qed.

Ltac nx E := let y := fresh "x" in let Q := fresh "Q" in
  match type of E with bind ?z _ = _ => destruct z as [y| |] eqn:Q; [|easy|easy] end;
  cbn [bind] in E.

Lemma tstep_rbm ov (C : pid -> Prop) (Cwf : forall p, C p -> wf_pid f p) p m t pc t' pc' :
  C p -> D p m -> tG f C t -> tI f ov p t pc -> mG (t_heap t) -> mI p m (t_heap t) pc ->
  tstep f ov p m t pc = Ok (t', pc') ->
  mG (t_heap t') /\ mI p m (t_heap t') pc'.
Proof.
  intros Cp Dp G I MG M E. pose proof (Cwf _ Cp) as Wp. pose proof G as [GH GD].
  pose proof (g_cht _ _ _ GH) as NI.
  destruct pc as [|ex r|fr r|fr k|fr k ptr|fr k ptr|fr k cur rc|fr k cur rc|fr rc
    |fr rc nn s0|r|]; simpl in I, M; cbn [tstep] in E.
  - (* TStart *)
    destruct (N.eqb_spec (p_len p) 0) as [L|L]; nx E.
    + injection E as <- <-. split; [exact MG|exact Logic.I].
    + injection E as <- <-. split; [exact MG|].
      apply next_turn_start in Q. destruct Q as (fr & r & -> & Es). simpl. rewrite Es.
      intros s0 _ Z. lia.
  - (* TDefault *)
    destruct I as (L & DF & R). nx E. destruct x as [h' o]. injection E as <- <-.
    unfold root_node_id in Q. destruct (rstep_rgrow _ _ _ _ _ _ NI (root_dom f) R Q) as [A B].
    assert (T : through f p (0, 0) = true).
    { unfold through. rewrite L. simpl. apply orb_true_r. }
    split; [exact (mG_rgrow _ _ _ _ _ MG A Dp T)|].
    destruct o; simpl; auto. intros id T'. unfold through, on_path in T'. rewrite L in T'.
    simpl in T'. assert (p_len id <? 0 = false) as X by (apply N.ltb_ge; lia).
    rewrite X, andb_false_r in T'. simpl in T'. apply pid_eqb_spec in T'. now subst id.
  - (* TNode *)
    destruct I as ((s & acc & -> & M4 & Ls & A) & P & R). simpl in P, R, M.
    nx E. destruct x as [h' o]. injection E as <- <-. cbn [fr_cur mkframe] in Q.
    pose proof (anc_dom f p s Wp M4 ltac:(lia)) as Dm.
    destruct (rstep_ok f (t_heap t) (anc f p s) m r NI Dm R) as (h1 & o1 & E1 & NI' & H & _).
    rewrite Q in E1. injection E1 as <- <-.
    destruct (rstep_rgrow _ _ _ _ _ _ NI Dm R Q) as [B F].
    split; [exact (mG_rgrow _ _ _ _ _ MG B Dp (through_anc p s M4 Ls))|].
    assert (M' : mdone h' p m s).
    { intros s0 X Y. apply (mem_hle (t_heap t)); auto. }
    destruct o; simpl; auto. intros s0 X Y. destruct (N.lt_ge_cases s0 s); [now apply M'|].
    assert (s0 = s) as -> by dlia. exact F.
  - (* TLoadPtr *) nx E. injection E as <- <-. split; [exact MG|exact M].
  - (* TLoadPfx *)
    nx E. nx E. destruct I as ((s & acc & -> & M4 & Ls & A) & _).
    destruct (fr_last (mkframe f p s acc)) eqn:FL; cbn [negb] in E.
    + destruct (_ =? 0) in E; [injection E as <- <-; split; [exact MG|exact M]|].
      nx E. injection E as <- <-. split; [exact MG|]. unfold finish in Q1.
      destruct (add32 ov _ 0) in Q1; [|easy|easy]. cbn [bind] in Q1. injection Q1 as <-. simpl.
      simpl in FL. apply N.leb_le in FL. apply (mdone_thru _ _ _ (s + 4)); [lia|easy|exact M].
    + injection E as <- <-. split; [exact MG|exact M].
  - (* TTestPtr *)
    nx E. nx E. destruct (_ =? 0) in E.
    + injection E as <- <-. split; [exact MG|exact M].
    + nx E. nx E. injection E as <- <-. split; [exact MG|].
      apply go_on_start in Q2. destruct Q2 as (fr' & r & -> & Es). simpl. rewrite Es. exact M.
  - (* TCasPtr *)
    destruct I as ((s & acc & -> & M4 & Ls & A) & P & AT & _). simpl in AT.
    nx E. nx E. destruct (_ =? _) in E.
    + injection E as <- <-.
      assert (R : rgrow (anc f p s) m (t_heap t) (modify k
               (set_arr true (into_ptrbitarr (N.lor x0 (into_pfxbitarr cur)))) (t_heap t))).
      { now apply rgrow_set. }
      split; [exact (mG_rgrow _ _ _ _ _ MG R Dp (through_anc p s M4 Ls))|].
      destruct (modify_nodes f (t_heap t) k (anc f p s)
        (set_arr true (into_ptrbitarr (N.lor x0 (into_pfxbitarr cur)))) NI AT) as [_ N'].
      intros s0 X Y. destruct (M s0 X Y) as (v & NV & MV). cbn [t_heap set_heap]. rewrite N'.
      destruct (pid_eqb (anc f p s0) (anc f p s)) eqn:Z; [|eauto].
      apply pid_eqb_spec in Z. rewrite Z in NV. rewrite NV. eexists. split; [reflexivity|easy].
    + nx E. injection E as <- <-. split; [exact MG|exact M].
  - (* TCasPfx *)
    destruct I as ((s & acc & -> & M4 & Ls & A) & P & AT & _ & FL & _). simpl in AT.
    nx E. nx E. destruct (_ =? _) in E.
    + injection E as <- <-.
      assert (R : rgrow (anc f p s) m (t_heap t)
                    (modify k (set_arr false (N.lor x0 cur)) (t_heap t))).
      { now apply rgrow_set. }
      split; [exact (mG_rgrow _ _ _ _ _ MG R Dp (through_anc p s M4 Ls))|].
      destruct (modify_nodes f (t_heap t) k (anc f p s)
        (set_arr false (N.lor x0 cur)) NI AT) as [_ N'].
      unfold finish. destruct (add32 ov _ rc); simpl; auto.
      simpl in FL. apply N.leb_le in FL. apply (mdone_thru _ _ _ (s + 4)); [lia|easy|].
      intros s0 X Y. destruct (M s0 X Y) as (v & NV & MV). cbn [t_heap set_heap]. rewrite N'.
      destruct (pid_eqb (anc f p s0) (anc f p s)) eqn:Z; [|eauto].
      apply pid_eqb_spec in Z. rewrite Z in NV. rewrite NV. eexists. split; [reflexivity|easy].
    + nx E. injection E as <- <-. split; [exact MG|exact M].
  - (* TCount *) nx E. nx E. injection E as <- <-. split; [exact MG|exact M].
  - (* TStore *)
    destruct I as (FO & P & NL & RC & -> & SI). pose proof FO as (s & acc & -> & M4 & Ls & A).
    simpl in P, NL, SI. apply N.leb_gt in NL.
    rewrite next_id_ok in E by auto. cbn [bind] in E. nx E. destruct x as [h' o].
    injection E as <- <-.
    pose proof (anc_dom f p (s + 4) Wp ltac:(dlia) ltac:(lia)) as Dm.
    destruct (sstep_ok f (t_heap t) (anc f p (s + 4)) m s0 NI Dm SI) as (h1 & o1 & E1 & NI' & H & _).
    rewrite Q in E1. injection E1 as <- <-.
    pose proof (sstep_rgrow _ _ _ _ _ _ NI Dm SI Q) as B.
    split; [exact (mG_rgrow _ _ _ _ _ MG B Dp (through_anc p (s + 4) ltac:(dlia) NL))|].
    assert (M' : mdone h' p m (s + 4)).
    { intros s1 X Y. apply (mem_hle (t_heap t)); auto. }
    destruct o as [s1|[[i sr]|]]; cbn [t_heap set_heap].
    + exact M'.
    + destruct (go_on f ov p (mkframe f p s acc) i sr rc) eqn:GO; simpl; auto.
      apply go_on_start in GO. destruct GO as (fr' & r & -> & Es). simpl. rewrite Es. exact M'.
    + match goal with |- mI _ _ _ (or_panic ?x) => destruct x eqn:GO end; simpl; auto.
      apply next_turn_start in GO. destruct GO as (fr' & r & -> & Es). simpl. rewrite Es. exact M'.
  - injection E as <- <-. split; [exact MG|exact M].
  - injection E as <- <-. split; [exact MG|exact M].
Qed.

Lemma tnext_rbm ov (C : pid -> Prop) (Cwf : forall p, C p -> wf_pid f p) p m t pc t' pc' :
  C p -> D p m -> tG f C t -> tI f ov p t pc -> mG (t_heap t) -> mI p m (t_heap t) pc ->
  tnext f ov p m t pc = (t', pc') ->
  mG (t_heap t') /\ mI p m (t_heap t') pc'.
Proof.
  intros Cp Dp G I MG M E. unfold tnext in E. destruct (tstep f ov p m t pc) as [[t1 pc1]| |] eqn:Q.
  - injection E as <- <-. exact (tstep_rbm _ _ Cwf _ _ _ _ _ _ Cp Dp G I MG M Q).
  - injection E as <- <-. split; [exact MG|exact Logic.I].
  - injection E as <- <-. split; [exact MG|exact Logic.I].
Qed.

End R.

Lemma mG_mono f (D D' : pid -> N -> Prop) h : (forall p m, D p m -> D' p m) -> mG f D h -> mG f D' h.
Proof.
  intros S G id v m N M. destruct (G _ _ _ N M) as [A|(p & A & B)]; [auto|right; eauto].
Qed.
