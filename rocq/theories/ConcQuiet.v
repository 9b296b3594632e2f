(* The store when no call is under way answers for a sequential history of the
   same calls. *)
From Coq Require Import Arith NArith List Bool Lia.
From Verif Require Import Word Af BitSpan Spec Maps ChtMath Cht Node Tree ChainProofs TreeProofs
  Iter IterProofs MultiMap PrefixCht PrefixChtProofs Lsm LsmProofs Rib StarCast RibProofs RibLsm RibOk HistSpec Ask Queries
  Facts1 SameSpec SameProofs Conc ConcTree
  ConcTreeProofs ConcTreeInv ConcTreeStep ConcTreeEnd ConcTreeSeen ConcRbm ConcStore ConcTable ConcStoreInv
  ConcStoreStep ConcInsert ConcCalls ConcSpec ConcFacts ConcCount ConcSelect ConcOnly ConcSerial
  ConcScanSpec ConcScanFacts.
Import ListNotations.
Local Open Scope N_scope.

(* ---------- the mui indexes ---------- *)

(* the inserts called, by prefix and mui *)
Definition called (x : cstore) (p : pid) (m : N) : Prop :=
  exists i r ups, started x i (CInsert p r ups) /\ r_mui r = m.

Definition iM (f : af) (p : pid) (m : N) (h : heap nodeval) (pc : ipc) : Prop :=
  match pc with
  | ITree t => mI f p m h t
  | ITree2 _ t => mthru f h p m /\ mI f p m h t
  | IPanic => True
  | _ => mthru f h p m
  end.

Lemma iM_hle f p m h h' pc : ninv f h -> ninv f h' -> hle h h' -> iM f p m h pc -> iM f p m h' pc.
Proof.
  intros I I' H. destruct pc; simpl; auto; try (now apply mthru_hle).
  - now apply mI_hle.
  - intros [A B]. split; [now apply (mthru_hle f h)|now apply (mI_hle f p m h)].
Qed.

Lemma iM_route f p m h b rep : mthru f h p m -> iM f p m h (after_route b rep).
Proof. unfold after_route. now destruct (snd b). Qed.
Lemma iM_upsert f p m h b rep : mthru f h p m -> iM f p m h (after_upsert b rep).
Proof. unfold after_upsert. destruct (rp_mui_new rep); [easy|apply iM_route]. Qed.
Lemma iM_cht f p m h st b o pn mn : mthru f h p m -> iM f p m h (after_cht st b o pn mn).
Proof. unfold after_cht. destruct st, o as [[? ?]|]; try apply iM_upsert; easy. Qed.
Lemma iM_count f p m h st ups b k o : mthru f h p m -> iM f p m h (after_count st ups b k o).
Proof. unfold after_count. destruct ups; [easy|apply iM_cht]. Qed.
Lemma iM_begin f g p m h rb q b : mthru f h p m -> iM f p m h (or_ipanic (begin_upsert g rb q b)).
Proof.
  unfold begin_upsert. intros M. destruct (rb_strat rb); try (destruct (walk_start g PSTRIDE q); easy);
    destruct (rb_lsm rb); easy.
Qed.

(* the steps outside the tree leave it alone *)
Lemma istep_rbm f ov st n s0 i s p r ups pc s' pc' (D : pid -> N -> Prop) cs :
  sG f st s0 s cs -> insp cs p -> D p (r_mui r) -> (forall q, insp cs q -> wf_pid f q) ->
  iI f ov st n s0 s i p r ups pc ->
  mG f D (t_heap (stree s)) -> iM f p (r_mui r) (t_heap (stree s)) pc ->
  istep f ov i s p r ups pc = Some (s', pc') ->
  mG f D (t_heap (stree s')) /\ iM f p (r_mui r) (t_heap (stree s')) pc'.
Proof.
  intros G Cp Dp Cwf I MG M E. pose proof (g_tree _ _ _ _ _ G) as TG.
  unfold istep in E. destruct pc; cbv zeta in E.
  - destruct (tnext f ov p (r_mui r) (rb_tree (ss_rib s)) t) as [tr t'] eqn:Q.
    injection E as <- <-. simpl in I, M. destruct I as (TI & LV & _).
    destruct (tnext_rbm f D ov (insp cs) Cwf p (r_mui r) _ _ _ _ Cp Dp TG TI MG M Q) as [A B].
    split; [exact A|]. cbn [stree ss_rib rb_tree set_tree].
    change (iM f p (r_mui r) (t_heap tr)
      match t' with
      | TDone (ROk b) => or_ipanic (begin_upsert f (ss_rib s) p b)
      | TDone (RErr e) => IDone (RErr e)
      | TPanic => IPanic
      | _ => ITree t'
      end).
    destruct t'; try exact B. destruct r0 as [b|e].
    + apply iM_begin. exact B.
    + exfalso. pose proof (tnext_good f ov (insp cs) Cwf p (r_mui r) (stree s) t Cp TG TI LV) as Z.
      unfold stree in Z. rewrite Q in Z. cbn in Z. tauto.
  - destruct (rb_lsm (ss_rib s)); injection E as <- <-; [|easy].
    split; [exact MG|]. destruct (walk_start f PSTRIDE p); easy.
  - destruct (pstep f p (pheap s) p0) as [[h o]| |]; injection E as <- <-; [|easy..].
    split; [exact MG|]. destruct o as [|? []]; easy.
  - injection E as <- <-. easy.
  - destruct (deref k (pheap s)) as [v| |]; [|injection E as <- <-; easy..].
    destruct (upsert_record (pv_recs v) r) as [mm o]. injection E as <- <-. split; [exact MG|].
    destruct o, found; try exact M; [apply iM_count|apply iM_cht]; exact M.
  - injection E as <- <-. split; [exact MG|]. destruct found; [|exact M]. apply iM_count. exact M.
  - injection E as <- <-. split; [exact MG|]. apply iM_cht. exact M.
  - destruct (deref k (pheap s)) as [v| |]; [destruct ups|..]; injection E as <- <-; easy.
  - destruct (deref k (pheap s)) as [v| |]; injection E as <- <-; [|easy..].
    split; [exact MG|]. destruct (sel_eqb (pv_sel v) sel); [|exact M]. apply iM_cht. exact M.
  - destruct (deref k (pheap s)) as [v| |]; [|injection E as <- <-; easy..].
    destruct (_ && _); injection E as <- <-; [|easy]. split; [exact MG|]. apply iM_cht. exact M.
  - injection E as <- <-. split; [|apply iM_upsert]; destruct (rb_lsm (ss_rib s)); easy.
  - destruct (tnext f ov p (r_mui r) (rb_tree (ss_rib s)) t) as [tr t'] eqn:Q.
    injection E as <- <-. simpl in I, M. destruct I as (_ & _ & TI & LV). destruct M as [M0 M].
    destruct (tnext_rbm f D ov (insp cs) Cwf p (r_mui r) _ _ _ _ Cp Dp TG TI MG M Q) as [A B].
    pose proof (tnext_good f ov (insp cs) Cwf p (r_mui r) (stree s) t Cp TG TI LV) as Z.
    unfold stree in Z. rewrite Q in Z. cbn in Z. destruct Z as (TG' & TI' & R & _).
    assert (M1 : mthru f (t_heap tr) p (r_mui r)).
    { apply (mthru_hle f (t_heap (rb_tree (ss_rib s)))); auto.
      - exact (g_cht _ _ _ (proj1 TG)).
      - exact (g_cht _ _ _ (proj1 TG')).
      - apply R. }
    split; [exact A|]. cbn [stree ss_rib rb_tree set_tree].
    change (iM f p (r_mui r) (t_heap tr)
      match t' with
      | TDone (ROk b2) => IShort b b2
      | TDone (RErr e) => IDone (RErr e)
      | TPanic => IPanic
      | _ => ITree2 b t'
      end).
    destruct t'; try (split; [exact M1|exact B]); [|exact Logic.I]. destruct r0; exact M1.
  - destruct (rb_lsm (ss_rib s)); injection E as <- <-; [|easy].
    split; [exact MG|]. apply iM_upsert. exact M.
  - injection E as <- <-. split; [exact MG|]. apply iM_route. exact M.
  - injection E as <- <-. easy.
  - discriminate.
  - discriminate.
Qed.

Lemma kstep_tree f i s sm p mui lt pc s' pc' : kstep f i s sm p mui lt pc = Some (s', pc') ->
  stree s' = stree s.
Proof.
  intros E. unfold kstep in E. destruct pc; cbv zeta in E.
  - destruct (rb_strat (ss_rib s)); try (injection E as <- <-; easy).
    destruct (rb_lsm (ss_rib s)); injection E as <- <-; easy.
  - destruct (pstep f p (pheap s) p0) as [[h o]| |]; injection E as <- <-; easy.
  - injection E as <- <-. easy.
  - destruct (deref k (pheap s)); injection E as <- <-; easy.
  - destruct (rb_lsm (ss_rib s)); injection E as <- <-; easy.
  - destruct recs as [|b recs]; [injection E as <- <-; easy|].
    destruct (rb_lsm (ss_rib s)); [|injection E as <- <-; easy].
    destruct (rewrite_header_for_record _ _ _ _ _); injection E as <- <-; easy.
  - discriminate.
  - discriminate.
Qed.

Lemma insp_wf f ov st n s x q : sok f ov st n s x -> insp (calls x) q -> wf_pid f q.
Proof.
  intros S (i & r & ups & N). apply started_calls in N. exact (wf_prefix _ _ _ _ _ _ _ _ S N).
Qed.

Definition mui_inv (f : af) (x : cstore) : Prop :=
  mG f (called x) (t_heap (tree_of x)) /\
  forall i p r ups pc, nth_error (ths x) i = Some (CInsert p r ups, LIns pc) ->
    iM f p (r_mui r) (t_heap (tree_of x)) pc.

Lemma rbm_inv f ov st x : reach f ov st x -> mui_inv f x.
Proof.
  revert x. apply reach_ind.
  - intros rb H. split; [|intros [|i] p r ups pc E; discriminate E].
    unfold rib_init in H. destruct (tree_new f) as [t| |] eqn:T; [|discriminate..].
    cbn in H. injection H as <-. cbn.
    destruct (tree_new_ok f) as (t' & T' & _ & _ & _ & _ & N). rewrite T in T'. injection T' as <-.
    intros id v m Nv M. rewrite N in Nv. destruct (pid_eqb id (0, 0)) eqn:Q; [|discriminate].
    apply pid_eqb_spec in Q. injection Nv as <-. left. split; [easy|].
    simpl in M. rewrite orb_false_r in M. now apply N.eqb_eq in M.
  - intros s ts c _ [A B] Lc. cbn in *. split.
    + eapply mG_mono; [|exact A]. intros p m (i & r & ups & (l & E) & M).
      exists i, r, ups. split; [|easy]. exists l. cbn in *. rewrite nth_error_app1; [easy|]. eapply nth_some_lt; eauto.
    + intros i p r ups pc E. cbn [ths] in *. destruct (Nat.lt_ge_cases i (length ts)) as [H|H].
      * rewrite nth_error_app1 in E by easy. exact (B _ _ _ _ _ E).
      * rewrite nth_error_app2 in E by easy. destruct (i - length ts)%nat as [|n]; simpl in E; [|now destruct n].
        injection E as -> E. injection E as <-. exact Logic.I.
  - intros s ts i c l s' l' R [A B] E T. cbn [sh ths] in *.
    assert (X : cstep cstart (slegal f) (ststep f ov) (Conf s ts) (Conf s' (set_nth i (c, l') ts)))
      by (econstructor; eauto).
    apply exec_one in X. destruct (reach_from _ _ _ _ _ R X) as [[G' _] SR]. cbn [sh ths] in *.
    pose proof (reach_sok _ _ _ _ R) as S. pose proof S as [G SI]. cbn [sh ths] in G, SI.
    assert (Li : (i < length ts)%nat) by (eapply nth_some_lt; eauto).
    assert (DM : forall p m, called (Conf s ts) p m -> called (Conf s' (set_nth i (c, l') ts)) p m).
    { intros p m (j & r & ups & (l0 & E0) & M). exists j, r, ups. split; [|easy]. cbn in E0.
      unfold started. cbn [ths]. rewrite nth_set_nth by easy.
      destruct (Nat.eqb_spec i j) as [->|]; [|eauto]. rewrite E in E0. injection E0 as -> ->. eauto. }
    assert (ST : mG f (called (Conf s ts)) (t_heap (stree s')) /\
      forall p r ups pc', c = CInsert p r ups -> l' = LIns pc' -> iM f p (r_mui r) (t_heap (stree s')) pc').
    { destruct (ststep_cases _ _ _ _ _ _ _ _ T) as
        [(p & r & ups & pc & pc' & -> & -> & -> & W)|
         [(sm & p & mui & lt & pc & pc' & -> & -> & -> & W)|[-> [(p & pc & pc' & -> & -> & ->)|
          (p & m & iw & pc & pc' & -> & -> & ->)]]]]; try (split; [exact A|discriminate]).
      - assert (Cp : insp (calls (Conf s ts)) p).
        { exists i, r, ups. apply (calls_nth _ _ _ (LIns pc)). exact E. }
        assert (Dp : called (Conf s ts) p (r_mui r)).
        { exists i, r, ups. split; [now exists (LIns pc)|easy]. }
        destruct (istep_rbm f ov st (length ts) s i s p r ups pc s' pc' (called (Conf s ts)) _ G Cp Dp) as [Y Z]; auto.
        + intros q. exact (insp_wf _ _ _ _ _ _ _ S).
        + exact (SI _ _ _ E).
        + exact (B _ _ _ _ _ E).
        + split; [exact Y|]. intros p0 r0 ups0 pc0 Q1 Q2. injection Q1 as <- <- <-. injection Q2 as <-. exact Z.
      - rewrite (kstep_tree _ _ _ _ _ _ _ _ _ _ W). split; [exact A|discriminate]. }
    destruct ST as [Y Z]. split.
    + eapply mG_mono; [exact DM|exact Y].
    + intros j p r ups pc E0. cbn [ths] in E0. rewrite nth_set_nth in E0 by easy.
      destruct (Nat.eqb_spec i j) as [->|].
      * injection E0 as -> ->. exact (Z _ _ _ _ eq_refl eq_refl).
      * apply (iM_hle f p (r_mui r) (t_heap (stree s))); [exact (sG_ninv _ _ _ _ _ G)|exact (sG_ninv _ _ _ _ _ G')|apply SR|exact (B _ _ _ _ _ E0)].
Qed.

(* ---------- the tree ---------- *)

(* the inserts of a history are the inserts called *)
Definition same_inserts (f : af) (x : cstore) (h : list op) : Prop :=
  (forall p r ups, In (Insert (f, p) r ups) h <-> exists i, started x i (CInsert p r ups)).
Definition no_globals (h : list op) : Prop :=
  forall o, In o h -> match o with GlobalWithdrawn _ _ | GlobalWithdrawnBoth _ | GlobalActive _ _ => False | _ => True end.

Lemma inserted_In h p : HistSpec.inserted h p = true <-> exists r ups, In (Insert p r ups) h.
Proof.
  unfold HistSpec.inserted. rewrite existsb_exists. split.
  - intros (o & I & E). destruct o; try discriminate. apply prefix_eqb_spec in E. subst. eauto.
  - intros (r & u & I). exists (Insert p r u). split; [easy|]. apply prefix_eqb_refl.
Qed.

Lemma no_globals_gw f h m : no_globals h -> g_withdrawn h f m = false.
Proof.
  induction h as [|o h IH]; [easy|]. intros N. simpl.
  pose proof (N o (or_introl eq_refl)) as No.
  assert (IH' : g_withdrawn h f m = false) by (apply IH; intros o' I; apply N; now right).
  destruct o; try easy.
Qed.

(* a call that is idle has left its mui behind *)
Lemma idle_mthru f ov st x p m : reach f ov st x -> idle x -> called x p m ->
  mthru f (t_heap (tree_of x)) p m.
Proof.
  intros R Id (i & r & ups & S & <-). destruct (rbm_inv f ov st x R) as [_ B].
  destruct (Id _ _ S) as (v & (l & N & Rv) & NP).
  destruct (reach_sok _ _ _ _ R) as [_ SI]. specialize (SI _ _ _ N).
  destruct l as [pc|pc|pc|pc]; try easy. specialize (B _ _ _ _ _ N).
  destruct pc; try discriminate Rv; [exact B|]. injection Rv as <-. now destruct NP.
Qed.

(* every node but the root is on the way of some insert *)
Lemma node_on_way f ov st x id v : reach f ov st x -> nodes f (t_heap (tree_of x)) id = Some v ->
  id = (0, 0) \/ exists p m, called x p m /\ on_path f p id = true.
Proof.
  intros R N. pose proof (reach_sok _ _ _ _ R) as S. pose proof (g_tree _ _ _ _ _ (proj1 S)) as [G _].
  change (stree (sh x)) with (tree_of x) in G.
  pose proof (nodes_dom f _ _ _ (g_cht _ _ _ G) N) as [Wid M4].
  destruct (N.eq_dec (p_len id) 0) as [L|L]; [left; now apply (wf_len0 f)|]. right.
  destruct (g_up _ _ _ G id v N ltac:(lia)) as (v' & N' & T).
  destruct (g_ptr _ _ _ G _ _ _ N' T) as (p & (i & r & ups & Np) & O & L' & B).
  simpl p_len in L', B.
  apply started_calls in Np. pose proof (wf_prefix _ _ _ _ _ _ _ _ S Np) as Wp. simpl in Wp.
  exists p, (r_mui r). split; [now exists i, r, ups|].
  pose proof (proj1 Wid) as LW. pose proof (proj1 Wp) as LPW.
  change NSTRIDE with 4 in M4.
  assert (L4 : 4 <= p_len id) by dlia.
  replace (p_len id - 4 + 4) with (p_len id) in L' by lia.
  assert (Q : slice (BITS f) (p_bits id) (p_len id - 4) 4 = nib f p (p_len id - 4)).
  { apply ptr_bit_inj; [| |exact B]; unfold nib, slice; apply N.mod_lt; discriminate. }
  apply on_path_inv in O. destruct O as (_ & _ & O). simpl in O.
  assert (E : id = anc f p (p_len id)).
  { destruct id as [b l]. unfold parent in O. simpl in *.
    pose proof (child_trunc f b (l - 4) ltac:(lia)) as C1.
    pose proof (child_trunc f (p_bits p) (l - 4) ltac:(lia)) as C2.
    rewrite Q in C1. unfold nib in C1. injection O as O. rewrite O in C1. rewrite C1 in C2.
    replace (l - 4 + 4) with l in C2 by lia. injection C2 as C2.
    unfold anc. f_equal. rewrite <- C2. symmetry. apply trunc_id. apply Wid. }
  rewrite E. apply on_path_anc; [exact M4|exact L'].
Qed.

Lemma idle_inserts f ov st x : reach f ov st x -> idle x -> inserts_done x.
Proof.
  intros R Id i p r ups B. destruct (Id _ _ B) as (v & (l & N & Rv) & NP).
  destruct (reach_sok _ _ _ _ R) as [_ SI]. specialize (SI _ _ _ N).
  destruct l as [pc|pc|pc|pc]; try easy.
  destruct pc; try discriminate Rv; injection Rv as <-; [|now destruct NP].
  eexists. exists (LIns (IDone r0)). split; [exact N|reflexivity].
Qed.

(* the root is created with mui 0 *)
Lemma root_mui0 f ov st x : reach f ov st x ->
  exists v, nodes f (t_heap (tree_of x)) (0, 0) = Some v /\ mem 0 (nv_rbm v) = true.
Proof.
  intros R. pose proof R as (rb & E & A).
  assert (R0 : reach f ov st (sconf0 rb)) by (exists rb; split; [easy|apply ex_refl]).
  destruct (reach_from _ _ _ _ _ R0 A) as [[G _] SR].
  destruct (reach_sok _ _ _ _ R0) as [G0 _].
  apply (mem_hle f (t_heap (tree_of (sconf0 rb)))).
  - exact (sG_ninv _ _ _ _ _ G0).
  - exact (sG_ninv _ _ _ _ _ G).
  - apply SR.
  - unfold rib_init in E. destruct (tree_new f) as [t| |] eqn:T; [|discriminate..].
    cbn in E. injection E as <-. cbn.
    destruct (tree_new_ok f) as (t' & T' & _ & _ & _ & _ & N). rewrite T in T'. injection T' as <-.
    rewrite N, pid_eqb_refl. eexists. split; [reflexivity|easy].
Qed.

Lemma idle_tree f ov st x h : reach f ov st x -> idle x -> same_inserts f x h -> no_globals h ->
  tree_ans f h (tree_of x).
Proof.
  intros R Id SI NG. pose proof (reach_sok _ _ _ _ R) as S.
  pose proof (g_tree _ _ _ _ _ (proj1 S)) as [G GD].
  change (stree (sh x)) with (tree_of x) in G, GD.
  assert (CI : forall p m, called x p m <-> exists r ups, In (Insert (f, p) r ups) h /\ r_mui r = m).
  { intros p m. split.
    - intros (i & r & ups & A & B). exists r, ups. split; [|easy]. apply SI. eauto.
    - intros (r & ups & A & B). apply SI in A. destruct A as (i & A). now exists i, r, ups. }
  assert (VI : forall id m, via h f id m = true <->
     (id = (0, 0) /\ m = 0) \/ exists p, called x p m /\ through f p id = true).
  { intros id m. unfold via. rewrite orb_true_iff, existsb_exists, andb_true_iff, N.eqb_eq, pid_eqb_spec. split.
    - intros [(o & I & E)|E]; [right|now left].
      destruct o as [[g q] r u| | | | | |]; try discriminate.
      apply andb_true_iff in E. destruct E as [E T]. apply andb_true_iff in E. destruct E as [E M].
      apply af_eqb_spec in E. apply N.eqb_eq in M. simpl in *. subst g m.
      exists q. split; [|easy]. apply CI. eauto.
    - intros [E|(p & C & T)]; [now right|left]. apply CI in C. destruct C as (r & u & I & <-).
      exists (Insert (f, p) r u). split; [easy|]. simpl. now rewrite af_eqb_refl, N.eqb_refl, T. }
  assert (NV : forall id, visited h f id = true <->
     id = (0, 0) \/ exists p m, called x p m /\ through f p id = true).
  { intros id. unfold visited. rewrite orb_true_iff, existsb_exists, pid_eqb_spec. split.
    - intros [(o & I & E)|E]; [right|now left].
      destruct o as [[g q] r u| | | | | |]; try discriminate.
      apply andb_true_iff in E. destruct E as [E T].
      apply af_eqb_spec in E. simpl in *. subst g.
      exists q, (r_mui r). split; [|easy]. apply CI. eauto.
    - intros [E|(p & m & C & T)]; [now right|left]. apply CI in C. destruct C as (r & u & I & <-).
      exists (Insert (f, p) r u). split; [easy|]. simpl. now rewrite af_eqb_refl, T. }
  split.
  - apply (done_tree f ov st); [exact R|]. now apply (idle_inserts f ov st).
  - intros p Wp Lp. apply eq_true_iff_eq. rewrite inserted_In. split.
    + intros E. destruct (conc_stored_started _ _ _ _ _ _ _ S Wp E) as (i & r & ups & B).
      exists r, ups. apply SI. eauto.
    + intros (r & ups & I). apply SI in I. destruct I as (i & I).
      apply inserted_stored; [|easy]. exact (idle_inserted _ _ _ _ _ _ _ _ _ _ S Id I).
  - apply eq_true_iff_eq. rewrite inserted_In. split.
    + intros E. destruct (GD E) as (p & (i & r & ups & B) & Lp). apply started_calls in B.
      pose proof (wf_prefix _ _ _ _ _ _ _ _ S B) as Wp. simpl in Wp.
      rewrite (wf_len0 f p Wp Lp) in B. exists r, ups. apply SI. eauto.
    + intros (r & ups & I). apply SI in I. destruct I as (i & I).
      exact (idle_inserted _ _ _ _ _ _ _ _ _ _ S Id I).
  - intros m. rewrite (withdrawn_nil f ov st x R), no_globals_gw by easy. easy.
  - intros id m. apply eq_true_iff_eq. rewrite VI. split.
    + destruct (nodes f (t_heap (tree_of x)) id) as [v|] eqn:N; [|discriminate]. intros M.
      exact (proj1 (rbm_inv f ov st x R) _ _ _ N M).
    + intros [[-> ->]|(p & C & T)].
      * destruct (root_mui0 f ov st x R) as (v & -> & M). exact M.
      * destruct (idle_mthru f ov st x p m R Id C id T) as (v & -> & M). exact M.
  - intros id. apply eq_true_iff_eq. rewrite NV. split.
    + destruct (nodes f (t_heap (tree_of x)) id) as [v|] eqn:N; [|discriminate]. intros _.
      destruct (node_on_way _ _ _ _ _ _ R N) as [A|(p & m & C & O)]; [now left|right].
      exists p, m. split; [easy|]. unfold through. now rewrite O.
    + intros [->|(p & m & C & T)].
      * pose proof (g_root _ _ _ G). destruct (nodes f (t_heap (tree_of x)) (0, 0)); easy.
      * destruct (idle_mthru f ov st x p m R Id C id T) as (v & -> & M). easy.
Qed.

(* ---------- the history ---------- *)

(* a call that was not in vain: it did not panic, and it is no mark that found
   no records for its prefix *)
Definition effective (v : ret) : bool :=
  match v with RetPanic | RetMark (RErr _) => false | _ => true end.

(* h, the last call first, is an order of the calls of x that change the store:
   each at most once, and all that have returned and were not in vain *)
Record serial_order (f : af) (x : cstore) (h : list (nat * op)) : Prop := {
  so_once : NoDup (List.map fst h);
  so_calls : forall i o, In (i, o) h -> exists c, started x i c /\ as_op f c = Some o;
  so_all : forall i c o v, returned x i c v -> effective v = true -> as_op f c = Some o -> In (i, o) h
}.

(* the call of a critical section, as one of a sequential history *)
Definition entry_op (f : af) (x : cstore) (e : nat * pid * recop) : list (nat * op) :=
  match nth_error (ths x) (call_of e) with
  | Some (c, _) => match as_op f c with Some o => [(call_of e, o)] | None => [] end
  | None => []
  end.
(* the inserts and marks in the order of their critical sections, the last first *)
Definition hist (f : af) (x : cstore) : list (nat * op) := rev (flat_map (entry_op f x) (order x)).

Definition known (f : af) (x : cstore) (log : list (nat * pid * recop)) : Prop :=
  forall i p o, In (i, p, o) log -> exists c, started x i c /\ does c p o /\ slegal f c.

Lemma order_known f ov st x : reach f ov st x -> known f x (order x).
Proof.
  intros R i p o I. destruct (proj2 (conc_order_calls _ _ _ x R) _ _ _ I) as (c & S & D).
  exists c. split; [easy|]. split; [easy|]. exact (wf_call _ _ _ _ _ _ _ _ (reach_sok _ _ _ _ R) S).
Qed.

Lemma entry_known f x i p o c : started x i c -> does c p o -> exists q, as_op f c = Some q /\
  entry_op f x (i, p, o) = [(i, q)].
Proof.
  intros (l & N) D. unfold entry_op, call_of. cbn [fst]. rewrite N.
  destruct c as [q r ups|sm q m t| |]; try easy.
  - now eexists.
  - destruct sm; cbn; eexists; split; reflexivity.
Qed.

Lemma known_app f x l1 l2 : known f x (l1 ++ l2) -> known f x l1 /\ known f x l2.
Proof. intros K. split; intros i p o I; apply K, in_or_app; auto. Qed.

Lemma hist_rec f x p m : forall log, known f x log ->
  last_rec (List.map snd (rev (flat_map (entry_op f x) log))) (f, p) m = rec_after p m log.
Proof.
  induction log as [|e log IH] using rev_ind; intros K; [easy|].
  apply known_app in K. destruct K as [K1 K2]. specialize (IH K1).
  destruct e as [[i q] o]. destruct (K2 i q o (or_introl eq_refl)) as (c & S & D & L).
  destruct (entry_known f x i q o c S D) as (c' & A & E).
  rewrite flat_map_app. cbn [flat_map]. rewrite E, rev_app_distr. cbn [app rev List.map snd].
  unfold rec_after in *. rewrite filter_app, map_app, fold_left_app, <- IH. cbn [filter fst snd].
  set (h := List.map snd (rev (flat_map (entry_op f x) log))) in *. clearbody h.
  destruct (pid_eqb q p) eqn:Q; cbn [List.map fold_left snd].
  - apply pid_eqb_spec in Q. subst q. destruct c as [q r ups|sm q n t| |]; try easy.
    + destruct D as [-> ->]. injection A as <-. cbn [last_rec rec_step].
      rewrite prefix_eqb_refl. cbn [andb]. rewrite N.eqb_sym. now destruct (r_mui r =? m).
    + destruct D as [-> ->]. destruct L as [_ L].
      assert (X : forall s, last_rec h (f, p) m = None \/
        (exists r, last_rec h (f, p) m = Some r /\ marked s t r = Rec m t s (r_meta r))).
      { intros s. destruct (last_rec h (f, p) m) as [r|] eqn:Z; [right|now left].
        exists r. split; [easy|]. unfold marked. now rewrite (last_rec_mui _ _ _ _ Z). }
      destruct sm; [| |]; injection A as <-; cbn [last_rec rec_step]; rewrite prefix_eqb_refl; cbn [andb];
        rewrite (N.eqb_sym m n); destruct (n =? m); try reflexivity.
      * destruct (X Active) as [->|(r & -> & Y)]; [reflexivity|]. cbn. now rewrite Y.
      * exfalso. now apply L.
      * destruct (X Withdrawn) as [->|(r & -> & Y)]; [reflexivity|]. cbn. now rewrite Y.
  - assert (NP : prefix_eqb (f, p) (f, q) = false).
    { rewrite prefix_eqb_af. rewrite pid_eqb_neq; [easy|]. intros ->. now rewrite pid_eqb_refl in Q. }
    destruct c as [q' r ups|sm q' n t| |]; try easy.
    + destruct D as [-> ->]. injection A as <-. cbn [last_rec]. now rewrite NP.
    + destruct D as [-> ->]. destruct sm; injection A as <-; cbn [last_rec]; now rewrite NP.
Qed.

Lemma hist_In f x i q : forall log, known f x log ->
  (In (i, q) (rev (flat_map (entry_op f x) log)) <->
   exists p o c, In (i, p, o) log /\ started x i c /\ as_op f c = Some q).
Proof.
  intros log K. rewrite <- in_rev, in_flat_map. split.
  - intros ([[j p] o] & I & E). destruct (K j p o I) as (c & S & D & _).
    destruct (entry_known f x j p o c S D) as (q' & A & E'). rewrite E' in E.
    destruct E as [E|[]]. injection E as <- <-. exists p, o, c. easy.
  - intros (p & o & c & I & S & A). exists (i, p, o). split; [easy|].
    destruct S as (l & N). unfold entry_op, call_of. cbn [fst]. rewrite N, A. now left.
Qed.

Lemma hist_fst f x : forall log, known f x log ->
  List.map fst (rev (flat_map (entry_op f x) log)) = rev (List.map call_of log).
Proof.
  induction log as [|e log IH] using rev_ind; intros K; [easy|].
  apply known_app in K. destruct K as [K1 K2].
  destruct e as [[i q] o]. destruct (K2 i q o (or_introl eq_refl)) as (c & S & D & L).
  destruct (entry_known f x i q o c S D) as (c' & A & E).
  rewrite flat_map_app. cbn [flat_map]. rewrite E, (map_app call_of), !rev_app_distr, map_app.
  cbn. now rewrite IH.
Qed.

Lemma hist_order f ov st x : reach f ov st x -> st <> PersistOnly -> serial_order f x (hist f x).
Proof.
  intros R NP. pose proof (order_known f ov st x R) as K. split.
  - unfold hist. rewrite hist_fst by easy. apply NoDup_rev. exact (proj1 (conc_order_calls _ _ _ x R)).
  - intros i o I. apply hist_In in I; [|easy]. destruct I as (p & u & c & _ & S & A). eauto.
  - intros i c o v Rt Ef A. destruct (conc_no_lost_update f ov st x R NP) as [U M].
    assert (S : started x i c) by (destruct Rt as (l & N & _); now exists l).
    apply hist_In; [easy|].
    destruct (reach_sok _ _ _ _ R) as [_ SI]. pose proof Rt as (l & N & Rv). specialize (SI _ _ _ N).
    destruct c as [p r ups|sm p m t|p|p m iw], l as [pc|pc|pc|pc]; try discriminate A; try contradiction SI.
    + destruct pc; try discriminate Rv; injection Rv as <-; [|discriminate].
      exists p, (OUp r), (CInsert p r ups). split; [|easy]. exact (U _ _ _ _ _ Rt).
    + destruct pc; try discriminate Rv; injection Rv as <-; [|discriminate].
      destruct r as [u|]; [|discriminate].
      exists p, (OMark sm m t), (CMark sm p m t). split; [|easy]. exact (M _ _ _ _ _ _ Rt).
Qed.

Lemma hist_extends f ov st x y : reach f ov st x -> sexec f ov x y ->
  exists h, hist f y = h ++ hist f x.
Proof.
  intros R E. destruct (conc_order_extends f ov st x y R E) as [(l & O) _].
  exists (rev (flat_map (entry_op f y) l)). unfold hist. rewrite O, flat_map_app, rev_app_distr. f_equal. f_equal.
  pose proof (order_known f ov st x R) as K.
  assert (G : forall log, known f x log -> flat_map (entry_op f y) log = flat_map (entry_op f x) log).
  { induction log as [|e log IH]; intros Kl; [easy|]. cbn [flat_map]. rewrite IH.
    - f_equal. destruct e as [[i p] o]. destruct (Kl i p o (or_introl eq_refl)) as (c & S & D & _).
      destruct (entry_known f x i p o c S D) as (q & A & ->).
      destruct (entry_known f y i p o c (started_exec _ _ _ _ _ _ E S) D) as (q' & A' & ->). congruence.
    - intros i p o I. apply Kl. now right. }
  exact (G _ K).
Qed.

Lemma serial_wf f ov st x h : reach f ov st x -> wf_calls x ->
  (forall i o, In (i, o) h -> exists c, started x i c /\ as_op f c = Some o) ->
  wf_history (List.map snd h).
Proof.
  intros R [W1 W2] B. apply Forall_forall. intros o I. apply in_map_iff in I.
  destruct I as ([i o'] & E & I). cbn in E. subst o'. destruct (B _ _ I) as (c & S & O).
  pose proof (wf_prefix _ _ _ _ _ _ _ _ (reach_sok _ _ _ _ R) S) as Wp.
  destruct c as [p r ups|sm p m t|p|p m iw]; try discriminate O.
  - injection O as <-. split; [exact Wp|]. eapply W1; eauto.
  - destruct sm; injection O as <-; (split; [exact Wp|]); eapply W2; eauto.
Qed.

(* ---------- the store answers for the history ---------- *)

Lemma serial_inserts f ov st x h : reach f ov st x -> idle x -> serial_order f x h ->
  same_inserts f x (List.map snd h) /\ no_globals (List.map snd h).
Proof.
  intros R Id [_ B C]. split.
  - intros p r ups. split.
    + intros I. apply in_map_iff in I. destruct I as ([i o] & E & I). cbn in E. subst o.
      destruct (B _ _ I) as (c & S & O). exists i. destruct c as [q r' u|sm q m t| |]; try discriminate O.
      * injection O as <- <- <-. exact S.
      * destruct sm; discriminate O.
    + intros (i & S). destruct (idle_inserts f ov st x R Id i p r ups S) as (a & Rt).
      apply in_map_iff. exists (i, Insert (f, p) r ups). split; [easy|].
      exact (C _ _ _ _ Rt eq_refl eq_refl).
  - intros o I. apply in_map_iff in I. destruct I as ([i o'] & E & I). cbn in E. subst o'.
    destruct (B _ _ I) as (c & S & O). destruct c as [q r' u|sm q m t| |]; try discriminate O.
    + injection O as <-. exact Logic.I.
    + destruct sm; injection O as <-; exact Logic.I.
Qed.

Lemma hist_mem f ov st x : reach f ov st x -> mem_ans f (List.map snd (hist f x)) (table_of x).
Proof.
  intros R. destruct (reach_sok _ _ _ _ R) as [G _]. split; [exact (g_table _ _ _ _ _ G)|].
  intros p Wp. pose proof (g_recs _ _ _ _ _ G p) as RC. unfold pheap in RC. unfold table_of.
  assert (H : forall m, last_rec (List.map snd (hist f x)) (f, p) m = rec_after p m (order x)).
  { intros m. apply hist_rec. exact (order_known f ov st x R). }
  destruct (pfxs f (pc_heap (rb_pcht (ss_rib (sh x)))) p) as [v|].
  - split; rewrite RC.
    + apply replay_NoDup.
    + intros m. rewrite H. exact (proj1 (replay_rec p m (order x))).
  - intros m. rewrite H. pose proof (proj1 (replay_rec p m (order x))) as E.
    unfold replay, order in *. rewrite RC in E. cbn in E.
    destruct (rec_after p m (ss_log (sh x))); [discriminate|easy].
Qed.

Lemma hist_ans f ov st x : reach f ov st x -> st <> PersistOnly -> idle x ->
  rib_ans st f (List.map snd (hist f x)) (ss_rib (sh x)).
Proof.
  intros R NP Id. destruct (reach_sok _ _ _ _ R) as [G _].
  destruct (serial_inserts f ov st x _ R Id (hist_order f ov st x R NP)) as [SI NG]. split.
  - exact (g_strat _ _ _ _ _ G).
  - exact (idle_tree f ov st x _ R Id SI NG).
  - intros _. exact (hist_mem f ov st x R).
  - intros E. now destruct NP.
Qed.

Lemma sinv_serial f ov x h : reach f ov PersistOnly x -> wf_calls x -> sinv f x h -> serial_order f x h.
Proof.
  intros R W V. destruct (sinv_order f ov x h R W V) as [A B C]. split; auto.
  intros i c o v Rt Ef. apply (C i c o v Rt). intros ->. discriminate.
Qed.

Lemma sinv_ans f ov x h : reach f ov PersistOnly x -> wf_calls x -> sinv f x h -> idle x ->
  rib_ans PersistOnly f (List.map snd h) (ss_rib (sh x)).
Proof.
  intros R W V Id. destruct (reach_sok _ _ _ _ R) as [G _].
  destruct (serial_inserts f ov PersistOnly x h R Id (sinv_serial f ov x h R W V)) as [SI NG]. split.
  - exact (g_strat _ _ _ _ _ G).
  - exact (idle_tree f ov PersistOnly x _ R Id SI NG).
  - easy.
  - intros _. destruct (rb_lsm (ss_rib (sh x))) as [l|] eqn:L.
    + exists l. split; [easy|]. exact (si_disk _ _ _ V l L).
    + pose proof (g_lsm _ _ _ _ _ G L). discriminate.
Qed.

Lemma rib_of_set st f rb g : rib_of (StarCast.set_rib st f rb) g = if af_eqb g f then rb else rib_of st g.
Proof. now destruct f, g. Qed.

(* the store [s] with the RIB of one family replaced by that of [x] *)
Definition with_rib (s : store) (f : af) (x : cstore) : store := StarCast.set_rib s f (ss_rib (sh x)).

Lemma alike f st x h s : rib_ans st f h (ss_rib (sh x)) -> after st h s ->
  forall q, for_records q = true -> wf_query q -> answer_alike (ask (with_rib s f x) q) (ask s q).
Proof.
  intros Rx A. pose proof A as [Wh _].
  assert (B : forall g, rib_ans st g h (rib_of s g)).
  { intros g. apply rib_ok_ans. exact (proj2 (after_rib _ _ _ g A)). }
  intros q F W. apply (ask_same st h); auto.
  intros g. unfold with_rib. rewrite rib_of_set. destruct (af_eqb g f) eqn:E; [|apply B].
  apply af_eqb_spec in E. now subst g.
Qed.

Lemma conc_quiet_memory f ov st x : reach f ov st x -> st <> PersistOnly -> idle x -> wf_calls x ->
  exists s, after st (List.map snd (hist f x)) s /\
    forall q, for_records q = true -> wf_query q -> answer_alike (ask (with_rib s f x) q) (ask s q).
Proof.
  intros R NP Id W. pose proof (hist_order f ov st x R NP) as SO.
  pose proof (serial_wf f ov st x _ R W (so_calls _ _ _ SO)) as WH.
  destruct (run_ok st _ WH) as (s & Ru & _). exists s. assert (A : after st (List.map snd (hist f x)) s) by (now split).
  split; [exact A|]. exact (alike f st x _ s (hist_ans f ov st x R NP Id) A).
Qed.

Lemma conc_quiet f ov st x y : reach f ov st x -> sexec f ov x y -> idle y -> wf_calls y ->
  (st = PersistOnly -> no_activations y) ->
  exists h1 h2, serial_order f x h1 /\ serial_order f y (h2 ++ h1) /\
    exists s, after st (List.map snd (h2 ++ h1)) s /\
      forall q, for_records q = true -> wf_query q -> answer_alike (ask (with_rib s f y) q) (ask s q).
Proof.
  intros R E Id W NA. pose proof (reach_exec _ _ _ _ _ R E) as Ry.
  destruct (match st with PersistOnly => true | _ => false end) eqn:St.
  - assert (st = PersistOnly) as -> by (now destruct st). specialize (NA eq_refl).
    assert (Wx : wf_calls x) by (eapply wf_calls_back; eauto).
    assert (NAx : no_activations x) by (intros j p m t S; eapply NA, started_exec; eauto).
    pose proof R as (rb & H & E0).
    assert (R0 : reach f ov PersistOnly (sconf0 rb)) by (exists rb; split; [easy|apply ex_refl]).
    destruct (sinv_exec f ov (sconf0 rb) [] R0 (sinv_init f rb H) x E0 Wx NAx) as (h1 & V1).
    rewrite app_nil_r in V1.
    destruct (sinv_exec f ov x h1 R V1 y E W NA) as (h2 & V2).
    exists h1, h2. split; [exact (sinv_serial f ov x h1 R Wx V1)|].
    pose proof (sinv_serial f ov y _ Ry W V2) as SO. split; [exact SO|].
    pose proof (serial_wf f ov _ y _ Ry W (so_calls _ _ _ SO)) as WH.
    destruct (run_ok PersistOnly _ WH) as (s & Ru & _). exists s.
    assert (A : after PersistOnly (List.map snd (h2 ++ h1)) s) by (now split).
    split; [exact A|]. exact (alike f PersistOnly y _ s (sinv_ans f ov y _ Ry W V2 Id) A).
  - assert (NP : st <> PersistOnly) by (intros ->; discriminate).
    destruct (hist_extends f ov st x y R E) as (h2 & H).
    exists (hist f x), h2. split; [exact (hist_order f ov st x R NP)|].
    rewrite <- H. split; [exact (hist_order f ov st y Ry NP)|].
    exact (conc_quiet_memory f ov st y Ry NP Id W).
Qed.
