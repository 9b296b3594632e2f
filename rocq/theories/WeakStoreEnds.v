(* Proofs: on a weak memory a call of the store that is left alone returns,
   whatever the other threads are in the middle of. *)
From Coq Require Import Arith NArith List Bool Lia.
From Verif Require Import Word Af BitSpan Maps ChtMath Cht Node Tree ChainProofs TreeProofs MultiMap PrefixCht PrefixChtProofs HistSpec
  Conc ConcMarks ConcTree ConcTreeProofs ConcTreeInv ConcTreeStep ConcTreeEnd ConcTreeSeen ConcStore ConcTable ConcSpec
  WeakTree WeakTreeView WeakTreeStep WeakTreeInv WeakTreeFacts WeakTable WeakTableView WeakTableInv WeakTableFacts
  WeakStore WeakStoreInv WeakStoreFacts.
Import ListNotations.
Local Open Scope N_scope.

(* only thread i moves; a lock may change what it passes on, and a lock that was
   never taken may get its place *)
Definition by_alone (i : nat) (x y : sconf) : Prop :=
  forall j s, j <> i -> nth_error (sc_sts x) j = Some s -> ~ is_lock (st_pc s) ->
    nth_error (sc_sts y) j = Some s /\
    nth_error (wc_ths (sc_tree y)) j = nth_error (wc_ths (sc_tree x)) j /\
    nth_error (ac_ths (sc_tab y)) j = nth_error (ac_ths (sc_tab x)) j.

Lemma by_alone_refl i x : by_alone i x x.
Proof. intros j s _ N _. auto. Qed.
Lemma by_alone_trans i x y z : by_alone i x y -> by_alone i y z -> by_alone i x z.
Proof.
  intros A B j s NE N L. destruct (A j s NE N L) as (A1 & A2 & A3). destruct (B j s NE A1 L) as (B1 & B2 & B3).
  split; [easy|]. split; congruence.
Qed.

(* the parts of thread i *)
Definition has_parts (x : sconf) (i : nat) (s : sthread) (t : wthread) (a : athread) : Prop :=
  nth_error (sc_sts x) i = Some s /\ nth_error (wc_ths (sc_tree x)) i = Some t /\ nth_error (ac_ths (sc_tab x)) i = Some a.

Definition gets (f : af) (ov : bool) (i : nat) (x y : sconf) : Prop := store_exec f ov x y /\ by_alone i x y.
Lemma gets_refl f ov i x : gets f ov i x x.
Proof. split; [constructor|apply by_alone_refl]. Qed.
Lemma gets_trans f ov i x y z : gets f ov i x y -> gets f ov i y z -> gets f ov i x z.
Proof. intros [A B] [C D]. split; [eapply store_exec_trans; eauto|eapply by_alone_trans; eauto]. Qed.
Lemma gets_reach f ov i x y : store_reach f ov x -> gets f ov i x y -> store_reach f ov y.
Proof. intros R [E _]. eapply store_exec_reach; eauto. Qed.

Lemma reach_new f ov x : store_reach f ov x -> exists t0, tree_new f = Ok t0.
Proof. intros R. destruct R; eauto. Qed.

(* ---------- single steps ---------- *)

Lemma go_tree f ov x i s t a m c t' : store_reach f ov x -> has_parts x i s t a ->
  wtstep f ov (wc_mem (sc_tree x)) t m c t' -> wt_call t <> WIdle -> wt_call t' <> WIdle ->
  exists y, gets f ov i x y /\ has_parts y i s t' a /\ wc_mem (sc_tree y) = m.
Proof.
  intros R (Ns & Nt & Na) S C C'. destruct (reach_new _ _ _ R) as [t0 E0]. eexists. split; [split|split].
  - eapply se_step; [constructor|exact E0|]. eapply ss_tree; [|exact C|exact C']. exists m, c. split; [exact Nt|]. split; [exact S|reflexivity].
  - intros j s' NE N L. cbn [sc_sts sc_tree sc_tab wc_ths]. split; [exact N|]. split; [now apply set_nth_rest|easy].
  - split; [exact Ns|]. split; [cbn; eapply set_nth_here; eauto|exact Na].
  - reflexivity.
Qed.

Lemma go_learn f ov x i s t a v : store_reach f ov x -> has_parts x i s t a -> learns_all (wc_mem (sc_tree x)) (wt_view t) v ->
  exists y, gets f ov i x y /\ has_parts y i s (WThread v (wt_call t) (wt_past t) (wt_news t) (wt_steps t)) a /\
    wc_mem (sc_tree y) = wc_mem (sc_tree x).
Proof.
  intros R P L. destruct (reach_new _ _ _ R) as [t0 E0]. induction L as [|u w L IH S].
  - exists x. split; [apply gets_refl|]. split; [|easy]. now destruct t.
  - destruct IH as (y & G & (Ns & Nt & Na) & M). eexists. split; [|split].
    + eapply gets_trans; [exact G|]. split.
      * eapply se_step; [constructor|exact E0|].
        apply (ss_learn_tree f ov t0 y i _ w) with (1 := Nt); [cbn [wt_view]; rewrite M; exact S|].
        eexists _, []. split; [exact Nt|]. split; [|reflexivity]. apply wt_learn. cbn [wt_view]. rewrite M. exact S.
      * intros j s' NE N Lk. cbn [sc_sts sc_tree sc_tab wc_ths]. split; [exact N|]. split; [now apply set_nth_rest|easy].
    + split; [exact Ns|]. split; [cbn; eapply set_nth_here; eauto|exact Na].
    + cbn. exact M.
Qed.

Lemma go_table f ov x i s t a m a' : store_reach f ov x -> has_parts x i s t a ->
  atstep f i (ac_mem (sc_tab x)) a m a' -> walking a ->
  exists y, gets f ov i x y /\ has_parts y i s t a' /\ ac_mem (sc_tab y) = m.
Proof.
  intros R (Ns & Nt & Na) S C. destruct (reach_new _ _ _ R) as [t0 E0]. eexists. split; [split|split].
  - eapply se_step; [constructor|exact E0|]. eapply ss_table; [|exact C]. exists m. split; [exact Na|]. split; [exact S|reflexivity].
  - intros j s' NE N L. cbn [sc_sts sc_tree sc_tab ac_ths]. split; [exact N|]. split; [easy|now apply set_nth_rest].
  - split; [exact Ns|]. split; [exact Nt|cbn; eapply set_nth_here; eauto].
  - reflexivity.
Qed.

(* ---------- insert, in the tree ---------- *)

Lemma ins_ends f ov x i s t a p mui pc : store_reach f ov x -> has_parts x i s t a ->
  wt_call t = WIns p mui pc -> no_overflow ov p ->
  exists y t' r, gets f ov i x y /\ has_parts y i s t' a /\ wt_call t' = WIns p mui (TDone (ROk r)).
Proof.
  intros R P C NO. remember (N.to_nat (tmu p pc)) as n eqn:Hn. revert x t pc R P C Hn.
  induction n as [n IH] using lt_wf_ind. intros x t pc R P C Hn.
  pose proof (si_tree _ _ _ (storeI_reach _ _ _ R)) as RT. pose proof (proj1 (proj2 P)) as E.
  destruct (wt_here f ov (sc_tree x) i t RT E) as (CW & G & TH). pose proof TH as [K _ _ T]. unfold callI in T. rewrite C in T.
  destruct T as (Q & T & _ & _). pose proof (CW _ Q) as Wp.
  assert (F : ~ ended pc \/ exists r, pc = TDone (ROk r)).
  { destruct pc; try (left; intros Z; exact Z); [destruct r; [right; eauto|easy]|]. now elim T. }
  destruct F as [F|[r ->]]; [|exists x, t, r; split; [apply gets_refl|auto]].
  destruct (can_agree f ov p (wc_mem (sc_tree x)) (wt_view t) pc Wp K T) as (v & L & A).
  destruct (go_learn f ov x i s t a v R P L) as (x1 & G1 & P1 & M1).
  pose proof (gets_reach _ _ _ _ _ R G1) as R1. rewrite <- M1 in A.
  set (t1 := WThread v (wt_call t) (wt_past t) (wt_news t) (wt_steps t)) in *.
  assert (C1 : wt_call t1 = WIns p mui pc) by exact C.
  destruct (go_tree f ov x1 i s t1 a _ _ _ R1 P1 (wt_ins f ov _ t1 p mui pc C1 F A)) as (x2 & G2 & P2 & M2).
  { rewrite C1. discriminate. }
  { cbn. discriminate. }
  destruct (learns_all_known f (wc_mem (sc_tree x)) _ v K L) as [Kv Rv].
  pose proof (g_cht _ _ _ (proj1 G)) as I.
  pose proof (known_ninv f _ _ K I) as Iw. pose proof (known_ninv f _ _ Kv I) as Iv.
  pose proof (tI_R f ov p _ v pc Iw Iv Rv T) as Tv.
  pose proof (small_known f _ _ _ (proj1 G) Iv (kn_le _ _ _ Kv)) as SM.
  pose proof (tnext_known f ov p mui v pc Wp Iv SM Tv F) as VG. unfold vgood in VG.
  assert (MU : tmu p (snd (tnext f ov p mui v pc)) < tmu p pc).
  { destruct (tnext f ov p mui v pc). simpl. tauto. }
  assert (R2 : store_reach f ov x2) by (eapply gets_reach; [exact R1|exact G2]).
  destruct (IH (N.to_nat (tmu p (snd (tnext f ov p mui v pc)))) ltac:(lia) x2 _ _ R2 P2 eq_refl eq_refl)
    as (y & t' & r & Y & Py & Cy).
  exists y, t', r. split; [|auto]. eapply gets_trans; [exact G1|]. eapply gets_trans; [exact G2|exact Y].
Qed.

(* ---------- contains ---------- *)

Lemma has_ends f ov x i s t a p pc : store_reach f ov x -> has_parts x i s t a -> wt_call t = WHas p pc ->
  exists y t' b, gets f ov i x y /\ has_parts y i s t' a /\ wt_call t' = WHas p (XDone b).
Proof.
  intros R P C. remember (N.to_nat (xmu pc)) as n eqn:Hn. revert x t pc R P C Hn.
  induction n as [n IH] using lt_wf_ind. intros x t pc R P C Hn.
  pose proof (si_tree _ _ _ (storeI_reach _ _ _ R)) as RT. pose proof (proj1 (proj2 P)) as E.
  destruct (wt_here f ov (sc_tree x) i t RT E) as (CW & G & TH). pose proof TH as [K _ _ T]. unfold callI in T. rewrite C in T.
  destruct T as (Wp & _ & before & _ & X).
  pose proof (g_cht _ _ _ (proj1 G)) as I. pose proof (known_ninv f _ _ K I) as Iv.
  assert (F : match pc with XDone _ | XPanic => False | _ => True end \/ exists b, pc = XDone b).
  { destruct pc; auto; [right; eauto|]. destruct X as [_ X]. now elim X. }
  destruct F as [F|[b ->]]; [|exists x, t, b; split; [apply gets_refl|auto]].
  destruct (xstep_known f p before _ pc Iv Wp X) as (pc' & Ex & _ & MU).
  pose proof (wt_has f ov (wc_mem (sc_tree x)) t p pc C F) as S. rewrite Ex in S.
  destruct (go_tree f ov x i s t a _ _ _ R P S) as (x2 & G2 & P2 & M2).
  { rewrite C. discriminate. }
  { cbn. discriminate. }
  assert (R2 : store_reach f ov x2) by (eapply gets_reach; [exact R|exact G2]).
  destruct (IH (N.to_nat (xmu pc')) ltac:(destruct pc; easy || lia) x2 _ _ R2 P2 eq_refl eq_refl) as (y & t' & b & Y & Py & Cy).
  exists y, t', b. split; [|auto]. eapply gets_trans; [exact G2|exact Y].
Qed.

(* ---------- in the table, up to the lock ---------- *)

Lemma walk_ends f ov x i s t a p c pc : store_reach f ov x -> has_parts x i s t a -> at_run a = Some (p, c, pc) ->
  exists y a' pc', gets f ov i x y /\ has_parts y i s t a' /\ at_run a' = Some (p, c, pc') /\
    ((exists k found v, pc' = ACrit k found /\ deref k (tm_heap (ac_mem (sc_tab y))) = Ok v) \/ exists n b, pc' = ADone n b).
Proof.
  intros R Ps C. remember (ameasure pc) as n eqn:Hn. revert x a pc R Ps C Hn.
  induction n as [n IH] using lt_wf_ind. intros x a pc R Ps C Hn.
  pose proof (si_tab _ _ _ (storeI_reach _ _ _ R)) as RA. pose proof (proj2 (proj2 Ps)) as E.
  pose proof (wtable_thread f (sc_tab x) i a RA E) as TI. pose proof TI as [P PA DI T]. unfold runI in T. rewrite C in T.
  destruct T as (W & T). destruct (confI_reach f (sc_tab x) RA) as ([I RC] & _).
  destruct pc as [q|w|k found|n0 b|]; [| | | |easy].
  - destruct T as (T1 & T2 & T3 & T4).
    assert (WK : walking a) by (unfold walking; now rewrite C).
    assert (LG : exists x1 a1, gets f ov i x x1 /\ has_parts x1 i s t a1 /\ ac_mem (sc_tab x1) = ac_mem (sc_tab x) /\
      at_run a1 = Some (p, c, AWalk q) /\ cells_agree f p (tm_heap (ac_mem (sc_tab x))) (at_view a1) q).
    { destruct (cells_agree_dec f (tm_heap (ac_mem (sc_tab x))) (at_view a) p q) as [A|NA].
      - exists x, a. split; [apply gets_refl|]. auto.
      - destruct (cell_learn f _ _ p q I W P T1 NA) as (v & K & A).
        destruct (go_table f ov x i s t a _ _ R Ps (at_learn f i (ac_mem (sc_tab x)) a v K) WK) as (y & S & E' & M).
        exists y. eexists. split; [exact S|]. split; [exact E'|]. auto. }
    destruct LG as (x1 & a1 & X1 & P1 & M1 & C1 & A1). rewrite <- M1 in A1.
    assert (R1 : store_reach f ov x1) by (eapply gets_reach; [exact R|exact X1]).
    destruct (go_table f ov x1 i s t a1 _ _ R1 P1 (at_walk f i (ac_mem (sc_tab x1)) a1 p c q C1 A1)) as (x2 & X2 & P2 & M2).
    { unfold walking. now rewrite C1. }
    assert (R2 : store_reach f ov x2) by (eapply gets_reach; [exact R1|exact X2]).
    pose proof (si_tab _ _ _ (storeI_reach _ _ _ R1)) as RA1.
    pose proof (wtable_thread f (sc_tab x1) i a1 RA1 (proj2 (proj2 P1))) as [Q1 _ _ Q2]. unfold runI in Q2. rewrite C1 in Q2.
    destruct Q2 as (_ & Q2 & _). destruct (confI_reach f (sc_tab x1) RA1) as ([I1 _] & _).
    destruct (walked_ok f _ _ p q I1 W Q1 Q2 A1) as (_ & _ & _ & _ & _ & o & EQ & _ & _ & MU).
    edestruct (IH (ameasure (or_apanic (do x <- pstep f p (at_view a1) q; Ok (after_walk c (snd x)))))) as (y & a' & pc' & Y & Py & Cy & Ey);
      [ |exact R2|exact P2|reflexivity|reflexivity|].
    { rewrite EQ. cbn [bind or_apanic snd]. destruct o as [q'|k found]; simpl; [simpl in Hn; lia|].
      destruct c as [r|st mui lt|mui iw bmin]; simpl in *; try lia. destruct found; simpl; lia. }
    exists y, a', pc'. split; [|auto]. eapply gets_trans; [exact X1|]. eapply gets_trans; [exact X2|exact Y].
  - destruct T as (T1 & T2 & T3).
    destruct (go_table f ov x i s t a _ _ R Ps (at_look f i (ac_mem (sc_tab x)) a p c w C)) as (x2 & X2 & P2 & M2).
    { unfold walking. now rewrite C. }
    assert (R2 : store_reach f ov x2) by (eapply gets_reach; [exact R|exact X2]).
    edestruct (IH (ameasure (or_apanic (alook f p (at_view a) w)))) as (y & a' & pc' & Y & Py & Cy & Ey);
      [ |exact R2|exact P2|reflexivity|reflexivity|].
    { destruct (alook_ok f (at_view a) p w (part_pinv f _ _ P I) W T1) as [(N & EQ)|[(k & EQ & AT)|(w' & EQ & WO & L1 & L2)]];
      rewrite EQ; cbn [or_apanic ameasure]; cbn [ameasure] in Hn; lia. }
    exists y, a', pc'. split; [|auto]. eapply gets_trans; [exact X2|exact Y].
  - destruct T as (T1 & _).
    assert (AM : at_id (tm_heap (ac_mem (sc_tab x))) k p) by (eapply at_id_grows; [exact (pa_le _ _ _ P)|exact T1]).
    destruct (at_id_lookup _ _ _ AM) as (v & DR & _).
    exists x, a, (ACrit k found). split; [apply gets_refl|]. split; [exact Ps|]. split; [exact C|]. left. eauto.
  - exists x, a, (ADone n0 b). split; [apply gets_refl|]. split; [exact Ps|]. split; [exact C|]. right. eauto.
Qed.

(* ---------- the lock ---------- *)

Lemma lock_or_not (l : list sthread) p : (exists j past, nth_error l j = Some (SThread (SLock p) past)) \/
  forall j past, nth_error l j <> Some (SThread (SLock p) past).
Proof.
  induction l as [|[s past] l IH].
  - right. intros [|j] past; discriminate.
  - assert (D : s = SLock p \/ s <> SLock p).
    { destruct s as [q| | | | | | ]; try (right; discriminate). destruct p as [b n], q as [b' n'].
      destruct (N.eq_dec b b'), (N.eq_dec n n'); subst; auto; right; congruence. }
    destruct D as [->|D]; [left; exists 0%nat, past; reflexivity|].
    destruct IH as [(j & q & E)|NO]; [left; exists (S j), q; exact E|].
    right. intros [|j] q E; [injection E as E1 E2; auto|]. exact (NO j q E).
Qed.

Lemma nth_app_some {A} (l l' : list A) i x : nth_error l i = Some x -> nth_error (l ++ l') i = Some x.
Proof. intros N. rewrite nth_error_app1; [exact N|]. now apply nth_error_Some; rewrite N. Qed.

Lemma lock_there f ov x i s t a p : store_reach f ov x -> has_parts x i s t a ->
  exists y l past, gets f ov i x y /\ has_parts y i s t a /\ nth_error (sc_sts y) l = Some (SThread (SLock p) past) /\
    ac_mem (sc_tab y) = ac_mem (sc_tab x).
Proof.
  intros R (Ns & Nt & Na). destruct (lock_or_not (sc_sts x) p) as [(l & past & E)|NO].
  - exists x, l, past. split; [apply gets_refl|]. split; [repeat split; easy|]. auto.
  - destruct (reach_new _ _ _ R) as [t0 E0]. pose proof (storeI_reach _ _ _ R) as I. eexists _, (length (sc_sts x)), []. split; [split|split].
    + eapply se_step; [constructor|exact E0|]. apply (ss_spawn f ov t0 x (SLock p)). right. exists p. split; [easy|exact NO].
    + intros j s' NE N L. cbn [sc_sts sc_tree sc_tab wc_ths ac_ths].
      destruct (parts_of _ _ _ _ _ I N) as (t' & a' & Nt' & Na' & _).
      split; [now apply nth_app_some|]. rewrite Nt', Na'. split; now apply nth_app_some.
    + repeat split; cbn [sc_sts sc_tree sc_tab wc_ths ac_ths]; now apply nth_app_some.
    + cbn [sc_sts sc_tab ac_mem]. split; [|easy]. rewrite nth_error_app2, Nat.sub_diag by easy. reflexivity.
Qed.

Lemma locked_ends f ov x i s past t a p c k found v : store_reach f ov x -> has_parts x i (SThread s past) t a ->
  at_run a = Some (p, c, ACrit k found) -> deref k (tm_heap (ac_mem (sc_tab x))) = Ok v ->
  exists y b past', gets f ov i x y /\ nth_error (sc_sts y) i = Some (SThread (answered s b) past').
Proof.
  intros R0 P0 C D0. destruct (lock_there f ov x i _ t a p R0 P0) as (y & l & lpast & G & P & Nl & M).
  pose proof (gets_reach _ _ _ _ _ R0 G) as R. rewrite <- M in D0. clear P0 M.
  enough (Q : exists z b past', gets f ov i y z /\ nth_error (sc_sts z) i = Some (SThread (answered s b) past')).
  { destruct Q as (z & b & q & Q1 & Q2). exists z, b, q. split; [eapply gets_trans; [exact G|exact Q1]|exact Q2]. }
  clear x R0 G. rename y into x. pose proof (storeI_reach _ _ _ R) as I. destruct P as (Ns & Nt & Na).
  destruct (parts_of _ _ _ _ _ I Nl) as (tl & al & Ntl & Nal & Pl). cbn [st_pc pcI] in Pl. destruct Pl as [Cl Rl].
  pose proof (si_pc _ _ _ I _ _ _ _ Ns Nt Na) as PI. cbn [st_pc] in PI.
  assert (Ct : wt_call t = WIdle).
  { destruct s; simpl in PI; try (now destruct PI as [_ PI]; rewrite C in PI); tauto. }
  assert (NE : l <> i).
  { intros ->. rewrite Na in Nal. injection Nal as <-. rewrite C in Rl. discriminate. }
  destruct (reach_new _ _ _ R) as [t0 E0].
  pose proof (at_crit f i (ac_mem (sc_tab x)) a p c k found v C D0) as S1. cbv zeta in S1.
  match type of S1 with atstep _ _ _ _ ?m ?b => set (m1 := m) in S1; set (a1 := b) in S1 end.
  assert (C1 : at_run a1 = Some (p, c, ADone (many p (tm_log (ac_mem (sc_tab x)) ++ List.map (fun o => (i, p, o)) (op_of_call c))) (snd (acrit c found (pv_recs v))))) by reflexivity.
  pose proof (at_return f i m1 a1 p c _ _ C1) as S2.
  match type of S2 with atstep _ _ _ _ _ ?b => set (a2 := b) in S2 end.
  set (z1 := AConf m1 (set_nth i a1 (ac_ths (sc_tab x)))).
  set (z2 := AConf m1 (set_nth i a2 (ac_ths z1))).
  set (z3 := AConf m1 (set_nth i (atold al a2) (ac_ths z2))).
  set (z4 := AConf m1 (set_nth l (atold (atold al a2) al) (ac_ths z3))).
  set (y1 := WTConf (wc_mem (sc_tree x)) (wc_called (sc_tree x)) (set_nth i (told tl t) (wc_ths (sc_tree x)))).
  set (y2 := WTConf (wc_mem (sc_tree x)) (wc_called (sc_tree x)) (set_nth l (told (told tl t) tl) (wc_ths y1))).
  assert (Z1 : nth_error (ac_ths z1) i = Some a1) by (cbn; eapply set_nth_here; eauto).
  assert (Z1l : nth_error (ac_ths z1) l = Some al) by (cbn; rewrite set_nth_rest by easy; exact Nal).
  assert (Z2 : nth_error (ac_ths z2) i = Some a2) by (unfold z2; cbn [ac_ths]; eapply set_nth_here; eauto).
  assert (Z2l : nth_error (ac_ths z2) l = Some al) by (unfold z2; cbn [ac_ths]; rewrite set_nth_rest by easy; exact Z1l).
  assert (Z3 : nth_error (ac_ths z3) i = Some (atold al a2)) by (unfold z3; cbn [ac_ths]; eapply set_nth_here; eauto).
  assert (Z3l : nth_error (ac_ths z3) l = Some al) by (unfold z3; cbn [ac_ths]; rewrite set_nth_rest by easy; exact Z2l).
  assert (Y1 : nth_error (wc_ths y1) i = Some (told tl t)) by (cbn; eapply set_nth_here; eauto).
  assert (Y1l : nth_error (wc_ths y1) l = Some tl) by (cbn; rewrite set_nth_rest by easy; exact Ntl).
  pose proof (ss_locked f ov t0 x i l s past lpast p c k found (many p (tm_log (ac_mem (sc_tab x)) ++ List.map (fun o => (i, p, o)) (op_of_call c)))
    (snd (acrit c found (pv_recs v))) a a1 a2 z1 z2 z3 z4 y1 y2 Ns Nl) as ST. cbv zeta in ST.
  eexists _, (snd (acrit c found (pv_recs v))), (lpast ++ own_insert s ++ past). split; [split|].
  - eapply se_step; [constructor|exact E0|]. apply ST.
    + exists m1. split; [exact Na|]. split; [exact S1|reflexivity].
    + exact C.
    + exact C1.
    + exists m1. split; [exact Z1|]. split; [exact S2|reflexivity].
    + reflexivity.
    + exists al, a2. repeat split; auto.
    + exists (atold al a2), al. repeat split; auto.
    + exists tl, t. repeat split; auto.
    + exists (told tl t), tl. repeat split; auto.
  - intros j s' NJ N L. cbn [sc_sts sc_tree sc_tab]. assert (NL : j <> l).
    { intros ->. rewrite Nl in N. injection N as <-. apply L. exact Logic.I. }
    unfold set_st. split; [now rewrite !set_nth_rest|]. split.
    + unfold y2, y1. cbn [wc_ths]. now rewrite !set_nth_rest.
    + unfold z4, z3, z2, z1. cbn [ac_ths]. now rewrite !set_nth_rest.
  - cbn [sc_sts]. rewrite set_nth_rest by auto. unfold set_st. eapply set_nth_here; eauto.
Qed.

Lemma none_ends f ov x i s past t a p c n b : store_reach f ov x -> has_parts x i (SThread s past) t a ->
  at_run a = Some (p, c, ADone n b) ->
  exists y past', gets f ov i x y /\ nth_error (sc_sts y) i = Some (SThread (answered s b) past').
Proof.
  intros R (Ns & Nt & Na) C. destruct (reach_new _ _ _ R) as [t0 E0]. eexists _, past. split; [split|].
  - eapply se_step; [constructor|exact E0|]. eapply ss_none; [exact Ns| |exact C|].
    + eexists. split; [exact Na|]. split; [apply (at_return f i (ac_mem (sc_tab x)) a p c n b C)|reflexivity].
    + reflexivity.
  - intros j s' NE N L. cbn [sc_sts sc_tree sc_tab ac_ths]. unfold set_st. rewrite !set_nth_rest by easy. auto.
  - cbn [sc_sts]. unfold set_st. eapply set_nth_here; eauto.
Qed.

Lemma table_ends f ov x i s past t a p c pc : store_reach f ov x -> has_parts x i (SThread s past) t a -> at_run a = Some (p, c, pc) ->
  exists y b past', gets f ov i x y /\ nth_error (sc_sts y) i = Some (SThread (answered s b) past').
Proof.
  intros R P C. destruct (walk_ends f ov x i _ t a p c pc R P C) as (x1 & a1 & pc1 & G1 & P1 & C1 & [(k & found & v & -> & D)|(n & b & ->)]).
  - pose proof (gets_reach _ _ _ _ _ R G1) as R1.
    destruct (locked_ends f ov x1 i s past t a1 p c k found v R1 P1 C1 D) as (y & b & q & G & N). exists y, b, q.
    split; [eapply gets_trans; [exact G1|exact G]|exact N].
  - pose proof (gets_reach _ _ _ _ _ R G1) as R1.
    destruct (none_ends f ov x1 i s past t a1 p c n b R1 P1 C1) as (y & q & G & N). exists y, b, q.
    split; [eapply gets_trans; [exact G1|exact G]|exact N].
Qed.

(* ---------- the whole call ---------- *)

(* the insert that a thread is in the middle of *)
Definition its_insert (s : store_pc) : list (pid * record) :=
  match s with SIns p r | SUp p r _ | SRet p (AUp r) _ => [(p, r)] | _ => [] end.

Lemma ret_ends f ov x i p c b past : store_reach f ov x -> nth_error (sc_sts x) i = Some (SThread (SRet p c b) past) ->
  exists y, gets f ov i x y /\ nth_error (sc_sts y) i = Some (SThread SIdle past) /\ incl (its_insert (SRet p c b)) past.
Proof.
  intros R N. destruct (reach_new _ _ _ R) as [t0 E0]. pose proof (storeI_reach _ _ _ R) as I. eexists. split; [split|split].
  - eapply se_step; [constructor|exact E0|]. eapply ss_return. exact N.
  - intros j s' NE Nj L. cbn [sc_sts sc_tree sc_tab]. unfold set_st. rewrite set_nth_rest by easy. auto.
  - cbn [sc_sts]. unfold set_st. eapply set_nth_here; eauto.
  - pose proof (si_ret _ _ _ I _ _ N) as RT. unfold retI in RT. cbn [st_pc st_past] in RT. intros e H. destruct c as [r|st mui lt|mui iw bmin]; try easy.
    destruct H as [<-|[]]. destruct RT as (found & o & l1 & l2 & _ & _ & H & _). exact H.
Qed.

Lemma up_ends f ov x i s past : store_reach f ov x -> nth_error (sc_sts x) i = Some (SThread s past) ->
  match s with SUp _ _ _ | SOne _ _ => True | _ => False end ->
  exists y past', gets f ov i x y /\ nth_error (sc_sts y) i = Some (SThread SIdle past') /\ incl (its_insert s) past'.
Proof.
  intros R N M. pose proof (storeI_reach _ _ _ R) as I. destruct (parts_of _ _ _ _ _ I N) as (t & a & Nt & Na & P). cbn [st_pc] in P.
  assert (Q : exists p c pc, at_run a = Some (p, c, pc) /\ (forall b, answered s b = SRet p c b) /\ its_insert s = its_insert (SRet p c (RMark true))).
  { destruct s; try easy; simpl in P.
    - destruct P as (_ & _ & pc & E & _). exists p, (AUp r), pc. split; [exact E|]. split; reflexivity.
    - destruct P as (_ & NU & pc & E & _). exists p, c, pc. split; [exact E|]. split; [reflexivity|].
      destruct c as [r| |]; [now elim (NU r)|reflexivity..]. }
  destruct Q as (p & c & pc & C & AN & IN). destruct (table_ends f ov x i s past t a p c pc R (conj N (conj Nt Na)) C) as (y & b & q & G & Ny).
  rewrite AN in Ny. destruct (ret_ends f ov y i p c b q (gets_reach _ _ _ _ _ R G) Ny) as (z & G' & Nz & IC).
  exists z, q. split; [eapply gets_trans; [exact G|exact G']|]. split; [exact Nz|]. rewrite IN. exact IC.
Qed.

(* a call that is left alone returns, whatever the others are in the middle of *)
Lemma store_returns f ov x i s past : store_reach f ov x -> nth_error (sc_sts x) i = Some (SThread s past) -> ~ is_lock s ->
  (forall p r, s = SIns p r -> no_overflow ov p) ->
  exists y past', store_exec f ov x y /\ by_alone i x y /\ nth_error (sc_sts y) i = Some (SThread SIdle past') /\
    incl past past' /\ incl (its_insert s) past'.
Proof.
  intros R N L NO.
  enough (Q : exists y past', gets f ov i x y /\ nth_error (sc_sts y) i = Some (SThread SIdle past') /\ incl (its_insert s) past').
  { destruct Q as (y & q & [E A] & Ny & IC). exists y, q. split; [exact E|]. split; [exact A|]. split; [exact Ny|]. split; [|exact IC].
    destruct (store_past_kept f ov x y i _ R E N) as (s' & N' & K). rewrite Ny in N'. injection N' as <-. exact K. }
  pose proof (storeI_reach _ _ _ R) as I. destruct (parts_of _ _ _ _ _ I N) as (t & a & Nt & Na & P). cbn [st_pc] in P.
  destruct (reach_new _ _ _ R) as [t0 E0]. destruct s as [p| |p r|p r e|p|p c|p c b].
  - now elim L.
  - exists x, past. split; [apply gets_refl|]. split; [exact N|]. easy.
  - destruct P as ((pc & Ct) & Ra).
    destruct (ins_ends f ov x i _ t a p (r_mui r) pc R (conj N (conj Nt Na)) Ct (NO p r eq_refl)) as (x1 & t1 & [rc ex] & G1 & (N1 & Nt1 & Na1) & C1).
    pose proof (gets_reach _ _ _ _ _ R G1) as R1.
    pose proof (si_tree _ _ _ (storeI_reach _ _ _ R1)) as RT.
    assert (Wp : wf_pid f p).
    { destruct (wt_here f ov (sc_tree x1) i t1 RT Nt1) as (CW & G & TH). destruct TH as [K _ _ T]. unfold callI in T. rewrite C1 in T. apply CW. tauto. }
    pose proof (wt_inserted f ov (wc_mem (sc_tree x1)) t1 p (r_mui r) rc ex C1) as S1.
    pose proof (at_begin f i (ac_mem (sc_tab x1)) a p (AUp r) Ra Wp) as S2.
    assert (Q : exists y, gets f ov i x1 y /\ nth_error (sc_sts y) i = Some (SThread (SUp p r ex) past)).
    { eexists. split; [split|].
      - eapply se_step; [constructor|exact E0|]. eapply ss_upsert with (1 := N1) (3 := C1) (6 := Ra).
        + eexists _, _. split; [exact Nt1|]. split; [exact S1|reflexivity].
        + reflexivity.
        + eexists. split; [exact Na1|]. split; [exact S2|reflexivity].
        + reflexivity.
      - intros j s' NE Nj _. cbn [sc_sts sc_tree sc_tab wc_ths ac_ths]. unfold set_st. rewrite !set_nth_rest by easy. auto.
      - cbn [sc_sts]. unfold set_st. eapply set_nth_here; eauto. }
    destruct Q as (x2 & G2 & N2).
    destruct (up_ends f ov x2 i _ past (gets_reach _ _ _ _ _ R1 G2) N2 Logic.I) as (y & q & G & Ny & IC).
    exists y, q. split; [|split; [exact Ny|exact IC]]. eapply gets_trans; [exact G1|]. eapply gets_trans; [exact G2|exact G].
  - exact (up_ends f ov x i _ past R N Logic.I).
  - destruct P as ((pc & Ct) & Ra).
    destruct (has_ends f ov x i _ t a p pc R (conj N (conj Nt Na)) Ct) as (x1 & t1 & b & G1 & (N1 & Nt1 & Na1) & C1).
    pose proof (wt_told f ov (wc_mem (sc_tree x1)) t1 p b C1) as S1. eexists _, past. split; [eapply gets_trans; [exact G1|split]|split].
    + eapply se_step; [constructor|exact E0|]. eapply ss_contained with (1 := N1).
      * eexists _, _. split; [exact Nt1|]. split; [exact S1|reflexivity].
      * rewrite C1. discriminate.
      * reflexivity.
    + intros j s' NE Nj _. cbn [sc_sts sc_tree sc_tab wc_ths]. unfold set_st. rewrite !set_nth_rest by easy. auto.
    + cbn [sc_sts]. unfold set_st. eapply set_nth_here; eauto.
    + easy.
  - exact (up_ends f ov x i _ past R N Logic.I).
  - destruct (ret_ends f ov x i p c b past R N) as (y & G & Ny & IC). exists y, past. auto.
Qed.
