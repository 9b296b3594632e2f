(* Proofs: on a weak memory a query that is left alone returns. *)
From Coq Require Import Arith NArith List Bool Lia.
From Verif Require Import Word Af BitSpan Spec Maps ChtMath Cht Node Tree Iter MultiMap RecordSet PrefixCht Lsm Rib StarCast HistSpec
  Conc ConcTree ConcTreeProofs ConcStore ConcTable ConcMarks ConcSpec ConcScan ConcScanSpec ConcScanFacts ConcWhole ConcQuery QuerySpec
  ConcQueryProofs ConcEachInv
  WeakTree WeakTreeInv WeakTreeFacts WeakTable WeakTableFacts WeakScan WeakScanFacts WeakStore WeakStoreInv WeakStoreFacts WeakStoreEnds
  WeakMatch WeakMatchInv WeakMatchFacts WeakMatchEnds.
Import ListNotations.
Local Open Scope N_scope.

Lemma called_wf f ov x p : store_reach f ov x -> In p (wc_called (sc_tree x)) -> wf_pid f p.
Proof.
  intros R Q. destruct (wtI_reach f ov _ (si_tree _ _ _ (storeI_reach _ _ _ R))) as (t0 & _ & W). exact (wi_wf _ _ _ _ W _ Q).
Qed.

(* a look-up *)
Lemma look_returns f ov x i past c mui iw bmin : store_reach f ov x -> nth_error (sc_sts x) i = Some (SThread SIdle past) -> wf_pid f c ->
  exists y v past', gets f ov i x y /\ nth_error (sc_sts y) i = Some (SThread (SRet c (ARead mui iw bmin) (RRead v)) past').
Proof.
  intros R N Wc. destruct (reach_new _ _ _ R) as [t0 E0]. pose proof (storeI_reach _ _ _ R) as I.
  destruct (parts_of _ _ _ _ _ I N) as (t & a & Nt & Na & Ct & Ra).
  pose proof (at_begin f i (ac_mem (sc_tab x)) a c (ARead mui iw bmin) Ra Wc) as S.
  match type of S with atstep _ _ _ _ _ ?b => set (a1 := b) in S end.
  set (z := AConf (ac_mem (sc_tab x)) (set_nth i a1 (ac_ths (sc_tab x)))).
  set (x1 := SConf (sc_tree x) z (set_st i (SOne c (ARead mui iw bmin)) past x) (sc_hist x)).
  assert (G1 : gets f ov i x x1).
  { split.
    - eapply se_step; [constructor|exact E0|]. eapply (ss_one f ov t0 x i past c (ARead mui iw bmin) a a1 z N).
      + discriminate.
      + exists (ac_mem (sc_tab x)). split; [exact Na|]. split; [exact S|reflexivity].
      + exact Ra.
      + reflexivity.
    - intros j s' NE Nj _. unfold x1, z. cbn [sc_sts sc_tree sc_tab ac_ths]. unfold set_st. rewrite !set_nth_rest by easy. auto. }
  assert (N1 : has_parts x1 i (SThread (SOne c (ARead mui iw bmin)) past) t a1).
  { unfold x1, z. split; [|split]; cbn [sc_sts sc_tree sc_tab ac_ths].
    - unfold set_st. eapply set_nth_here; eauto.
    - exact Nt.
    - eapply set_nth_here; eauto. }
  pose proof (gets_reach _ _ _ _ _ R G1) as R1.
  destruct (table_ends f ov x1 i _ past t a1 c (ARead mui iw bmin) _ R1 N1 eq_refl) as (y & b & q & G2 & N2). cbn [answered] in N2.
  pose proof (gets_reach _ _ _ _ _ R1 G2) as R2.
  pose proof (si_ret _ _ _ (storeI_reach _ _ _ R2) _ _ N2) as RT. unfold retI in RT. cbn [st_pc] in RT.
  destruct RT as (o & _ & _ & -> & _). exists y, o, q. split; [|exact N2]. eapply gets_trans; [exact G1|exact G2].
Qed.

Lemma asking_on {Q} f ov B mui iw (over : Q -> bool) waits next got i x0 q0 n x q y :
  asking f ov B mui iw over waits next got i x0 q0 n x q -> store_exec f ov x y ->
  asking f ov B mui iw over waits next got i x0 q0 n y q.
Proof. intros A E. induction E as [|t0 y z E IH T S]; [exact A|]. eapply ak_call; [exact IH|exact T|exact S]. Qed.

(* a thread is never a lock *)
Lemma thread_stays f ov x y i s : store_reach f ov x -> store_exec f ov x y -> nth_error (sc_sts x) i = Some s -> ~ is_lock (st_pc s) ->
  exists s', nth_error (sc_sts y) i = Some s' /\ ~ is_lock (st_pc s').
Proof.
  intros R E N0 NL0. induction E as [|t0 y y' E IH T S]; [eauto|]. destruct IH as (s1 & N & NL).
  clear R E N0 NL0 s. rename s1 into s. clear x. rename y into x. pose proof (nth_some_lt _ _ _ N) as L.
  assert (SAME : exists s', nth_error (sc_sts x) i = Some s' /\ ~ is_lock (st_pc s')) by eauto.
  assert (SET : forall j p1 p2 past past', nth_error (sc_sts x) j = Some (SThread p1 past) -> (~ is_lock p1 -> ~ is_lock p2) ->
    exists s', nth_error (set_st j p2 past' x) i = Some s' /\ ~ is_lock (st_pc s')).
  { intros j p1 p2 past past' Nj In. pose proof (nth_some_lt _ _ _ Nj) as Lj. unfold set_st. rewrite nth_set_nth by exact Lj.
    destruct (Nat.eqb_spec j i) as [->|]; [|exact SAME]. rewrite Nj in N. injection N as <-. eexists. split; [reflexivity|exact (In NL)]. }
  assert (AN : forall s0 b, ~ is_lock s0 -> ~ is_lock (answered s0 b)) by (intros [] b; auto).
  destruct S as
    [s0 Hs|j t v y Nt L' B|j a v z Na L' B|j past p r t t' y Ns B C C'|j past p t t' y Ns B C C'|j t t' y B C C'
    |j past p t t' y Ns B C C'|j past p r mui rc ex t t' a a' y z Ns B C C' B' R R'|j past p c a a' z Ns NU B R R'
    |j a a' z B W|j l s0 past lpast p c k found n b a a1 a2 z1 z2 z3 z4 y1 y2 Ns Nl B1 E1 E2 B2 E3 TA1 TA2 TT1 TT2 known
    |j s0 past p c n b a a' z Ns B R R'|j past p c b Ns|j k pj pk y z Nj Nk TT TA];
    cbn [sc_sts]; try exact SAME; try (eapply SET; [exact Ns|now auto]).
  - exists s. split; [|exact NL]. rewrite nth_error_app1; [exact N|exact L].
  - pose proof (nth_some_lt _ _ _ Nl) as Ll. rewrite nth_set_nth by (unfold set_st; now rewrite set_nth_length).
    destruct (Nat.eqb_spec l i) as [->|].
    + rewrite Nl in N. injection N as <-. now elim NL.
    + eapply SET; [exact Ns|now auto].
  - eapply SET; [exact Nk|now auto].
Qed.

Lemma asking_returns {Q} f ov (B : nset -> Prop) mui iw (over : Q -> bool) waits next got i x0 q0 K bmin n x q s past : store_reach f ov x0 -> B bmin ->
  (forall n x q, asking f ov B mui iw over waits next got i x0 q0 n x q -> N.of_nat n <= K) ->
  (forall n x q c, asking f ov B mui iw over waits next got i x0 q0 n x q -> waits q = Some c -> wf_pid f c) ->
  asking f ov B mui iw over waits next got i x0 q0 n x q ->
  nth_error (sc_sts x) i = Some (SThread s past) -> (forall p r, s = SIns p r -> no_overflow ov p) ->
  exists n' x' q', asking f ov B mui iw over waits next got i x0 q0 n' x' q' /\ over q' = true /\
    store_exec f ov x x' /\ by_alone i x x'.
Proof.
  intros R0 Bm HK HW A N NO.
  assert (RE : forall n x q, asking f ov B mui iw over waits next got i x0 q0 n x q -> store_reach f ov x).
  { intros n1 x1 q1 A1. eapply store_exec_reach; [exact R0|]. exact (asking_exec _ _ _ _ _ _ _ _ _ _ _ _ _ _ _ A1). }
  (* thread i is no lock *)
  assert (NL : ~ is_lock s).
  { destruct (asking_idle _ _ _ _ _ _ _ _ _ _ _ _ _ _ _ A) as (past0 & N0). intros L. destruct s as [p| | | | | |]; try easy.
    pose proof (asking_exec _ _ _ _ _ _ _ _ _ _ _ _ _ _ _ A) as E. clear A L NO. revert N.
    intros N. destruct (thread_stays f ov x0 x i _ R0 E N0 (fun z => z)) as (s' & N' & L). rewrite N in N'. injection N' as <-. now elim L. }
  enough (GO : forall k n x q past, k = K - N.of_nat n -> asking f ov B mui iw over waits next got i x0 q0 n x q ->
    nth_error (sc_sts x) i = Some (SThread SIdle past) ->
    exists n' x' q', asking f ov B mui iw over waits next got i x0 q0 n' x' q' /\ over q' = true /\ gets f ov i x x').
  { destruct (store_returns f ov x i s past (RE _ _ _ A) N NL NO) as (y & past' & E & AL & Ny & _).
    destruct (GO _ n y q past' eq_refl (asking_on _ _ _ _ _ _ _ _ _ _ _ _ _ _ _ _ A E) Ny) as (n' & x' & q' & A' & O & [E' AL']).
    exists n', x', q'. split; [exact A'|]. split; [exact O|]. split; [eapply store_exec_trans; eauto|eapply by_alone_trans; eauto]. }
  clear n x q s past A N NO NL. intros k. induction k as [k IH] using (well_founded_induction N.lt_wf_0).
  intros n x q past Hk A N. destruct (over q) eqn:Ov; [exists n, x, q; split; [exact A|]; split; [exact Ov|apply gets_refl]|].
  pose proof (RE _ _ _ A) as R. destruct (waits q) as [c|] eqn:Wt.
  - destruct (look_returns f ov x i past c mui iw bmin R N (HW _ _ _ _ A Wt)) as (y & v & past1 & G1 & N1).
    pose proof (asking_on _ _ _ _ _ _ _ _ _ _ _ _ _ _ _ _ A (proj1 G1)) as A1.
    pose proof (ak_gets f ov B mui iw over waits next got i x0 q0 n y q past1 c bmin v A1 Wt N1 Bm) as A2.
    destruct (ret_ends f ov y i c _ _ past1 (RE _ _ _ A1) N1) as (z & G3 & N3 & _).
    pose proof (asking_on _ _ _ _ _ _ _ _ _ _ _ _ _ _ _ _ A2 (proj1 G3)) as A3.
    pose proof (HK _ _ _ A2) as L2.
    destruct (IH (K - N.of_nat (Datatypes.S n)) ltac:(lia) _ _ _ _ eq_refl A3 N3) as (n' & x' & q' & A' & O & G').
    exists n', x', q'. split; [exact A'|]. split; [exact O|]. eapply gets_trans; [exact G1|]. eapply gets_trans; [exact G3|exact G'].
  - destruct (parts_of _ _ _ _ _ (storeI_reach _ _ _ R) N) as (t & a & Nt & Na & _).
    pose proof (ak_own f ov B mui iw over waits next got i x0 q0 n x q past t bmin A Ov Wt N Nt Bm) as A2.
    pose proof (HK _ _ _ A2) as L2.
    destruct (IH (K - N.of_nat (Datatypes.S n)) ltac:(lia) _ _ _ _ eq_refl A2 N) as (n' & x' & q' & A' & O & G').
    exists n', x', q'. auto.
Qed.

(* match_prefix *)
Lemma match_asks_wf f ov B p o i x0 n x q c : store_reach f ov x0 -> wf_pid f p -> smatching f ov B p o i x0 n x q ->
  match_waits q = Some c -> wf_pid f c.
Proof.
  intros R Wp A Wt. destruct (asking_idle _ _ _ _ _ _ _ _ _ _ _ _ _ _ _ A) as (past0 & N0).
  pose proof (wmatch_inv f ov B i x0 past0 R N0 p o Wp n x q A) as I.
  assert (Rx : store_reach f ov x).
  { eapply store_exec_reach; [exact R|]. exact (asking_exec _ _ _ _ _ _ _ _ _ _ _ _ _ _ _ A). }
  destruct q as [sc|lm sc|lm ls sc|t l|more t main ms todo got l|r|]; cbn [match_waits] in Wt; try discriminate Wt; cbn [watI] in I.
  - destruct l; try discriminate Wt. destruct I as (T & _).
    destruct (wtree_prefix f ov i x0 past0 p o x t c T Wt) as (m & b & [S _] & H & _).
    destruct (wsub_sound f ov i x0 past0 R N0 x m (SLess true p b) Wp S) as (_ & _ & Q). apply (called_wf f ov x c Rx). apply Q.
    cbn [scan_out]. destruct (bs_out b); [discriminate H|]. injection H as ->. now left.
  - destruct todo as [|c' todo]; [discriminate Wt|]. destruct l; try discriminate Wt. injection Wt as ->.
    destruct I as (T & _ & (dn & D & _) & _). destruct more.
    + pose proof (wtree_more f ov i x0 past0 p o x t T) as M. rewrite D in M. destruct M as (_ & m & b & [S _] & H).
      destruct (wsub_sound f ov i x0 past0 R N0 x m (SMore p b) Wp S) as (_ & _ & Q). apply (called_wf f ov x c Rx). apply Q.
      cbn [scan_out]. apply in_rev. eapply proj1, filter_In. rewrite <- H. apply in_or_app. right. now left.
    + pose proof (wtree_less f ov i x0 past0 p o x t T) as M. rewrite D in M. destruct M as (_ & m & b & [S _] & H).
      destruct (wsub_sound f ov i x0 past0 R N0 x m (SLess false p b) Wp S) as (_ & _ & Q). apply (called_wf f ov x c Rx). apply Q.
      cbn [scan_out]. apply in_rev. rewrite <- H. apply in_or_app. right. now left.
Qed.

Lemma wmatch_returns f ov (B : nset -> Prop) p o i x0 n x q s past bmin : store_reach f ov x0 -> wf_pid f p -> B bmin -> smatching f ov B p o i x0 n x q ->
  nth_error (sc_sts x) i = Some (SThread s past) -> (forall p r, s = SIns p r -> no_overflow ov p) ->
  exists n' x' r, smatching f ov B p o i x0 n' x' (AtEnd (ROk r)) /\ store_exec f ov x x' /\ by_alone i x x'.
Proof.
  intros R Wp Bm A N NO.
  destruct (asking_returns f ov B (mo_mui o) (mo_withdrawn o) match_over match_waits (match_next f p o) match_got i x0 (match_start p)
    (2 ^ 207) bmin n x q s past R Bm) as (n' & x' & q' & A' & O & E & L); auto.
  - intros n1 x1 q1 A1. exact (wmatch_bound f ov B p o i x0 n1 x1 q1 R Wp A1).
  - intros n1 x1 q1 c A1 Wt. exact (match_asks_wf f ov B p o i x0 n1 x1 q1 c R Wp A1 Wt).
  - destruct (wmatch_ends f ov B p o i x0 n' x' q' R Wp A' O) as (r & ->). exists n', x', r. auto.
Qed.

(* the iterators *)
Lemma each_asks_wf f ov B k i x0 n x q c : store_reach f ov x0 -> wf_each f k -> siterating f ov B k i x0 n x q ->
  each_waits q = Some c -> wf_pid f c.
Proof.
  intros R Wk A Wt. destruct (asking_idle _ _ _ _ _ _ _ _ _ _ _ _ _ _ _ A) as (past0 & N0).
  pose proof (weach_inv f ov B i x0 past0 R N0 k Wk n x q A) as I.
  assert (Rx : store_reach f ov x).
  { eapply store_exec_reach; [exact R|]. exact (asking_exec _ _ _ _ _ _ _ _ _ _ _ _ _ _ _ A). }
  destruct q as [m j|sc cur got|got|]; cbn [each_waits] in Wt; try discriminate Wt.
  destruct cur as [[c' l]|]; [|discriminate Wt]. destruct l; try discriminate Wt. injection Wt as ->.
  cbn [witI] in I. destruct I as (m & dn & S & SS & D & _).
  destruct (wsub_sound f ov i x0 past0 R N0 x m sc (same_pfx f k Wk sc SS) S) as (_ & _ & Q). apply (called_wf f ov x c Rx). apply Q.
  apply in_rev. rewrite D. apply in_or_app. right. now left.
Qed.

Lemma weach_returns f ov (B : nset -> Prop) k i x0 n x q s past bmin : store_reach f ov x0 -> wf_each f k -> B bmin -> siterating f ov B k i x0 n x q ->
  nth_error (sc_sts x) i = Some (SThread s past) -> (forall p r, s = SIns p r -> no_overflow ov p) ->
  exists n' x' g, siterating f ov B k i x0 n' x' (ItEnd g) /\ store_exec f ov x x' /\ by_alone i x x'.
Proof.
  intros R Wk Bm A N NO.
  destruct (asking_returns f ov B (each_mui k) (each_iw k) each_over each_waits (each_next f k) each_got i x0 (each_start k)
    (2 ^ 207) bmin n x q s past R Bm) as (n' & x' & q' & A' & O & E & L); auto.
  - intros n1 x1 q1 A1. exact (weach_bound f ov B k i x0 n1 x1 q1 R Wk A1).
  - intros n1 x1 q1 c A1 Wt. exact (each_asks_wf f ov B k i x0 n1 x1 q1 c R Wk A1 Wt).
  - destruct (weach_ends f ov B k i x0 n' x' q' R Wk A' O) as (g & ->). exists n', x', g. auto.
Qed.
