(* Invariants of the store on a weak memory. *)
From Coq Require Import Arith NArith List Bool Lia.
From Verif Require Import Word Af BitSpan Maps ChtMath Cht Node Tree MultiMap PrefixCht HistSpec Queries
  Conc ConcTree ConcTreeProofs ConcStore ConcTable ConcSpec ConcFacts ConcLock
  WeakTree WeakTreeFacts WeakTable WeakTableFacts WeakStore.
Import ListNotations.
Local Open Scope N_scope.

Definition slog (x : sconf) : list (nat * pid * recop) := tm_log (ac_mem (sc_tab x)).

(* ---------- the parts ---------- *)

Lemma tree_by_ok f ov i t t' x y t0 : tree_new f = Ok t0 -> wtreach f ov x -> tree_by f ov i t t' x y ->
  wtreach f ov y /\ nth_error (wc_ths x) i = Some t /\ wc_ths y = set_nth i t' (wc_ths x) /\ incl (wt_past t) (wt_past t').
Proof.
  intros E R (m & c & N & S & ->). split.
  - destruct x as [m0 c0 ts]. eapply wr_step; [exact E|exact R|]. eapply wc_thread; eauto.
  - split; [exact N|]. split; [reflexivity|]. destruct S; cbn [wt_past at_call]; intros q Q; auto. now right.
Qed.
Lemma tab_by_ok f i a a' x y : areach f x -> tab_by f i a a' x y ->
  areach f y /\ nth_error (ac_ths x) i = Some a /\ ac_ths y = set_nth i a' (ac_ths x).
Proof.
  intros R (m & N & S & ->). split; [|easy]. destruct x as [m0 ts]. eapply ar_step; [exact R|]. eapply as_thread; eauto.
Qed.
Lemma tree_tells_ok f ov i j x y t0 : tree_new f = Ok t0 -> wtreach f ov x -> tree_tells i j x y -> wtreach f ov y.
Proof.
  intros E R (ti & tj & A & B & C & D & ->). destruct x as [m c ts]. eapply wr_step; [exact E|exact R|]. eapply wc_told; eauto.
Qed.
Lemma tab_tells_ok f i j x y : areach f x -> tab_tells i j x y -> areach f y.
Proof.
  intros R (ti & tj & A & B & C & D & ->). destruct x as [m ts]. eapply ar_step; [exact R|]. eapply as_told; eauto.
Qed.

(* a step that is no critical section leaves the records alone *)
Lemma atstep_log f i m a m' a' : atstep f i m a m' a' ->
  (forall p c k found, at_run a <> Some (p, c, ACrit k found)) -> tm_log m' = tm_log m.
Proof.
  intros S N. destruct S as [| | | |p c k found v E D| |]; try reflexivity. now elim (N p c k found).
Qed.
(* and what it adds to what is known *)
Lemma atstep_past f i m a m' a' : atstep f i m a m' a' ->
  at_past a' = at_past a \/ exists p c n b, at_run a = Some (p, c, ADone n b) /\ at_past a' = (p, n) :: at_past a.
Proof.
  intros S. destruct S as [| | | | | |p c n b E]; auto. right. exists p, c, n, b. auto.
Qed.

(* ---------- the invariant ---------- *)

(* a call that has not been under the lock knows of nothing *)
Definition zero (pc : apc) : Prop := forall n b, pc = ADone n b -> n = 0%nat.
Definition pcI (s : store_pc) (t : wthread) (a : athread) : Prop :=
  match s with
  | SLock _ | SIdle | SRet _ _ _ => wt_call t = WIdle /\ at_run a = None
  | SIns p r => (exists pc, wt_call t = WIns p (r_mui r) pc) /\ at_run a = None
  | SUp p r _ => wt_call t = WIdle /\ In p (wt_past t) /\ exists pc, at_run a = Some (p, AUp r, pc) /\ zero pc
  | SHas p => (exists pc, wt_call t = WHas p pc) /\ at_run a = None
  | SOne p c => wt_call t = WIdle /\ (forall r, c <> AUp r) /\ exists pc, at_run a = Some (p, c, pc) /\ zero pc
  end.

(* all inserts of p that happened before are among the first l1 *)
Definition counts (p : pid) (past : list (pid * record)) (l1 : list (nat * pid * recop)) : Prop :=
  forall r, In (p, r) past -> exists j, In (j, p, OUp r) l1.
Definition retI (i : nat) (log : list (nat * pid * recop)) (hist : list (pid * nat * list (pid * record))) (s : sthread) : Prop :=
  match st_pc s with
  | SRet p (ARead mui iw bmin) a => exists o l1 l2, a = RRead o /\ log = l1 ++ l2 /\ counts p (st_past s) l1 /\
      answers (seen_with l1 p bmin mui iw) o /\
      forall m1 j op m2, l1 = m1 ++ (j, p, op) :: m2 -> exists K, In (p, S (many p m1), K) hist /\ incl K (st_past s)
  | SRet p (AUp r) a => exists found o l1 l2, a = RUp found o /\ log = l1 ++ (i, p, OUp r) :: l2 /\ In (p, r) (st_past s) /\
      counts p (st_past s) (l1 ++ [(i, p, OUp r)])
  | SRet p (AMark st mui ltime) a => exists ok, a = RMark ok /\
      if ok then exists l1 l2, log = l1 ++ (i, p, OMark st mui ltime) :: l2 /\ counts p (st_past s) l1
      else forall r, ~ In (p, r) (st_past s)
  | _ => True
  end.

Definition pastI (log : list (nat * pid * recop)) (s : sthread) (t : wthread) (a : athread) : Prop :=
  forall p r, In (p, r) (st_past s) -> In p (wt_past t) /\
    exists n l1 j l2, log = l1 ++ (j, p, OUp r) :: l2 /\ In (p, n) (at_past a) /\ (S (many p l1) <= n)%nat.
Definition hbI (hist : list (pid * nat * list (pid * record))) (s : sthread) (a : athread) : Prop :=
  forall p n n' K, In (p, n) (at_past a) -> In (p, n', K) hist -> (n' <= n)%nat -> incl K (st_past s).

Record storeI (f : af) (ov : bool) (x : sconf) : Prop := {
  si_tree : wtreach f ov (sc_tree x);
  si_tab : areach f (sc_tab x);
  si_len1 : length (wc_ths (sc_tree x)) = length (sc_sts x);
  si_len2 : length (ac_ths (sc_tab x)) = length (sc_sts x);
  si_pc : forall i s t a, nth_error (sc_sts x) i = Some s -> nth_error (wc_ths (sc_tree x)) i = Some t ->
    nth_error (ac_ths (sc_tab x)) i = Some a -> pcI (st_pc s) t a;
  si_past : forall i s t a, nth_error (sc_sts x) i = Some s -> nth_error (wc_ths (sc_tree x)) i = Some t ->
    nth_error (ac_ths (sc_tab x)) i = Some a -> pastI (slog x) s t a;
  si_hb : forall i s a, nth_error (sc_sts x) i = Some s -> nth_error (ac_ths (sc_tab x)) i = Some a -> hbI (sc_hist x) s a;
  si_ret : forall i s, nth_error (sc_sts x) i = Some s -> retI i (slog x) (sc_hist x) s;
  si_lock : forall i j p pi pj, nth_error (sc_sts x) i = Some (SThread (SLock p) pi) ->
    nth_error (sc_sts x) j = Some (SThread (SLock p) pj) -> i = j;
  si_hist : forall p n K, In (p, n, K) (sc_hist x) -> (0 < n)%nat /\
    exists l lp, nth_error (sc_sts x) l = Some (SThread (SLock p) lp) /\ incl K lp;
  si_log : forall l1 j p op l2, slog x = l1 ++ (j, p, op) :: l2 ->
    exists K, In (p, S (many p l1), K) (sc_hist x) /\ forall r, op = OUp r -> In (p, r) K
}.

Lemma nth_same_len {A B} (l : list A) (l' : list B) i a : length l' = length l -> nth_error l i = Some a ->
  exists b, nth_error l' i = Some b.
Proof.
  intros L N. destruct (nth_error l' i) as [b|] eqn:E; [eauto|]. apply nth_error_None in E. apply nth_some_lt in N. lia.
Qed.

(* the three parts of a thread *)
Lemma parts_of f ov x i s : storeI f ov x -> nth_error (sc_sts x) i = Some s ->
  exists t a, nth_error (wc_ths (sc_tree x)) i = Some t /\ nth_error (ac_ths (sc_tab x)) i = Some a /\ pcI (st_pc s) t a.
Proof.
  intros I N. destruct (nth_same_len _ (wc_ths (sc_tree x)) _ _ (si_len1 _ _ _ I) N) as [t T].
  destruct (nth_same_len _ (ac_ths (sc_tab x)) _ _ (si_len2 _ _ _ I) N) as [a A]. exists t, a.
  split; [exact T|]. split; [exact A|]. eapply si_pc; eauto.
Qed.

Lemma many_app p l1 l2 : many p (l1 ++ l2) = (many p l1 + many p l2)%nat.
Proof. unfold many. now rewrite ops_of_app, app_length. Qed.
Lemma many_one p j op : many p [(j, p, op)] = 1%nat.
Proof. unfold many, ops_of. simpl. now rewrite pid_eqb_refl. Qed.

(* the first n critical sections on p are among the first l1, if those are n *)
Lemma split_counts p log l1 l2 m1 j op m2 : log = l1 ++ l2 -> log = m1 ++ (j, p, op) :: m2 -> (S (many p m1) <= many p l1)%nat ->
  In (j, p, op) l1.
Proof.
  intros -> E L. revert m1 E L. induction l1 as [|e l1 IH]; intros m1 E L.
  - unfold many in L. simpl in L. lia.
  - destruct m1 as [|e' m1]; simpl in E.
    + injection E as -> _. now left.
    + injection E as -> E. right. apply (IH m1 E).
      change (e' :: m1) with ([e'] ++ m1) in L. change (e' :: l1) with ([e'] ++ l1) in L. rewrite !many_app in L. lia.
Qed.
Lemma counts_of p log s t a l1 l2 : pastI log s t a -> log = l1 ++ l2 ->
  (forall n', In (p, n') (at_past a) -> (n' <= many p l1)%nat) -> counts p (st_past s) l1.
Proof.
  intros P E H r Q. destruct (P p r Q) as (_ & n & m1 & j & m2 & A & B & C). exists j.
  eapply split_counts; eauto. specialize (H _ B). lia.
Qed.

(* ---------- a step of one thread, not under the lock ---------- *)

Definition is_lock (s : store_pc) : Prop := match s with SLock _ => True | _ => False end.

Lemma one_ok f ov x y i s s1 t t1 a a1 : storeI f ov x -> wtreach f ov (sc_tree y) -> areach f (sc_tab y) ->
  nth_error (sc_sts x) i = Some s -> nth_error (wc_ths (sc_tree x)) i = Some t -> nth_error (ac_ths (sc_tab x)) i = Some a ->
  sc_sts y = set_nth i s1 (sc_sts x) -> wc_ths (sc_tree y) = set_nth i t1 (wc_ths (sc_tree x)) ->
  ac_ths (sc_tab y) = set_nth i a1 (ac_ths (sc_tab x)) -> sc_hist y = sc_hist x -> slog y = slog x ->
  st_past s1 = st_past s -> st_pc s1 = st_pc s \/ ~ is_lock (st_pc s1) /\ ~ is_lock (st_pc s) ->
  incl (wt_past t) (wt_past t1) -> incl (at_past a) (at_past a1) ->
  (forall p n, In (p, n) (at_past a1) -> In (p, n) (at_past a) \/ n = 0%nat) ->
  pcI (st_pc s1) t1 a1 -> retI i (slog x) (sc_hist x) s1 -> storeI f ov y.
Proof.
  intros I RT RA Ns Nt Na Es Et Ea Eh El Ps Pl It Ia Iz Pc Rt.
  pose proof (nth_some_lt _ _ _ Ns) as Ls. pose proof (nth_some_lt _ _ _ Nt) as Lt. pose proof (nth_some_lt _ _ _ Na) as La.
  assert (LK : forall j p pp, nth_error (sc_sts y) j = Some (SThread (SLock p) pp) -> nth_error (sc_sts x) j = Some (SThread (SLock p) pp)).
  { intros j p pp. rewrite Es. intros N. destruct (nth_set_case _ _ _ _ _ N Ls) as [[<- E]|[_ E]]; [|exact E].
    subst s1. rewrite Ns. f_equal. destruct s as [s past]. cbn [st_pc st_past] in *.
    destruct Pl as [<-|[B _]]; [now rewrite Ps|]. exfalso. apply B. exact Logic.I. }
  assert (LK' : forall j p pp, nth_error (sc_sts x) j = Some (SThread (SLock p) pp) -> nth_error (sc_sts y) j = Some (SThread (SLock p) pp)).
  { intros j p pp N. rewrite Es, nth_set_nth by exact Ls. destruct (Nat.eqb_spec i j) as [<-|]; [|exact N].
    rewrite Ns in N. injection N as ->. destruct s1 as [s1 past]. cbn [st_pc st_past] in *.
    destruct Pl as [->|[_ B]]; [now rewrite Ps|]. exfalso. apply B. exact Logic.I. }
  constructor; try assumption.
  - rewrite Es, Et, !set_nth_length. apply I.
  - rewrite Es, Ea, !set_nth_length. apply I.
  - intros j s' t' a'. rewrite Es, Et, Ea. intros N1 N2 N3.
    destruct (nth_set_case _ _ _ _ _ N1 Ls) as [[<- ->]|[D1 E1]].
    + rewrite nth_set_nth, Nat.eqb_refl in N2 by assumption. rewrite nth_set_nth, Nat.eqb_refl in N3 by assumption. injection N2 as <-. injection N3 as <-. exact Pc.
    + rewrite nth_set_nth in N2 by assumption. rewrite nth_set_nth in N3 by assumption. apply Nat.eqb_neq in D1. rewrite D1 in N2, N3. eapply si_pc; eauto.
  - intros j s' t' a'. rewrite Es, Et, Ea, El. intros N1 N2 N3.
    destruct (nth_set_case _ _ _ _ _ N1 Ls) as [[<- ->]|[D1 E1]].
    + rewrite nth_set_nth, Nat.eqb_refl in N2 by assumption. rewrite nth_set_nth, Nat.eqb_refl in N3 by assumption. injection N2 as <-. injection N3 as <-.
      intros p r. rewrite Ps. intros Q. destruct (si_past _ _ _ I _ _ _ _ Ns Nt Na p r Q) as (A & n & l1 & k & l2 & B & C & D).
      split; [now apply It|]. exists n, l1, k, l2. split; [exact B|]. split; [now apply Ia|exact D].
    + rewrite nth_set_nth in N2 by assumption. rewrite nth_set_nth in N3 by assumption. apply Nat.eqb_neq in D1. rewrite D1 in N2, N3. eapply si_past; eauto.
  - intros j s' a'. rewrite Es, Ea, Eh. intros N1 N3.
    destruct (nth_set_case _ _ _ _ _ N1 Ls) as [[<- ->]|[D1 E1]].
    + rewrite nth_set_nth, Nat.eqb_refl in N3 by assumption. injection N3 as <-. intros p n n' K A B C. rewrite Ps.
      destruct (Iz _ _ A) as [A'|Z]; [exact (si_hb _ _ _ I _ _ _ Ns Na p n n' K A' B C)|].
      destruct (si_hist _ _ _ I _ _ _ B) as [H _]. lia.
    + rewrite nth_set_nth in N3 by assumption. apply Nat.eqb_neq in D1. rewrite D1 in N3. eapply si_hb; eauto.
  - intros j s'. rewrite Es, El, Eh. intros N1. destruct (nth_set_case _ _ _ _ _ N1 Ls) as [[<- ->]|[D1 E1]]; [exact Rt|].
    eapply si_ret; eauto.
  - intros j k p pj pk N1 N2. eapply (si_lock _ _ _ I); eauto.
  - intros p n K. rewrite Eh. intros H. destruct (si_hist _ _ _ I _ _ _ H) as (A & l & lp & B & C). split; [exact A|].
    exists l, lp. split; [|exact C]. now apply LK'.
  - intros l1 j p op l2. rewrite El, Eh. apply (si_log _ _ _ I).
Qed.

Lemma set_nth_self {A} (l : list A) i x : nth_error l i = Some x -> l = set_nth i x l.
Proof. intros N. symmetry. now apply set_nth_same. Qed.

(* a step in the tree only *)
Lemma tree_only f ov t0 x y i s s1 t t' : tree_new f = Ok t0 -> storeI f ov x -> nth_error (sc_sts x) i = Some s ->
  tree_by f ov i t t' (sc_tree x) y -> st_past s1 = st_past s -> st_pc s1 = st_pc s \/ ~ is_lock (st_pc s1) /\ ~ is_lock (st_pc s) ->
  (forall a, nth_error (ac_ths (sc_tab x)) i = Some a -> pcI (st_pc s) t a -> pcI (st_pc s1) t' a) ->
  retI i (slog x) (sc_hist x) s1 ->
  storeI f ov (SConf y (sc_tab x) (set_nth i s1 (sc_sts x)) (sc_hist x)).
Proof.
  intros T0 I Ns B Ps Pl Pc Rt. destruct (tree_by_ok _ _ _ _ _ _ _ _ T0 (si_tree _ _ _ I) B) as (R & Nt & Et & It).
  destruct (parts_of _ _ _ _ _ I Ns) as (t1 & a & Nt' & Na & P). rewrite Nt in Nt'. injection Nt' as <-.
  eapply (one_ok f ov x _ i s s1 t t' a a); eauto; cbn [sc_tree sc_tab sc_sts sc_hist].
  - apply (si_tab _ _ _ I).
  - now apply set_nth_self.
  - apply incl_refl.
Qed.
(* and one in the table only *)
Lemma tab_only f ov x z i s s1 a a' : storeI f ov x -> nth_error (sc_sts x) i = Some s ->
  tab_by f i a a' (sc_tab x) z -> st_past s1 = st_past s -> st_pc s1 = st_pc s \/ ~ is_lock (st_pc s1) /\ ~ is_lock (st_pc s) ->
  (forall p c k found, at_run a <> Some (p, c, ACrit k found)) ->
  (forall t, nth_error (wc_ths (sc_tree x)) i = Some t -> pcI (st_pc s) t a -> pcI (st_pc s1) t a') ->
  retI i (slog x) (sc_hist x) s1 ->
  storeI f ov (SConf (sc_tree x) z (set_nth i s1 (sc_sts x)) (sc_hist x)).
Proof.
  intros I Ns B Ps Pl NC Pc Rt. destruct (tab_by_ok _ _ _ _ _ _ (si_tab _ _ _ I) B) as (R & Na & Ea).
  destruct (parts_of _ _ _ _ _ I Ns) as (t & a1 & Nt & Na' & P). rewrite Na in Na'. injection Na' as <-.
  destruct B as (m & _ & S & Ez).
  assert (PA : at_past a' = at_past a \/ exists p, at_past a' = (p, 0%nat) :: at_past a).
  { destruct (atstep_past _ _ _ _ _ _ S) as [Q|(p & c & n & b & Q1 & Q2)]; [now left|]. right. exists p.
    rewrite Q2. f_equal. f_equal. destruct (st_pc s); cbn in P.
    all: try (destruct P as [_ P]; congruence).
    - destruct P as (_ & _ & pc & E & Z). apply (Z n b). congruence.
    - destruct P as (_ & _ & pc & E & Z). apply (Z n b). congruence. }
  eapply (one_ok f ov x _ i s s1 t t a a'); eauto; cbn [sc_tree sc_tab sc_sts sc_hist].
  - apply (si_tree _ _ _ I).
  - now apply set_nth_self.
  - unfold slog. cbn [sc_tab]. rewrite Ez. cbn [ac_mem]. apply (atstep_log _ _ _ _ _ _ S NC).
  - apply incl_refl.
  - destruct PA as [->|[p ->]]; [apply incl_refl|]. intros q Q. now right.
  - destruct PA as [->|[p ->]]; [now left|]. intros q n [[= <- <-]|Q]; auto.
Qed.

Lemma retI_not i log hist s : match st_pc s with SRet _ _ _ => False | _ => True end -> retI i log hist s.
Proof. unfold retI. destruct (st_pc s); easy. Qed.

(* ---------- more records ---------- *)

Lemma retI_more i log l hist h s : retI i log hist s -> retI i (log ++ l) (hist ++ h) s.
Proof.
  unfold retI. destruct (st_pc s) as [p| |p r|p r e|p|p c|p [r|st mui lt|mui iw bmin] a]; auto.
  - intros (fd & o & l1 & l2 & A & -> & B). exists fd, o, l1, (l2 ++ l). split; [exact A|]. split; [now rewrite <- app_assoc|exact B].
  - intros (ok & A & B). exists ok. split; [exact A|]. destruct ok; [|exact B]. destruct B as (l1 & l2 & -> & B).
    exists l1, (l2 ++ l). split; [now rewrite <- app_assoc|exact B].
  - intros (o & l1 & l2 & A & -> & B & C & D). exists o, l1, (l2 ++ l). split; [exact A|]. split; [now rewrite <- app_assoc|].
    split; [exact B|]. split; [exact C|]. intros m1 j op m2 E. destruct (D _ _ _ _ E) as (K & H & J). exists K.
    split; [apply in_or_app; now left|exact J].
Qed.
Lemma pastI_more log l s t a : pastI log s t a -> pastI (log ++ l) s t a.
Proof.
  intros P p r Q. destruct (P p r Q) as (A & n & l1 & j & l2 & -> & B). split; [exact A|].
  exists n, l1, j, (l2 ++ l). split; [now rewrite <- app_assoc|exact B].
Qed.

(* the end of a call in the table that has not been under the lock *)
Lemma none_ret f ov x i s past t a p c n b : storeI f ov x -> nth_error (sc_sts x) i = Some (SThread s past) ->
  nth_error (wc_ths (sc_tree x)) i = Some t -> nth_error (ac_ths (sc_tab x)) i = Some a -> pcI s t a ->
  at_run a = Some (p, c, ADone n b) -> retI i (slog x) (sc_hist x) (SThread (answered s b) past).
Proof.
  intros I Ns Nt Na P E. pose proof (si_past _ _ _ I _ _ _ _ Ns Nt Na) as PA.
  pose proof (wtable_no_panic f _ i a p c _ (si_tab _ _ _ I) Na E) as [_ KD]. specialize (KD n b eq_refl).
  destruct s as [q| |q r|q r e|q|q c'|q c' a']; cbn in P; try (destruct P as [_ P]; congruence).
  - destruct P as (_ & _ & pc & E' & Z). rewrite E in E'. injection E' as -> -> <-. specialize (Z n b eq_refl). subst n.
    destruct KD as (fd & o & ->).
    destruct (wtable_upserted f _ i a q r 0 fd o (si_tab _ _ _ I) Na E) as (l1 & l2 & _ & X & _). discriminate X.
  - destruct P as (_ & NU & pc & E' & Z). rewrite E in E'. injection E' as -> -> <-. specialize (Z n b eq_refl). subst n.
    unfold retI. cbn [answered st_pc st_past]. destruct c' as [r|st mui lt|mui iw bmin].
    + now elim (NU r).
    + destruct KD as (ok & ->). pose proof (wtable_marked f _ i a q st mui lt 0 ok (si_tab _ _ _ I) Na E) as M. exists ok.
      split; [reflexivity|]. destruct ok.
      * destruct M as (l1 & l2 & _ & X & _). discriminate X.
      * destruct M as [_ M]. intros r Q. destruct (PA q r Q) as (_ & n & l1 & j & l2 & _ & B & C). rewrite (M _ B) in C. lia.
    + destruct KD as (o & ->). destruct (wtable_read f _ i a q mui iw bmin 0 o (si_tab _ _ _ I) Na E) as (l1 & l2 & A & M & C & D).
      exists o, l1, l2. split; [reflexivity|]. split; [exact A|]. split; [exact (counts_of _ _ _ _ _ _ _ PA A C)|].
      split; [exact D|]. intros m1 j op m2 E0. rewrite E0, many_app in M. change ((j, q, op) :: m2) with ([(j, q, op)] ++ m2) in M.
      rewrite many_app, many_one in M. lia.
Qed.

(* ---------- under the lock ---------- *)

Lemma crit_inv f i m a m1 a1 p c k found n b : atstep f i m a m1 a1 -> at_run a = Some (p, c, ACrit k found) ->
  at_run a1 = Some (p, c, ADone n b) ->
  tm_log m1 = tm_log m ++ List.map (fun o => (i, p, o)) (op_of_call c) /\ n = many p (tm_log m1) /\
  at_past a1 = at_past a /\
  match c with AUp _ => exists fd o, b = RUp fd o | AMark _ _ _ => b = RMark true | ARead _ _ _ => exists o, b = RRead o end.
Proof.
  intros S E D. destruct S as [q c0 C|v K|q c0 pc C A|q c0 w C|q c0 k0 f0 v C Dr log|q c0 k0 f0 C L|q c0 n0 b0 C];
    cbn [at_run] in D; try congruence.
  rewrite E in C. injection C as <- <- <- <-. injection D as <- <-. cbn [tm_log at_past]. repeat split.
  destruct c; cbn; eauto.
Qed.
Lemma return_inv f i m a m1 a1 p c n b : atstep f i m a m1 a1 -> at_run a = Some (p, c, ADone n b) -> at_run a1 = None ->
  m1 = m /\ at_past a1 = (p, n) :: at_past a.
Proof.
  intros S E D. destruct S as [q c0 C|v K|q c0 pc C A|q c0 w C|q c0 k0 f0 v C Dr log|q c0 k0 f0 C L|q c0 n0 b0 C];
    cbn [at_run] in D; try congruence.
  rewrite E in C. injection C as <- <- <- <-. easy.
Qed.

Lemma nth_two {A} (l : list A) i k x y j z : (i < length l)%nat -> (k < length l)%nat ->
  nth_error (set_nth k y (set_nth i x l)) j = Some z ->
  (j = k /\ z = y) \/ (j <> k /\ j = i /\ z = x) \/ (j <> k /\ j <> i /\ nth_error l j = Some z).
Proof.
  intros L1 L2 N. destruct (nth_set_case _ _ _ _ _ N) as [[-> ->]|[D E]]; [now rewrite set_nth_length|now left|].
  destruct (nth_set_case _ _ _ _ _ E L1) as [[-> ->]|[D' E']]; [right; left|right; right]; auto.
Qed.

Lemma many_ops p i c : many p (List.map (fun o => (i, p, o)) (op_of_call c)) = length (op_of_call c).
Proof. destruct c; simpl; try apply many_one. reflexivity. Qed.

Lemma locked_ok f ov t0 x i l s past lpast p c k found n b a a1 a2 z1 z2 z3 z4 y1 y2 : tree_new f = Ok t0 -> storeI f ov x ->
    nth_error (sc_sts x) i = Some (SThread s past) -> nth_error (sc_sts x) l = Some (SThread (SLock p) lpast) ->
    tab_by f i a a1 (sc_tab x) z1 -> at_run a = Some (p, c, ACrit k found) -> at_run a1 = Some (p, c, ADone n b) ->
    tab_by f i a1 a2 z1 z2 -> at_run a2 = None ->
    tab_tells l i z2 z3 -> tab_tells i l z3 z4 -> tree_tells l i (sc_tree x) y1 -> tree_tells i l y1 y2 ->
    let known := lpast ++ own_insert s ++ past in
    storeI f ov
      (SConf y2 z4 (set_nth l (SThread (SLock p) (known ++ lpast)) (set_st i (answered s b) known x))
        (sc_hist x ++ List.map (fun _ => (p, n, known)) (op_of_call c))).
Proof.
  intros T0 I Ns Nl B1 E1 E2 B2 E3 TA1 TA2 TT1 TT2 known.
  destruct (parts_of _ _ _ _ _ I Ns) as (t & a' & Nt & Na & Pi). destruct (parts_of _ _ _ _ _ I Nl) as (tl & al & Ntl & Nal & Pl).
  cbn [st_pc] in Pi, Pl. destruct Pl as [Wl Al].
  destruct (tab_by_ok _ _ _ _ _ _ (si_tab _ _ _ I) B1) as (R1 & Na' & Ea1). rewrite Na in Na'. injection Na' as ->.
  destruct (tab_by_ok _ _ _ _ _ _ R1 B2) as (R2 & Na1 & Ea2).
  pose proof (tab_tells_ok _ _ _ _ _ R2 TA1) as R3. pose proof (tab_tells_ok _ _ _ _ _ R3 TA2) as R4.
  pose proof (tree_tells_ok _ _ _ _ _ _ _ T0 (si_tree _ _ _ I) TT1) as W1. pose proof (tree_tells_ok _ _ _ _ _ _ _ T0 W1 TT2) as W2.
  assert (D : l <> i). { intros ->. rewrite Nal in Na. injection Na as ->. congruence. }
  pose proof (nth_some_lt _ _ _ Ns) as Li. pose proof (nth_some_lt _ _ _ Nl) as Ll.
  pose proof (nth_some_lt _ _ _ Nt) as Lti. pose proof (nth_some_lt _ _ _ Ntl) as Ltl.
  pose proof (nth_some_lt _ _ _ Na) as Lai. pose proof (nth_some_lt _ _ _ Nal) as Lal.
  (* the table *)
  destruct B1 as (m1 & _ & S1 & Z1). destruct (crit_inv _ _ _ _ _ _ _ _ _ _ _ _ S1 E1 E2) as (LG & NE & PA1 & BK).
  destruct B2 as (m2 & _ & S2 & Z2). destruct (return_inv _ _ _ _ _ _ _ _ _ _ S2 E2 E3) as (M2 & PA2). rewrite PA1 in PA2.
  assert (AT : exists ai al', ac_ths z4 = set_nth l al' (set_nth i ai (ac_ths (sc_tab x))) /\
    at_past ai = at_past al ++ (p, n) :: at_past a /\ at_past al' = at_past ai ++ at_past al /\ at_run ai = None /\ at_run al' = None /\
    tm_log (ac_mem z4) = slog x ++ List.map (fun o => (i, p, o)) (op_of_call c)).
  { destruct TA1 as (u & v & U1 & U2 & _ & _ & Z3). destruct TA2 as (u' & v' & U1' & U2' & _ & _ & Z4).
    assert (A2 : forall j, j <> i -> nth_error (ac_ths z2) j = nth_error (ac_ths (sc_tab x)) j).
    { intros j J. rewrite Ea2, Ea1. rewrite !set_nth_rest by auto. reflexivity. }
    assert (A2i : nth_error (ac_ths z2) i = Some a2).
    { rewrite Ea2. eapply nth_set_at. exact Na1. }
    rewrite A2 in U1 by auto. rewrite Nal in U1. injection U1 as <-. rewrite A2i in U2. injection U2 as <-.
    assert (H3 : ac_ths z3 = set_nth i (atold al a2) (ac_ths (sc_tab x))).
    { rewrite Z3. cbn [ac_ths]. rewrite Ea2, Ea1. clear. generalize (ac_ths (sc_tab x)) as ts. revert i.
      induction i as [|i IH]; intros [|h ts]; simpl; auto. now rewrite IH. }
    rewrite H3, nth_set_nth, Nat.eqb_refl in U1' by auto. injection U1' as <-.
    rewrite H3, set_nth_rest in U2' by auto. rewrite Nal in U2'. injection U2' as <-.
    exists (atold al a2), (atold (atold al a2) al). rewrite Z4. cbn [ac_ths ac_mem]. rewrite H3.
    split; [reflexivity|]. cbn [atold at_past at_run]. rewrite PA2. repeat split.
    rewrite Z3. cbn [ac_mem]. rewrite Z2. cbn [ac_mem]. rewrite M2, Z1. cbn [ac_mem]. exact LG. }
  destruct AT as (ai & al' & Ha & Pa & Pal & Ra & Ral & HL).
  (* the tree *)
  assert (AT : exists ti tl', wc_ths y2 = set_nth l tl' (set_nth i ti (wc_ths (sc_tree x))) /\
    wt_past ti = wt_past tl ++ wt_past t /\ wt_past tl' = wt_past ti ++ wt_past tl /\ wt_call ti = WIdle /\ wt_call tl' = WIdle).
  { destruct TT1 as (u & v & U1 & U2 & _ & _ & Z3). destruct TT2 as (u' & v' & U1' & U2' & _ & _ & Z4).
    rewrite Ntl in U1. injection U1 as <-. rewrite Nt in U2. injection U2 as <-.
    assert (H3 : wc_ths y1 = set_nth i (told tl t) (wc_ths (sc_tree x))) by (rewrite Z3; reflexivity).
    rewrite H3, nth_set_nth, Nat.eqb_refl in U1' by auto. injection U1' as <-.
    rewrite H3, set_nth_rest in U2' by auto. rewrite Ntl in U2'. injection U2' as <-.
    exists (told tl t), (told (told tl t) tl). rewrite Z4. cbn [wc_ths]. rewrite H3. repeat split. }
  destruct AT as (ti & tl' & Ht & Pt & Ptl & Wi & Wl').
  clear TA1 TA2 TT1 TT2 Ea1 Ea2.
  set (ops := List.map (fun o => (i, p, o)) (op_of_call c)) in *.
  assert (NM : n = (many p (slog x) + length (op_of_call c))%nat).
  { rewrite NE, LG, many_app. unfold ops. now rewrite many_ops. }
  assert (KP : incl past known) by (unfold known; intros q Q; apply in_or_app; right; apply in_or_app; now right).
  assert (KL : incl lpast known) by (unfold known; intros q Q; apply in_or_app; now left).
  assert (OL : forall q m K, In (q, m, K) (sc_hist x) -> q = p -> incl K lpast).
  { intros q m K H ->. destruct (si_hist _ _ _ I _ _ _ H) as (_ & l' & lp & N & C).
    rewrite (si_lock _ _ _ I _ _ _ _ _ N Nl) in N. rewrite Nl in N. injection N as <-. exact C. }
  assert (NH : forall q m K, In (q, m, K) (List.map (fun _ : recop => (p, n, known)) (op_of_call c)) ->
    q = p /\ m = n /\ K = known /\ n = S (many p (slog x))).
  { intros q m K H. apply in_map_iff in H. destruct H as (o & [= <- <- <-] & Ho). repeat split.
    rewrite NM. destruct c; simpl in Ho |- *; [lia|lia|easy]. }
  assert (SU : forall r, c = AUp r -> In (p, r) known /\ In p (wt_past t)).
  { intros r ->. destruct s as [q| |q r'|q r' e|q|q c'|q c' b']; cbn in Pi; try (destruct Pi as [_ Pi]; congruence).
    - destruct Pi as (_ & Pq & pc & Ep & _). rewrite E1 in Ep. injection Ep as -> -> _. split; [|exact Pq].
      unfold known. apply in_or_app. right. apply in_or_app. left. now left.
    - destruct Pi as (_ & NU & pc & Ep & _). rewrite E1 in Ep. injection Ep as _ <- _. now elim (NU r). }
  assert (OW : forall q r, In (q, r) (own_insert s) -> q = p /\ c = AUp r).
  { intros q r. destruct s as [q'| |q' r'|q' r' e|q'|q' c'|q' c' b']; cbn; try easy. intros [[= <- <-]|[]].
    cbn in Pi. destruct Pi as (_ & _ & pc & Ep & _). rewrite E1 in Ep. injection Ep as -> -> _. easy. }
  assert (KN : forall q r, In (q, r) known -> In q (wt_past ti) /\
    exists n0 l1 j l2, slog x ++ ops = l1 ++ (j, q, OUp r) :: l2 /\ In (q, n0) (at_past ai) /\ (S (many q l1) <= n0)%nat).
  { intros q r Q. unfold known in Q. apply in_app_or in Q. destruct Q as [Q|Q]; [|apply in_app_or in Q; destruct Q as [Q|Q]].
    - destruct (pastI_more _ ops _ _ _ (si_past _ _ _ I _ _ _ _ Nl Ntl Nal) q r Q) as (A & n0 & l1 & j & l2 & B & C & E).
      split; [rewrite Pt; apply in_or_app; now left|]. exists n0, l1, j, l2. split; [exact B|]. split; [|exact E].
      rewrite Pa. apply in_or_app. now left.
    - destruct (OW q r Q) as [-> Hc]. destruct (SU r Hc) as [_ Hp]. split; [rewrite Pt; apply in_or_app; now right|].
      exists n, (slog x), i, []. split; [unfold ops; rewrite Hc; reflexivity|]. split.
      + rewrite Pa. apply in_or_app. right. now left.
      + rewrite NM, Hc. simpl. lia.
    - destruct (pastI_more _ ops _ _ _ (si_past _ _ _ I _ _ _ _ Ns Nt Na) q r Q) as (A & n0 & l1 & j & l2 & B & C & E).
      split; [rewrite Pt; apply in_or_app; now right|]. exists n0, l1, j, l2. split; [exact B|]. split; [|exact E].
      rewrite Pa. apply in_or_app. right. now right. }
  assert (CT : forall l1 l2, slog x = l1 ++ l2 -> many p l1 = many p (slog x) -> counts p (lpast ++ past) l1).
  { intros l1 l2 El Em r Q. apply in_app_or in Q. destruct Q as [Q|Q].
    - apply (counts_of p (slog x) _ tl al l1 l2 (si_past _ _ _ I _ _ _ _ Nl Ntl Nal) El); [|exact Q].
      intros n' Q'. rewrite Em. exact (wtable_past f _ _ _ _ _ (si_tab _ _ _ I) Nal Q').
    - apply (counts_of p (slog x) _ t a l1 l2 (si_past _ _ _ I _ _ _ _ Ns Nt Na) El); [|exact Q].
      intros n' Q'. rewrite Em. exact (wtable_past f _ _ _ _ _ (si_tab _ _ _ I) Na Q'). }
  assert (HL' : slog (SConf y2 z4 (set_nth l (SThread (SLock p) (known ++ lpast)) (set_st i (answered s b) known x))
        (sc_hist x ++ List.map (fun _ => (p, n, known)) (op_of_call c))) = slog x ++ ops) by exact HL.
  constructor; cbn [sc_tree sc_tab sc_sts sc_hist]; try assumption; try rewrite HL'.
  - rewrite Ht. unfold set_st. rewrite !set_nth_length. apply I.
  - rewrite Ha. unfold set_st. rewrite !set_nth_length. apply I.
  - intros j s' t' a'. rewrite Ht, Ha. unfold set_st. intros N1 N2 N3.
    destruct (nth_two _ _ _ _ _ _ _ Li Ll N1) as [[-> ->]|[(J1 & -> & ->)|(J1 & J2 & N1')]];
    destruct (nth_two _ _ _ _ _ _ _ Lti Ltl N2) as [[K1 ->]|[(K1 & K2 & ->)|(K1 & K2 & N2')]]; try congruence;
    destruct (nth_two _ _ _ _ _ _ _ Lai Lal N3) as [[M3 ->]|[(M3 & M4 & ->)|(M3 & M4 & N3')]]; try congruence.
    + now split.
    + cbn [st_pc]. destruct s as [q| |q r'|q r' e|q|q c'|q c' b']; cbn in Pi |- *; try (destruct Pi as [_ Pi]; congruence); now split.
    + eapply si_pc; eauto.
  - intros j s' t' a'. rewrite Ht, Ha. unfold set_st. intros N1 N2 N3.
    destruct (nth_two _ _ _ _ _ _ _ Li Ll N1) as [[-> ->]|[(J1 & -> & ->)|(J1 & J2 & N1')]];
    destruct (nth_two _ _ _ _ _ _ _ Lti Ltl N2) as [[K1 ->]|[(K1 & K2 & ->)|(K1 & K2 & N2')]]; try congruence;
    destruct (nth_two _ _ _ _ _ _ _ Lai Lal N3) as [[M3 ->]|[(M3 & M4 & ->)|(M3 & M4 & N3')]]; try congruence.
    + intros q r Q. cbn [st_past] in Q. assert (Q' : In (q, r) known) by (apply in_app_or in Q; destruct Q as [Q|Q]; auto).
      destruct (KN q r Q') as (A & n0 & l1 & j & l2 & B & C & E). split; [rewrite Ptl; apply in_or_app; now left|].
      exists n0, l1, j, l2. split; [exact B|]. split; [|exact E]. rewrite Pal. apply in_or_app. now left.
    + exact KN.
    + apply pastI_more. eapply si_past; eauto.
  - intros j s' a'. rewrite Ha. unfold set_st. intros N1 N3.
    assert (HBi : forall q m m' K, In (q, m) (at_past ai) ->
      In (q, m', K) (sc_hist x ++ List.map (fun _ : recop => (p, n, known)) (op_of_call c)) -> (m' <= m)%nat -> incl K known).
    { intros q m m' K A B C. apply in_app_or in B. destruct B as [B|B].
      - rewrite Pa in A. apply in_app_or in A. destruct A as [A|[[= -> ->]|A]].
        + eapply incl_tran; [|exact KL]. exact (si_hb _ _ _ I _ _ _ Nl Nal q m m' K A B C).
        + eapply incl_tran; [|exact KL]. exact (OL _ _ _ B eq_refl).
        + eapply incl_tran; [|exact KP]. exact (si_hb _ _ _ I _ _ _ Ns Na q m m' K A B C).
      - destruct (NH _ _ _ B) as (_ & _ & -> & _). apply incl_refl. }
    destruct (nth_two _ _ _ _ _ _ _ Li Ll N1) as [[-> ->]|[(J1 & -> & ->)|(J1 & J2 & N1')]];
    destruct (nth_two _ _ _ _ _ _ _ Lai Lal N3) as [[M3 ->]|[(M3 & M4 & ->)|(M3 & M4 & N3')]]; try congruence.
    + intros q m m' K A B C. cbn [st_past]. apply incl_appl. rewrite Pal in A. apply in_app_or in A. destruct A as [A|A]; [eauto|].
      apply (HBi q m m' K); auto. rewrite Pa. apply in_or_app. now left.
    + exact HBi.
    + intros q m m' K A B C. apply in_app_or in B. destruct B as [B|B]; [exact (si_hb _ _ _ I _ _ _ N1' N3' q m m' K A B C)|].
      destruct (NH _ _ _ B) as (-> & -> & _ & NS).
      pose proof (wtable_past f _ _ _ _ _ (si_tab _ _ _ I) N3' A) as W. unfold slog in NS. lia.
  - intros j s'. unfold set_st. intros N1.
    destruct (nth_two _ _ _ _ _ _ _ Li Ll N1) as [[-> ->]|[(J1 & -> & ->)|(J1 & J2 & N1')]].
    + now apply retI_not.
    + destruct s as [q| |q r'|q r' e|q|q c'|q c' b']; cbn in Pi; try (destruct Pi as [_ Pi]; congruence).
      * destruct Pi as (_ & _ & pc & Ep & _). rewrite E1 in Ep. injection Ep as -> -> _. cbn [answered]. unfold retI. cbn [st_pc st_past].
        destruct BK as (fd & o & ->). exists fd, o, (slog x), []. split; [reflexivity|]. split; [reflexivity|].
        destruct (SU r' eq_refl) as [S0 _]. split; [exact S0|]. intros r Q. unfold known in Q. cbn [own_insert] in Q.
        apply in_app_or in Q. destruct Q as [Q|[[= <-]|Q]].
        -- destruct (CT (slog x) [] (eq_sym (app_nil_r _)) eq_refl r) as [j J]; [apply in_or_app; now left|]. exists j. apply in_or_app. now left.
        -- exists i. apply in_or_app. right. now left.
        -- destruct (CT (slog x) [] (eq_sym (app_nil_r _)) eq_refl r) as [j J]; [apply in_or_app; now right|]. exists j. apply in_or_app. now left.
      * destruct Pi as (_ & NU & pc & Ep & _). rewrite E1 in Ep. injection Ep as -> -> _. cbn [answered]. unfold retI. cbn [st_pc st_past].
        unfold known. cbn [own_insert app]. destruct c' as [r|st mui lt|mui iw bmin].
        -- now elim (NU r).
        -- exists true. split; [exact BK|]. exists (slog x), []. split; [reflexivity|].
           apply (CT (slog x) []); [now rewrite app_nil_r|reflexivity].
        -- destruct BK as (o & ->).
           destruct (wtable_read f z1 i a1 q mui iw bmin n o R1) as (l1 & l2 & A & B & _ & X).
           { exact Na1. } { exact E2. }
           rewrite Z1 in A. cbn [ac_mem] in A. rewrite LG in A. unfold ops in A. simpl in A. rewrite app_nil_r in A.
           exists o, l1, l2. split; [reflexivity|]. unfold ops. simpl. rewrite app_nil_r. split; [exact A|].
           split; [apply (CT l1 l2 A); rewrite B, NM; simpl; lia|]. split; [exact X|].
           intros m1' j op m2' E0. rewrite E0, <- app_assoc in A. simpl in A.
           destruct (si_log _ _ _ I _ _ _ _ _ A) as (K & HK & _). exists K. split; [apply in_or_app; now left|].
           eapply incl_tran; [exact (OL _ _ _ HK eq_refl)|]. now apply incl_appl.
    + apply retI_more. eapply si_ret; eauto.
  - intros j1 j2 q p1 p2. unfold set_st. intros N1 N2.
    assert (LK : forall j q' pp, nth_error (set_nth l (SThread (SLock p) (known ++ lpast)) (set_nth i (SThread (answered s b) known) (sc_sts x))) j =
      Some (SThread (SLock q') pp) -> exists pp', nth_error (sc_sts x) j = Some (SThread (SLock q') pp')).
    { intros j q' pp N. destruct (nth_two _ _ _ _ _ _ _ Li Ll N) as [[-> E]|[(J1 & -> & E)|(J1 & J2 & E)]].
      - injection E as -> _. eauto.
      - injection E as E _. destruct s; cbn in E; try discriminate E. cbn in Pi. destruct Pi as [_ Pi]. congruence.
      - eauto. }
    destruct (LK _ _ _ N1) as [q1 M1]. destruct (LK _ _ _ N2) as [q2 M2']. exact (si_lock _ _ _ I _ _ _ _ _ M1 M2').
  - intros q m K H. apply in_app_or in H. unfold set_st. destruct H as [H|H].
    + destruct (si_hist _ _ _ I _ _ _ H) as (A & l' & lp & N & C). split; [exact A|].
      destruct (Nat.eq_dec l' l) as [->|NL].
      * rewrite Nl in N. injection N as <- <-. exists l, (known ++ lpast). split; [|now apply incl_appr].
        eapply nth_set_at. rewrite set_nth_rest by auto. exact Nl.
      * exists l', lp. split; [|exact C]. rewrite set_nth_rest by auto. rewrite set_nth_rest; [exact N|].
        intros ->. rewrite Ns in N. injection N as -> _. cbn in Pi. destruct Pi as [_ Pi]. congruence.
    + destruct (NH _ _ _ H) as (-> & -> & -> & NS). split; [lia|]. exists l, (known ++ lpast). split; [|apply incl_appl, incl_refl].
      eapply nth_set_at. rewrite set_nth_rest by auto. exact Nl.
  - intros l1 j q op l2 El. rewrite <- (rev_involutive l2) in El. destruct (rev l2) as [|e l2'] eqn:Rv.
    + (* the last one *)
      simpl in El. destruct (op_of_call c) as [|o1 [|]] eqn:Oc; unfold ops in El; simpl in El.
      * rewrite app_nil_r in El. destruct (si_log _ _ _ I l1 j q op [] El) as (K & A & B). exists K. split; [|exact B]. rewrite app_nil_r. exact A.
      * apply app_inj_tail in El. destruct El as [<- [= -> -> ->]]. exists known. split.
        -- apply in_or_app. right. simpl. left. f_equal. f_equal. rewrite NM. simpl. lia.
        -- intros r ->. destruct c; simpl in Oc; try discriminate Oc. injection Oc as ->. apply (SU r eq_refl).
      * destruct c; simpl in Oc; discriminate Oc.
    + destruct (op_of_call c) as [|o1 [|]] eqn:Oc; unfold ops in El; simpl in El.
      * rewrite app_nil_r in El. destruct (si_log _ _ _ I _ _ _ _ _ El) as (K & A & B). exists K. split; [|exact B]. rewrite app_nil_r. exact A.
      * assert (E' : slog x ++ [(i, p, o1)] = (l1 ++ (j, q, op) :: rev l2') ++ [e]) by (rewrite El, <- app_assoc; reflexivity).
        apply app_inj_tail in E'. destruct E' as [E' _]. destruct (si_log _ _ _ I _ _ _ _ _ E') as (K & A & B). exists K.
        split; [apply in_or_app; now left|exact B].
      * destruct c; simpl in Oc; discriminate Oc.
Qed.

(* ---------- the other steps ---------- *)

Lemma told_ok f ov t0 x i j pi pj y z : tree_new f = Ok t0 -> storeI f ov x ->
  nth_error (sc_sts x) i = Some (SThread SIdle pi) -> nth_error (sc_sts x) j = Some (SThread SIdle pj) ->
  tree_tells i j (sc_tree x) y -> tab_tells i j (sc_tab x) z ->
  storeI f ov (SConf y z (set_st j SIdle (pi ++ pj) x) (sc_hist x)).
Proof.
  intros T0 I Ni Nj TT TA. pose proof (tree_tells_ok _ _ _ _ _ _ _ T0 (si_tree _ _ _ I) TT) as W.
  pose proof (tab_tells_ok _ _ _ _ _ (si_tab _ _ _ I) TA) as R.
  destruct TT as (ti & tj & Nti & Ntj & Ci & Cj & ->). destruct TA as (ai & aj & Nai & Naj & Ri & Rj & ->).
  pose proof (nth_some_lt _ _ _ Nj) as Lj. pose proof (nth_some_lt _ _ _ Ntj) as Ltj. pose proof (nth_some_lt _ _ _ Naj) as Laj.
  assert (LK : forall k p pp, nth_error (set_st j SIdle (pi ++ pj) x) k = Some (SThread (SLock p) pp) <-> nth_error (sc_sts x) k = Some (SThread (SLock p) pp)).
  { intros k p pp. unfold set_st. rewrite nth_set_nth by exact Lj. destruct (Nat.eqb_spec j k) as [<-|]; [|easy].
    rewrite Nj. split; discriminate. }
  constructor; cbn [sc_tree sc_tab sc_sts sc_hist wc_ths ac_ths]; try assumption.
  - unfold set_st. rewrite !set_nth_length. apply I.
  - unfold set_st. rewrite !set_nth_length. apply I.
  - intros k s t a. unfold set_st. rewrite !nth_set_nth by assumption. destruct (Nat.eqb_spec j k) as [<-|]; [|now apply (si_pc _ _ _ I)].
    intros [= <-] [= <-] [= <-]. now split.
  - intros k s t a. unfold set_st. rewrite !nth_set_nth by assumption. destruct (Nat.eqb_spec j k) as [<-|]; [|now apply (si_past _ _ _ I)].
    intros [= <-] [= <-] [= <-] p r Q. cbn [st_past told wt_past atold at_past] in *. apply in_app_or in Q. destruct Q as [Q|Q].
    + destruct (si_past _ _ _ I _ _ _ _ Ni Nti Nai p r Q) as (A & n & l1 & k & l2 & B & C & E). split; [apply in_or_app; now left|].
      exists n, l1, k, l2. split; [exact B|]. split; [apply in_or_app; now left|exact E].
    + destruct (si_past _ _ _ I _ _ _ _ Nj Ntj Naj p r Q) as (A & n & l1 & k & l2 & B & C & E). split; [apply in_or_app; now right|].
      exists n, l1, k, l2. split; [exact B|]. split; [apply in_or_app; now right|exact E].
  - intros k s a. unfold set_st. rewrite !nth_set_nth by assumption. destruct (Nat.eqb_spec j k) as [<-|]; [|now apply (si_hb _ _ _ I)].
    intros [= <-] [= <-] p n n' K A B C. cbn [st_past atold at_past] in *. apply in_app_or in A. destruct A as [A|A].
    + apply incl_appl. exact (si_hb _ _ _ I _ _ _ Ni Nai p n n' K A B C).
    + apply incl_appr. exact (si_hb _ _ _ I _ _ _ Nj Naj p n n' K A B C).
  - intros k s. unfold set_st. rewrite nth_set_nth by assumption. destruct (Nat.eqb_spec j k) as [<-|]; [|now apply (si_ret _ _ _ I)].
    intros [= <-]. now apply retI_not.
  - intros k1 k2 p p1 p2 N1 N2. apply LK in N1, N2. exact (si_lock _ _ _ I _ _ _ _ _ N1 N2).
  - intros p n K H. destruct (si_hist _ _ _ I _ _ _ H) as (A & l & lp & N & C). split; [exact A|]. exists l, lp. split; [now apply LK|exact C].
  - exact (si_log _ _ _ I).
Qed.

Lemma spawn_ok f ov t0 x s : tree_new f = Ok t0 -> storeI f ov x ->
  s = SIdle \/ (exists p, s = SLock p /\ forall j past, nth_error (sc_sts x) j <> Some (SThread (SLock p) past)) ->
  storeI f ov
    (SConf (WTConf (wc_mem (sc_tree x)) (wc_called (sc_tree x)) (wc_ths (sc_tree x) ++ [WThread t0 WIdle [] [] 0]))
           (AConf (ac_mem (sc_tab x)) (ac_ths (sc_tab x) ++ [AThread [] None [] [] 0]))
           (sc_sts x ++ [SThread s []]) (sc_hist x)).
Proof.
  intros T0 I Hs. pose proof (si_len1 _ _ _ I) as L1. pose proof (si_len2 _ _ _ I) as L2.
  assert (AP : forall {A} (l : list A) y k v, nth_error (l ++ [y]) k = Some v ->
    (k < length l)%nat /\ nth_error l k = Some v \/ k = length l /\ v = y).
  { intros A l y k v N. destruct (nth_app_cases l y k v N) as [E|E]; [left|now right]. split; [eapply nth_some_lt; eauto|exact E]. }
  constructor; cbn [sc_tree sc_tab sc_sts sc_hist wc_ths ac_ths].
  - destruct x as [[m c ts] z sts h]. cbn [sc_tree wc_mem wc_called wc_ths] in *. eapply wr_step; [exact T0|exact (si_tree _ _ _ I)|]. apply wc_spawn.
  - destruct x as [y [m ts] sts h]. cbn [sc_tab ac_mem ac_ths] in *. eapply ar_step; [exact (si_tab _ _ _ I)|]. apply as_spawn.
  - rewrite !app_length. simpl. lia.
  - rewrite !app_length. simpl. lia.
  - intros k s' t a N1 N2 N3.
    destruct (AP _ _ _ _ _ N1) as [[A1 E1]|[A1 ->]]; destruct (AP _ _ _ _ _ N2) as [[A2 E2]|[A2 ->]]; try lia;
    destruct (AP _ _ _ _ _ N3) as [[A3 E3]|[A3 ->]]; try lia.
    + now apply (si_pc _ _ _ I k).
    + cbn. destruct Hs as [->|(p & -> & _)]; now split.
  - intros k s' t a N1 N2 N3.
    destruct (AP _ _ _ _ _ N1) as [[A1 E1]|[A1 ->]]; destruct (AP _ _ _ _ _ N2) as [[A2 E2]|[A2 ->]]; try lia;
    destruct (AP _ _ _ _ _ N3) as [[A3 E3]|[A3 ->]]; try lia.
    + now apply (si_past _ _ _ I k).
    + intros p r [].
  - intros k s' a N1 N3.
    destruct (AP _ _ _ _ _ N1) as [[A1 E1]|[A1 ->]]; destruct (AP _ _ _ _ _ N3) as [[A3 E3]|[A3 ->]]; try lia.
    + now apply (si_hb _ _ _ I k).
    + intros p n n' K [].
  - intros k s' N1. destruct (AP _ _ _ _ _ N1) as [[A1 E1]|[A1 ->]]; [now apply (si_ret _ _ _ I k)|].
    apply retI_not. destruct Hs as [->|(p & -> & _)]; exact Logic.I.
  - intros k1 k2 p p1 p2 N1 N2.
    destruct (AP _ _ _ _ _ N1) as [[A1 E1]|[A1 E1]]; destruct (AP _ _ _ _ _ N2) as [[A2 E2]|[A2 E2]].
    + eapply (si_lock _ _ _ I); eauto.
    + injection E2 as <- ->. destruct Hs as [E|(q & E & F)]; [discriminate E|]. injection E as ->. now elim (F k1 p1).
    + injection E1 as <- ->. destruct Hs as [E|(q & E & F)]; [discriminate E|]. injection E as ->. now elim (F k2 p2).
    + congruence.
  - intros p n K H. destruct (si_hist _ _ _ I _ _ _ H) as (A & l & lp & N & C). split; [exact A|]. exists l, lp. split; [|exact C].
    rewrite nth_error_app1; [exact N|]. eapply nth_some_lt; eauto.
  - exact (si_log _ _ _ I).
Qed.

Lemma set_st_self x i s : nth_error (sc_sts x) i = Some s -> sc_sts x = set_nth i s (sc_sts x).
Proof. apply set_nth_self. Qed.

(* a walk to the entry ends without having been under the lock *)
Lemma walk_zero f i m a m' a' p c : atstep f i m a m' a' -> walking a -> at_run a = Some (p, c, match at_run a with Some (_, _, pc) => pc | None => APanic end) ->
  exists pc, at_run a' = Some (p, c, pc) /\ zero pc.
Proof.
  intros S W E. unfold walking in W. destruct (at_run a) as [[[q c0] pc]|] eqn:R; [|easy]. injection E as -> ->.
  destruct S as [q c1 C|v K|q c1 pc1 C A|q c1 w C|q c1 k0 f0 v C Dr log|q c1 k0 f0 C L|q c1 n0 b0 C]; cbn [at_run];
    try congruence; try (rewrite R in C; injection C as -> -> ->; easy).
  - exists pc. split; [exact R|]. intros n b ->. easy.
  - rewrite R in C. injection C as <- <- ->. eexists. split; [reflexivity|]. intros n b.
    destruct (pstep f p (at_view a) pc1) as [[h o]| |]; cbn [bind or_apanic snd]; try discriminate.
    destruct o as [q'|k fd]; cbn; [discriminate|]. destruct c; cbn; try discriminate. destruct fd; [discriminate|]. now intros [= <- _].
  - rewrite R in C. injection C as <- <- ->. eexists. split; [reflexivity|]. intros n b. unfold alook.
    destruct (hash_id f p (w_level w)) as [ix| |]; cbn [bind or_apanic]; try discriminate.
    destruct (slot_get _ _ _ _ _) as [e|]; [|now intros [= <- _]]. destruct (pid_eqb p (e_id e)); [discriminate|].
    destruct (add8 _ _); cbn [bind or_apanic]; discriminate.
Qed.

Lemma abegin_zero f p c : zero (abegin f p c).
Proof.
  intros n b. unfold abegin. destruct (walk_start f PSTRIDE p); cbn [bind or_apanic]; try discriminate. now destruct c.
Qed.

Lemma storeI_step f ov t0 x y : tree_new f = Ok t0 -> storeI f ov x -> store_step f ov t0 x y -> storeI f ov y.
Proof.
  intros T0 I S. destruct S as
    [s Hs|i t v y Nt L B|i a v z Na L B|i past p r t t' y Ns B C C'|i past p t t' y Ns B C C'|i t t' y B C C'
    |i past p t t' y Ns B C C'|i past p r mui rc ex t t' a a' y z Ns B C C' B' R R'|i past p c a a' z Ns NU B R R'
    |i a a' z B W|i l s past lpast p c k found n b a a1 a2 z1 z2 z3 z4 y1 y2 Ns Nl B1 E1 E2 B2 E3 TA1 TA2 TT1 TT2 known
    |i s past p c n b a a' z Ns B R R'|i past p c b Ns|i j pi pj y z Ni Nj TT TA].
  - now apply spawn_ok.
  - destruct (nth_same_len _ (sc_sts x) _ _ (eq_sym (si_len1 _ _ _ I)) Nt) as [s Ns]. rewrite (set_st_self x i s Ns) at 1.
    refine (tree_only f ov t0 x y i s s t _ T0 I Ns B _ _ _ _); auto; try (eapply si_ret; eauto).
  - destruct (nth_same_len _ (sc_sts x) _ _ (eq_sym (si_len2 _ _ _ I)) Na) as [s Ns]. rewrite (set_st_self x i s Ns).
    destruct (parts_of _ _ _ _ _ I Ns) as (t & a' & Nt & Na' & P). rewrite Na in Na'. injection Na' as <-.
    destruct (tab_by_ok _ _ _ _ _ _ (si_tab _ _ _ I) B) as (RZ & _ & Ea). destruct B as (m & _ & S & Ez).
    eapply (one_ok f ov x _ i s s t t a); eauto; cbn [sc_tree sc_tab sc_sts sc_hist at_past].
    + apply (si_tree _ _ _ I).
    + now apply set_nth_self.
    + unfold slog. cbn [sc_tab]. rewrite Ez. cbn [ac_mem].
      remember (AThread v (at_run a) (at_past a) (at_did a) (at_steps a)) as a1 eqn:Q.
      destruct S; try reflexivity. exfalso. apply (f_equal at_run) in Q. cbn [at_run] in Q. congruence.
    + apply incl_refl.
    + apply incl_refl.
    + eapply si_ret; eauto.
  - refine (tree_only f ov t0 x y i _ (SThread (SIns p r) past) t t' T0 I Ns B eq_refl _ _ _).
    + right. split; intros H; exact H.
    + intros a Na [_ A]. split; [exists TStart; exact C'|exact A].
    + apply retI_not. exact Logic.I.
  - refine (tree_only f ov t0 x y i _ (SThread (SHas p) past) t t' T0 I Ns B eq_refl _ _ _).
    + right. split; intros H; exact H.
    + intros a Na [_ A]. split; [exists XStart; exact C'|exact A].
    + apply retI_not. exact Logic.I.
  - destruct (tree_by_ok _ _ _ _ _ _ _ _ T0 (si_tree _ _ _ I) B) as (_ & Nt & _ & _).
    destruct (nth_same_len _ (sc_sts x) _ _ (eq_sym (si_len1 _ _ _ I)) Nt) as [s Ns]. rewrite (set_st_self x i s Ns) at 1.
    refine (tree_only f ov t0 x y i s s t t' T0 I Ns B eq_refl (or_introl eq_refl) _ (si_ret _ _ _ I _ _ Ns)). intros a Na P.
    destruct B as (m & c & _ & S & _).
    destruct (st_pc s); cbn in P |- *; try (destruct P as [P _]; contradiction).
    + destruct P as [(pc & P) A]. split; [|exact A]. destruct S; cbn [wt_call at_call] in *; try congruence; eauto.
      rewrite P in H. injection H as <- <- <-. eauto.
    + destruct P as [(pc & P) A]. split; [|exact A]. destruct S; cbn [wt_call at_call] in *; try congruence; eauto.
      rewrite P in H. injection H as <- <-. eauto.
  - refine (tree_only f ov t0 x y i _ (SThread SIdle past) t t' T0 I Ns B eq_refl _ _ _).
    + right. split; intros H; exact H.
    + intros a Na [_ A]. split; [exact C'|exact A].
    + apply retI_not. exact Logic.I.
  - destruct (tree_by_ok _ _ _ _ _ _ _ _ T0 (si_tree _ _ _ I) B) as (RT & Nt & Et & It).
    destruct (tab_by_ok _ _ _ _ _ _ (si_tab _ _ _ I) B') as (RA & Na & Ea).
    destruct B' as (m & _ & S & Ez). destruct B as (m' & c' & _ & S' & _).
    assert (PA : at_past a' = at_past a).
    { destruct (atstep_past _ _ _ _ _ _ S) as [Q|(q & c & n & b & Q & _)]; [exact Q|congruence]. }
    refine (one_ok f ov x (SConf y z (set_st i (SUp p r ex) past x) (sc_hist x)) i _ (SThread (SUp p r ex) past) t t' a a' I RT RA Ns Nt Na eq_refl Et Ea eq_refl _ eq_refl _ It _ _ _ _).
    + unfold slog. cbn [sc_tab]. rewrite Ez. cbn [ac_mem]. apply (atstep_log _ _ _ _ _ _ S). intros; congruence.
    + right. split; intros H; exact H.
    + rewrite PA. apply incl_refl.
    + rewrite PA. auto.
    + split; [exact C'|]. split.
      * destruct S'; cbn [wt_call at_call wt_past] in *; try congruence. rewrite C in H. injection H as <- <- <- <-. now left.
      * eexists. split; [exact R'|]. apply abegin_zero.
    + apply retI_not. exact Logic.I.
  - refine (tab_only f ov x z i _ (SThread (SOne p c) past) a a' I Ns B eq_refl _ _ _ _).
    + right. split; intros H; exact H.
    + intros; congruence.
    + intros t Nt [A _]. split; [exact A|]. split; [exact NU|]. eexists. split; [exact R'|]. apply abegin_zero.
    + apply retI_not. exact Logic.I.
  - destruct (tab_by_ok _ _ _ _ _ _ (si_tab _ _ _ I) B) as (_ & Na & _).
    destruct (nth_same_len _ (sc_sts x) _ _ (eq_sym (si_len2 _ _ _ I)) Na) as [s Ns]. rewrite (set_st_self x i s Ns).
    refine (tab_only f ov x z i s s a a' I Ns B eq_refl (or_introl eq_refl) _ _ (si_ret _ _ _ I _ _ Ns)).
    + intros p c k found E. unfold walking in W. now rewrite E in W.
    + intros t Nt P. destruct B as (m & _ & S & _).
      assert (NN : at_run a <> None) by (unfold walking in W; now destruct (at_run a)).
      destruct (st_pc s); cbn in P |- *; try (destruct P as [_ P]; contradiction).
      * destruct P as (A & Q & pc & E & Z). split; [exact A|]. split; [exact Q|]. eapply walk_zero; eauto. now rewrite E.
      * destruct P as (A & Q & pc & E & Z). split; [exact A|]. split; [exact Q|]. eapply walk_zero; eauto. now rewrite E.
  - exact (locked_ok _ _ _ _ _ _ _ _ _ _ _ _ _ _ _ _ _ _ _ _ _ _ _ _ T0 I Ns Nl B1 E1 E2 B2 E3 TA1 TA2 TT1 TT2).
  - destruct (tab_by_ok _ _ _ _ _ _ (si_tab _ _ _ I) B) as (_ & Na & _).
    destruct (parts_of _ _ _ _ _ I Ns) as (t & a1 & Nt & Na' & P). rewrite Na in Na'. injection Na' as <-. cbn [st_pc] in P.
    refine (tab_only f ov x z i _ (SThread (answered s b) past) a a' I Ns B eq_refl _ _ _ _).
    + cbn [st_pc]. destruct s; cbn; auto; right; split; intros H; exact H.
    + intros; congruence.
    + intros t' Nt' _. rewrite Nt in Nt'. injection Nt' as <-.
      destruct s; cbn in P |- *; try (destruct P as [_ P]; congruence); destruct P as [P _]; split; auto; congruence.
    + eapply none_ret; eauto.
  - destruct (parts_of _ _ _ _ _ I Ns) as (t & a & Nt & Na & P).
    refine (one_ok f ov x (SConf (sc_tree x) (sc_tab x) (set_st i SIdle past x) (sc_hist x)) i _ (SThread SIdle past) t t a a I (si_tree _ _ _ I) (si_tab _ _ _ I) Ns Nt Na eq_refl
      (set_nth_self _ _ _ Nt) (set_nth_self _ _ _ Na) eq_refl eq_refl eq_refl _ (incl_refl _) (incl_refl _) _ P _).
    + right. split; intros H; exact H.
    + auto.
    + apply retI_not. exact Logic.I.
  - eapply told_ok; eauto.
Qed.

Lemma storeI_reach f ov x : store_reach f ov x -> storeI f ov x.
Proof.
  intros R. induction R as [t0 E|t0 x y E R IH S].
  - constructor; cbn.
    + now apply (wr_start _ _ t0).
    + apply ar_start.
    + reflexivity.
    + reflexivity.
    + intros [|]; discriminate.
    + intros [|]; discriminate.
    + intros [|]; discriminate.
    + intros [|]; discriminate.
    + intros [|]; discriminate.
    + intros p n K [].
    + intros [|] *; discriminate.
  - eapply storeI_step; eauto.
Qed.
