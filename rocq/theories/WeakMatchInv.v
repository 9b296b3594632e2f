(* match_prefix and the iterators on a weak memory, part by part. *)
From Coq Require Import Arith NArith List Bool Lia.
From Verif Require Import Word Af BitSpan Spec Maps ChtMath Cht Node Tree Iter MultiMap RecordSet PrefixCht Lsm Rib StarCast HistSpec
  Conc ConcTree ConcTreeProofs ConcStore ConcTable ConcMarks ConcSpec ConcScan ConcScanSpec ConcScanFacts ConcWhole ConcQuery QuerySpec
  ConcQueryProofs ConcEachInv
  WeakTree WeakTreeFacts WeakTable WeakTableFacts WeakScan WeakScanFacts WeakStore WeakStoreInv WeakStoreFacts WeakMatch.
Import ListNotations.
Local Open Scope N_scope.

(* ---------- the tree in a step of the store ---------- *)

Lemma by_steps f ov t0 i t t' x y : tree_new f = Ok t0 -> tree_by f ov i t t' x y -> wtexec f ov x y.
Proof.
  intros E (m & c & N & S & ->). eapply we_step; [apply we_refl|exact E|]. destruct x as [m0 c0 ts]. eapply wc_thread; eauto.
Qed.
Lemma tells_steps f ov t0 i j x y : tree_new f = Ok t0 -> tree_tells i j x y -> wtexec f ov x y.
Proof.
  intros E (ti & tj & A & B & C & D & ->). eapply we_step; [apply we_refl|exact E|]. destruct x as [m c ts]. eapply wc_told; eauto.
Qed.
Lemma step_tree f ov t0 x y : tree_new f = Ok t0 -> store_step f ov t0 x y -> wtexec f ov (sc_tree x) (sc_tree y).
Proof.
  intros E S. destruct S as
    [s Hs|i t v y Nt L B|i a v z Na L B|i past p r t t' y Ns B C C'|i past p t t' y Ns B C C'|i t t' y B C C'
    |i past p t t' y Ns B C C'|i past p r mui rc ex t t' a a' y z Ns B C C' B' R R'|i past p c a a' z Ns NU B R R'
    |i a a' z B W|i l s past lpast p c k found n b a a1 a2 z1 z2 z3 z4 y1 y2 Ns Nl B1 E1 E2 B2 E3 TA1 TA2 TT1 TT2 known
    |i s past p c n b a a' z Ns B R R'|i past p c b Ns|i j pi pj y z Ni Nj TT TA]; cbn [sc_tree];
    try apply we_refl; try exact (by_steps _ _ _ _ _ _ _ _ E B).
  - eapply we_step; [apply we_refl|exact E|]. destruct (sc_tree x) as [m c ts]. apply wc_spawn.
  - eapply wtexec_trans; [exact (tells_steps _ _ _ _ _ _ _ E TT1)|exact (tells_steps _ _ _ _ _ _ _ E TT2)].
  - exact (tells_steps _ _ _ _ _ _ _ E TT).
Qed.
Lemma exec_tree f ov x y : store_exec f ov x y -> wtexec f ov (sc_tree x) (sc_tree y).
Proof.
  intros E. induction E as [|t0 y z E IH T S]; [apply we_refl|]. eapply wtexec_trans; [exact IH|exact (step_tree _ _ _ _ _ T S)].
Qed.
Lemma called_exec f ov x y q : wtexec f ov x y -> In q (wc_called x) -> In q (wc_called y).
Proof. intros E I. induction E as [|t0 y z E IH T S]; [exact I|]. eapply called_step; eauto. Qed.

Lemma beside_on {S} f ov (over : S -> bool) next i x0 s0 n x s y : wbeside f ov over next i x0 s0 n x s -> wtexec f ov x y ->
  wbeside f ov over next i x0 s0 n y s.
Proof. intros B E. induction E; [easy|]. eapply wb_call; eauto. Qed.

Lemma asking_exec {Q} f ov B mui iw (over : Q -> bool) waits next gets i x0 q0 n x q :
  asking f ov B mui iw over waits next gets i x0 q0 n x q -> store_exec f ov x0 x.
Proof.
  intros A. induction A as [past N|n t0 x y q A IH T S|n x q past t bmin A IH|n x q past c bmin v A IH];
    [apply se_here|eapply se_step; eauto|exact IH|exact IH].
Qed.
Lemma asking_idle {Q} f ov B mui iw (over : Q -> bool) waits next gets i x0 q0 n x q :
  asking f ov B mui iw over waits next gets i x0 q0 n x q -> exists past, nth_error (sc_sts x0) i = Some (SThread SIdle past).
Proof. intros A. induction A as [past N| | |]; eauto. Qed.

Lemma seeing_tree f v bmin : tree_in (seeing v bmin) f = v.
Proof. now destruct f. Qed.
Lemma marked_in f v bmin m : rib_mui_is_withdrawn (rib_now (seeing v bmin) f) m = true -> In m bmin.
Proof. intros H. apply mem_In. destruct f; exact H. Qed.

(* ---------- looking prefixes up one after the other ---------- *)

Inductive gathered (f : af) (L : pid -> option (list record) -> Prop) : list pid -> list prefixrecord -> Prop :=
| ga_nil : gathered f L [] []
| ga_some l g c v : gathered f L l g -> L c (Some v) -> gathered f L (l ++ [c]) (g ++ [((f, c), v)])
| ga_none l g c : gathered f L l g -> L c None -> gathered f L (l ++ [c]) g.
Lemma gathered_on f (L L' : pid -> option (list record) -> Prop) l g : (forall c v, L c v -> L' c v) -> gathered f L l g -> gathered f L' l g.
Proof. intros H F. induction F; [apply ga_nil|apply ga_some; auto|apply ga_none; auto]. Qed.
Lemma gathered_in f L l g : gathered f L l g -> forall a v, In (a, v) g -> exists c, a = (f, c) /\ In c l /\ L c (Some v).
Proof.
  intros F. induction F as [|l g c w F IH H|l g c F IH H]; intros a v I; [easy| |].
  - apply in_app_or in I. destruct I as [I|[E|[]]].
    + destruct (IH a v I) as (c' & A & B & C). exists c'. split; [exact A|]. split; [|exact C]. apply in_or_app. now left.
    + injection E as <- <-. exists c. split; [easy|]. split; [|exact H]. apply in_or_app. right. now left.
  - destruct (IH a v I) as (c' & A & B & C). exists c'. split; [exact A|]. split; [|exact C]. apply in_or_app. now left.
Qed.
Lemma gathered_all f L l g : gathered f L l g -> forall c, In c l ->
  exists v, L c v /\ (forall w, v = Some w -> In ((f, c), w) g).
Proof.
  intros F. induction F as [|l g c w F IH H|l g c F IH H]; intros a I; [easy| |]; apply in_app_or in I.
  - destruct I as [I|[<-|[]]].
    + destruct (IH a I) as (v & A & B). exists v. split; [exact A|]. intros u E. apply in_or_app. left. now apply B.
    + exists (Some w). split; [exact H|]. intros u [= <-]. apply in_or_app. right. now left.
  - destruct I as [I|[<-|[]]]; [exact (IH a I)|]. exists None. split; [exact H|discriminate].
Qed.
Lemma gathered_nodup f L l g : gathered f L l g -> NoDup l -> NoDup (List.map fst g).
Proof.
  intros F. induction F as [|l g c w F IH H|l g c F IH H]; intros N; [apply NoDup_nil| |].
  - assert (N' : NoDup l /\ ~ In c l).
    { pose proof (NoDup_remove l [] c N) as Q. rewrite app_nil_r in Q. exact Q. }
    destruct N' as [N1 N2]. rewrite map_app. cbn [List.map fst].
    apply NoDup_rev in IH; [|exact N1]. rewrite <- (rev_involutive (_ ++ _)). apply NoDup_rev. rewrite rev_app_distr.
    cbn [rev app]. apply NoDup_cons; [|exact IH]. intros I. rewrite <- in_rev in I. apply in_map_iff in I.
    destruct I as ([a v] & E & I). cbn [fst] in E. subst a. destruct (gathered_in _ _ _ _ F _ _ I) as (c' & [= <-] & I' & _).
    contradiction.
  - apply IH. pose proof (NoDup_remove l [] c N) as Q. rewrite app_nil_r in Q. now destruct Q.
Qed.
Lemma gathered_items f L l g : gathered f L l g -> rs_items (rs_from_iter g) = Ok g.
Proof.
  intros F. apply (rs_items_family f). intros [a v] I. destruct (gathered_in _ _ _ _ F _ _ I) as (c & -> & _). reflexivity.
Qed.

Section Parts.
Variables (f : af) (ov : bool) (B : nset -> Prop) (i : nat) (x0 : sconf) (past0 : list (pid * record)).
Hypotheses (R : store_reach f ov x0) (N0 : nth_error (sc_sts x0) i = Some (SThread SIdle past0)).

(* ---------- a look-up ---------- *)

Definition looked (mui : option N) (iw : bool) (x : sconf) (c : pid) (v : option (list record)) : Prop :=
  exists x1 past bmin, B bmin /\ store_exec f ov x0 x1 /\ store_exec f ov x1 x /\
    nth_error (sc_sts x1) i = Some (SThread (SRet c (ARead mui iw bmin) (RRead v)) past).
Lemma looked_on mui iw x y c v : store_exec f ov x y -> looked mui iw x c v -> looked mui iw y c v.
Proof.
  intros E (x1 & past & bmin & A & D & F & G). exists x1, past, bmin. split; [exact A|]. split; [exact D|].
  split; [eapply store_exec_trans; eauto|exact G].
Qed.
Lemma looked_read mui iw x c v : looked mui iw x c v -> read_of B past0 x c mui iw v.
Proof.
  intros (x1 & past & bmin & A & D & F & G). pose proof (store_exec_reach _ _ _ _ R D) as R1.
  destruct (store_read _ _ _ _ _ _ _ _ _ _ R1 G) as (o & l1 & l2 & O1 & O2 & O3 & O4). injection O1 as <-.
  destruct (store_grows _ _ _ _ R1 F) as (l & h & Q & _). exists bmin, l1, (l2 ++ l). split; [exact A|].
  split; [rewrite Q, O2; now rewrite <- app_assoc|]. split; [|exact O4].
  destruct (store_past_kept _ _ _ _ _ _ R D N0) as (s1 & N1 & I1). rewrite G in N1. injection N1 as <-. cbn [st_past] in I1.
  intros r I. exact (O3 r (I1 _ I)).
Qed.
(* the thread knows of what it has read *)
Lemma looked_known mui iw x c v : looked mui iw x c (Some v) -> known_by x i c.
Proof.
  intros (x1 & past & bmin & A & D & F & G). pose proof (store_exec_reach _ _ _ _ R D) as R1.
  destruct (store_message _ _ _ _ _ _ _ _ _ _ _ _ _ R1 (se_here _ _ _) G G) as (o & l1 & l2 & O1 & _ & O3 & _ & O5).
  injection O1 as <-. destruct O3 as (NE & _ & O3). destruct v as [|r0 rs]; [now elim NE|].
  pose proof (proj1 (O3 r0) (or_introl eq_refl)) as K. unfold seen_with in K. destruct (named mui (r_mui r0)); [|discriminate K].
  destruct (rec_after c (r_mui r0) l1) as [r1|] eqn:RA; [|discriminate K].
  destruct (rec_after_up _ _ _ _ RA) as (k & r & Kr). pose proof (O5 _ _ Kr) as P.
  destruct (store_past_kept _ _ _ _ _ _ R1 F G) as (s' & N' & I'). exists s', r. split; [exact N'|]. exact (I' _ P).
Qed.

Definition lookI (mui : option N) (iw : bool) (x : sconf) (c : pid) (l : wpc) : Prop :=
  match l with
  | WAsk => True
  | WGot r => exists v, r = ROk v /\ looked mui iw x c v
  | _ => False
  end.
Lemma lookI_on mui iw x y c l : store_exec f ov x y -> lookI mui iw x c l -> lookI mui iw y c l.
Proof.
  intros E. destruct l; cbn [lookI]; try easy. intros (v & A & D). exists v. split; [exact A|]. eapply looked_on; eauto.
Qed.

(* ---------- an iterator over the tree ---------- *)

Definition wrun (z : wtconf) (n : nat) (y : wtconf) (sc : scan) : Prop :=
  match sc with
  | SMore p m => wscans f ov p i z n y m
  | SLess once p b => wlooks f ov once p i z n y b
  end.
Definition wsub (x : sconf) (n : nat) (sc : scan) : Prop :=
  exists xa, store_exec f ov x0 xa /\ store_exec f ov xa x /\ wrun (sc_tree xa) n (sc_tree x) sc /\
    (cut_off sc -> exists q, In q (wc_called (sc_tree x)) /\ forall r, ~ In (q, r) past0).
Lemma wsub_on x y n sc : store_exec f ov x y -> wsub x n sc -> wsub y n sc.
Proof.
  intros E (xa & A & D & G & H). exists xa. split; [exact A|]. split; [eapply store_exec_trans; eauto|]. split.
  - destruct sc; cbn [wrun] in *; (eapply beside_on; [exact G|now apply exec_tree]).
  - intros C. destruct (H C) as (q & I & J). exists q. split; [|exact J]. exact (called_exec _ _ _ _ _ (exec_tree _ _ _ _ E) I).
Qed.
Lemma wsub_start x sc : store_exec f ov x0 x ->
  match sc with SMore p m => m = mscan0 | SLess once p b => b = bscan0 once p end -> wsub x 0 sc.
Proof.
  intros E S. exists x. split; [exact E|]. split; [apply se_here|]. split.
  - destruct sc; subst; apply wb_start.
  - destruct sc as [p m|once p b]; cbn [cut_off]; [|easy]. subst m. discriminate.
Qed.

Lemma thread_at x : store_exec f ov x0 x -> exists s t, nth_error (sc_sts x) i = Some s /\ incl past0 (st_past s) /\
  nth_error (wc_ths (sc_tree x)) i = Some t /\ (forall q r, In (q, r) past0 -> In q (wt_past t)) /\ wtreach f ov (sc_tree x) /\
  (st_pc s = SIdle -> wt_call t = WIdle).
Proof.
  intros E. pose proof (store_exec_reach _ _ _ _ R E) as Rx. pose proof (storeI_reach _ _ _ Rx) as I.
  destruct (store_past_kept _ _ _ _ _ _ R E N0) as (s & N & In0). cbn [st_past] in In0.
  destruct (parts_of _ _ _ _ _ I N) as (t & a & Nt & Na & P). exists s, t. split; [exact N|]. split; [exact In0|].
  split; [exact Nt|]. split; [|split; [exact (si_tree _ _ _ I)|]].
  - intros q r Q. exact (past_known _ _ _ _ _ _ _ _ Rx N Nt (In0 _ Q)).
  - intros Q. rewrite Q in P. apply P.
Qed.

Lemma wsub_own x n sc past t : wf_pid f (scan_pfx sc) -> wsub x n sc -> scan_stage sc = Going ->
  nth_error (sc_sts x) i = Some (SThread SIdle past) -> nth_error (wc_ths (sc_tree x)) i = Some t ->
  wsub x (S n) (scan_next f (wt_view t) sc).
Proof.
  intros W (xa & A & D & G & H) Q N Nt. pose proof (stage_going _ Q) as O.
  destruct (thread_at x (store_exec_trans _ _ _ _ _ A D)) as (s & t' & Ns & _ & Nt' & K & _ & Id).
  rewrite N in Ns. injection Ns as <-. rewrite Nt in Nt'. injection Nt' as <-. specialize (Id eq_refl).
  destruct (thread_at xa A) as (_ & ta & _ & _ & Nta & _ & Ra & _).
  exists xa. split; [exact A|]. split; [exact D|]. split.
  - destruct sc as [p m|once p b]; cbn [wrun scan_next] in *; (eapply wb_own; eauto).
  - destruct sc as [p m|once p b]; cbn [scan_next cut_off]; [|easy]. intros Cu.
    destruct (wscan_cut f ov p i (sc_tree xa) ta n (sc_tree x) m t Ra Nta W G O Nt Cu) as (q & I & J).
    exists q. split; [exact I|]. intros r P. exact (J (K _ _ P)).
Qed.

Lemma wsub_sound x n sc : wf_pid f (scan_pfx sc) -> wsub x n sc ->
  scan_stage sc <> Broken /\ NoDup (rev (scan_out sc)) /\
  forall q, In q (scan_out sc) -> In q (wc_called (sc_tree x)) /\ 0 < p_len q /\
    match sc with
    | SMore p _ => covers f p q
    | SLess once p _ => covers f q p /\ (once = false -> p_len q < p_len p)
    end.
Proof.
  intros W (xa & A & D & G & _). destruct (thread_at xa A) as (_ & ta & _ & _ & Nta & _ & Ra & _).
  destruct sc as [p m|once p b]; cbn [wrun scan_pfx scan_out scan_stage] in *.
  - destruct (wscan_sound _ _ _ _ _ _ _ _ _ Ra Nta W G) as (S1 & S2 & S3). split.
    { destruct (sc_pc m); try discriminate. now elim S1. }
    split; [exact S2|]. intros q I. apply S3. unfold given. now apply -> in_rev.
  - destruct once.
    + destruct (wlongest _ _ _ _ _ _ _ _ _ Ra Nta W G) as (S1 & S2 & S3 & _). split.
      { destruct (bs_pc b); try discriminate. now elim S1. }
      split.
      { unfold matches in S2. destruct (rev (bs_out b)) as [|c [|c' l]]; [apply NoDup_nil| |cbn in S2; lia].
        apply NoDup_cons; [easy|apply NoDup_nil]. }
      intros q I. destruct (S3 q) as (H1 & H2 & H3); [unfold matches; now apply -> in_rev|]. now auto.
    + destruct (wless_sound _ _ _ _ _ _ _ _ _ Ra Nta W G) as (S1 & S2). split.
      { destruct (bs_pc b); try discriminate. now elim S1. }
      destruct (wless_complete _ _ _ _ _ _ _ _ _ Ra Nta W G) as (S3 & _). split.
      { clear - S3. unfold matches in S3. induction (rev (bs_out b)) as [|c l IH]; [apply NoDup_nil|]. destruct S3 as [S3 S4].
        apply NoDup_cons; [|auto]. intros I. specialize (S3 _ I). lia. }
      intros q I. destruct (S2 q) as (H1 & H2 & H3 & H4); [unfold matches; now apply -> in_rev|]. auto.
Qed.

Lemma wsub_longest x n p b q r : wf_pid f p -> wsub x n (SLess true p b) -> scan_stage (SLess true p b) = Ended ->
  In (q, r) past0 -> 0 < p_len q -> covers f q p -> exists m, bs_out b = [m] /\ p_len q <= p_len m.
Proof.
  intros W (xa & A & D & G & _) E I L C. destruct (thread_at xa A) as (_ & ta & _ & _ & Nta & K & Ra & _). cbn [wrun] in G.
  destruct (wlongest _ _ _ _ _ _ _ _ _ Ra Nta W G) as (_ & _ & _ & H).
  assert (O : look_over b = true). { cbn in E. unfold look_over. now destruct (bs_pc b). }
  destruct (H O q (K _ _ I) L C) as (m & Em & Lm). exists m. split; [|exact Lm].
  rewrite <- (rev_involutive (bs_out b)). unfold matches in Em. now rewrite Em.
Qed.
Lemma wsub_less x n p b q r : wf_pid f p -> wsub x n (SLess false p b) -> scan_stage (SLess false p b) = Ended ->
  In (q, r) past0 -> 0 < p_len q -> p_len q < p_len p -> covers f q p -> In q (rev (bs_out b)).
Proof.
  intros W (xa & A & D & G & _) E I L L' C. destruct (thread_at xa A) as (_ & ta & _ & _ & Nta & K & Ra & _). cbn [wrun] in G.
  destruct (wless_complete _ _ _ _ _ _ _ _ _ Ra Nta W G) as (_ & H).
  assert (O : look_over b = true). { cbn in E. unfold look_over. now destruct (bs_pc b). }
  exact (H O q (K _ _ I) L L' C).
Qed.
(* not cut short, if the thread knew all there is *)
Lemma wsub_more x n p m q r : wf_pid f p -> wsub x n (SMore p m) -> scan_stage (SMore p m) = Ended ->
  (forall c, In c (wc_called (sc_tree x)) -> exists r, In (c, r) past0) -> p_len p < BITS f ->
  In (q, r) past0 -> 0 < p_len q -> covers f p q -> In q (rev (sc_out m)).
Proof.
  intros W (xa & A & D & G & H) E All Lp I L C. destruct (thread_at xa A) as (_ & ta & _ & _ & Nta & K & Ra & _). cbn [wrun] in G.
  assert (O : sc_pc m = MDone true).
  { cbn in E. cbn [cut_off] in H. destruct (sc_pc m) as [| | | | | | | |[]|]; try discriminate E; [reflexivity|].
    destruct (H eq_refl) as (c & I1 & I2). destruct (All c I1) as (r' & I3). now elim (I2 r'). }
  exact (wscan_complete _ _ _ _ _ _ _ _ _ Ra Nta W G O q (K _ _ I) L C Lp).
Qed.

(* ---------- match_prefix ---------- *)

Section Match.
Variables (p : pid) (o : matchopts).
Hypotheses (Wp : wf_pid f p).
Let mui := mo_mui o.
Let iw := mo_withdrawn o.

Definition wended (x : sconf) (n : nat) (sc : scan) : Prop := wsub x n sc /\ scan_stage sc = Ended.
Lemma wended_on x y n sc : store_exec f ov x y -> wended x n sc -> wended y n sc.
Proof. intros E [A D]. split; [eapply wsub_on; eauto|exact D]. Qed.

Definition wlong_ok (x : sconf) (lm : option pid) : Prop :=
  exists n b, wended x n (SLess true p b) /\ lm = hd_error (bs_out b).
Definition wless_ok (x : sconf) (ls : option (list pid)) : Prop :=
  if mo_less o then exists n b, wended x n (SLess false p b) /\ ls = Some (rev (bs_out b)) else ls = None.
Definition wmore_ok (x : sconf) (ms : option (list pid)) : Prop :=
  if mo_more o then exists n m, wended x n (SMore p m) /\
    ms = Some (filter (fun q => negb (pid_eqb q p)) (rev (sc_out m)))
  else ms = None.
Definition wtree_ok (x : sconf) (t : treeresult) : Prop :=
  exists lm ls ms, wlong_ok x lm /\ wless_ok x ls /\ wmore_ok x ms /\ t = tree_result p o lm ls ms.
Definition wmain_ok (x : sconf) (t : treeresult) (main : option (list record)) : Prop :=
  match tr_prefix t with
  | None => main = None
  | Some c => exists v, looked mui iw x c v /\
      main = match v with Some (a :: l) => Some (a :: l) | _ => None end
  end.
Definition wfill_ok (x : sconf) (l : option (list pid)) (g : option (list prefixrecord)) : Prop :=
  match l, g with
  | Some l, Some g => gathered f (looked mui iw x) l g
  | None, None => True
  | _, _ => False
  end.

Definition watI (x : sconf) (q : atpc) : Prop :=
  match q with
  | AtLong sc => exists n b, sc = SLess true p b /\ wsub x n sc
  | AtLess lm sc => mo_less o = true /\ wlong_ok x lm /\ exists n b, sc = SLess false p b /\ wsub x n sc
  | AtMore lm ls sc => mo_more o = true /\ wlong_ok x lm /\ wless_ok x ls /\
      exists n m, sc = SMore p m /\ wsub x n sc
  | AtMain t l => wtree_ok x t /\ exists c, tr_prefix t = Some c /\ lookI mui iw x c l
  | AtFill more t main ms todo got l => wtree_ok x t /\ wmain_ok x t main /\
      (exists dn, (if more then tr_more t else tr_less t) = Some (dn ++ todo) /\ gathered f (looked mui iw x) dn got) /\
      (if more then ms = None else wfill_ok x (tr_more t) ms) /\
      match todo with [] => True | c :: _ => lookI mui iw x c l end
  | AtEnd r => exists t main ms ls, wtree_ok x t /\ wmain_ok x t main /\ wfill_ok x (tr_more t) ms /\
      wfill_ok x (tr_less t) ls /\ AtEnd r = at_end f t main ms ls
  | AtPanic => False
  end.

Lemma wlong_on x y lm : store_exec f ov x y -> wlong_ok x lm -> wlong_ok y lm.
Proof. intros E (n & b & A & D). exists n, b. split; [eapply wended_on; eauto|exact D]. Qed.
Lemma wless_on x y ls : store_exec f ov x y -> wless_ok x ls -> wless_ok y ls.
Proof.
  unfold wless_ok. destruct (mo_less o); [|easy]. intros E (n & b & A & D). exists n, b.
  split; [eapply wended_on; eauto|exact D].
Qed.
Lemma wmore_on x y ls : store_exec f ov x y -> wmore_ok x ls -> wmore_ok y ls.
Proof.
  unfold wmore_ok. destruct (mo_more o); [|easy]. intros E (n & b & A & D). exists n, b.
  split; [eapply wended_on; eauto|exact D].
Qed.
Lemma wtree_on x y t : store_exec f ov x y -> wtree_ok x t -> wtree_ok y t.
Proof.
  intros E (lm & ls & ms & A & A' & C & D). exists lm, ls, ms. split; [eapply wlong_on; eauto|].
  split; [eapply wless_on; eauto|]. split; [eapply wmore_on; eauto|exact D].
Qed.
Lemma wmain_on x y t m : store_exec f ov x y -> wmain_ok x t m -> wmain_ok y t m.
Proof.
  unfold wmain_ok. destruct (tr_prefix t); [|easy]. intros E (v & A & D). exists v. split; [eapply looked_on; eauto|exact D].
Qed.
Lemma ga_on x y l g : store_exec f ov x y -> gathered f (looked mui iw x) l g -> gathered f (looked mui iw y) l g.
Proof. intros E. apply gathered_on. intros c v. now apply looked_on. Qed.
Lemma wfill_on x y l g : store_exec f ov x y -> wfill_ok x l g -> wfill_ok y l g.
Proof. unfold wfill_ok. destruct l, g; auto. apply ga_on. Qed.

Lemma watI_on x y q : store_exec f ov x y -> watI x q -> watI y q.
Proof.
  intros E. destruct q as [sc|lm sc|lm ls sc|t l|more t main ms todo got l|r|]; cbn [watI]; [ | | | | | |easy].
  - intros (n & b & A & D). exists n, b. split; [exact A|]. eapply wsub_on; eauto.
  - intros (M & A & n & b & D & C). split; [exact M|]. split; [eapply wlong_on; eauto|]. exists n, b. split; [exact D|].
    eapply wsub_on; eauto.
  - intros (M & A & D & n & b & D' & C). split; [exact M|]. split; [eapply wlong_on; eauto|].
    split; [eapply wless_on; eauto|]. exists n, b. split; [exact D'|]. eapply wsub_on; eauto.
  - intros (A & c & D & C). split; [eapply wtree_on; eauto|]. exists c. split; [exact D|]. eapply lookI_on; eauto.
  - intros (A & A' & (dn & C & D) & F & G). split; [eapply wtree_on; eauto|]. split; [eapply wmain_on; eauto|].
    split. { exists dn. split; [exact C|]. eapply ga_on; eauto. }
    split. { destruct more; [exact F|]. eapply wfill_on; eauto. }
    destruct todo; [easy|]. eapply lookI_on; eauto.
  - intros (t & main & ms & ls & A & A' & C & D & F). exists t, main, ms, ls. split; [eapply wtree_on; eauto|].
    split; [eapply wmain_on; eauto|]. split; [eapply wfill_on; eauto|]. split; [eapply wfill_on; eauto|exact F].
Qed.

(* what the prefixes are *)
Lemma wtree_prefix x t c : wtree_ok x t -> tr_prefix t = Some c ->
  exists n b, wended x n (SLess true p b) /\ hd_error (bs_out b) = Some c /\
    tr_type t = match mo_type o with ExactMatch => ExactMatch | _ => LongestMatch end /\
    (mo_type o = ExactMatch -> c = p).
Proof.
  intros (lm & ls & ms & (n & b & A & ->) & _ & _ & ->) E. exists n, b. split; [exact A|].
  unfold tree_result in *. destruct (mo_type o); cbn [tr_prefix tr_type] in *.
  - destruct (hd_error (bs_out b)) as [q|] eqn:H; [|discriminate E]. destruct (pid_eqb q p) eqn:Q; [|discriminate E].
    cbn [tr_prefix tr_type] in *. apply pid_eqb_spec in Q. injection E as ->. easy.
  - easy.
  - easy.
Qed.
Lemma tree_result_sets lm ls ms : tr_less (tree_result p o lm ls ms) = ls /\ tr_more (tree_result p o lm ls ms) = ms.
Proof.
  unfold tree_result. destruct (mo_type o); try (split; reflexivity). destruct lm as [q|]; [|split; reflexivity].
  now destruct (pid_eqb q p).
Qed.
Lemma wtree_less x t : wtree_ok x t -> match tr_less t with
  | Some l => mo_less o = true /\ exists n b, wended x n (SLess false p b) /\ l = rev (bs_out b)
  | None => mo_less o = false end.
Proof.
  intros (lm & ls & ms & _ & A & _ & ->). rewrite (proj1 (tree_result_sets lm ls ms)). unfold wless_ok in A.
  destruct (mo_less o); [|now rewrite A]. destruct A as (n & b & A & ->). split; [easy|]. now exists n, b.
Qed.
Lemma wtree_more x t : wtree_ok x t -> match tr_more t with
  | Some l => mo_more o = true /\ exists n m, wended x n (SMore p m) /\ l = filter (fun q => negb (pid_eqb q p)) (rev (sc_out m))
  | None => mo_more o = false end.
Proof.
  intros (lm & ls & ms & _ & _ & A & ->). rewrite (proj2 (tree_result_sets lm ls ms)). unfold wmore_ok in A.
  destruct (mo_more o); [|now rewrite A]. destruct A as (n & b & A & ->). split; [easy|]. now exists n, b.
Qed.

(* the steps from one part to the next *)
Lemma watI_end x t main ms ls : wtree_ok x t -> wmain_ok x t main -> wfill_ok x (tr_more t) ms -> wfill_ok x (tr_less t) ls ->
  watI x (at_end f t main ms ls).
Proof. intros A A' C D. unfold at_end. cbn [watI]. exists t, main, ms, ls. auto. Qed.
Lemma watI_fill_less x t main ms : wtree_ok x t -> wmain_ok x t main -> wfill_ok x (tr_more t) ms ->
  watI x (at_fill_less f t main ms).
Proof.
  intros A A' C. unfold at_fill_less. destruct (tr_less t) as [l|] eqn:E.
  - cbn [watI]. split; [exact A|]. split; [exact A'|]. split. { exists []. split; [exact E|apply ga_nil]. }
    split; [exact C|]. destruct l; [easy|exact I].
  - apply watI_end; auto. rewrite E. exact I.
Qed.
Lemma watI_fill_more x t main : wtree_ok x t -> wmain_ok x t main -> watI x (at_fill_more f t main).
Proof.
  intros A A'. unfold at_fill_more. destruct (tr_more t) as [l|] eqn:E.
  - cbn [watI]. split; [exact A|]. split; [exact A'|]. split. { exists []. split; [exact E|apply ga_nil]. }
    split; [reflexivity|]. destruct l; [easy|exact I].
  - apply watI_fill_less; auto. rewrite E. exact I.
Qed.
Lemma watI_main x t : wtree_ok x t -> watI x (at_main f t).
Proof.
  intros A. unfold at_main. destruct (tr_prefix t) as [c|] eqn:E.
  - cbn [watI]. split; [exact A|]. exists c. split; [exact E|exact I].
  - apply watI_fill_more; [exact A|]. unfold wmain_ok. now rewrite E.
Qed.
Lemma watI_more x lm ls : store_exec f ov x0 x -> wlong_ok x lm -> wless_ok x ls -> watI x (at_more f p o lm ls).
Proof.
  intros E A A'. unfold at_more. destruct (mo_more o) eqn:M.
  - cbn [watI]. split; [exact M|]. split; [exact A|]. split; [exact A'|]. exists 0%nat, mscan0. split; [reflexivity|].
    now apply wsub_start.
  - apply watI_main. exists lm, ls, None. split; [exact A|]. split; [exact A'|]. split; [|reflexivity].
    unfold wmore_ok. now rewrite M.
Qed.
Lemma watI_less x lm : store_exec f ov x0 x -> wlong_ok x lm -> watI x (at_less f p o lm).
Proof.
  intros E A. unfold at_less. destruct (mo_less o) eqn:M.
  - cbn [watI]. split; [exact M|]. split; [exact A|]. exists 0%nat, (bscan0 false p). split; [reflexivity|].
    now apply wsub_start.
  - apply watI_more; [exact E|exact A|]. unfold wless_ok. now rewrite M.
Qed.

Lemma watI_own x q past t bmin : store_exec f ov x0 x -> match_over q = false -> match_waits q = None ->
  nth_error (sc_sts x) i = Some (SThread SIdle past) -> nth_error (wc_ths (sc_tree x)) i = Some t ->
  watI x q -> watI x (match_next f p o (seeing (wt_view t) bmin) q).
Proof.
  intros E Ov Wt N Nt. destruct q as [sc|lm sc|lm ls sc|tr l|more tr main ms todo got l|r|]; cbn [match_over] in Ov; try discriminate Ov.
  - cbn [watI]. intros (n & b & -> & S). cbn [match_next]. rewrite seeing_tree.
    destruct (scan_stage (SLess true p b)) eqn:G.
    + cbn [watI]. pose proof (wsub_own x n (SLess true p b) past t Wp S G N Nt) as S'. exists (Datatypes.S n). eexists. split; [|exact S'].
      reflexivity.
    + apply watI_less; [exact E|]. exists n, b. split; [|reflexivity]. split; [exact S|exact G].
    + exact (proj1 (wsub_sound x n (SLess true p b) Wp S) G).
  - cbn [watI]. intros (M & L & n & b & -> & S). cbn [match_next]. rewrite seeing_tree.
    destruct (scan_stage (SLess false p b)) eqn:G.
    + cbn [watI]. pose proof (wsub_own x n (SLess false p b) past t Wp S G N Nt) as S'. split; [exact M|]. split; [exact L|].
      exists (Datatypes.S n). eexists. split; [|exact S']. reflexivity.
    + apply watI_more; [exact E|exact L|]. unfold wless_ok. rewrite M. exists n, b. split; [|reflexivity].
      split; [exact S|exact G].
    + exact (proj1 (wsub_sound x n (SLess false p b) Wp S) G).
  - cbn [watI]. intros (M & L & K & n & m & -> & S). cbn [match_next]. rewrite seeing_tree.
    destruct (scan_stage (SMore p m)) eqn:G.
    + cbn [watI]. pose proof (wsub_own x n (SMore p m) past t Wp S G N Nt) as S'. split; [exact M|]. split; [exact L|].
      split; [exact K|]. exists (Datatypes.S n). eexists. split; [|exact S']. reflexivity.
    + apply watI_main. exists lm, ls. eexists. split; [exact L|]. split; [exact K|]. split; [|reflexivity].
      unfold wmore_ok. rewrite M. exists n, m. split; [|reflexivity]. split; [exact S|exact G].
    + exact (proj1 (wsub_sound x n (SMore p m) Wp S) G).
  - cbn [watI]. intros (T & c & C & L). cbn [match_next]. rewrite C. cbn [match_waits] in Wt.
    destruct l as [l| |bm pc|r| |g|g g0]; try contradiction L; [rewrite C in Wt; discriminate Wt|].
    destruct L as (v & -> & L). apply watI_fill_more; [exact T|]. unfold wmain_ok. rewrite C. exists v. split; [exact L|].
    destruct v as [[|a v]|]; reflexivity.
  - cbn [watI]. intros (T & Ma & (dn & D & Fi) & Ms & L). cbn [match_waits] in Wt.
    destruct todo as [|c todo]; cbn [match_next].
    + rewrite app_nil_r in D. destruct more.
      * apply watI_fill_less; [exact T|exact Ma|]. rewrite D. exact Fi.
      * apply watI_end; [exact T|exact Ma|exact Ms|]. rewrite D. exact Fi.
    + destruct l as [l| |bm pc|r| |g|g g0]; try contradiction L; [discriminate Wt|].
      destruct L as (v & -> & L). destruct v as [v|]; cbn [watI]; (split; [exact T|]); (split; [exact Ma|]);
        (split; [exists (dn ++ [c]); rewrite <- app_assoc; split; [exact D|]|
                 split; [exact Ms|destruct todo; exact I]]).
      * now apply ga_some.
      * now apply ga_none.
Qed.

Lemma watI_gets x q past c bmin v : store_exec f ov x0 x -> match_waits q = Some c -> B bmin ->
  nth_error (sc_sts x) i = Some (SThread (SRet c (ARead mui iw bmin) (RRead v)) past) ->
  watI x q -> watI x (match_got v q).
Proof.
  intros E Wt Bm N. assert (L : looked mui iw x c v).
  { exists x, past, bmin. split; [exact Bm|]. split; [exact E|]. split; [apply se_here|exact N]. }
  destruct q as [sc|lm sc|lm ls sc|tr l|more tr main ms todo got l|r|]; cbn [match_waits] in Wt; try discriminate Wt.
  - destruct l; try discriminate Wt. cbn [watI match_got]. intros (T & c' & C & _). rewrite C in Wt. injection Wt as ->.
    split; [exact T|]. exists c. split; [exact C|]. cbn [lookI]. eauto.
  - destruct todo as [|c' todo]; [discriminate Wt|]. destruct l; try discriminate Wt. injection Wt as ->.
    cbn [watI match_got]. intros (T & Ma & D & Ms & _). split; [exact T|]. split; [exact Ma|]. split; [exact D|].
    split; [exact Ms|]. cbn [lookI]. eauto.
Qed.

Lemma wmatch_inv n x q : smatching f ov B p o i x0 n x q -> watI x q.
Proof.
  intros A. induction A as [past N|n t0 x y q A IH T S|n x q past t bmin A IH Ov Wt N Nt Bm|n x q past c bmin v A IH Wt N Bm].
  - unfold match_start. cbn [watI]. exists 0%nat, (bscan0 true p). split; [reflexivity|].
    apply (wsub_start x0 (less_from true p)); [apply se_here|reflexivity].
  - apply (watI_on x); [|exact IH]. eapply se_step; [apply se_here|exact T|exact S].
  - eapply watI_own; eauto. exact (asking_exec _ _ _ _ _ _ _ _ _ _ _ _ _ _ _ A).
  - eapply watI_gets; eauto. exact (asking_exec _ _ _ _ _ _ _ _ _ _ _ _ _ _ _ A).
Qed.
End Match.

(* ---------- the iterators ---------- *)

Section Each.
Variable k : each.
Hypothesis Wk : wf_each f k.

Inductive witemised (x : sconf) : list pid -> list (result prefixrecord) -> Prop :=
| wim_nil : witemised x [] []
| wim_one l g c v : witemised x l g -> looked (each_mui k) (each_iw k) x c v ->
    witemised x (l ++ [c]) (g ++ each_item f k c (ROk v)).
Lemma witemised_on x y l g : store_exec f ov x y -> witemised x l g -> witemised y l g.
Proof.
  intros E F. induction F as [|l g c v F IH L]; [apply wim_nil|apply wim_one; [exact IH|]]. eapply looked_on; eauto.
Qed.

Definition witI (x : sconf) (q : itpc) : Prop :=
  match q with
  | ItCheck m _ => each_asks k = Some m
  | ItScan sc cur got => exists n dn, wsub x n sc /\ same_scan k sc /\
      rev (scan_out sc) = dn ++ match cur with Some (c, _) => [c] | None => [] end /\ witemised x dn got /\
      match cur with Some (c, l) => lookI (each_mui k) (each_iw k) x c l | None => True end
  | ItEnd got =>
      (got = [] /\ exists m bmin, each_asks k = Some m /\ B bmin /\ In m bmin) \/
      (exists n sc, wended x n sc /\ same_scan k sc /\ witemised x (rev (scan_out sc)) got)
  | ItPanic => False
  end.

Lemma witI_on x y q : store_exec f ov x y -> witI x q -> witI y q.
Proof.
  intros E. destruct q as [m n|sc cur got|got|]; cbn [witI]; [easy| | |easy].
  - intros (n & dn & A & A' & C & D & F). exists n, dn. split; [eapply wsub_on; eauto|]. split; [exact A'|].
    split; [exact C|]. split; [eapply witemised_on; eauto|]. destruct cur as [[c l]|]; [|easy]. eapply lookI_on; eauto.
  - intros [A|(n & sc & A & A' & C)]; [now left|].
    right. exists n, sc. split; [eapply wended_on; eauto|]. split; [exact A'|]. eapply witemised_on; eauto.
Qed.

Lemma witI_scan x : store_exec f ov x0 x -> witI x (ItScan (each_scan k) None []).
Proof.
  intros E. cbn [witI]. exists 0%nat, []. split.
  { apply wsub_start; [exact E|]. destruct k; reflexivity. }
  split; [destruct k; reflexivity|]. split; [|split; [apply wim_nil|exact I]].
  destruct k as [p m iw|p m iw| |m iw]; try reflexivity. cbn [each_scan less_from scan_out].
  unfold bscan0. now rewrite bat_out.
Qed.

Lemma witI_own x q past t bmin : store_exec f ov x0 x -> each_over q = false -> each_waits q = None -> B bmin ->
  nth_error (sc_sts x) i = Some (SThread SIdle past) -> nth_error (wc_ths (sc_tree x)) i = Some t ->
  witI x q -> witI x (each_next f k (seeing (wt_view t) bmin) q).
Proof.
  intros E Ov Wt Bm N Nt. destruct q as [m n|sc cur got|got|]; cbn [each_over] in Ov; try discriminate Ov.
  - cbn [witI each_next]. intros A. destruct (rib_mui_is_withdrawn (rib_now (seeing (wt_view t) bmin) f) m) eqn:M.
    + left. split; [reflexivity|]. exists m, bmin. split; [exact A|]. split; [exact Bm|]. eapply marked_in; eauto.
    + destruct n; [now apply witI_scan|exact A].
  - cbn [witI]. intros (n & dn & A & A' & C & D & F). pose proof (same_pfx f k Wk sc A') as Wp.
    destruct (wsub_sound x n sc Wp A) as [NB So]. cbn [each_next]. destruct cur as [[c l]|].
    + cbn [each_waits] in Wt. destruct l as [l| |bm pc|r| |g|g g0]; try contradiction F; [discriminate Wt|].
      destruct F as (v & -> & F). cbn [witI]. exists n, (dn ++ [c]). split; [exact A|]. split; [exact A'|].
      split; [now rewrite app_nil_r|]. split; [now apply wim_one|exact I].
    + rewrite seeing_tree. destruct (scan_stage sc) eqn:G; [| |now elim NB].
      * pose proof (wsub_own x n sc past t Wp A G N Nt) as S'. cbn [witI]. exists (Datatypes.S n), dn. split; [exact S'|].
        split; [now apply same_next|]. rewrite app_nil_r in C.
        destruct (scan_next_out f (wt_view t) sc) as [Q|(c & Q)]; rewrite Q.
        -- assert (Z : match scan_out sc with
             | [] => None
             | c :: l => if Nat.eqb (length l) (length (scan_out sc)) then Some (c, WAsk) else None end = None).
           { destruct (scan_out sc) as [|c l]; [reflexivity|]. cbn [length].
             destruct (Nat.eqb_spec (length l) (Datatypes.S (length l))) as [X|X]; [lia|reflexivity]. }
           rewrite Z, app_nil_r. auto.
        -- rewrite Nat.eqb_refl. split; [cbn [rev]; now rewrite C|]. split; [exact D|exact I].
      * cbn [witI]. right. exists n, sc. split; [split; [exact A|exact G]|]. split; [exact A'|]. rewrite app_nil_r in C.
        now rewrite C.
Qed.

Lemma witI_gets x q past c bmin v : store_exec f ov x0 x -> each_waits q = Some c -> B bmin ->
  nth_error (sc_sts x) i = Some (SThread (SRet c (ARead (each_mui k) (each_iw k) bmin) (RRead v)) past) ->
  witI x q -> witI x (each_got v q).
Proof.
  intros E Wt Bm N. assert (L : looked (each_mui k) (each_iw k) x c v).
  { exists x, past, bmin. split; [exact Bm|]. split; [exact E|]. split; [apply se_here|exact N]. }
  destruct q as [m n|sc cur got|got|]; cbn [each_waits] in Wt; try discriminate Wt.
  destruct cur as [[c' l]|]; [|discriminate Wt]. destruct l; try discriminate Wt. injection Wt as ->.
  cbn [witI each_got]. intros (n & dn & A & A' & C & D & _). exists n, dn. split; [exact A|]. split; [exact A'|].
  split; [exact C|]. split; [exact D|]. cbn [lookI]. eauto.
Qed.

Lemma weach_inv n x q : siterating f ov B k i x0 n x q -> witI x q.
Proof.
  intros A. induction A as [past N|n t0 x y q A IH T S|n x q past t bmin A IH Ov Wt N Nt Bm|n x q past c bmin v A IH Wt N Bm].
  - pose proof (witI_scan x0 (se_here _ _ _)) as G. unfold each_start, witI in *.
    destruct k as [p [m|] []|p m iw| |m []]; try exact G; reflexivity.
  - apply (witI_on x); [|exact IH]. eapply se_step; [apply se_here|exact T|exact S].
  - eapply witI_own; eauto. exact (asking_exec _ _ _ _ _ _ _ _ _ _ _ _ _ _ _ A).
  - eapply witI_gets; eauto. exact (asking_exec _ _ _ _ _ _ _ _ _ _ _ _ _ _ _ A).
Qed.
End Each.
End Parts.
