(* A reader of many steps that nobody interferes with: the steps of ConcScan.v one
   after the other are the functions of Iter.v. *)
From Coq Require Import Arith NArith List Bool Lia.
From Verif Require Import Word Af BitSpan Maps ChtMath Cht Node Tree Loop Iter ChainProofs TreeProofs
  IterProofs Conc ConcTree ConcTreeInv ConcStore ConcStoreInv ConcScan ConcSpec ConcFacts ConcScanSpec
  ConcScanProofs ConcScanFacts AloneSpec ConcAlone.
Import ListNotations.
Local Open Scope N_scope.

Lemma iter_r {A} (g : A -> A) n s : Nat.iter (S n) g s = Nat.iter n g (g s).
Proof. induction n as [|n IH]; [reflexivity|]. cbn [Nat.iter nat_rect] in *. now rewrite IH. Qed.

Section Still.
Variables (f : af) (p : pid) (t : tree).
Notation h := (t_heap t).

Definition gm (s : mscan) : option mscan := if scan_over s then None else Some (mnext f p t s).

Lemma gm_step s s' : scan_over s = false -> mstep f p h s = Ok s' -> gm s = Some s'.
Proof. intros O E. unfold gm, mnext. now rewrite O, E. Qed.

Lemma star_iter s s' : star gm s s' -> exists n, still (mnext f p) t n s = s'.
Proof.
  induction 1 as [s|s s1 s2 G S [n IH]]; [now exists O|]. exists (Datatypes.S n).
  unfold gm in G. destruct (scan_over s); [discriminate|]. injection G as <-.
  rewrite <- IH. apply iter_r.
Qed.

(* retrieve_node *)
Lemma get_alone id out (mk : gout -> mpc) (at_ : walk -> mpc) :
  (forall w, mk (GMore w) = at_ w) ->
  (forall w o, gstep f id h w = Ok o -> gm (MScan (at_ w) out) = Some (MScan (mk o) out)) ->
  forall n b path slots level o,
  retrieve_node_loop n f h id b path slots level = Ok o ->
  exists k, (forall v, o = Some v -> deref k h = Ok v) /\
    star gm (MScan (at_ (Walk b path slots level)) out)
      (MScan (mk match o with Some _ => GFound k | None => GNone end) out).
Proof.
  intros M St. induction n as [|n IH]; intros b path slots level o R; [discriminate|].
  cbn [retrieve_node_loop] in R. bd R. rename a into index, Heqr into Hi.
  assert (G : gstep f id h (Walk b path slots level) =
    match slot_get h b path slots index with
    | None => Ok GNone
    | Some e =>
      if pid_eqb id (e_id e) then Ok (GFound (wkey (Walk b path slots level) index))
      else
        do level' <- add8 level 1;
        do size <- nodeset_size (p_len id) level';
        if 0 <? size then Ok (GMore (Walk b (path ++ [index]) (e_slots e) level')) else Ok GNone
    end).
  { unfold gstep. cbn [w_level w_b w_path w_slots]. now rewrite Hi. }
  destruct (slot_get h b path slots index) as [e|] eqn:Sg.
  - destruct (pid_eqb id (e_id e)).
    + injection R as <-. exists (wkey (Walk b path slots level) index). split.
      * intros v V. injection V as <-. apply deref_lookup. unfold wkey. cbn [w_b w_path].
        eapply slot_get_lookup; eauto.
      * apply star_one. apply St. exact G.
    + bd R. rename a into level'. bd R. rename a into size. cbn [bind] in G. rewrite ?Heqr in G. cbn [bind] in G.
      rewrite ?Heqr0 in G. cbn [bind] in G. destruct (0 <? size).
      * destruct (IH _ _ _ _ _ R) as (k & A & S). exists k. split; [exact A|].
        eapply star_step; [apply St; exact G|]. rewrite M. exact S.
      * injection R as <-. exists (b, []). split; [discriminate|]. apply star_one. apply St. exact G.
  - injection R as <-. exists (b, []). split; [discriminate|]. apply star_one. apply St. exact G.
Qed.

Definition of_turn (out : list pid) (x : lp msiter (option (pid * msiter))) : mscan -> Prop :=
  match x with
  | Go it => eq (MScan (MIter it) out)
  | Stop (Some (q, it)) => eq (MScan (MIter it) (q :: out))
  | Stop None => fun s => exists w, s = MScan (MDone w) out
  end.

(* at least one step *)
Definition plus (s s' : mscan) : Prop := exists s1, gm s = Some s1 /\ star gm s1 s'.

Lemma turn_alone it out x : ms_turn f h it = Ok x ->
  exists s, of_turn out x s /\ plus (MScan (MIter it) out) s.
Proof.
  intros E. unfold ms_turn in E. bd E. rename a into np, Heqr into Hp.
  assert (T : forall s, (do e <- Ok tt; mturn f it out) = Ok s -> gm (MScan (MIter it) out) = Some s).
  { intros s X. apply gm_step; [reflexivity|]. exact X. }
  unfold mturn in T. rewrite ?Hp in T. cbn [bind] in T.
  destruct np as [[q pi]|].
  { injection E as <-. eexists. split; [reflexivity|]. eexists. split; [now apply T|apply star_refl]. }
  bd E. rename a into n1, Heqr into H1. rewrite ?H1 in T. cbn [bind] in T.
  assert (Go_on : forall id ci st, (do o <- retrieve_node f h id;
      match o with
      | None => Ok (Stop None)
      | Some v =>
        do ci' <- more_specific_ptr_iter v id (BS 0 0);
        do pi' <- more_specific_pfx_iter v id (BS 0 0);
        Ok (Go (MsIter ci' pi' (ci :: st)))
      end) = Ok x ->
    (forall s, (do w <- walk_start f NSTRIDE id; Ok (MScan (MGet id (ci :: st) w) out)) = Ok s ->
      gm (MScan (MIter it) out) = Some s) ->
    exists s, of_turn out x s /\ plus (MScan (MIter it) out) s).
  { intros id ci st X Y. clear E T H1 Hp. bd X. rename a into o. unfold retrieve_node in Heqr. bd Heqr. rename a into b.
    unfold walk_start in Y. rewrite Heqr0 in Y. cbn [bind] in Y.
    pose (mk := fun o => match o with
      | GMore w' => MGet id (ci :: st) w' | GFound k => MPtr id (ci :: st) k | GNone => MDone false end).
    assert (St : forall w o, gstep f id h w = Ok o ->
      gm (MScan (MGet id (ci :: st) w) out) = Some (MScan (mk o) out)).
    { intros w o0 G. apply gm_step; [reflexivity|]. unfold mstep. cbn [sc_pc sc_out]. now rewrite G. }
    destruct (get_alone id out mk _ (fun _ => eq_refl) St _ _ _ _ _ _ Heqr) as (k & D & S). unfold mk in S.
    destruct o as [v|].
    - bd X. bd X. injection X as <-. eexists. split; [reflexivity|].
      eexists. split; [apply Y; reflexivity|]. eapply star_trans; [exact S|].
      eapply star_step; [apply gm_step; [reflexivity|]; unfold mstep; cbn [sc_pc sc_out];
        rewrite (D v eq_refl); cbn [bind]; rewrite Heqr1; reflexivity|].
      apply star_one. apply gm_step; [reflexivity|]. unfold mstep. cbn [sc_pc sc_out].
      rewrite (D v eq_refl). cbn [bind]. rewrite Heqr2. reflexivity.
    - injection X as <-. eexists. split; [eexists; reflexivity|].
      eexists. split; [apply Y; reflexivity|exact S]. }
  destruct n1 as [[id ci]|]; cbn [bind] in *.
  - exact (Go_on id ci (ms_stack it) E T).
  - destruct (ms_stack it) as [|ci0 st] eqn:Sk; cbn [bind] in *.
    + injection E as <-. eexists. split; [eexists; reflexivity|]. eexists. split; [now apply T|apply star_refl].
    + bd E. bd Heqr. injection Heqr as <-. rename a0 into n, Heqr0 into Hn. rewrite ?Hn in T. cbn [bind] in T.
      destruct n as [[id ci]|].
      * exact (Go_on id ci st E T).
      * injection E as <-. eexists. split; [reflexivity|]. eexists. split; [now apply T|apply star_refl].
Qed.

Lemma next_alone out : forall n it x, nsteps (ms_turn f h) n it = Ok (Stop x) ->
  exists s, of_turn out (Stop x) s /\ star gm (MScan (MIter it) out) s.
Proof.
  induction n as [|n IH]; intros it x E; [discriminate|]. cbn [nsteps] in E. unfold and_then in E.
  bd E. destruct (turn_alone it out a Heqr) as (s & A & (s1 & G1 & S1)).
  pose proof (star_step _ _ _ _ G1 S1) as S. destruct a as [it'|r].
  - cbn [of_turn] in A. subst s. destruct (IH _ _ E) as (s & A' & S'). exists s. split; [exact A'|].
    eapply star_trans; eauto.
  - injection E as <-. eauto.
Qed.

Lemma loop_nsteps {S R} (g : S -> res (lp S R)) q s r : loop g q s = Ok r ->
  exists n, nsteps g n s = Ok (Stop r).
Proof.
  unfold loop. rewrite loop_pos_nsteps. generalize (Pos.to_nat q). intros n E. exists n.
  bd E. destruct a as [?|r']; [discriminate|]. injection E as <-. reflexivity.
Qed.

Lemma next_nsteps it r : ms_next f h it = Ok r -> exists n, nsteps (ms_turn f h) n it = Ok (Stop r).
Proof. exact (loop_nsteps (ms_turn f h) MS_FUEL it r). Qed.

Lemma collect_alone (nx : msiter -> res (option (pid * msiter))) :
  (forall it r, nx it = Ok r -> exists n, nsteps (ms_turn f h) n it = Ok (Stop r)) ->
  forall n it out l,
  nsteps (fun st : msiter * list pid =>
          do n <- nx (fst st);
          match n with
          | None => Ok (Stop (rev (snd st)))
          | Some (p, it') => Ok (Go (it', p :: snd st))
          end) n (it, out) = Ok (Stop l) ->
  exists w, star gm (MScan (MIter it) out) (MScan (MDone w) (rev l)).
Proof.
  intros Hx. induction n as [|n IH]; intros it out l E; [discriminate|]. cbn [nsteps] in E. unfold and_then in E.
  bd E. cbn [fst snd] in Heqr. bd Heqr. destruct (Hx _ _ Heqr0) as (m & Hm).
  destruct (next_alone out _ _ _ Hm) as (s & A & S).
  destruct a0 as [[q it']|]; injection Heqr as <-; cbn [of_turn] in A.
  - subst s. destruct (IH _ _ _ E) as (w & S'). exists w. eapply star_trans; eauto.
  - injection E as <-. destruct A as (w & ->). exists w. now rewrite rev_involutive.
Qed.

Lemma collect_loop (nx : msiter -> res (option (pid * msiter))) fuel it l :
  (forall it r, nx it = Ok r -> exists n, nsteps (ms_turn f h) n it = Ok (Stop r)) ->
  loop (fun st : msiter * list pid =>
          do n <- nx (fst st);
          match n with
          | None => Ok (Stop (rev (snd st)))
          | Some (p, it') => Ok (Go (it', p :: snd st))
          end) fuel (it, []) = Ok l ->
  exists w, star gm (MScan (MIter it) []) (MScan (MDone w) (rev l)).
Proof.
  intros Hx E. destruct (loop_nsteps _ _ _ _ E) as (n & X). exact (collect_alone nx Hx n it [] l X).
Qed.

Lemma collected it l : ms_collect f h it = Ok l ->
  exists w, star gm (MScan (MIter it) []) (MScan (MDone w) (rev l)).
Proof. exact (collect_loop (ms_next f h) MS_FUEL it l next_nsteps). Qed.

(* ---------- on a tree that inserts are at work on ---------- *)

Section Total.
Variables (C D : pid -> Prop).
Hypothesis Wp : wf_pid f p.
Hypothesis G : hG f C h.
Hypothesis CW : forall q, C q -> wf_pid f q.

Lemma gm_mI s s' : gm s = Some s' -> mI f p C D h s -> mI f p C D h s' /\ mmu f s' < mmu f s.
Proof.
  intros E M. destruct (mstep_ok f p Wp C D h s (hG_hV f C h G) CW M) as (s1 & E1 & M1 & L).
  unfold gm in E. destruct (scan_over s) eqn:O; [discriminate|]. injection E as <-.
  unfold mnext. rewrite E1. split; [exact M1|]. apply L. exact O.
Qed.
Lemma star_mI s s' : star gm s s' -> mI f p C D h s -> mI f p C D h s' /\ mmu f s' <= mmu f s.
Proof.
  induction 1 as [s|s s1 s2 E S IH]; intros M; [split; [exact M|lia]|].
  destruct (gm_mI _ _ E M) as [M1 L1]. destruct (IH M1) as [M2 L2]. split; [exact M2|lia].
Qed.

Lemma mmu_iter it out : mmu f (MScan (MIter it) out) = 100 * mu f it.
Proof. reflexivity. Qed.

Lemma turn_total it out : mI f p C D h (MScan (MIter it) out) ->
  exists x, ms_turn f h it = Ok x /\
    match x with
    | Go it' => mI f p C D h (MScan (MIter it') out) /\ mu f it' < mu f it
    | Stop (Some (q, it')) => mI f p C D h (MScan (MIter it') (q :: out)) /\ mu f it' < mu f it
    | Stop None => True
    end.
Proof.
  intros M.
  assert (X : exists x, ms_turn f h it = Ok x).
  { destruct (mturn_ok f p C D h it out (hG_hV f C h G) CW M) as (s' & E & I & _). unfold mturn in E. unfold ms_turn.
    assert (Enter : forall id ci st w, mI f p C D h (MScan (MGet id (ci :: st) w) out) ->
      exists x : lp msiter (option (pid * msiter)), (do o <- retrieve_node f h id;
        match o with
        | None => Ok (Stop None)
        | Some v =>
          do ci' <- more_specific_ptr_iter v id (BS 0 0);
          do pi' <- more_specific_pfx_iter v id (BS 0 0);
          Ok (Go (MsIter ci' pi' (ci :: st)))
        end) = Ok x).
    { intros id ci st w (_ & NO & _). cbn [sc_pc] in NO.
      rewrite (retrieve_node_nodes f) by (try apply (g_cht _ _ _ G); apply NO). cbn [bind].
      destruct (nodes f h id) as [v|] eqn:Nv; [|eexists; reflexivity].
      destruct (more_ptr f C h id v (hG_hV f C h G) Nv) as [-> ->]. cbn [bind]. eexists; reflexivity. }
    bd E. destruct a as [[q pi]|]; [eexists; reflexivity|]. bd E. bd E. destruct a as [[id ci]|]; cbn [bind].
    - injection Heqr1 as <-. bd E. injection E as <-. exact (Enter _ _ _ _ I).
    - destruct (ms_stack it) as [|ci0 st]; cbn [bind].
      + eexists; reflexivity.
      + bd Heqr1. injection Heqr1 as <-. destruct a as [[id ci]|]; cbn [bind] in *.
        * bd E. injection E as <-. exact (Enter _ _ _ _ I).
        * eexists; reflexivity. }
  destruct X as (x & X). exists x. split; [exact X|].
  destruct (turn_alone it out x X) as (s & A & s1 & E1 & S).
  destruct (gm_mI _ _ E1 M) as [M1 L1]. destruct (star_mI _ _ S M1) as [M2 L2].
  destruct x as [it'|[[q it']|]]; cbn [of_turn] in A; [subst s..|exact I];
    (split; [exact M2|]); rewrite mmu_iter in L1, L2; revert L1 L2; generalize (mmu f s1);
    generalize (mu f it) (mu f it'); clear; intros; lia.
Qed.

Lemma next_total it out : mI f p C D h (MScan (MIter it) out) -> mu f it < Npos MS_FUEL ->
  exists r, ms_next f h it = Ok r /\
    match r with
    | Some (q, it') => mI f p C D h (MScan (MIter it') (q :: out)) /\ mu f it' < mu f it
    | None => True
    end.
Proof.
  intros M L. unfold ms_next.
  apply (loop_measure (ms_turn f h) (fun it => mI f p C D h (MScan (MIter it) out)) (mu f)
    (fun it r => match r with
     | Some (q, it') => mI f p C D h (MScan (MIter it') (q :: out)) /\ mu f it' < mu f it
     | None => True end) MS_FUEL); [|exact M|exact L].
  intros s Ms. destruct (turn_total s out Ms) as (x & E & H). exists x. split; [exact E|].
  destruct x as [it'|r]; [|destruct r as [[q it']|]; exact H].
  destruct H as [H1 H2]. split; [exact H1|]. split; [exact H2|].
  intros [[q it'']|]; [|trivial]. intros [H3 H4]. split; [exact H3|lia].
Qed.

Lemma collect_total it : mI f p C D h (MScan (MIter it) []) -> mu f it < Npos MS_FUEL ->
  exists l, ms_collect f h it = Ok l.
Proof.
  intros M L. unfold ms_collect.
  match goal with |- exists l, loop ?S _ _ = _ => set (step := S) end.
  destruct (loop_measure step
    (fun s => mI f p C D h (MScan (MIter (fst s)) (snd s)) /\ mu f (fst s) < Npos MS_FUEL)
    (fun s => mu f (fst s)) (fun _ _ => True) MS_FUEL) with (s := (it, @nil pid)) as [r [E _]].
  - intros [s acc] [Ms Ls]. cbn [fst snd] in *. unfold step. cbn [fst snd].
    destruct (next_total s acc Ms Ls) as (r & E & H). rewrite E. cbn [bind].
    destruct r as [[q it']|].
    + eexists. split; [reflexivity|]. destruct H as [H1 H2]. cbn [fst snd].
      split; [split; [exact H1|lia]|]. split; [exact H2|trivial].
    + eexists. split; [reflexivity|trivial].
  - split; [exact M|exact L].
  - exact L.
  - exists r. exact E.
Qed.

Lemma more_total : (forall q, D q -> okp f q /\ stored f h q = true) -> exists l, more_specifics f t p = Ok l.
Proof.
  intros DS. pose proof (mI_start f p C D h (fun q Dq => conj (proj1 (DS q Dq)) (hG_linked f C h q G (proj1 (proj1 (DS q Dq))) (proj2 (DS q Dq))))) as M0.
  unfold more_specifics, more_specific_prefix_iter_from.
  destruct (BITS f <=? p_len p) eqn:L; [eexists; reflexivity|].
  rewrite node_id_for_prefix_ok by exact Wp. cbn [bind].
  rewrite (retrieve_node_nodes f) by (try apply (g_cht _ _ _ G); apply node_of_dom; exact Wp). cbn [bind].
  destruct (nodes f h (node_of f p)) as [v|] eqn:Nv; [|eexists; reflexivity].
  assert (Hn : node_id_for_prefix f p = Ok (node_of f p, span_of f p)) by now apply node_id_for_prefix_ok.
  assert (Rt : retrieve_node f h (node_of f p) = Ok (Some v)).
  { rewrite (retrieve_node_nodes f) by (try apply (g_cht _ _ _ G); apply node_of_dom; exact Wp). now rewrite Nv. }
  unfold retrieve_node in Rt. bd Rt. rename a into b.
  assert (S0 : gm (MScan MStart []) = Some (MScan (MFirst (Walk b [] root_slots 0)) [])).
  { apply gm_step; [reflexivity|]. unfold mstep. cbn [sc_pc sc_out]. rewrite L, Hn. cbn [bind fst].
    unfold walk_start. now rewrite Heqr. }
  pose (mk := fun o => match o with
    | GMore w' => MFirst w' | GFound k => MFirstPfx k | GNone => MDone true end).
  assert (St : forall w o, gstep f (node_of f p) h w = Ok o -> gm (MScan (MFirst w) []) = Some (MScan (mk o) [])).
  { intros w o0 Go. apply gm_step; [reflexivity|]. unfold mstep. cbn [sc_pc sc_out]. rewrite Hn. cbn [bind fst].
    now rewrite Go. }
  destruct (get_alone (node_of f p) [] mk _ (fun _ => eq_refl) St _ _ _ _ _ _ Rt) as (k & Dk & S). unfold mk in S.
  specialize (Dk v eq_refl).
  destruct (gm_mI _ _ S0 M0) as [M1 L1]. destruct (star_mI _ _ S M1) as [M2 L2].
  destruct (mstep_ok f p Wp C D h _ (hG_hV f C h G) CW M2) as (s3 & E3 & M3 & L3). specialize (L3 eq_refl).
  unfold mstep in E3. cbn [sc_pc sc_out] in E3. rewrite Hn in E3. cbn [bind fst snd] in E3. rewrite Dk in E3. cbn [bind] in E3.
  bd E3. rename a into pi, Heqr0 into Hpi. injection E3 as <-.
  destruct (mstep_ok f p Wp C D h _ (hG_hV f C h G) CW M3) as (s4 & E4 & M4 & L4). specialize (L4 eq_refl).
  unfold mstep in E4. cbn [sc_pc sc_out] in E4. rewrite Hn in E4. cbn [bind fst snd] in E4. rewrite Dk in E4. cbn [bind] in E4.
  bd E4. rename a into ci, Heqr0 into Hci. injection E4 as <-. cbn [bind].
  apply collect_total; [exact M4|].
  assert (Q : 100 * mu f (MsIter ci pi []) <= mmu f mscan0).
  { rewrite <- (mmu_iter _ []). fold mscan0 in L1. revert L1 L2 L3 L4. clear. intros. lia. }
  assert (Q2 : mmu f mscan0 < 100 * Npos MS_FUEL) by (vm_compute; reflexivity). lia.
Qed.
End Total.

Lemma more_still l : more_specifics f t p = Ok l ->
  exists n, let s := still (mnext f p) t n mscan0 in
    scan_over s = true /\ sc_pc s <> MPanic /\ given s = l.
Proof.
  intros E. assert (A : exists w, star gm mscan0 (MScan (MDone w) (rev l))).
  2:{ destruct A as (w & S). destruct (star_iter _ _ S) as (n & X). exists n. cbv zeta. rewrite X.
      split; [reflexivity|]. split; [discriminate|]. apply rev_involutive. }
  unfold more_specifics in E. bd E. unfold more_specific_prefix_iter_from in Heqr. unfold mscan0.
  destruct (BITS f <=? p_len p) eqn:L.
  { injection Heqr as <-. injection E as <-. exists true. apply star_one. apply gm_step; [reflexivity|].
    unfold mstep. cbn [sc_pc sc_out]. now rewrite L. }
  bd Heqr. destruct a0 as [id bs]. bd Heqr. rename a0 into o, Heqr0 into Hn. unfold retrieve_node in Heqr1.
  bd Heqr1. rename a0 into b.
  assert (S0 : gm (MScan MStart []) = Some (MScan (MFirst (Walk b [] root_slots 0)) [])).
  { apply gm_step; [reflexivity|]. unfold mstep. cbn [sc_pc sc_out]. rewrite L, Hn. cbn [bind fst].
    unfold walk_start. now rewrite Heqr0. }
  pose (mk := fun o => match o with
    | GMore w' => MFirst w' | GFound k => MFirstPfx k | GNone => MDone true end).
  assert (St : forall w o, gstep f id h w = Ok o -> gm (MScan (MFirst w) []) = Some (MScan (mk o) [])).
  { intros w o0 G. apply gm_step; [reflexivity|]. unfold mstep. cbn [sc_pc sc_out]. rewrite Hn. cbn [bind fst].
    now rewrite G. }
  destruct (get_alone id [] mk _ (fun _ => eq_refl) St _ _ _ _ _ _ Heqr1) as (k & D & S). unfold mk in S.
  destruct o as [v|].
  - bd Heqr. bd Heqr. injection Heqr as <-. 
    destruct (collected _ _ E) as (w & S'). exists w.
    eapply star_step; [exact S0|]. eapply star_trans; [exact S|].
    eapply star_step; [apply gm_step; [reflexivity|]; unfold mstep; cbn [sc_pc sc_out];
      rewrite Hn; cbn [bind]; rewrite (D v eq_refl); cbn [bind fst snd]; rewrite Heqr2; reflexivity|].
    eapply star_step; [apply gm_step; [reflexivity|]; unfold mstep; cbn [sc_pc sc_out];
      rewrite Hn; cbn [bind]; rewrite (D v eq_refl); cbn [bind fst snd]; rewrite Heqr3; reflexivity|].
    exact S'.
  - injection Heqr as <-. injection E as <-. exists true. eapply star_step; [exact S0|exact S].
Qed.

(* ---------- the longest match and the less-specifics iterator ---------- *)

Section Look.
Variable once : bool.
Definition gb (s : bscan) : option bscan := if look_over s then None else Some (bnext f once p t s).

Lemma star_look s s' : star gb s s' -> exists n, still (bnext f once p) t n s = s'.
Proof.
  induction 1 as [s|s s1 s2 G S [n IH]]; [now exists O|]. exists (Datatypes.S n).
  unfold gb in G. destruct (look_over s); [discriminate|]. injection G as <-.
  rewrite <- IH. apply iter_r.
Qed.

Definition found_at (lvl : N) (out : list pid) (e : bool) : bscan :=
  let q := pid_truncate_to_len f p lvl in
  if e then if once then BScan BDone (q :: out) else bat (sat_sub lvl 1) (q :: out)
  else bat (sat_sub lvl 1) out.

Lemma has_alone lvl out e : prefix_exists f t (pid_truncate_to_len f p lvl) = Ok e ->
  star gb (BScan (BAt lvl XStart) out) (found_at lvl out e).
Proof.
  intros E. apply contains_alone in E.
  assert (A : forall x y, star (gx f (pid_truncate_to_len f p lvl) h) x y -> y = XDone e ->
    match x with XDone _ => True | _ => star gb (BScan (BAt lvl x) out) (found_at lvl out e) end);
    [|exact (A _ _ E eq_refl)].
  intros x y S. induction S as [x|x y z G S IH]; intros ->; [exact I|].
  specialize (IH eq_refl).
  assert (St : forall s, (do x' <- Ok y;
      match x' with
      | XDone true =>
        if once then Ok (BScan BDone (pid_truncate_to_len f p lvl :: out))
        else Ok (bat (sat_sub lvl 1) (pid_truncate_to_len f p lvl :: out))
      | XDone false => Ok (bat (sat_sub lvl 1) out)
      | XPanic => Panic
      | _ => Ok (BScan (BAt lvl x') out)
      end) = Ok s -> gb (BScan (BAt lvl x) out) = Some s).
  { intros s X. unfold gx in G. unfold gb, bnext, bstep. cbn [look_over bs_pc bs_out].
    destruct x; try discriminate G; (destruct (xstep f (pid_truncate_to_len f p lvl) h _) as [y'| |];
      [injection G as ->|discriminate G..]); rewrite X; reflexivity. }
  assert (Q : star gb (BScan (BAt lvl x) out) (found_at lvl out e)).
  { destruct y as [|w|w|b|] eqn:Y; cbn [bind] in St.
    all: try (eapply star_step; [apply St; reflexivity|exact IH]).
    - assert (b = e) as -> by (inversion S as [|? ? ? G']; [reflexivity|discriminate G']).
      apply star_one. unfold found_at. apply St. destruct e, once; reflexivity.
    - inversion S as [|? ? ? G']. discriminate G'. }
  unfold gx in G. destruct x; try discriminate G; exact Q.
Qed.
End Look.

Hypothesis Wp : wf_pid f p.
Hypothesis Nv : ninv f h.

Lemma exists_at lvl : lvl <= p_len p ->
  prefix_exists f t (pid_truncate_to_len f p lvl) = Ok (stored f h (pid_truncate_to_len f p lvl)).
Proof.
  intros L. apply prefix_exists_ok; [exact Nv|]. rewrite (pid_trunc_ok f p lvl Wp L). destruct Wp as (? & ? & ?); apply wf_trunc; [assumption|lia].
Qed.

Lemma lmp_alone : forall fuel lvl, lvl <= p_len p -> lvl < N.of_nat fuel ->
  exists o, lmp_loop fuel f t (pid_truncate_to_len f p lvl) = Ok o /\
    star (gb true) (bat lvl []) (BScan BDone match o with Some q => [q] | None => [] end).
Proof.
  induction fuel as [|fuel IH]; intros lvl L F; [lia|]. cbn [lmp_loop].
  assert (Pl : p_len (pid_truncate_to_len f p lvl) = lvl) by now rewrite (pid_trunc_ok f p lvl Wp L).
  rewrite Pl. unfold bat. destruct (N.eqb_spec lvl 0) as [Z|Z].
  - eexists. split; [reflexivity|]. apply star_refl.
  - pose proof (exists_at lvl L) as E. rewrite E. cbn [bind].
    pose proof (has_alone true lvl [] _ E) as S. unfold found_at in S.
    destruct (stored f h (pid_truncate_to_len f p lvl)).
    + eexists. split; [reflexivity|exact S].
    + unfold sub8. destruct (N.leb_spec 1 lvl); [|lia]. cbn [bind].
      replace (sat_sub lvl 1) with (lvl - 1) in S by (unfold sat_sub; destruct (N.ltb_spec lvl 1); lia).
      replace (pid_truncate_to_len f (pid_truncate_to_len f p lvl) (lvl - 1))
        with (pid_truncate_to_len f p (lvl - 1)).
      2:{ rewrite (pid_trunc_ok f p lvl Wp L), (pid_trunc_ok f p (lvl - 1) Wp) by lia.
          rewrite pid_trunc_ok; [|destruct Wp as (? & ? & ?); apply wf_trunc; [assumption|lia]|cbn [p_len snd]; lia].
          cbn [p_bits fst]. now rewrite trunc_trunc by (destruct Wp; lia). }
      destruct (IH (lvl - 1)) as (o & A & S'); [lia..|]. exists o. split; [exact A|]. eapply star_trans; eauto.
Qed.

Lemma ls_alone out : forall fuel lvl, lvl <= p_len p -> lvl < N.of_nat fuel ->
  exists o, ls_next_loop fuel f t p lvl = Ok o /\
    match o with
    | None => star (gb false) (bat lvl out) (BScan BDone out)
    | Some (q, k) => 0 < k <= lvl /\ star (gb false) (bat lvl out) (bat (sat_sub k 1) (q :: out))
    end.
Proof.
  induction fuel as [|fuel IH]; intros lvl L F; [lia|]. cbn [ls_next_loop].
  assert (B0 : forall o, bat lvl o = if lvl =? 0 then BScan BDone o else BScan (BAt lvl XStart) o) by reflexivity.
  rewrite (B0 out). destruct (N.eqb_spec lvl 0) as [Z|Z].
  - eexists. split; [reflexivity|]. apply star_refl.
  - pose proof (exists_at lvl L) as E. rewrite E. cbn [bind].
    pose proof (has_alone false lvl out _ E) as S. unfold found_at in S.
    destruct (stored f h (pid_truncate_to_len f p lvl)).
    + eexists. split; [reflexivity|]. split; [lia|exact S].
    + assert (sat_sub lvl 1 = lvl - 1) as X by (unfold sat_sub; destruct (N.ltb_spec lvl 1); lia).
      rewrite X in *. destruct (IH (lvl - 1)) as (o & A & B); [lia..|]. exists o. split; [exact A|].
      destruct o as [[q k]|].
      * destruct B as [B1 B2]. split; [lia|]. eapply star_trans; eauto.
      * eapply star_trans; eauto.
Qed.

Lemma ls_collected : forall fuel lvl out, lvl <= p_len p -> lvl < N.of_nat fuel ->
  exists l, ls_collect fuel f t p lvl = Ok l /\
    star (gb false) (bat (sat_sub lvl 1) out) (BScan BDone (rev l ++ out)).
Proof.
  induction fuel as [|fuel IH]; intros lvl out L F; [lia|]. cbn [ls_collect]. unfold ls_next.
  assert (sat_sub lvl 1 <= lvl) as X by (unfold sat_sub; destruct (lvl <? 1); lia).
  assert (sat_sub lvl 1 < lvl \/ lvl = 0) as X' by (unfold sat_sub; destruct (N.ltb_spec lvl 1); lia).
  destruct (ls_alone out (S (N.to_nat lvl)) (sat_sub lvl 1)) as (o & A & B); [lia..|]. rewrite A. cbn [bind].
  destruct o as [[q k]|].
  - destruct B as [B1 B2]. destruct (IH k (q :: out)) as (l & A' & B'); [lia..|]. rewrite A'. cbn [bind].
    eexists. split; [reflexivity|]. cbn [rev]. rewrite <- app_assoc. eapply star_trans; eauto.
  - eexists. split; [reflexivity|]. exact B.
Qed.

Lemma longest_still :
  exists o n, longest_matching_prefix f t p = Ok o /\
    let s := still (bnext f true p) t n (bscan0 true p) in
    bs_pc s = BDone /\ matches s = match o with Some q => [q] | None => [] end.
Proof.
  destruct (lmp_alone (S (N.to_nat (p_len p))) (p_len p)) as (o & A & S); [lia..|].
  destruct (star_look _ _ _ S) as (n & X). exists o, n. split.
  - unfold longest_matching_prefix. rewrite <- A. f_equal. rewrite (pid_trunc_ok f p _ Wp) by lia.
    rewrite (wf_pid_trunc f p Wp). now destruct p.
  - cbv zeta. unfold bscan0. rewrite X. split; [reflexivity|]. unfold matches. cbn [bs_out]. destruct o; reflexivity.
Qed.

Lemma less_still :
  exists l n, less_specifics f t p = Ok l /\
    let s := still (bnext f false p) t n (bscan0 false p) in bs_pc s = BDone /\ matches s = l.
Proof.
  destruct (ls_collected (S (N.to_nat (p_len p))) (p_len p) []) as (l & A & S); [lia..|].
  destruct (star_look _ _ _ S) as (n & X). exists l, n. split; [exact A|]. cbv zeta. unfold bscan0. rewrite X.
  split; [reflexivity|]. unfold matches. cbn [bs_out]. rewrite app_nil_r. apply rev_involutive.
Qed.

End Still.

Lemma reach_ninv f ov st x : reach f ov st x -> ninv f (t_heap (tree_of x)).
Proof. intros R. destruct (reach_sok _ _ _ _ R) as [G _]. exact (g_cht _ _ _ (proj1 (g_tree _ _ _ _ _ G))). Qed.

Lemma still_longest f ov st x p : reach f ov st x -> wf_pid f p ->
  exists o n, longest_matching_prefix f (tree_of x) p = Ok o /\
    let s := still (bnext f true p) (tree_of x) n (bscan0 true p) in
    bs_pc s = BDone /\ matches s = match o with Some q => [q] | None => [] end.
Proof. intros R Wp. exact (longest_still f p (tree_of x) Wp (reach_ninv f ov st x R)). Qed.
Lemma still_less f ov st x p : reach f ov st x -> wf_pid f p ->
  exists l n, less_specifics f (tree_of x) p = Ok l /\
    let s := still (bnext f false p) (tree_of x) n (bscan0 false p) in bs_pc s = BDone /\ matches s = l.
Proof. intros R Wp. exact (less_still f p (tree_of x) Wp (reach_ninv f ov st x R)). Qed.
Lemma still_more_any f t p l : more_specifics f t p = Ok l ->
  exists n, let s := still (mnext f p) t n mscan0 in
    scan_over s = true /\ sc_pc s <> MPanic /\ given s = l.
Proof. exact (more_still f p t l). Qed.

Lemma still_more f ov st x p : reach f ov st x -> wf_pid f p ->
  exists l n, more_specifics f (tree_of x) p = Ok l /\
    let s := still (mnext f p) (tree_of x) n mscan0 in
    scan_over s = true /\ sc_pc s <> MPanic /\ given s = l.
Proof.
  intros R Wp. destruct (cset_hG f ov st x R) as (G & CW & _).
  destruct (more_total f p (tree_of x) (cset x) (fun _ => False) Wp G CW) as (l & E); [easy|].
  destruct (more_still f p (tree_of x) l E) as (n & A). exists l, n. split; [exact E|exact A].
Qed.
