(* What the calls of WeakPtr.v free, and what not. *)
From Coq Require Import Arith NArith List Bool Lia.
From Verif Require Import Maps Conc ConcMarks WeakPtr WeakPtrRace WeakPtrInv WeakPtrHeap WeakPtrRun.
Import ListNotations.

Lemma hreach_reach {A F} (apply : F -> A -> A) eqb o a0 x fr : hreach apply eqb o a0 x fr -> pcreach apply eqb o a0 x.
Proof.
  induction 1 as [|w ts fr i t w' t' R IH E H|w ts fr R IH|w ts fr i j ti tj R IH Ei Ej Pi Pj].
  - apply pr_start.
  - eapply pr_step; [exact IH|]. eapply pc_thread; eauto.
  - eapply pr_step; [exact IH|]. apply pc_spawn.
  - eapply pr_step; [exact IH|]. eapply pc_sync; eauto.
Qed.
Lemma reach_hreach {A F} (apply : F -> A -> A) eqb o a0 x : pcreach apply eqb o a0 x -> exists fr, hreach apply eqb o a0 x fr.
Proof.
  induction 1 as [|x y R [fr IH] H].
  - eexists. apply hr_start.
  - destruct H; eexists.
    + apply hr_spawn. exact IH.
    + eapply hr_thread; eauto.
    + eapply hr_sync; eauto.
Qed.

(* ---------- how many there are ---------- *)

Definition ncount {A F} (w : pmem A F) : nat := length (filter brings (order w)).
Lemma ncount_put {A F} (w : pmem A F) q tag v b ms objs sc past : s_msgs w = ms ->
  ncount (PMem (ms ++ [PMsg q tag v (Some b)]) objs sc past) = ncount w + Nat.b2n (brings b).
Proof.
  intros <-. unfold ncount, order. cbn [s_msgs]. rewrite flat_map_app. cbn. rewrite filter_app, app_length. cbn.
  destruct (brings b); cbn; lia.
Qed.
Lemma hstep_count {A F} (apply : F -> A -> A) eqb o w t w' t' : ptstep apply eqb o w t w' t' ->
  length (s_objs w') + ncount w + Nat.b2n (hmaking t) = length (s_objs w) + length (hfrees w w' t) + ncount w' + Nat.b2n (hmaking t').
Proof.
  intros H. unfold hmaking, hfrees. destruct H; rewrite ?H; cbn [p_pc pat pdone ploaded pmade pswapped fst snd pfence Nat.b2n];
    try (destruct p; try contradiction); rewrite ?H, ?Nat.eqb_refl; cbn [length s_objs s_msgs pnew].
  all: try (change (ncount (PMem (s_msgs w) ?a ?b ?c)) with (ncount w)); rewrite ?app_length; cbn [length Nat.b2n].
  all: try (rewrite (ncount_put w) by reflexivity; cbn [brings Nat.b2n]).
  all: try lia.
  all: try (match goal with |- context [Nat.eqb ?a ?b] => destruct (Nat.eqb_spec a b); [lia|] end; cbn [length]; lia).
  all: unfold ncount, order; cbn [s_msgs]; cbn; lia.
Qed.
Lemma filter_set {B} (f : B -> bool) l i y z : nth_error l i = Some y ->
  length (filter f (set_nth i z l)) + Nat.b2n (f y) = length (filter f l) + Nat.b2n (f z).
Proof.
  revert i. induction l as [|a l IH]; intros [|i] E; try discriminate; cbn in E |- *.
  - injection E as ->. destruct (f y), (f z); cbn; lia.
  - specialize (IH i E). destruct (f a); cbn; lia.
Qed.

Record hinv {A F} (x : pconf A F) (fr : list nat) : Prop := {
  hi_count : length (s_objs (c_mem x)) = length fr + 1 + ncount (c_mem x) + length (filter hmaking (c_ths x));
  hi_nodup : NoDup fr;
  hi_own : forall n i t, In n fr -> nth_error (c_ths x) i = Some t -> owns t <> Some n;
  hi_msg : forall n g, In n fr -> In g (s_msgs (c_mem x)) -> pm_ptr g <> n;
  hi_lt : forall n, In n fr -> n < length (s_objs (c_mem x))
}.
Lemma hfrees_own {A F} (w w' : pmem A F) t n : In n (hfrees w w' t) -> owns t = Some n.
Proof. unfold hfrees, owns. destruct (p_pc t); try contradiction; destruct (Nat.eqb _ _); cbn; intuition congruence. Qed.
Lemma hfrees_one {A F} (w w' : pmem A F) t : hfrees w w' t = [] \/ exists n, hfrees w w' t = [n].
Proof. unfold hfrees. destruct (p_pc t); auto; destruct (Nat.eqb _ _); eauto. Qed.
Lemma own_new {A F} (apply : F -> A -> A) eqb o w t w' t' n : ptstep apply eqb o w t w' t' -> owns t' = Some n ->
  n = length (s_objs w) \/ (owns t = Some n /\ hfrees w w' t = []).
Proof.
  intros H. unfold owns, hfrees. destruct H; rewrite ?H; cbn [p_pc pat pdone ploaded pmade pswapped fst snd pfence]; rewrite ?H;
    try (destruct p; try contradiction); try discriminate; intros E; injection E as <-; auto.
Qed.
Lemma hfrees_put {A F} (apply : F -> A -> A) eqb o w t w' t' n : ptstep apply eqb o w t w' t' -> In n (hfrees w w' t) ->
  s_msgs w' = s_msgs w.
Proof.
  intros H I. unfold hfrees in I. destruct H; try reflexivity; rewrite H in I; try contradiction; exfalso.
  - cbn [pswapped fst s_msgs] in I. rewrite app_length in I. destruct (Nat.eqb_spec (length (s_msgs w) + length [PMsg new false (pjoin (if q_succ_rel o then pknow (p_cur (ploaded (q_succ_acq o) t (length (s_msgs w)) g (@PIdle A F))) (S (length (s_msgs w))) else pknow (p_rel t) (S (length (s_msgs w)))) (pm_view g)) (Some (@Updated A F f))]) (length (s_msgs w))) as [Q|_]; [cbn in Q; lia|exact I].
  - cbn [pswapped fst s_msgs] in I. rewrite app_length in I. cbn [length] in I. destruct (Nat.eqb_spec (length (s_msgs w) + 1) (length (s_msgs w))) as [Q|_]; [lia|exact I].
Qed.

Lemma hinv_reach {A F} (apply : F -> A -> A) eqb o a0 x fr : hreach apply eqb o a0 x fr -> hinv x fr.
Proof.
  intros R. induction R as [|w ts fr i t w' t' R IH E H|w ts fr R IH|w ts fr i j ti tj R IH Ei Ej Pi Pj].
  - constructor; cbn; try (intros; contradiction); [reflexivity|constructor].
  - assert (I := pinv_reach apply eqb a0 o _ (hreach_reach _ _ _ _ _ _ R)).
    destruct IH as [C D O G L]. cbn [c_mem c_ths] in *.
    assert (K := hstep_count _ _ _ _ _ _ _ H). assert (Z := filter_set hmaking ts i t t' E).
    assert (T := px_ths _ _ _ _ I i t E). cbn [c_mem] in T. assert (CH := tstep_change _ _ _ _ _ _ _ H).
    assert (Li : i < length ts) by (apply nth_error_Some; congruence).
    assert (FR : forall n, In n (hfrees w w' t) -> ~ In n fr).
    { intros n J1 J2. exact (O n i t J2 E (hfrees_own _ _ _ _ J1)). }
    constructor; cbn [c_mem c_ths].
    + rewrite app_length. lia.
    + destruct (hfrees_one w w' t) as [->|[n En]]; [exact D|]. rewrite En in *. constructor; [|exact D]. apply FR. now left.
    + intros n j u J Ej. rewrite nth_set_nth in Ej by exact Li. destruct (Nat.eqb_spec i j) as [<-|Nj].
      * injection Ej as <-. intros Q. destruct (own_new _ _ _ _ _ _ _ _ H Q) as [->|[Q1 Q2]].
        -- apply in_app_or in J. destruct J as [J|J].
           ++ apply hfrees_own in J. apply (ti_owned _ _ _ _ _ T) in J. destruct J as [J _]. lia.
           ++ apply L in J. lia.
        -- rewrite Q2 in J. cbn in J. exact (O n i t J E Q1).
      * apply in_app_or in J. destruct J as [J|J]; [|now apply (O n j u J)].
        intros Q. apply Nj. eapply (px_own _ _ _ _ I); cbn [c_ths]; eauto. now apply hfrees_own in J.
    + intros n g J Ig. apply in_app_or in J. destruct J as [J|J].
      * rewrite (hfrees_put _ _ _ _ _ _ _ _ H J) in Ig. apply hfrees_own in J. apply (ti_owned _ _ _ _ _ T) in J. destruct J as [_ J]. now apply J.
      * destruct CH as [M1 O1|a M1 O1|l g1 g2 b M1 M' O1 B Q]; [rewrite M1 in Ig; now apply G|rewrite M1 in Ig; now apply G|].
        rewrite M' in Ig. apply in_app_or in Ig. destruct Ig as [Ig|[<-|[]]]; [now apply G|].
        destruct Q as [Q|[Q _]].
        -- intros X. apply (O n i t J E). congruence.
        -- rewrite Q. apply G; [exact J|]. rewrite M1. apply in_or_app. right. now left.
    + destruct (change_len w t w' CH) as [_ L2]. intros n J. apply in_app_or in J. destruct J as [J|J].
      * apply hfrees_own in J. apply (ti_owned _ _ _ _ _ T) in J. destruct J as [J _]. lia.
      * apply L in J. lia.
  - destruct IH as [C D O G L]. cbn [c_mem c_ths] in *. constructor; cbn [c_mem c_ths]; auto.
    + rewrite filter_app, app_length. cbn. lia.
    + intros n i t J E. destruct (Nat.lt_ge_cases i (length ts)) as [Li|Li].
      * rewrite nth_error_app1 in E by exact Li. eapply O; eauto.
      * rewrite nth_error_app2 in E by exact Li. destruct (i - length ts) as [|[|k]]; try discriminate. injection E as <-. discriminate.
  - destruct IH as [C D O G L]. cbn [c_mem c_ths] in *. constructor; cbn [c_mem c_ths]; auto.
    + assert (Z := filter_set hmaking ts j tj (psynced ti tj) Ej). unfold hmaking at 2 4 in Z. rewrite Pj in Z. cbn in Z. lia.
    + assert (Lj : j < length ts) by (apply nth_error_Some; congruence).
      intros n k t J E. rewrite nth_set_nth in E by exact Lj. destruct (Nat.eqb_spec j k); [|eapply O; eauto]. injection E as <-. discriminate.
Qed.

Lemma live_len (fr : list nat) n : NoDup fr -> (forall k, In k fr -> k < n) ->
  length (filter (fun k => negb (existsb (Nat.eqb k) fr)) (seq 0 n)) + length fr = n.
Proof.
  intros D L. rewrite <- (seq_length n 0) at 2.
  assert (E : forall l, length (filter (fun k => negb (existsb (Nat.eqb k) fr)) l) + length (filter (fun k => existsb (Nat.eqb k) fr) l) = length l).
  { induction l as [|a l IH]; [reflexivity|]. cbn. destruct (existsb _ fr); cbn; lia. }
  rewrite <- (E (seq 0 n)). f_equal. apply Nat.le_antisymm.
  - apply NoDup_incl_length; [exact D|]. intros k K. apply filter_In. split; [apply in_seq; apply L in K; lia|].
    apply existsb_exists. exists k. split; [exact K|apply Nat.eqb_refl].
  - apply NoDup_incl_length; [apply NoDup_filter, seq_NoDup|]. intros k K. apply filter_In in K. destruct K as [_ K].
    apply existsb_exists in K. destruct K as (m & I & Q). apply Nat.eqb_eq in Q. now subst.
Qed.

(* one object more for each call that replaced one *)
Lemma heap_held {A F} (apply : F -> A -> A) eqb o a0 x fr : hreach apply eqb o a0 x fr ->
  length (hlive x fr) = 1 + length (filter brings (order (c_mem x))) + length (filter hmaking (c_ths x)).
Proof.
  intros R. destruct (hinv_reach _ _ _ _ _ _ R) as [C D O G L]. unfold hlive. assert (Z := live_len fr _ D L). unfold ncount in C. lia.
Qed.
(* no object is freed that a call may come to read, and none twice *)
Lemma heap_not_freed {A F} (apply : F -> A -> A) eqb o a0 x fr : hreach apply eqb o a0 x fr ->
  NoDup fr /\ forall g, In g (s_msgs (c_mem x)) -> ~ In (pm_ptr g) fr.
Proof.
  intros R. destruct (hinv_reach _ _ _ _ _ _ R) as [C D O G L]. split; [exact D|]. intros g Ig J. exact (G _ g J Ig eq_refl).
Qed.

(* ---------- any number of calls, one after the other ---------- *)

(* each of them stores something else than is there *)
Fixpoint all_change {A F} (apply : F -> A -> A) (eqb : A -> A -> bool) (a : A) (bs : list (pop A F)) : Prop :=
  match bs with
  | [] => True
  | b :: r => match b with Updated f => True | Stored c => eqb a c = false | Outdated => False end /\
      all_change apply eqb (fst (do_op apply (a, false) b)) r
  end.
Lemma all_change_snoc {A F} (apply : F -> A -> A) eqb bs a b : all_change apply eqb a (bs ++ [b]) ->
  all_change apply eqb a bs /\ match b with Updated f => True | Stored c => eqb (fst (do_ops apply a bs)) c = false | Outdated => False end.
Proof.
  revert a. induction bs as [|c bs IH]; intros a H.
  - cbn in *. split; [exact I|]. tauto.
  - cbn in H. destruct H as [H1 H2]. destruct (IH _ H2) as [K1 K2]. split; [cbn; auto|].
    unfold do_ops in *. cbn [fold_left]. destruct c; try contradiction; exact K2.
Qed.
Lemma one_by_one {A F} (apply : F -> A -> A) eqb a0 (bs : list (pop A F)) : all_change apply eqb a0 bs -> exists x t,
  hreach apply eqb code_pords a0 x [] /\ c_ths x = [t] /\ p_pc t = PIdle /\ order (c_mem x) = bs /\
  v_at (p_cur t) <= length (s_msgs (c_mem x)) /\
  exists l g, s_msgs (c_mem x) = l ++ [g] /\ v_objs (p_cur t) (pm_ptr g) = true /\ pm_tag g = false /\ v_at (pm_view g) <= length (s_msgs (c_mem x)) /\
    nth_error (s_objs (c_mem x)) (pm_ptr g) = Some (fst (do_ops apply a0 bs)).
Proof.
  induction bs as [|b bs IH] using rev_ind; intros AC.
  - exists (PConf (pmem0 a0) [pthread0]), pthread0. split; [apply (hr_spawn apply eqb code_pords a0 (pmem0 a0) []); apply hr_start|].
    repeat split; auto. exists [], (PMsg 0 false pview0 None). repeat split; auto.
  - apply all_change_snoc in AC. destruct AC as [AC1 AC2]. destruct (IH AC1) as (x & t & R & ET & P & EO & EV & l & g & EM & V & TG & GV & EA). destruct x as [w ts]. cbn [c_mem c_ths] in *. subst ts.
    set (a := fst (do_ops apply a0 bs)) in *.
    assert (LM : length (s_msgs w) = S (length l)) by (rewrite EM, app_length; cbn; lia).
    destruct b as [f|c|]; [| |contradiction].
    {
    (* the call *)
    pose proof (hr_thread apply eqb code_pords a0 w [t] [] 0 t w (pat t (PUpd0 f)) R eq_refl (pt_call apply eqb code_pords w t (PUpd0 f) P I)) as R1.
    cbn [set_nth] in R1. unfold hfrees in R1. rewrite P in R1. cbn [app] in R1. set (t1 := pat t (PUpd0 f)) in *.
    (* the load *)
    assert (RD : preads w (p_cur t1) (length (s_msgs w)) g).
    { split; [cbn; lia|]. split; [lia|]. rewrite LM, EM. replace (S (length l) - 1) with (length l) by lia. apply nth_last. }
    pose proof (hr_thread apply eqb code_pords a0 w [t1] [] 0 t1 w _ R1 eq_refl (pt_upd0 apply eqb code_pords w t1 f _ g eq_refl RD)) as R2.
    cbn [set_nth hfrees p_pc t1 pat app] in R2. set (t2 := ploaded _ _ _ _ _) in R2.
    assert (V2 : v_objs (p_cur t2) (pm_ptr g) = true) by (unfold t2; cbn; now rewrite V).
    assert (A2 : v_at (p_cur t2) >= length (s_msgs w)) by (unfold t2; cbn; lia).
    (* the clone *)
    pose proof (hr_thread apply eqb code_pords a0 w [t2] [] 0 t2 _ _ R2 eq_refl (pt_upd1 apply eqb code_pords w t2 f _ _ a eq_refl V2 EA)) as R3.
    cbn [set_nth hfrees p_pc t2 ploaded app] in R3. set (t3 := pmade _ _ _) in R3. set (w3 := pnew w (apply f a)) in R3.
    (* the compare_exchange *)
    pose proof (hr_thread apply eqb code_pords a0 w3 [t3] [] 0 t3 _ _ R3 eq_refl
      (pt_upd2_won apply eqb code_pords w3 t3 f _ _ _ g l eq_refl EM eq_refl eq_refl)) as R4.
    cbn [set_nth] in R4.
    assert (HF : hfrees w3 (fst (pswapped (q_succ_acq code_pords) (q_succ_rel code_pords) w3 t3 g (length (s_objs w)) false (Updated f) (@PIdle A F))) t3 = []).
    { unfold hfrees. cbn [p_pc t3 pmade pswapped fst s_msgs]. rewrite app_length. cbn [length].
      destruct (Nat.eqb_spec (length (s_msgs w3) + 1) (length (s_msgs w3))); [lia|reflexivity]. }
    rewrite HF in R4. cbn [app] in R4.
    eexists. eexists. split; [exact R4|]. split; [reflexivity|]. split; [reflexivity|]. cbn [c_mem fst pswapped s_msgs].
    split; [unfold order; cbn [s_msgs]; rewrite flat_map_app; change (flat_map _ (s_msgs w3)) with (order w); rewrite EO; reflexivity|].
    split.
    + cbn [snd p_cur pswapped]. rewrite app_length. cbn [length]. change (s_msgs w3) with (s_msgs w).
      cbn -[Nat.max]. unfold t3, t2, t1. cbn -[Nat.max]. lia.
    + exists (s_msgs w), (PMsg (length (s_objs w)) false (pjoin (pknow (p_cur (ploaded true t3 (length (s_msgs w)) g (@PIdle A F))) (S (length (s_msgs w)))) (pm_view g)) (Some (Updated f))).
      split; [reflexivity|]. cbn [pm_ptr pm_tag]. split; [|split; [reflexivity|split]].
      * cbn [snd p_cur pswapped pknow v_objs]. unfold ploaded. cbn. rewrite Nat.eqb_refl. reflexivity.
      * cbn [pm_view]. rewrite app_length. change (s_msgs w3) with (s_msgs w). cbn -[Nat.max]. unfold t3, t2, t1. cbn -[Nat.max]. lia.
      * cbn [s_objs pnew w3]. rewrite nth_last. unfold do_ops. rewrite fold_left_app. reflexivity.
    }
    (* the call *)
    pose proof (hr_thread apply eqb code_pords a0 w [t] [] 0 t w (pat t (PSet0 c)) R eq_refl (pt_call apply eqb code_pords w t (PSet0 c) P I)) as R1.
    cbn [set_nth] in R1. unfold hfrees in R1. rewrite P in R1. cbn [app] in R1. set (t1 := pat t (PSet0 c)) in *.
    (* the load *)
    assert (RD : preads w (p_cur t1) (length (s_msgs w)) g).
    { split; [cbn; lia|]. split; [lia|]. rewrite LM, EM. replace (S (length l) - 1) with (length l) by lia. apply nth_last. }
    pose proof (hr_thread apply eqb code_pords a0 w [t1] [] 0 t1 w _ R1 eq_refl (pt_set0 apply eqb code_pords w t1 c _ g eq_refl RD)) as R2.
    cbn [set_nth hfrees p_pc t1 pat app] in R2. set (t2 := ploaded _ _ _ _ _) in R2.
    assert (V2 : v_objs (p_cur t2) (pm_ptr g) = true) by (unfold t2; cbn; now rewrite V).
    assert (A2 : v_at (p_cur t2) >= length (s_msgs w)) by (unfold t2; cbn; lia).
    (* the clone *)
    pose proof (hr_thread apply eqb code_pords a0 w [t2] [] 0 t2 _ _ R2 eq_refl (pt_set1 apply eqb code_pords w t2 _ c _ _ a eq_refl V2 EA AC2)) as R3.
    cbn [set_nth hfrees p_pc t2 ploaded app] in R3. set (t3 := pmade _ _ _) in R3. set (w3 := pnew w c) in R3.
    (* the compare_exchange *)
    pose proof (hr_thread apply eqb code_pords a0 w3 [t3] [] 0 t3 _ _ R3 eq_refl
      (pt_set2_won apply eqb code_pords w3 t3 c _ _ _ g l eq_refl EM eq_refl eq_refl)) as R4.
    cbn [set_nth] in R4.
    assert (HF : hfrees w3 (fst (pswapped (q_succ_acq code_pords) (q_succ_rel code_pords) w3 t3 g (length (s_objs w)) false (Stored c) (@PIdle A F))) t3 = []).
    { unfold hfrees. cbn [p_pc t3 pmade pswapped fst s_msgs]. rewrite app_length. cbn [length].
      destruct (Nat.eqb_spec (length (s_msgs w3) + 1) (length (s_msgs w3))); [lia|reflexivity]. }
    rewrite HF in R4. cbn [app] in R4.
    eexists. eexists. split; [exact R4|]. split; [reflexivity|]. split; [reflexivity|]. cbn [c_mem fst pswapped s_msgs].
    split; [unfold order; cbn [s_msgs]; rewrite flat_map_app; change (flat_map _ (s_msgs w3)) with (order w); rewrite EO; reflexivity|].
    split.
    + cbn [snd p_cur pswapped]. rewrite app_length. cbn [length]. change (s_msgs w3) with (s_msgs w).
      cbn -[Nat.max]. unfold t3, t2, t1. cbn -[Nat.max]. lia.
    + exists (s_msgs w), (PMsg (length (s_objs w)) false (pjoin (pknow (p_cur (ploaded true t3 (length (s_msgs w)) g (@PIdle A F))) (S (length (s_msgs w)))) (pm_view g)) (Some (Stored c))).
      split; [reflexivity|]. cbn [pm_ptr pm_tag]. split; [|split; [reflexivity|split]].
      * cbn [snd p_cur pswapped pknow v_objs]. unfold ploaded. cbn. rewrite Nat.eqb_refl. reflexivity.
      * cbn [pm_view]. rewrite app_length. change (s_msgs w3) with (s_msgs w). cbn -[Nat.max]. unfold t3, t2, t1. cbn -[Nat.max]. lia.
      * cbn [s_objs pnew w3]. rewrite nth_last. unfold do_ops. rewrite fold_left_app. reflexivity.
Qed.

(* ---------- so that there is no bound ---------- *)

Lemma no_bound {A F} (apply : F -> A -> A) eqb a0 bs : all_change apply eqb a0 bs -> exists x,
  hreach apply eqb code_pords a0 x [] /\ (forall i t, nth_error (c_ths x) i = Some t -> p_pc t = PIdle) /\ length (c_ths x) = 1 /\
  hcurrent x = Some (fst (do_ops apply a0 bs)) /\ length (hlive x []) = S (length bs).
Proof.
  intros AC. destruct (one_by_one apply eqb a0 bs AC) as (x & t & R & ET & P & EO & _ & l & g & EM & _ & _ & _ & EA).
  exists x. split; [exact R|]. split; [|split; [now rewrite ET|split]].
  - rewrite ET. intros [|[|i]] u E; try discriminate. cbn in E. congruence.
  - unfold hcurrent. rewrite EM, rev_app_distr. exact EA.
  - rewrite (heap_held _ _ _ _ _ _ R), EO, ET. cbn. unfold hmaking. rewrite P. cbn.
    assert (E : filter brings bs = bs).
    { clear - AC. revert a0 AC. induction bs as [|b bs IH]; intros a0 AC; [reflexivity|]. cbn in AC |- *. destruct AC as [A1 A2].
      destruct b; try contradiction; cbn; f_equal; eapply IH; eauto. }
    rewrite E. lia.
Qed.

Fixpoint on_off {B} (a b : B) (n : nat) : list B := match n with O => [] | S m => a :: b :: on_off a b m end.
Lemma on_off_len {B} (a b : B) n : length (on_off a b n) = 2 * n.
Proof. induction n; cbn; lia. Qed.

(* one thread marks a mui as withdrawn and as active, again and again *)
Lemma marks_leak : ~ exists B, forall x fr, hreach apply_mark (fun _ _ => false) code_pords [] x fr ->
  (forall i t, nth_error (c_ths x) i = Some t -> p_pc t = PIdle) -> length (c_ths x) = 1 -> hcurrent x = Some [] ->
  length (hlive x fr) <= B.
Proof.
  intros [B H].
  assert (AC : forall n, all_change apply_mark (fun _ _ => false) [] (on_off (Updated (true, 7%N)) (Updated (false, 7%N)) n) /\
    do_ops apply_mark [] (on_off (Updated (true, 7%N)) (Updated (false, 7%N)) n) = ([], false)).
  { induction n as [|n [IH1 IH2]]; [now split|]. split; [now cbn|exact IH2]. }
  destruct (AC B) as [A1 A2]. destruct (no_bound _ _ _ _ A1) as (x & R & I & L & C & N0).
  rewrite A2 in C. specialize (H x [] R I L C). rewrite N0, on_off_len in H. lia.
Qed.
(* or stores two selections in turn *)
Lemma sels_leak (c d : option N * option N) (eqb : option N * option N -> option N * option N -> bool) :
  eqb c d = false -> eqb d c = false ->
  ~ exists B, forall x fr, hreach (fun (f : Empty_set) s => s) eqb code_pords c x fr ->
    (forall i t, nth_error (c_ths x) i = Some t -> p_pc t = PIdle) -> length (c_ths x) = 1 -> hcurrent x = Some c ->
    length (hlive x fr) <= B.
Proof.
  intros E1 E2 [B H].
  assert (AC : forall n, all_change (fun (f : Empty_set) s => s) eqb c (on_off (Stored d) (Stored c) n) /\
    do_ops (fun (f : Empty_set) s => s) c (on_off (Stored d) (Stored c) n) = (c, false)).
  { induction n as [|n [IH1 IH2]]; [now split|]. split; [now cbn|exact IH2]. }
  destruct (AC B) as [A1 A2]. destruct (no_bound _ _ _ _ A1) as (x & R & I & L & C & N0).
  rewrite A2 in C. specialize (H x [] R I L C). rewrite N0, on_off_len in H. lia.
Qed.

(* ---------- as a program, for the examples ---------- *)

Definition hexe {A F} (apply : F -> A -> A) eqb (o : pords) (x : pconf A F * list nat) (e : pev) : option (pconf A F * list nat) :=
  match pcexe apply eqb o (fst x) e with
  | Some y => Some (y, match e with
      | PDoes i _ => match nth_error (c_ths (fst x)) i with Some t => hfrees (c_mem (fst x)) (c_mem y) t ++ snd x | None => snd x end
      | _ => snd x end)
  | None => None
  end.
Fixpoint hruns {A F} (apply : F -> A -> A) eqb (o : pords) (x : pconf A F * list nat) (es : list pev) : option (pconf A F * list nat) :=
  match es with [] => Some x | e :: es => match hexe apply eqb o x e with Some y => hruns apply eqb o y es | None => None end end.
Definition hrun {A F} (apply : F -> A -> A) eqb (a0 : A) (o : pords) (es : list pev) : option (pconf A F * list nat) :=
  hruns apply eqb o (PConf (pmem0 a0) [], []) es.
Lemma hruns_ok {A F} (apply : F -> A -> A) eqb a0 o es x y : hreach apply eqb o a0 (fst x) (snd x) -> hruns apply eqb o x es = Some y ->
  hreach apply eqb o a0 (fst y) (snd y).
Proof.
  revert x. induction es as [|e es IH]; intros x R H; cbn in H; [injection H as <-; exact R|].
  destruct (hexe apply eqb o x e) as [z|] eqn:E; [|discriminate]. refine (IH z _ H). clear IH H. unfold hexe in E.
  destruct (pcexe apply eqb o (fst x) e) as [u|] eqn:Q; [|discriminate]. injection E as <-. cbn [fst snd].
  destruct x as [[w ts] fr]. cbn [fst snd] in *. destruct e as [|i a|i j]; cbn in Q |- *.
  - injection Q as <-. now apply hr_spawn.
  - destruct (nth_error ts i) as [t|] eqn:T; [|discriminate]. destruct (ptexec apply eqb o w t a) as [[w' t']|] eqn:P; [|discriminate].
    injection Q as <-. eapply hr_thread; [exact R|exact T|]. now apply ptexec_ok with a.
  - destruct (nth_error ts i) as [ti|] eqn:Ti; [|discriminate]. destruct (nth_error ts j) as [tj|] eqn:Tj; [|discriminate].
    destruct (p_pc ti) eqn:Pi; try discriminate. destruct (p_pc tj) eqn:Pj; try discriminate. injection Q as <-. now eapply hr_sync; eauto.
Qed.
Lemma hrun_ok {A F} (apply : F -> A -> A) eqb a0 o es y : hrun apply eqb a0 o es = Some y -> hreach apply eqb o a0 (fst y) (snd y).
Proof. apply hruns_ok. apply hr_start. Qed.
