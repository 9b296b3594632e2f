(* The properties of the prefix table on a weak memory. *)
From Coq Require Import Arith NArith List Bool Lia.
From Verif Require Import Word Af BitSpan Maps ChtMath Cht Node Tree ChainProofs MultiMap PrefixCht PrefixChtProofs HistSpec Queries
  Conc ConcTree ConcTreeProofs ConcStore ConcTable ConcSpec ConcFacts WeakTable WeakTableView WeakTableInv.
Import ListNotations.
Local Open Scope N_scope.

Inductive aexec (f : af) (x : aconf) : aconf -> Prop :=
| ax_refl : aexec f x x
| ax_step y z : aexec f x y -> acstep f y z -> aexec f x z.

Lemma areach_exec f x y : areach f x -> aexec f x y -> areach f y.
Proof. intros R E. induction E as [|y z E IH S]; [easy|]. eapply ar_step; eauto. Qed.
Lemma aexec_trans f x y z : aexec f x y -> aexec f y z -> aexec f x z.
Proof. intros A B. induction B as [|u v B IH S]; [easy|]. eapply ax_step; eauto. Qed.

(* the record of m that a look-up after these critical sections may give when the
   muis of bmin are withdrawn for the whole store; a look-up that names a mui and
   leaves withdrawn records out does not look at bmin (as view_memory, C05) *)
Definition seen_with (log : list (nat * pid * recop)) (p : pid) (bmin : nset) (mui : option N) (iw : bool) (m : N)
    : option record :=
  if named mui m then
    match rec_after p m log with
    | Some r =>
      if iw then Some (if mem m bmin then with_status Withdrawn r else r)
      else if status_eqb (r_status r) Active && match mui with None => negb (mem m bmin) | Some _ => true end
           then Some r else None
    | None => None
    end
  else None.

Lemma gfr_with p log bmin mui iw :
  answers (seen_with log p bmin mui iw) (get_filtered_records (replay p log) mui iw bmin).
Proof.
  assert (M : forall m r, seen_with log p bmin mui iw m = Some r -> r_mui r = m).
  { intros m r. unfold seen_with. destruct (named mui m); [|discriminate].
    destruct (rec_after p m log) as [r0|] eqn:E; [|discriminate].
    pose proof (proj2 (replay_rec p m log) _ E) as K. destruct iw.
    - intros X. injection X as <-. now destruct (mem m bmin).
    - destruct (status_eqb (r_status r0) Active && _); [|discriminate]. intros X. now injection X as <-. }
  destruct mui as [m|].
  - assert (S : get_filtered_records (replay p log) (Some m) iw bmin =
      option_map (fun r => [r]) (seen_with log p bmin (Some m) iw m)).
    { unfold seen_with, named. rewrite N.eqb_refl. destruct iw.
      - rewrite gfr_one. simpl. destruct (rec_after p m log) as [r|] eqn:E; [|easy]. simpl.
        pose proof (proj2 (replay_rec p m log) _ E) as <-. destruct (mem (r_mui r) bmin); [easy|]. now rewrite rec_eta.
      - simpl. unfold get_record_for_mui. destruct (replay_rec p m log) as [-> K].
        destruct (rec_after p m log) as [r|] eqn:E; [|easy]. simpl. rewrite andb_true_r.
        pose proof (K _ eq_refl) as <-. destruct (status_eqb (r_status r) Active); [|easy].
        unfold record_of. simpl. now rewrite rec_eta. }
    rewrite S. destruct (seen_with log p bmin (Some m) iw m) as [r|] eqn:E; simpl.
    + split; [easy|]. split; [repeat constructor; easy|]. intros r'. pose proof (M _ _ E) as Q.
      split.
      * intros [<-|[]]. now rewrite Q.
      * intros X. left. pose proof X as X0. unfold seen_with, named in X0. destruct (N.eqb_spec m (r_mui r')) as [W|W]; [|discriminate].
        rewrite <- W in X. congruence.
    + intros n. destruct (seen_with log p bmin (Some m) iw n) as [r|] eqn:X; [|easy].
      pose proof X as Y. unfold seen_with, named in X. destruct (N.eqb_spec m n) as [<-|]; [|discriminate].
      congruence.
  - unfold get_filtered_records. pose proof (replay_NoDup p log) as ND. destruct iw.
    + apply answers_none_if_empty; [|exact M]. split.
      * unfold as_records_with_rewritten_status. rewrite map_map. exact ND.
      * intros r. rewrite get_filtered_all by easy. unfold seen_with. simpl named. cbv iota.
        destruct (replay_rec p (r_mui r) log) as [L K]. rewrite L. split.
        -- intros (v & A & B). destruct (rec_after p (r_mui r) log) as [r0|]; [|discriminate].
           injection A as <-. pose proof (K _ eq_refl) as Q. rewrite B.
           unfold record_of, rewrite_status, with_status. simpl. rewrite Q.
           destruct (mem (r_mui r) bmin); [easy|]. simpl. now rewrite <- Q, rec_eta.
        -- destruct (rec_after p (r_mui r) log) as [r0|]; [|discriminate]. intros X. injection X as X.
           exists (mmval_of r0). split; [easy|]. pose proof (K _ eq_refl) as Q. rewrite <- X at 1.
           unfold record_of, rewrite_status, with_status. simpl. rewrite Q.
           destruct (mem (r_mui r) bmin); simpl; [easy|]. now rewrite <- Q, rec_eta.
    + apply answers_none_if_empty; [|exact M]. split.
      * unfold as_active_records_not_in_bmin. rewrite map_map. now apply NoDup_map_filter.
      * intros r. rewrite get_filtered_active by easy. unfold seen_with. simpl named. cbv iota.
        destruct (replay_rec p (r_mui r) log) as [L K]. rewrite L. split.
        -- intros (v & A & S & B1 & B). destruct (rec_after p (r_mui r) log) as [r0|]; [|discriminate].
           injection A as <-. pose proof (K _ eq_refl) as Q. simpl in S. rewrite S, B1. simpl.
           rewrite B. unfold record_of. simpl. now rewrite <- Q, rec_eta.
        -- destruct (rec_after p (r_mui r) log) as [r0|]; [|discriminate].
           destruct (r_status r0) eqn:S; try discriminate. simpl.
           destruct (mem (r_mui r) bmin) eqn:B1; [discriminate|]. simpl. intros X. injection X as ->.
           exists (mmval_of r). simpl. rewrite S. repeat split. unfold record_of. simpl.
           rewrite <- (rec_eta r) at 1. now rewrite S.
Qed.

Lemma wtable_thread f x i t : areach f x -> nth_error (ac_ths x) i = Some t -> threadI f i (ac_mem x) t.
Proof. intros R E. destruct (confI_reach f x R) as (_ & T & _). now apply T. Qed.

(* ---------- the answers ---------- *)

Lemma wtable_read f x i t p mui iw bmin n o : areach f x -> nth_error (ac_ths x) i = Some t ->
  at_run t = Some (p, ARead mui iw bmin, ADone n (RRead o)) ->
  exists l1 l2, tm_log (ac_mem x) = l1 ++ l2 /\ many p l1 = n /\
    (forall n', In (p, n') (at_past t) -> (n' <= many p l1)%nat) /\
    answers (seen_with l1 p bmin mui iw) o.
Proof.
  intros R E C. pose proof (ti_run _ _ _ _ (wtable_thread f x i t R E)) as T. unfold runI in T. rewrite C in T.
  destruct T as (_ & (l1 & l2 & A & B & D & ->) & _). exists l1, l2. subst n. split; [easy|]. split; [easy|].
  split; [easy|]. apply gfr_with.
Qed.

Lemma wtable_upserted f x i t p r n found o : areach f x -> nth_error (ac_ths x) i = Some t ->
  at_run t = Some (p, AUp r, ADone n (RUp found o)) ->
  exists l1 l2, tm_log (ac_mem x) = l1 ++ (i, p, OUp r) :: l2 /\ n = S (many p l1) /\
    (forall n', In (p, n') (at_past t) -> (n' <= many p l1)%nat) /\
    match rec_after p (r_mui r) l1 with
    | None => o = None
    | Some r0 => exists ms, o = Some (mmval_of r0, N.of_nat (length ms)) /\ NoDup ms /\
        forall m, In m ms <-> rec_after p m l1 <> None
    end.
Proof.
  intros R E C. pose proof (ti_run _ _ _ _ (wtable_thread f x i t R E)) as T. unfold runI in T. rewrite C in T.
  destruct T as (_ & (l1 & l2 & A & B & D & l0 & -> & O & P & _) & _). exists l0, l2. split; [now rewrite A, <- app_assoc|].
  split; [|split; [easy|]].
  - rewrite <- B. unfold many. rewrite ops_of_app. unfold ops_of at 2. simpl. rewrite pid_eqb_refl, app_length. simpl. lia.
  - subst o. unfold upsert_record. cbn [snd]. destruct (replay_rec p (r_mui r) l0) as [L K]. rewrite L.
    destruct (rec_after p (r_mui r) l0) as [r0|]; [|easy]. simpl. exists (keys (replay p l0)).
    split; [|split; [apply replay_NoDup|]].
    + rewrite update_length. simpl in L. rewrite L. unfold keys. now rewrite map_length.
    + intros m. destruct (replay_rec p m l0) as [Lm _]. destruct (in_dec N.eq_dec m (keys (replay p l0))) as [I|I].
      * split; [|easy]. intros _ X. rewrite X in Lm. simpl in Lm. now apply lookup_None in Lm.
      * split; [easy|]. intros X. apply lookup_None in I. rewrite I in Lm. now destruct (rec_after p m l0).
Qed.

(* a prefix of which one knows has an entry already *)
Lemma wtable_found f x i t p r n found o : areach f x -> nth_error (ac_ths x) i = Some t ->
  at_run t = Some (p, AUp r, ADone n (RUp found o)) -> (exists n', In (p, S n') (at_past t)) -> found = true.
Proof.
  intros R E C. pose proof (ti_run _ _ _ _ (wtable_thread f x i t R E)) as T. unfold runI in T. rewrite C in T.
  destruct T as (_ & (l1 & l2 & A & B & D & l0 & -> & O & _ & P) & _). exact P.
Qed.

Lemma wtable_marked f x i t p s mui ltime n ok : areach f x -> nth_error (ac_ths x) i = Some t ->
  at_run t = Some (p, AMark s mui ltime, ADone n (RMark ok)) ->
  if ok then
    exists l1 l2, tm_log (ac_mem x) = l1 ++ (i, p, OMark s mui ltime) :: l2 /\ n = S (many p l1) /\
      forall n', In (p, n') (at_past t) -> (n' <= many p l1)%nat
  else n = 0%nat /\ forall n', In (p, n') (at_past t) -> n' = 0%nat.
Proof.
  intros R E C. pose proof (ti_run _ _ _ _ (wtable_thread f x i t R E)) as T. unfold runI in T. rewrite C in T.
  destruct T as (_ & (l1 & l2 & A & B & D & X) & _). destruct ok.
  - destruct X as (l0 & -> & P). exists l0, l2. split; [now rewrite A, <- app_assoc|]. split; [|easy].
    rewrite <- B. unfold many. rewrite ops_of_app. unfold ops_of at 2. simpl. rewrite pid_eqb_refl, app_length. simpl. lia.
  - split; [easy|]. intros n' I. specialize (D _ I). lia.
Qed.

(* the answers are of the kind that goes with the call, and no call panics *)
Lemma wtable_no_panic f x i t p c pc : areach f x -> nth_error (ac_ths x) i = Some t -> at_run t = Some (p, c, pc) ->
  pc <> APanic /\
  forall n a, pc = ADone n a ->
    match c with
    | AUp _ => exists found o, a = RUp found o
    | AMark _ _ _ => exists ok, a = RMark ok
    | ARead _ _ _ => exists o, a = RRead o
    end.
Proof.
  intros R E C. pose proof (ti_run _ _ _ _ (wtable_thread f x i t R E)) as T. unfold runI in T. rewrite C in T.
  destruct T as (_ & T). split; [now intros ->|]. intros n a ->. destruct T as ((l1 & l2 & A & B & D & X) & _).
  destruct c, a; try easy; eauto.
Qed.

(* the critical sections of a thread are those of its calls, in their order *)
Lemma wtable_order f x : areach f x ->
  (forall e, In e (tm_log (ac_mem x)) -> (fst (fst e) < length (ac_ths x))%nat) /\
  forall i t, nth_error (ac_ths x) i = Some t ->
    by_thread i (tm_log (ac_mem x)) =
    at_did t ++ match at_run t with Some (p, c, ADone n a) => effect p c a | _ => [] end.
Proof.
  intros R. destruct (confI_reach f x R) as (_ & T & L). split; [exact L|]. intros i t E. exact (ti_did _ _ _ _ (T i t E)).
Qed.

(* ---------- the table ---------- *)

Lemma acstep_le f x y : confI f x -> acstep f x y -> exists i, mem_le i (ac_mem x) (ac_mem y).
Proof.
  intros (MI & TI & _) S. destruct S as [m ts|m ts i t m' t' E S|m ts i j ti tj Ei Ej Ri Rj]; cbn [ac_mem ac_ths] in *.
  - exists 0%nat. apply mem_le_refl.
  - exists i. apply (thread_ok f i m t m' t' MI (TI _ _ E) S).
  - exists 0%nat. apply mem_le_refl.
Qed.

Lemma wtable_kept f x y : areach f x -> aexec f x y ->
  (forall k e, lookup k (tm_heap (ac_mem x)) = Some e -> exists e', lookup k (tm_heap (ac_mem y)) = Some e' /\ e_id e' = e_id e) /\
  exists l, tm_log (ac_mem y) = tm_log (ac_mem x) ++ l.
Proof.
  intros R E.
  assert (H : grows (tm_heap (ac_mem x)) (tm_heap (ac_mem y)) /\ exists l, tm_log (ac_mem y) = tm_log (ac_mem x) ++ l).
  { induction E as [|y z E IH S].
    - split; [apply grows_refl|]. exists []. now rewrite app_nil_r.
    - destruct IH as (G & l & L). destruct (acstep_le f y z) as (i & G' & l' & L' & _); auto.
      { apply confI_reach. eapply areach_exec; eauto. }
      split; [eapply grows_trans; eauto|]. exists (l ++ l'). now rewrite L', L, app_assoc. }
  destruct H as [G L]. split; [|easy]. intros k e X. destruct (G _ _ X) as (e' & A & B & _). eauto.
Qed.

Lemma wtable_one_entry f x k1 k2 e1 e2 : areach f x -> lookup k1 (tm_heap (ac_mem x)) = Some e1 ->
  lookup k2 (tm_heap (ac_mem x)) = Some e2 -> e_id e1 = e_id e2 -> k1 = k2.
Proof.
  intros R. destruct (confI_reach f x R) as ([I _] & _). exact (key_unique f PSTRIDE PSTRIDE_nz _ k1 k2 e1 e2 I).
Qed.

(* what is in memory is what the critical sections so far have left *)
Lemma wtable_memory f x p cnt mui iw bmin : areach f x -> wf_pid f p ->
  exists o, get_records_for_prefix f (PCht (tm_heap (ac_mem x)) cnt) p mui iw bmin = Ok o /\
    answers (seen_with (tm_log (ac_mem x)) p bmin mui iw) o.
Proof.
  intros R W. destruct (confI_reach f x R) as ([I RC] & _).
  rewrite get_records_ok by auto. eexists. split; [reflexivity|]. cbn [pc_heap]. pose proof (RC p) as X.
  pose proof (gfr_with p (tm_log (ac_mem x)) bmin mui iw) as A.
  destruct (pfxs f (tm_heap (ac_mem x)) p) as [v|]; [now rewrite X|].
  unfold replay in A. rewrite X in A. destruct mui, iw; exact A.
Qed.

(* what a thread knows to have happened has happened *)
Lemma wtable_past f x i t p n : areach f x -> nth_error (ac_ths x) i = Some t -> In (p, n) (at_past t) ->
  (n <= many p (tm_log (ac_mem x)))%nat.
Proof. intros R E I. now destruct (ti_past _ _ _ _ (wtable_thread f x i t R E) _ _ I) as (_ & H & _). Qed.

(* ---------- steps ---------- *)

Lemma wtable_steps f x i t : areach f x -> nth_error (ac_ths x) i = Some t -> at_run t <> None ->
  N.of_nat (at_steps t) <= 67.
Proof.
  intros R E C. pose proof (ti_run _ _ _ _ (wtable_thread f x i t R E)) as T. unfold runI in T.
  destruct (at_run t) as [[[p c] pc]|]; [|easy]. destruct T as (W & T). destruct pc; try easy; try lia.
  destruct T as (T1 & _ & T3). assert (D : pdom f p) by (now apply pdom_wf).
  pose proof (pwalk_level f _ p w D T1). lia.
Qed.

Definition others_as (i : nat) (x y : aconf) : Prop :=
  length (ac_ths y) = length (ac_ths x) /\ forall j, j <> i -> nth_error (ac_ths y) j = nth_error (ac_ths x) j.

Lemma step_of f x i t m' t' : nth_error (ac_ths x) i = Some t -> atstep f i (ac_mem x) t m' t' ->
  exists y, acstep f x y /\ ac_mem y = m' /\ nth_error (ac_ths y) i = Some t' /\ others_as i x y.
Proof.
  intros E S. pose proof (nth_some_lt _ _ _ E) as L. destruct x as [m ts]. cbn [ac_mem ac_ths] in *.
  eexists. split; [eapply as_thread; eauto|]. cbn [ac_mem ac_ths]. split; [easy|].
  split; [rewrite nth_set_nth by easy; now rewrite Nat.eqb_refl|]. split; cbn [ac_ths]; [apply set_nth_length|].
  intros j NE. rewrite nth_set_nth by easy. destruct (Nat.eqb_spec i j); [congruence|easy].
Qed.

Lemma others_trans i x y z : others_as i x y -> others_as i y z -> others_as i x z.
Proof. intros [A B] [C D]. split; [congruence|]. intros j NE. now rewrite D, B. Qed.

Definition ameasure (pc : apc) : nat :=
  match pc with
  | AWalk q => N.to_nat (pmu q) + 2
  | ALook w => N.to_nat (32 - w_level w) + 2
  | ACrit _ _ => 1
  | _ => 0
  end%nat.

Lemma wtable_returns f x i t p c pc : areach f x -> nth_error (ac_ths x) i = Some t -> at_run t = Some (p, c, pc) ->
  exists y t' n a, aexec f x y /\ others_as i x y /\ nth_error (ac_ths y) i = Some t' /\
    at_run t' = Some (p, c, ADone n a).
Proof.
  intros R E C. remember (ameasure pc) as n eqn:Hn. revert x t pc R E C Hn.
  induction n as [n IH] using lt_wf_ind. intros x t pc R E C Hn.
  pose proof (wtable_thread f x i t R E) as TI. pose proof TI as [P PA DI T]. unfold runI in T. rewrite C in T.
  destruct T as (W & T). destruct (confI_reach f x R) as ([I RC] & _).
  assert (GO : forall x1 t1 pc1, aexec f x x1 -> others_as i x x1 -> nth_error (ac_ths x1) i = Some t1 ->
    at_run t1 = Some (p, c, pc1) -> (ameasure pc1 < ameasure pc)%nat ->
    exists y t' n a, aexec f x y /\ others_as i x y /\ nth_error (ac_ths y) i = Some t' /\
      at_run t' = Some (p, c, ADone n a)).
  { intros x1 t1 pc1 X1 O1 E1 C1 M1. destruct (IH (ameasure pc1) ltac:(lia) x1 t1 pc1) as (y & t' & n' & a & Y1 & Y2 & Y3 & Y4); auto.
    { eapply areach_exec; eauto. }
    exists y, t', n', a. split; [eapply aexec_trans; eauto|]. split; [eapply others_trans; eauto|]. auto. }
  destruct pc as [q|w|k found|n0 a|]; [| | | |easy].
  - destruct T as (T1 & T2 & T3 & T4).
    assert (LG : exists x1 t1, aexec f x x1 /\ others_as i x x1 /\ nth_error (ac_ths x1) i = Some t1 /\ ac_mem x1 = ac_mem x /\
      at_run t1 = Some (p, c, AWalk q) /\ cells_agree f p (tm_heap (ac_mem x)) (at_view t1) q).
    { destruct (cells_agree_dec f (tm_heap (ac_mem x)) (at_view t) p q) as [A|NA].
      - exists x, t. split; [constructor|]. split; [split; easy|]. auto.
      - destruct (cell_learn f _ _ p q I W P T1 NA) as (v & K & A).
        destruct (step_of f x i t _ _ E (at_learn f i (ac_mem x) t v K)) as (y & S & M & E' & O).
        exists y. eexists. split; [eapply ax_step; [constructor|exact S]|]. split; [exact O|]. split; [exact E'|]. auto. }
    destruct LG as (x1 & t1 & X1 & O1 & E1 & M1 & C1 & A1). rewrite <- M1 in A1.
    destruct (step_of f x1 i t1 _ _ E1 (at_walk f i (ac_mem x1) t1 p c q C1 A1)) as (y & S & M & E' & O).
    eapply GO; [eapply ax_step; [exact X1|exact S]|eapply others_trans; eauto|exact E'|reflexivity|].
    assert (R1 : areach f x1) by (eapply areach_exec; eauto).
    pose proof (wtable_thread f x1 i t1 R1 E1) as [P1 _ _ Q1]. unfold runI in Q1. rewrite C1 in Q1.
    destruct Q1 as (_ & Q1 & _). destruct (confI_reach f x1 R1) as ([I1 _] & _).
    destruct (walked_ok f _ _ p q I1 W P1 Q1 A1) as (_ & _ & _ & _ & _ & o & EQ & _ & _ & MU).
    rewrite EQ. cbn [bind or_apanic snd]. destruct o as [q'|k found]; simpl; [lia|].
    destruct c as [r|s mui lt|mui iw bmin]; simpl; try lia. destruct found; simpl; lia.
  - destruct T as (T1 & T2 & T3).
    destruct (step_of f x i t _ _ E (at_look f i (ac_mem x) t p c w C)) as (y & S & M & E' & O).
    eapply GO; [eapply ax_step; [constructor|exact S]|exact O|exact E'|reflexivity|].
    destruct (alook_ok f (at_view t) p w (part_pinv f _ _ P I) W T1) as [(N & EQ)|[(k & EQ & AT)|(w' & EQ & WO & L1 & L2)]];
      rewrite EQ; cbn [or_apanic ameasure]; lia.
  - destruct T as (T1 & _).
    assert (AM : at_id (tm_heap (ac_mem x)) k p) by (eapply at_id_grows; [exact (pa_le _ _ _ P)|exact T1]).
    destruct (at_id_lookup _ _ _ AM) as (v & DR & _).
    destruct (step_of f x i t _ _ E (at_crit f i (ac_mem x) t p c k found v C DR)) as (y & S & M & E' & O).
    eapply GO; [eapply ax_step; [constructor|exact S]|exact O|exact E'|reflexivity|]. simpl. lia.
  - exists x, t, n0, a. split; [constructor|]. split; [split; easy|]. auto.
Qed.
