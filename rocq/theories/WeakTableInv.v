(* What holds of the prefix table and of the threads at any time. *)
From Coq Require Import Arith NArith List Bool Lia.
From Verif Require Import Word Af BitSpan Maps ChtMath Cht Node Tree ChainProofs MultiMap PrefixCht PrefixChtProofs
  Conc ConcTree ConcTreeProofs ConcStore ConcTable ConcStoreStep WeakTable WeakTableView.
Import ListNotations.
Local Open Scope N_scope.

(* what the critical sections of thread i did *)
Definition by_thread (i : nat) (log : list (nat * pid * recop)) : list (pid * recop) :=
  List.map (fun e => (snd (fst e), snd e)) (filter (fun e => Nat.eqb (fst (fst e)) i) log).

(* a critical section on p happened before *)
Definition heard (p : pid) (past : list (pid * nat)) : Prop := exists n, In (p, S n) past.

(* the answer of a call is that after the critical sections of l1, n of them on p *)
Definition right_answer (i : nat) (past : list (pid * nat)) (log : list (nat * pid * recop)) (p : pid) (c : acall)
    (n : nat) (a : aret) : Prop :=
  exists l1 l2, log = l1 ++ l2 /\ many p l1 = n /\ (forall n', In (p, n') past -> (n' <= n)%nat) /\
  match c, a with
  | AUp r, RUp found o => exists l0, l1 = l0 ++ [(i, p, OUp r)] /\ o = snd (upsert_record (replay p l0) r) /\
      (forall n', In (p, n') past -> (n' <= many p l0)%nat) /\ (heard p past -> found = true)
  | AMark s mui ltime, RMark true => exists l0, l1 = l0 ++ [(i, p, OMark s mui ltime)] /\
      (forall n', In (p, n') past -> (n' <= many p l0)%nat)
  | AMark _ _ _, RMark false => n = 0%nat
  | ARead mui iw bmin, RRead o => o = get_filtered_records (replay p l1) mui iw bmin
  | _, _ => False
  end.

Record memI (f : af) (m : tmem) : Prop := {
  mi_table : pinv f (tm_heap m);
  mi_recs : forall p, match pfxs f (tm_heap m) p with
                      | Some v => pv_recs v = replay p (tm_log m)
                      | None => ops_of p (tm_log m) = []
                      end
}.

Definition runI (f : af) (i : nat) (m : tmem) (t : athread) : Prop :=
  match at_run t with
  | None => True
  | Some (p, c, pc) =>
    wf_pid f p /\
    match pc with
    | AWalk q => pI f (at_view t) p q /\ (heard p (at_past t) -> is_get q = true) /\
        (forall mui iw bmin, c <> ARead mui iw bmin) /\ N.of_nat (at_steps t) + pmu q <= 66
    | ALook w => walk_ok PSTRIDE f (at_view t) p w /\ (exists mui iw bmin, c = ARead mui iw bmin) /\
        N.of_nat (at_steps t) = w_level w
    | ACrit k found => at_id (at_view t) k p /\ (heard p (at_past t) -> found = true) /\
        (forall s mui lt, c = AMark s mui lt -> found = true) /\ N.of_nat (at_steps t) <= 66
    | ADone n a => right_answer i (at_past t) (tm_log m) p c n a /\ ((0 < n)%nat -> pfxs f (at_view t) p <> None) /\
        N.of_nat (at_steps t) <= 67
    | APanic => False
    end
  end.

Definition under_way (t : athread) : list (pid * recop) :=
  match at_run t with Some (p, c, ADone n a) => effect p c a | _ => [] end.

Record threadI (f : af) (i : nat) (m : tmem) (t : athread) : Prop := {
  ti_part : part f (tm_heap m) (at_view t);
  ti_past : forall p n, In (p, n) (at_past t) -> wf_pid f p /\ (n <= many p (tm_log m))%nat /\
              ((0 < n)%nat -> pfxs f (at_view t) p <> None);
  ti_did : by_thread i (tm_log m) = at_did t ++ under_way t;
  ti_run : runI f i m t
}.

Definition confI (f : af) (x : aconf) : Prop :=
  memI f (ac_mem x) /\
  (forall i t, nth_error (ac_ths x) i = Some t -> threadI f i (ac_mem x) t) /\
  forall e, In e (tm_log (ac_mem x)) -> (fst (fst e) < length (ac_ths x))%nat.

(* what another thread's step leaves *)
Definition mem_le (i : nat) (m m' : tmem) : Prop :=
  grows (tm_heap m) (tm_heap m') /\
  exists l, tm_log m' = tm_log m ++ l /\ forall e, In e l -> fst (fst e) = i.

Section I.
Variable f : af.

Lemma mem_le_refl i m : mem_le i m m.
Proof. split; [apply grows_refl|]. exists []. rewrite app_nil_r. easy. Qed.

Lemma by_thread_app i a b : by_thread i (a ++ b) = by_thread i a ++ by_thread i b.
Proof. unfold by_thread. now rewrite filter_app, map_app. Qed.

Lemma by_thread_other i j l : i <> j -> (forall e, In e l -> fst (fst e) = i) -> by_thread j l = [].
Proof.
  intros NE. induction l as [|e l IH]; intros H; [easy|]. unfold by_thread. simpl.
  rewrite (H e) by (now left). destruct (Nat.eqb_spec i j); [easy|]. apply IH. intros e' I. apply H. now right.
Qed.

Lemma by_thread_own i p l : by_thread i (List.map (fun o => (i, p, o)) l) = List.map (fun o => (p, o)) l.
Proof.
  induction l as [|o l IH]; [easy|]. unfold by_thread in *. simpl. rewrite Nat.eqb_refl. simpl. now rewrite IH.
Qed.

Lemma ops_of_own i p l q : ops_of q (List.map (fun o => (i, p, o)) l) = if pid_eqb p q then l else [].
Proof.
  induction l as [|o l IH]; [now destruct (pid_eqb p q)|]. unfold ops_of in *. simpl.
  destruct (pid_eqb p q); simpl; now rewrite IH.
Qed.

Lemma right_answer_le i past log l p c n a : right_answer i past log p c n a ->
  right_answer i past (log ++ l) p c n a.
Proof.
  intros (l1 & l2 & E & H). exists l1, (l2 ++ l). split; [|exact H]. now rewrite E, app_assoc.
Qed.

Lemma many_le p log l : (many p log <= many p (log ++ l))%nat.
Proof. unfold many. rewrite ops_of_app, app_length. lia. Qed.

Lemma threadI_other i j m m' t : i <> j -> mem_le i m m' -> threadI f j m t -> threadI f j m' t.
Proof.
  intros NE (G & l & E & O) [A B D R]. constructor.
  - eapply part_grows; eauto.
  - intros p n I. destruct (B _ _ I) as (B1 & B2 & B3). split; [easy|]. split; [|easy].
    rewrite E. pose proof (many_le p (tm_log m) l). lia.
  - rewrite E, by_thread_app, (by_thread_other i j l), app_nil_r; auto.
  - unfold runI in *. destruct (at_run t) as [[[p c] pc]|]; [|easy]. destruct R as [W R]. split; [easy|].
    destruct pc; auto. destruct R as (R1 & R2). split; [|easy]. rewrite E. now apply right_answer_le.
Qed.

(* one's own view grows *)
Lemma pfxs_part m v v' p : pinv f m -> part f m v -> part f m v' -> grows v v' ->
  pfxs f v p <> None -> pfxs f v' p <> None.
Proof. intros I P P' G. apply pfxs_grows; auto; eapply part_pinv; eauto. Qed.

Lemma runI_view i m t v : pinv f (tm_heap m) -> part f (tm_heap m) (at_view t) -> part f (tm_heap m) v ->
  grows (at_view t) v -> runI f i m t -> runI f i m (AThread v (at_run t) (at_past t) (at_did t) (at_steps t)).
Proof.
  intros I P P' G R. unfold runI in *. cbn [at_run at_view at_past at_steps]. destruct (at_run t) as [[[p c] pc]|]; [|easy].
  destruct R as [W R]. split; [easy|]. destruct pc; auto.
  - destruct R as (R1 & R2). split; [eapply pI_grows; eauto|easy].
  - destruct R as (R1 & R2). split; [exact (walk_ok_grows PSTRIDE f _ _ _ _ G R1)|easy].
  - destruct R as (R1 & R2). split; [exact (at_id_grows _ _ _ _ G R1)|easy].
  - destruct R as (R1 & R2 & R3). split; [easy|]. split; [|easy]. intros N. exact (pfxs_part _ _ _ p I P P' G (R2 N)).
Qed.

Lemma heard_pfxs m i t p : threadI f i m t -> heard p (at_past t) -> pfxs f (at_view t) p <> None.
Proof. intros [_ B _ _] (n & I). destruct (B _ _ I) as (_ & _ & X). apply X. lia. Qed.

Lemma at_id_found h k p : pinv f h -> at_id h k p -> pfxs f h p <> None.
Proof.
  intros I ([i v s] & L & E). simpl in E. subst i. now rewrite (at_id_pfxs f h k p v s I L).
Qed.

Lemma abegin_ok p c : wf_pid f p -> exists w, walk_start f PSTRIDE p = Ok w /\
  (forall h, walk_ok PSTRIDE f (h : heap pval) p w) /\ w_level w = 0 /\
  abegin f p c = match c with ARead _ _ _ => ALook w | _ => AWalk (PGet w) end.
Proof.
  intros W. destruct (walk_start_ok PSTRIDE PSTRIDE_nz f ([] : heap pval) p (proj2 (pdom_wf f p) W)) as (w & E & OK & L).
  exists w. split; [easy|]. split.
  - intros h. destruct (walk_start_ok PSTRIDE PSTRIDE_nz f h p (proj2 (pdom_wf f p) W)) as (w' & E' & OK' & _).
    rewrite E in E'. now injection E' as <-.
  - split; [easy|]. unfold abegin. rewrite E. cbn [bind or_apanic]. reflexivity.
Qed.

Lemma acrit_op c found m : fst (acrit c found m) = fold_left apply_op (op_of_call c) m.
Proof. now destruct c. Qed.

Lemma thread_ok i m t m' t' : memI f m -> threadI f i m t -> atstep f i m t m' t' ->
  memI f m' /\ mem_le i m m' /\ threadI f i m' t'.
Proof.
  intros MI TI S. pose proof MI as [I RC]. pose proof TI as [P PA DI R]. unfold runI in R.
  destruct S as [p c E W|v L|p c q E A|p c w E|p c k found v E D log|p c k found E D|p c n a E].
  - split; [easy|]. split; [apply mem_le_refl|]. constructor; auto; cbn [at_view at_past at_did at_run at_steps].
    + rewrite DI. unfold under_way. cbn [at_run]. rewrite E. f_equal.
      destruct (abegin_ok p c W) as (w & _ & _ & _ & ->). now destruct c.
    + unfold runI. cbn [at_view at_past at_run at_steps]. split; [easy|].
      destruct (abegin_ok p c W) as (w & _ & WO & L & ->).
      destruct c as [r|s mui lt|mui iw bmin]; cbn [pI pmu is_get]; rewrite ?L.
      * split; [apply WO|]. split; [easy|]. split; [discriminate|]. vm_compute. discriminate.
      * split; [apply WO|]. split; [easy|]. split; [discriminate|]. vm_compute. discriminate.
      * split; [apply WO|]. split; [eauto|easy].
  - split; [easy|]. split; [apply mem_le_refl|]. destruct (knows_part f _ _ _ P L) as [P' G]. constructor; auto.
    + cbn [at_view at_past]. intros p n X. destruct (PA _ _ X) as (B1 & B2 & B3). split; [easy|]. split; [easy|].
      intros N. exact (pfxs_part _ _ _ p I P P' G (B3 N)).
    + now apply runI_view.
  - rewrite E in R. destruct R as (W & R1 & R2 & R3 & R4).
    destruct (walked_ok f _ _ p q I W P R1 A) as (I' & G & Q & P' & GV & o & EQ & PO & HI & MU).
    assert (M' : memI f (TMem (walked f p (tm_heap m) q) (tm_log m))).
    { constructor; cbn [tm_heap tm_log]; [easy|]. intros p'. pose proof (RC p') as X.
      destruct (Q p') as [->|(-> & N & ->)]; [easy|]. rewrite N in X. unfold replay. rewrite X. easy. }
    split; [exact M'|]. split; [split; [exact G|exists []; rewrite app_nil_r; easy]|].
    constructor; cbn [at_view at_past at_did at_run at_steps tm_heap tm_log].
    + exact P'.
    + intros p' n X. destruct (PA _ _ X) as (B1 & B2 & B3). split; [easy|]. split; [easy|].
      intros N. exact (pfxs_part _ _ _ p' I' (part_grows f _ _ _ G P) P' GV (B3 N)).
    + rewrite DI. unfold under_way. cbn [at_run]. rewrite E, EQ. cbn [bind or_apanic snd].
      f_equal. destruct o as [q'|k found]; [easy|]. simpl. destruct c; try easy. now destruct found.
    + unfold runI. cbn [at_view at_past at_run at_steps tm_heap tm_log]. rewrite EQ. cbn [bind or_apanic snd].
      split; [easy|].
      assert (HR : heard p (at_past t) -> hits o = true).
      { intros H. apply HI; [|auto]. eapply heard_pfxs; eauto. }
      destruct o as [q'|k found]; simpl; simpl in PO, HR.
      * split; [easy|]. split; [easy|]. split; [easy|]. lia.
      * assert (PM : 1 <= pmu q) by (destruct q; simpl; lia).
        assert (AC : forall b, b = found -> (forall s mui lt, c = AMark s mui lt -> found = true) ->
          at_id (walked f p (at_view t) q) k p /\ (heard p (at_past t) -> b = true) /\
          (forall s mui lt, c = AMark s mui lt -> b = true) /\ N.of_nat (S (at_steps t)) <= 66).
        { intros b -> MK. split; [easy|]. split; [easy|]. split; [easy|]. lia. }
        destruct c as [r|s mui lt|mui iw bmin]; [now apply AC| |now apply AC].
        destruct found; [now apply AC|].
        assert (NH : ~ heard p (at_past t)) by (intros X; now apply HR in X).
        split; [|split; [lia|lia]]. exists [], (tm_log m). split; [easy|]. split; [easy|]. split; [|easy].
        intros n' X. destruct n' as [|n']; [lia|]. elim NH. now exists n'.
  - rewrite E in R. destruct R as (W & R1 & R2 & R3).
    split; [easy|]. split; [apply mem_le_refl|].
    destruct R2 as (mui & iw & bmin & ->). pose proof (part_pinv f _ _ P I) as IV.
    assert (D0 : pdom f p) by (now apply pdom_wf). pose proof (pwalk_level f _ p w D0 R1) as LV.
    destruct (alook_ok f (at_view t) p w IV W R1) as [(N & EQ)|[(k & EQ & AT)|(w' & EQ & WO & L1 & L2)]];
      rewrite EQ; cbn [or_apanic]; (constructor; auto; cbn [at_view at_past at_did at_run at_steps];
      [rewrite DI; unfold under_way; cbn [at_run]; now rewrite E|]);
      unfold runI; cbn [at_view at_past at_did at_run at_steps]; (split; [easy|]).
    + split; [|split; [lia|lia]]. exists [], (tm_log m). split; [easy|]. split; [easy|]. split.
      * intros n' X. destruct n' as [|n']; [lia|]. elim (heard_pfxs m i t p TI); [now exists n'|easy].
      * destruct mui, iw; easy.
    + split; [easy|]. split; [easy|]. split; [easy|]. lia.
    + split; [easy|]. split; [eauto|]. lia.
  - rewrite E in R. destruct R as (W & R1 & R2 & R3 & R4).
    assert (AM : at_id (tm_heap m) k p) by (eapply at_id_grows; [exact (pa_le _ _ _ P)|exact R1]).
    set (g := fun v0 : pval => set_recs v0 (fst (acrit c found (pv_recs v0)))).
    destruct (modify_pfxs f (tm_heap m) k p g I AM) as [PI PF].
    destruct (at_id_lookup _ _ _ AM) as (v0 & DR & sl & LK). rewrite D in DR. injection DR as <-.
    pose proof (at_id_pfxs f _ _ _ _ _ I LK) as PV.
    pose proof (RC p) as RP. rewrite PV in RP.
    assert (OPS : ops_of p log = ops_of p (tm_log m) ++ op_of_call c).
    { unfold log. rewrite ops_of_app, ops_of_own, pid_eqb_refl. easy. }
    assert (M' : memI f (TMem (modify k g (tm_heap m)) log)).
    { constructor; cbn [tm_heap tm_log]; [easy|]. intros p'. rewrite PF. pose proof (RC p') as X.
      destruct (pid_eqb p' p) eqn:Q.
      - apply pid_eqb_spec in Q. subst p'. rewrite PV. simpl. unfold replay. rewrite OPS.
        unfold g. destruct v as [rs sel out]. simpl in *. rewrite acrit_op, RP. unfold replay. now rewrite fold_left_app.
      - assert (OQ : ops_of p' log = ops_of p' (tm_log m)).
        { unfold log. rewrite ops_of_app, ops_of_own, (pid_eqb_sym p p'), Q. apply app_nil_r. }
        destruct (pfxs f (tm_heap m) p'); [|now rewrite OQ]. unfold replay. now rewrite OQ. }
    assert (LE : mem_le i m (TMem (modify k g (tm_heap m)) log)).
    { split; [apply grows_modify|]. eexists. split; [reflexivity|]. intros e X. apply in_map_iff in X.
      destruct X as (o & <- & _). easy. }
    split; [exact M'|]. split; [exact LE|]. constructor; cbn [at_view at_past at_did at_run at_steps tm_heap tm_log].
    + eapply part_grows; [apply grows_modify|easy].
    + intros p' n X. destruct (PA _ _ X) as (B1 & B2 & B3). split; [easy|]. split; [|easy].
      unfold log. pose proof (many_le p' (tm_log m) (List.map (fun o => (i, p, o)) (op_of_call c))). lia.
    + unfold log. rewrite by_thread_app, DI, by_thread_own. unfold under_way. rewrite E, app_nil_r. cbn [at_run].
      f_equal. now destruct c.
    + unfold runI. cbn [at_view at_past at_run at_steps tm_heap tm_log]. split; [easy|].
      split; [|split; [intros _; eapply at_id_found; [eapply part_pinv; eauto|exact R1]|lia]].
      assert (B : forall n', In (p, n') (at_past t) -> (n' <= many p (tm_log m))%nat).
      { intros n' X. now destruct (PA _ _ X) as (_ & B2 & _). }
      exists log, []. rewrite app_nil_r. split; [easy|]. split; [easy|]. split.
      * intros n' X. specialize (B n' X). unfold many in *. rewrite OPS, app_length. lia.
      * rewrite RP. destruct c as [r|s mui lt|mui iw bmin]; cbn [acrit snd op_of_call].
        -- exists (tm_log m). repeat split; auto.
        -- exists (tm_log m). split; auto.
        -- unfold log. simpl. now rewrite app_nil_r.
  - exfalso. rewrite E in R. destruct R as (W & R1 & _).
    assert (AM : at_id (tm_heap m) k p) by (eapply at_id_grows; [exact (pa_le _ _ _ P)|exact R1]).
    destruct (at_id_lookup _ _ _ AM) as (v0 & DR & _). now apply (D v0).
  - rewrite E in R. destruct R as (W & R1 & R2 & R3).
    split; [easy|]. split; [apply mem_le_refl|]. constructor; auto; cbn [at_view at_past at_did at_run at_steps].
    + intros p' n' [X|X]; [|now apply PA]. injection X as <- <-. split; [easy|]. split; [|easy].
      destruct R1 as (l1 & l2 & E1 & L1 & _). rewrite E1, <- L1. apply many_le.
    + rewrite DI. unfold under_way. cbn [at_run]. rewrite E. now rewrite app_nil_r.
    + easy.
Qed.

Lemma nth_set_cases {A} i j (x y : A) l : nth_error (set_nth i x l) j = Some y -> (i < length l)%nat ->
  i = j /\ y = x \/ i <> j /\ nth_error l j = Some y.
Proof.
  intros E L. rewrite nth_set_nth in E by easy. destruct (Nat.eqb_spec i j); [left|right]; split; auto. congruence.
Qed.

Lemma confI_step x y : confI f x -> acstep f x y -> confI f y.
Proof.
  intros (MI & TI & LI) S. destruct S as [m ts|m ts i t m' t' E S|m ts i j ti tj Ei Ej Ri Rj]; cbn [ac_mem ac_ths] in *.
  - split; [easy|]. cbn [ac_mem ac_ths]. split.
    + intros i t E. destruct (Nat.lt_ge_cases i (length ts)) as [L|L].
      * rewrite nth_error_app1 in E by easy. now apply TI.
      * rewrite nth_error_app2 in E by easy. destruct (i - length ts)%nat as [|n] eqn:Z; [|destruct n; discriminate].
        injection E as <-. assert (i = length ts) by lia. subst i. constructor; cbn [at_view at_past at_did at_run].
        -- apply part_empty.
        -- intros p n [].
        -- simpl. clear - LI. induction (tm_log m) as [|e l IH]; [easy|]. unfold by_thread. simpl.
           pose proof (LI e (or_introl eq_refl)). destruct (Nat.eqb_spec (fst (fst e)) (length ts)); [lia|].
           apply IH. intros e' I. apply LI. now right.
        -- easy.
    + intros e I. rewrite app_length. simpl. specialize (LI _ I). lia.
  - pose proof (nth_some_lt _ _ _ E) as Li.
    destruct (thread_ok i m t m' t' MI (TI _ _ E) S) as (MI' & LE & TI'). split; [easy|]. cbn [ac_mem ac_ths]. split.
    + intros j u Eu. destruct (nth_set_cases _ _ _ _ _ Eu Li) as [[<- ->]|[NE Eu']]; [easy|].
      eapply threadI_other; eauto.
    + intros e I. rewrite set_nth_length. destruct LE as (_ & l & EL & O). rewrite EL in I. apply in_app_or in I.
      destruct I as [I|I]; [now apply LI|]. now rewrite (O _ I).
  - pose proof (nth_some_lt _ _ _ Ej) as Lj. split; [easy|]. cbn [ac_mem ac_ths]. split.
    + intros k u Eu. destruct (nth_set_cases _ _ _ _ _ Eu Lj) as [[<- ->]|[NE Eu']]; [|now apply TI].
      pose proof (TI _ _ Ei) as [A1 A2 A3 A4]. pose proof (TI _ _ Ej) as [B1 B2 B3 B4].
      pose proof (mi_table _ _ MI) as I.
      destruct (join_part f _ _ _ A1 B1) as (P & G1 & G2). constructor; cbn [at_view at_past at_did at_run atold].
      * exact P.
      * intros p n X. apply in_app_or in X. destruct X as [X|X].
        -- destruct (A2 _ _ X) as (C1 & C2 & C3). split; [easy|]. split; [easy|]. intros N. exact (pfxs_part _ _ _ p I A1 P G1 (C3 N)).
        -- destruct (B2 _ _ X) as (C1 & C2 & C3). split; [easy|]. split; [easy|]. intros N. exact (pfxs_part _ _ _ p I B1 P G2 (C3 N)).
      * rewrite B3. unfold under_way. cbn [at_run atold]. now rewrite Rj.
      * easy.
    + intros e I. rewrite set_nth_length. now apply LI.
Qed.

Lemma confI_reach x : areach f x -> confI f x.
Proof.
  induction 1 as [|x y R IH S].
  - split; [|split]; cbn.
    + constructor; cbn.
      * intros k e L. discriminate.
      * intros p. destruct (pfxs f ([] : heap pval) p) as [v|] eqn:E; [|easy].
        apply pfxs_at_id in E; [destruct E as (k & s & L); discriminate|]. intros k e L. discriminate.
    + intros i t E. destruct i; discriminate.
    + easy.
  - eapply confI_step; eauto.
Qed.
End I.
