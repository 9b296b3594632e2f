(* What match_prefix and the iterators give on a weak memory. *)
From Coq Require Import Arith NArith List Bool Lia.
From Verif Require Import Word Af BitSpan Spec Maps ChtMath Cht Node Tree TreeProofs Iter MultiMap RecordSet PrefixCht Lsm Rib StarCast HistSpec
  Conc ConcTree ConcTreeProofs ConcStore ConcTable ConcMarks ConcSpec ConcScan ConcScanSpec ConcScanFacts ConcWhole ConcQuery QuerySpec
  ConcQueryProofs ConcEachInv ConcQueryFacts
  WeakTree WeakTreeInv WeakTreeFacts WeakTable WeakTableFacts WeakScan WeakScanFacts WeakStore WeakStoreInv WeakStoreFacts WeakMatch WeakMatchInv.
Import ListNotations.
Local Open Scope N_scope.

(* ---------- match_prefix ---------- *)

Lemma wmatch_ends f ov B p o i x0 n x q : store_reach f ov x0 -> wf_pid f p -> smatching f ov B p o i x0 n x q ->
  match_over q = true -> exists r, q = AtEnd (ROk r).
Proof.
  intros R Wp A O. destruct (asking_idle _ _ _ _ _ _ _ _ _ _ _ _ _ _ _ A) as (past0 & N0).
  pose proof (wmatch_inv f ov B i x0 past0 R N0 p o Wp n x q A) as I.
  destruct q as [sc|lm sc|lm ls sc|t l|more t main ms todo got l|r|]; try discriminate O; [|contradiction I].
  cbn [watI] in I. destruct I as (t & main & ms & ls & _ & _ & _ & _ & E). unfold at_end in E. rewrite E. eexists. reflexivity.
Qed.

Lemma wmatch_parts f ov B p o i x0 past0 n x r : store_reach f ov x0 -> wf_pid f p ->
  nth_error (sc_sts x0) i = Some (SThread SIdle past0) -> smatching f ov B p o i x0 n x (AtEnd (ROk r)) ->
  exists t main ms ls, wtree_ok f ov i x0 past0 p o x t /\ wmain_ok f ov B i x0 o x t main /\
    wfill_ok f ov B i x0 o x (tr_more t) ms /\ wfill_ok f ov B i x0 o x (tr_less t) ls /\
    qr_less r = option_map rs_from_iter ls /\ qr_more r = option_map rs_from_iter ms /\
    match main with
    | Some l => qr_type r = tr_type t /\ qr_prefix r = option_map (fun q => (f, q)) (tr_prefix t) /\ qr_records r = l
    | None => qr_type r = EmptyMatch /\ qr_prefix r = None /\ qr_records r = []
    end.
Proof.
  intros R Wp N0 A. pose proof (wmatch_inv f ov B i x0 past0 R N0 p o Wp n x _ A) as I.
  cbn [watI] in I. destruct I as (t & main & ms & ls & A1 & A2 & A3 & A4 & E).
  unfold at_end in E. exists t, main, ms, ls. split; [exact A1|]. split; [exact A2|]. split; [exact A3|]. split; [exact A4|].
  injection E as ->. destruct main as [l|]; cbn; split; auto.
Qed.

Lemma wmatch_main f ov B p o i x0 past0 n x r : store_reach f ov x0 -> wf_pid f p ->
  nth_error (sc_sts x0) i = Some (SThread SIdle past0) -> smatching f ov B p o i x0 n x (AtEnd (ROk r)) ->
  match qr_prefix r with
  | None => qr_type r = EmptyMatch /\ qr_records r = []
  | Some a => qr_type r = (match mo_type o with ExactMatch => ExactMatch | _ => LongestMatch end) /\
      qr_records r <> [] /\
      exists c, a = (f, c) /\ 0 < p_len c /\ covers f c p /\ (mo_type o = ExactMatch -> c = p) /\
        read_of B past0 x c (mo_mui o) (mo_withdrawn o) (Some (qr_records r)) /\ known_by x i c
  end.
Proof.
  intros R Wp N0 A. destruct (wmatch_parts _ _ _ _ _ _ _ _ _ _ _ R Wp N0 A) as (t & main & ms & ls & T & M & _ & _ & _ & _ & Q).
  unfold wmain_ok in M. destruct main as [l|]; [|destruct Q as (Q1 & -> & Q3); easy].
  destruct Q as (Q1 & Q2 & Q3). destruct (tr_prefix t) as [c|] eqn:C; [|discriminate M]. rewrite Q2. cbn [option_map].
  destruct M as (v & Lu & M). destruct v as [[|a v]|]; try discriminate M. injection M as ->.
  destruct (wtree_prefix _ _ _ _ _ _ _ _ _ _ T C) as (k & b & [S _] & H & Ty & Ex).
  destruct (wsub_sound f ov i x0 past0 R N0 x k (SLess true p b) Wp S) as (_ & _ & So).
  assert (I : In c (scan_out (SLess true p b))).
  { cbn [scan_out]. destruct (bs_out b); [discriminate H|]. injection H as ->. now left. }
  destruct (So c I) as (S1 & S2 & S3 & _).
  split; [now rewrite Q1|]. split; [rewrite Q3; discriminate|]. exists c. rewrite Q3. split; [reflexivity|]. split; [exact S2|].
  split; [exact S3|]. split; [exact Ex|]. split; [exact (looked_read _ _ _ _ _ _ R N0 _ _ _ _ _ Lu)|].
  exact (looked_known _ _ _ _ _ R _ _ _ _ _ Lu).
Qed.

Lemma wmatch_less f ov B p o i x0 past0 n x r : store_reach f ov x0 -> wf_pid f p ->
  nth_error (sc_sts x0) i = Some (SThread SIdle past0) -> smatching f ov B p o i x0 n x (AtEnd (ROk r)) ->
  if mo_less o then exists rs l, qr_less r = Some rs /\ rs_items rs = Ok l /\ NoDup (List.map fst l) /\
    forall a v, In (a, v) l -> exists c, a = (f, c) /\ 0 < p_len c /\ p_len c < p_len p /\ covers f c p /\
      read_of B past0 x c (mo_mui o) (mo_withdrawn o) (Some v) /\ known_by x i c
  else qr_less r = None.
Proof.
  intros R Wp N0 A. destruct (wmatch_parts _ _ _ _ _ _ _ _ _ _ _ R Wp N0 A) as (t & main & ms & ls & T & _ & _ & L & Q & _ & _).
  pose proof (wtree_less _ _ _ _ _ _ _ _ _ T) as N. rewrite Q. unfold wfill_ok in L.
  destruct (tr_less t) as [l|].
  - destruct N as (-> & k & b & [S G] & ->). destruct ls as [g|]; [|contradiction L].
    destruct (wsub_sound f ov i x0 past0 R N0 x k (SLess false p b) Wp S) as (_ & ND & So).
    exists (rs_from_iter g), g. split; [reflexivity|]. split; [exact (gathered_items _ _ _ _ L)|]. split.
    + exact (gathered_nodup _ _ _ _ L ND).
    + intros a v I. destruct (gathered_in _ _ _ _ L _ _ I) as (c & -> & Ic & Lu). exists c. split; [reflexivity|].
      apply in_rev in Ic. destruct (So c Ic) as (S1 & S2 & S3 & S4). split; [exact S2|]. split; [auto|]. split; [exact S3|].
      split; [exact (looked_read _ _ _ _ _ _ R N0 _ _ _ _ _ Lu)|]. exact (looked_known _ _ _ _ _ R _ _ _ _ _ Lu).
  - destruct ls; [contradiction L|]. rewrite N. reflexivity.
Qed.

Lemma wmatch_more f ov B p o i x0 past0 n x r : store_reach f ov x0 -> wf_pid f p ->
  nth_error (sc_sts x0) i = Some (SThread SIdle past0) -> smatching f ov B p o i x0 n x (AtEnd (ROk r)) ->
  if mo_more o then exists rs l, qr_more r = Some rs /\ rs_items rs = Ok l /\ NoDup (List.map fst l) /\
    forall a v, In (a, v) l -> exists c, a = (f, c) /\ 0 < p_len c /\ c <> p /\ covers f p c /\
      read_of B past0 x c (mo_mui o) (mo_withdrawn o) (Some v) /\ known_by x i c
  else qr_more r = None.
Proof.
  intros R Wp N0 A. destruct (wmatch_parts _ _ _ _ _ _ _ _ _ _ _ R Wp N0 A) as (t & main & ms & ls & T & _ & L & _ & _ & Q & _).
  pose proof (wtree_more _ _ _ _ _ _ _ _ _ T) as N. rewrite Q. unfold wfill_ok in L.
  destruct (tr_more t) as [l|].
  - destruct N as (-> & k & b & [S G] & ->). destruct ms as [g|]; [|contradiction L].
    destruct (wsub_sound f ov i x0 past0 R N0 x k (SMore p b) Wp S) as (_ & ND & So).
    exists (rs_from_iter g), g. split; [reflexivity|]. split; [exact (gathered_items _ _ _ _ L)|]. split.
    + apply (gathered_nodup _ _ _ _ L). now apply NoDup_filter.
    + intros a v I. destruct (gathered_in _ _ _ _ L _ _ I) as (c & -> & Ic & Lu). exists c. split; [reflexivity|].
      apply filter_In in Ic. destruct Ic as [Ic Nq]. apply in_rev in Ic.
      destruct (So c Ic) as (S1 & S2 & S3). split; [exact S2|]. split.
      { intros ->. rewrite pid_eqb_refl in Nq. discriminate Nq. }
      split; [exact S3|]. split; [exact (looked_read _ _ _ _ _ _ R N0 _ _ _ _ _ Lu)|]. exact (looked_known _ _ _ _ _ R _ _ _ _ _ Lu).
  - destruct ms; [contradiction L|]. rewrite N. reflexivity.
Qed.

(* every less specific prefix that the thread knew of *)
Lemma wmatch_less_complete f ov B p o i x0 past0 n x r : store_reach f ov x0 -> wf_pid f p ->
  nth_error (sc_sts x0) i = Some (SThread SIdle past0) -> smatching f ov B p o i x0 n x (AtEnd (ROk r)) -> mo_less o = true ->
  forall c rc, In (c, rc) past0 -> 0 < p_len c -> p_len c < p_len p -> covers f c p ->
    exists v, read_of B past0 x c (mo_mui o) (mo_withdrawn o) v /\ forall l, v = Some l -> in_set (qr_less r) ((f, c), l).
Proof.
  intros R Wp N0 A Lo c rc Ic L1 L2 Cv.
  destruct (wmatch_parts _ _ _ _ _ _ _ _ _ _ _ R Wp N0 A) as (t & main & ms & ls & T & _ & _ & L & Q & _ & _).
  pose proof (wtree_less _ _ _ _ _ _ _ _ _ T) as N. unfold wfill_ok in L.
  destruct (tr_less t) as [l|]; [|rewrite N in Lo; discriminate]. destruct N as (_ & k & b & [S G] & ->).
  destruct ls as [g|]; [|contradiction L].
  pose proof (wsub_less f ov i x0 past0 R N0 x k p b c rc Wp S G Ic L1 L2 Cv) as I.
  destruct (gathered_all _ _ _ _ L c I) as (v & Lu & D). exists v. split; [exact (looked_read _ _ _ _ _ _ R N0 _ _ _ _ _ Lu)|].
  intros u Eu. rewrite Q. exists (rs_from_iter g), g. split; [reflexivity|]. split; [exact (gathered_items _ _ _ _ L)|].
  now apply D.
Qed.

(* every more specific prefix that the thread knew of, if there are no others *)
Lemma wmatch_more_complete f ov B p o i x0 past0 n x r : store_reach f ov x0 -> wf_pid f p ->
  nth_error (sc_sts x0) i = Some (SThread SIdle past0) -> smatching f ov B p o i x0 n x (AtEnd (ROk r)) -> mo_more o = true ->
  (forall c, In c (wc_called (sc_tree x)) -> exists rc, In (c, rc) past0) ->
  forall c rc, In (c, rc) past0 -> 0 < p_len c -> p_len p < p_len c -> covers f p c ->
    exists v, read_of B past0 x c (mo_mui o) (mo_withdrawn o) v /\ forall l, v = Some l -> in_set (qr_more r) ((f, c), l).
Proof.
  intros R Wp N0 A Lo All c rc Ic L1 L2 Cv.
  destruct (wmatch_parts _ _ _ _ _ _ _ _ _ _ _ R Wp N0 A) as (t & main & ms & ls & T & _ & L & _ & _ & Q & _).
  pose proof (wtree_more _ _ _ _ _ _ _ _ _ T) as N. unfold wfill_ok in L.
  destruct (tr_more t) as [l|]; [|rewrite N in Lo; discriminate]. destruct N as (_ & k & b & [S G] & ->).
  destruct ms as [g|]; [|contradiction L].
  assert (Lp : p_len p < BITS f).
  { destruct (thread_at f ov i x0 past0 R N0 x0 (se_here _ _ _)) as (_ & t0 & _ & _ & Nt & K & Rt & _).
    destruct (wt_here f ov _ i t0 Rt Nt) as (CW & _ & Th).
    pose proof (CW _ (proj1 (th_past _ _ _ _ _ Th c (K _ _ Ic)))) as [Wc _]. lia. }
  pose proof (wsub_more f ov i x0 past0 R N0 x k p b c rc Wp S G All Lp Ic L1 Cv) as I.
  assert (If : In c (filter (fun q => negb (pid_eqb q p)) (rev (sc_out b)))).
  { apply filter_In. split; [exact I|]. destruct (pid_eqb c p) eqn:Qc; [|reflexivity]. apply pid_eqb_spec in Qc. subst c. lia. }
  destruct (gathered_all _ _ _ _ L c If) as (v & Lu & D). exists v. split; [exact (looked_read _ _ _ _ _ _ R N0 _ _ _ _ _ Lu)|].
  intros u Eu. rewrite Q. exists (rs_from_iter g), g. split; [reflexivity|]. split; [exact (gathered_items _ _ _ _ L)|].
  now apply D.
Qed.

(* the longest match: for one prefix c at least as long as any that the thread knew
   of, the result is what a look-up of c gives *)
Lemma wmatch_longest f ov B p o i x0 past0 n x r : store_reach f ov x0 -> wf_pid f p ->
  nth_error (sc_sts x0) i = Some (SThread SIdle past0) -> smatching f ov B p o i x0 n x (AtEnd (ROk r)) ->
  forall q rq, In (q, rq) past0 -> 0 < p_len q -> covers f q p -> (mo_type o = ExactMatch -> q = p) ->
    exists c v, In c (wc_called (sc_tree x)) /\ covers f c p /\ p_len q <= p_len c /\
      read_of B past0 x c (mo_mui o) (mo_withdrawn o) v /\
      match v with
      | Some (a :: l) => qr_prefix r = Some (f, c) /\ qr_records r = a :: l
      | _ => qr_prefix r = None
      end.
Proof.
  intros R Wp N0 A q rq Iq L1 Cv Ex.
  destruct (wmatch_parts _ _ _ _ _ _ _ _ _ _ _ R Wp N0 A) as (t & main & ms & ls & T & M & _ & _ & _ & _ & Q).
  assert (H : exists c, tr_prefix t = Some c /\ In c (wc_called (sc_tree x)) /\ covers f c p /\ p_len q <= p_len c).
  { destruct T as (lm & ls' & ms' & (k & b & [S G] & ->) & _ & _ & ->).
    destruct (wsub_longest f ov i x0 past0 R N0 x k p b q rq Wp S G Iq L1 Cv) as (m & Eb & Lm).
    destruct (wsub_sound f ov i x0 past0 R N0 x k (SLess true p b) Wp S) as (_ & _ & So).
    assert (I : In m (scan_out (SLess true p b))) by (cbn [scan_out]; rewrite Eb; now left).
    destruct (So m I) as (S1 & S2 & S3 & _). exists m. split; [|auto]. rewrite Eb. cbn [hd_error].
    unfold tree_result. destruct (mo_type o) eqn:Ty; try reflexivity.
    rewrite (Ex eq_refl) in Lm. assert (E : m = p).
    { destruct S as (xa & D & D' & _). destruct (thread_at f ov i x0 past0 R N0 x (store_exec_trans _ _ _ _ _ D D')) as (_ & t0 & _ & _ & Nt & _ & Rt & _).
      destruct (wt_here f ov _ i t0 Rt Nt) as (CW & _ & _).
      apply (covers_antisym f); [exact (CW _ S1)|exact Wp|exact S3|]. destruct S3 as [S3 _]. lia. }
    rewrite E, pid_eqb_refl. reflexivity. }
  destruct H as (c & C & Ic & Cc & Lc). unfold wmain_ok in M. rewrite C in M, Q. destruct M as (v & Lu & ->). exists c, v.
  split; [exact Ic|]. split; [exact Cc|]. split; [exact Lc|]. split; [exact (looked_read _ _ _ _ _ _ R N0 _ _ _ _ _ Lu)|].
  destruct v as [[|a v]|]; [now destruct Q as (_ & Q & _)| |now destruct Q as (_ & Q & _)].
  destruct Q as (_ & Q2 & Q3). auto.
Qed.

(* ---------- the iterators ---------- *)

Lemma weach_ends f ov B k i x0 n x q : store_reach f ov x0 -> wf_each f k -> siterating f ov B k i x0 n x q ->
  each_over q = true -> exists g, q = ItEnd g.
Proof.
  intros R Wk A O. destruct (asking_idle _ _ _ _ _ _ _ _ _ _ _ _ _ _ _ A) as (past0 & N0).
  pose proof (weach_inv f ov B i x0 past0 R N0 k Wk n x q A) as I.
  destruct q as [m c|sc cur got|got|]; try discriminate O; [now exists got|contradiction I].
Qed.

Lemma witemised_in f ov B i x0 k x l g : witemised f ov B i x0 k x l g -> forall r, In r g ->
  exists c v u, r = ROk ((f, c), u) /\ In c l /\ looked f ov B i x0 (each_mui k) (each_iw k) x c v /\ each_gives k v u.
Proof.
  intros F. induction F as [|l g c v F IH L]; intros r I; [easy|]. apply in_app_or in I. destruct I as [I|I].
  - destruct (IH r I) as (c' & v' & u & A & A' & C). exists c', v', u. split; [exact A|]. split; [|exact C].
    apply in_or_app. now left.
  - destruct (item_shape _ _ _ _ _ I) as (u & -> & G). exists c, v, u. split; [reflexivity|].
    split; [apply in_or_app; right; now left|]. auto.
Qed.
Lemma witemised_all f ov B i x0 k x l g : witemised f ov B i x0 k x l g -> forall c, In c l ->
  exists v, looked f ov B i x0 (each_mui k) (each_iw k) x c v /\ forall u, each_gives k v u -> In (ROk ((f, c), u)) g.
Proof.
  intros F. induction F as [|l g c v F IH L]; intros a I; [easy|]. apply in_app_or in I. destruct I as [I|[<-|[]]].
  - destruct (IH a I) as (v' & A & A'). exists v'. split; [exact A|]. intros u G. apply in_or_app. left. now apply A'.
  - exists v. split; [exact L|]. intros u G. apply in_or_app. right. now apply item_given.
Qed.
Lemma witemised_nodup f ov B i x0 k x l g : witemised f ov B i x0 k x l g -> NoDup l -> NoDup (prefixes_given g).
Proof.
  intros F. induction F as [|l g c v F IH L]; intros N; [apply NoDup_nil|].
  assert (N' : NoDup l /\ ~ In c l).
  { pose proof (NoDup_remove l [] c N) as Q. rewrite app_nil_r in Q. exact Q. }
  destruct N' as [N1 N2]. specialize (IH N1).
  assert (Ap : prefixes_given (g ++ each_item f k c (ROk v)) = prefixes_given g ++ prefixes_given (each_item f k c (ROk v))) by apply flat_map_app.
  rewrite Ap. destruct (item_prefixes f k c v) as [E|E]; rewrite E; [now rewrite app_nil_r|].
  apply NoDup_rev in IH. rewrite <- (rev_involutive (_ ++ _)). apply NoDup_rev. rewrite rev_app_distr.
  cbn [rev app]. apply NoDup_cons; [|exact IH]. intros I. rewrite <- in_rev in I. apply in_flat_map in I.
  destruct I as (r & I & J). destruct (witemised_in _ _ _ _ _ _ _ _ _ F r I) as (c' & v' & u & -> & Ic & _).
  destruct J as [[= <-]|[]]. contradiction.
Qed.

Lemma weach_sound f ov B k i x0 past0 n x g : store_reach f ov x0 -> wf_each f k ->
  nth_error (sc_sts x0) i = Some (SThread SIdle past0) -> siterating f ov B k i x0 n x (ItEnd g) ->
  NoDup (prefixes_given g) /\
  forall r, In r g -> exists c v l, r = ROk ((f, c), l) /\ 0 < p_len c /\ each_of f k c /\ In c (wc_called (sc_tree x)) /\
    read_of B past0 x c (each_mui k) (each_iw k) v /\ each_gives k v l /\ (v <> None -> known_by x i c).
Proof.
  intros R Wk N0 A. pose proof (weach_inv f ov B i x0 past0 R N0 k Wk n x _ A) as I. cbn [witI] in I.
  destruct I as [(-> & _)|(j & sc & [S G] & Sa & It)]; [split; [apply NoDup_nil|easy]|].
  pose proof (same_pfx f k Wk sc Sa) as Wp. destruct (wsub_sound f ov i x0 past0 R N0 x j sc Wp S) as (_ & ND & So). split.
  - exact (witemised_nodup _ _ _ _ _ _ _ _ _ It ND).
  - intros r Ir. destruct (witemised_in _ _ _ _ _ _ _ _ _ It r Ir) as (c & v & l & -> & Ic & Lu & Gi). apply in_rev in Ic.
    destruct (So c Ic) as (S1 & S2 & S3). exists c, v, l. split; [reflexivity|]. split; [exact S2|]. split.
    { unfold same_scan in Sa. unfold each_of. destruct k as [p mu iw|p mu iw| |mu iw], sc as [q m|[] q b]; try contradiction Sa;
        subst q; auto. destruct S3 as [S4 S5]. auto. }
    split; [exact S1|]. split; [exact (looked_read _ _ _ _ _ _ R N0 _ _ _ _ _ Lu)|]. split; [exact Gi|].
    intros NE. destruct v as [v|]; [|now elim NE]. exact (looked_known _ _ _ _ _ R _ _ _ _ _ Lu).
Qed.

Lemma weach_complete f ov B k i x0 past0 n x g : store_reach f ov x0 -> wf_each f k ->
  nth_error (sc_sts x0) i = Some (SThread SIdle past0) -> siterating f ov B k i x0 n x (ItEnd g) ->
  match k with EachLess _ _ _ => True | _ => forall c, In c (wc_called (sc_tree x)) -> exists rc, In (c, rc) past0 end ->
  each_looks f k ->
  (g = [] /\ exists m bmin, each_asks k = Some m /\ B bmin /\ In m bmin) \/
  forall c rc, In (c, rc) past0 -> 0 < p_len c -> each_of f k c ->
    exists v, read_of B past0 x c (each_mui k) (each_iw k) v /\ forall l, each_gives k v l -> In (ROk ((f, c), l)) g.
Proof.
  intros R Wk N0 A NI Lk. pose proof (weach_inv f ov B i x0 past0 R N0 k Wk n x _ A) as I. cbn [witI] in I.
  destruct I as [I|(j & sc & [S G] & Sa & It)]; [now left|].
  right. intros c rc Ic L1 Of. pose proof (same_pfx f k Wk sc Sa) as Wp.
  assert (IN : In c (rev (scan_out sc))).
  { destruct sc as [p m|[] p b]; cbn [scan_pfx scan_out] in *.
    + assert (K : (forall c, In c (wc_called (sc_tree x)) -> exists rc, In (c, rc) past0) /\ p_len p < BITS f /\ covers f p c).
      { destruct k; try contradiction Sa; cbn in Sa; subst p; auto. }
      destruct K as (K1 & K2 & K3). exact (wsub_more f ov i x0 past0 R N0 x j p m c rc Wp S G K1 K2 Ic L1 K3).
    + destruct k; contradiction Sa.
    + destruct k as [|q mu iw| |]; try contradiction Sa. cbn in Sa. subst p. destruct Of as [O1 O2].
      exact (wsub_less f ov i x0 past0 R N0 x j q b c rc Wp S G Ic L1 O2 O1). }
  destruct (witemised_all _ _ _ _ _ _ _ _ _ It c IN) as (v & Lu & D). exists v.
  split; [exact (looked_read _ _ _ _ _ _ R N0 _ _ _ _ _ Lu)|exact D].
Qed.
