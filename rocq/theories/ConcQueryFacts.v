(* What match_prefix and the iterators give beside concurrent calls. *)
From Coq Require Import Arith NArith List Bool Lia.
From Verif Require Import Word Af BitSpan Spec Maps ChtMath Cht Node Tree Iter
  MultiMap RecordSet PrefixCht Lsm Rib StarCast HistSpec Ask
  Conc ConcTree ConcStore ConcMarks ConcStoreInv ConcCalls ConcSpec ConcFacts ConcScan ConcScanSpec ConcScanFacts
  ConcWhole WholeSpec ConcWholeSim ConcWholeFacts ConcWholeRead ConcQuery QuerySpec ConcQueryProofs ConcQueryInv ConcEachInv.
Import ListNotations.
Local Open Scope N_scope.

(* ---------- match_prefix ---------- *)

Lemma match_no_panic ov st f p o x0 n x q : wreach ov st x0 -> wf_pid f p -> wf_mui (mo_mui o) ->
  matching ov f p o x0 n x q -> wwf_calls x -> match_over q = true -> exists r, q = AtEnd (ROk r).
Proof.
  intros R Wp Wm B W O. pose proof (match_inv ov st f x0 p o R Wp Wm n x q B W) as I.
  destruct q as [sc|lm sc|lm ls sc|t l|more t main ms todo got l|r|]; try discriminate O; [|contradiction I].
  cbn [atI] in I. destruct I as (t & main & ms & ls & _ & _ & _ & _ & E). unfold at_end in E. rewrite E. eexists. reflexivity.
Qed.

(* the parts of the result *)
Lemma match_parts ov st f p o x0 n x r : wreach ov st x0 -> wf_pid f p -> wf_mui (mo_mui o) ->
  matching ov f p o x0 n x (AtEnd (ROk r)) -> wwf_calls x ->
  exists t main ms ls, tree_ok ov st f x0 p o x t /\ main_ok ov f x0 o x t main /\
    fill_ok ov f x0 o x (tr_more t) ms /\ fill_ok ov f x0 o x (tr_less t) ls /\
    qr_less r = option_map rs_from_iter ls /\ qr_more r = option_map rs_from_iter ms /\
    match main with
    | Some l => qr_type r = tr_type t /\ qr_prefix r = option_map (fun q => (f, q)) (tr_prefix t) /\ qr_records r = l
    | None => qr_type r = EmptyMatch /\ qr_prefix r = None /\ qr_records r = []
    end.
Proof.
  intros R Wp Wm B W. pose proof (match_inv ov st f x0 p o R Wp Wm n x _ B W) as I.
  cbn [atI] in I. destruct I as (t & main & ms & ls & A1 & A2 & A3 & A4 & E).
  unfold at_end in E. exists t, main, ms, ls. split; [exact A1|]. split; [exact A2|]. split; [exact A3|]. split; [exact A4|].
  injection E as ->. destruct main as [l|]; cbn; split; auto.
Qed.

Lemma match_main_sound ov st f p o x0 n x r : wreach ov st x0 -> wf_pid f p -> wf_mui (mo_mui o) ->
  matching ov f p o x0 n x (AtEnd (ROk r)) -> wwf_calls x ->
  match qr_prefix r with
  | None => qr_type r = EmptyMatch /\ qr_records r = []
  | Some a => qr_type r = (match mo_type o with ExactMatch => ExactMatch | _ => LongestMatch end) /\
      qr_records r <> [] /\
      exists c, a = (f, c) /\ 0 < p_len c /\ covers f c p /\ (mo_type o = ExactMatch -> c = p) /\
        being_inserted x f c /\ looked_up ov x0 x f c (mo_mui o) (mo_withdrawn o) (Some (qr_records r))
  end.
Proof.
  intros R Wp Wm B W. destruct (match_parts ov st f p o x0 n x r R Wp Wm B W) as (t & main & ms & ls & T & M & _ & _ & _ & _ & Q).
  unfold main_ok in M. destruct main as [l|]; [|destruct Q as (Q1 & -> & Q3); easy].
  destruct Q as (Q1 & Q2 & Q3). destruct (tr_prefix t) as [c|] eqn:C; [|discriminate M]. rewrite Q2. cbn [option_map].
  destruct M as (v & Lu & M). destruct v as [[|a v]|]; try discriminate M. injection M as ->.
  destruct (tree_prefix ov st f x0 p o x t c T C) as (k & b & [S _] & H & Ty & Ex).
  destruct (sub_sound ov st f x0 x k (SLess true p b) Wp S) as [_ So].
  assert (I : In c (scan_out (SLess true p b))).
  { cbn [scan_out]. destruct (bs_out b); [discriminate H|]. injection H as ->. now left. }
  destruct (So c I) as (S1 & S2 & S3 & S4 & _).
  split; [now rewrite Q1|]. split; [rewrite Q3; discriminate|]. exists c. rewrite Q3. auto 7.
Qed.

Lemma fill_items ov f x0 o x l g : filled ov f x0 (mo_mui o) (mo_withdrawn o) x l g ->
  rs_items (rs_from_iter g) = Ok g.
Proof.
  intros F. apply (rs_items_family f). intros [a v] I. destruct (filled_in _ _ _ _ _ _ _ _ F _ _ I) as (c & -> & _). reflexivity.
Qed.

Lemma desc_nodup l : len_desc l -> NoDup l.
Proof.
  induction l as [|a l IH]; intros D; [apply NoDup_nil|]. destruct D as [D1 D2].
  apply NoDup_cons; [|now apply IH]. intros I. specialize (D1 a I). lia.
Qed.

Lemma match_less_sound ov st f p o x0 n x r : wreach ov st x0 -> wf_pid f p -> wf_mui (mo_mui o) ->
  matching ov f p o x0 n x (AtEnd (ROk r)) -> wwf_calls x ->
  if mo_less o then exists rs l, qr_less r = Some rs /\ rs_items rs = Ok l /\ NoDup (List.map fst l) /\
    forall a v, In (a, v) l -> exists c, a = (f, c) /\ 0 < p_len c /\ p_len c < p_len p /\ covers f c p /\
      being_inserted x f c /\ looked_up ov x0 x f c (mo_mui o) (mo_withdrawn o) (Some v)
  else qr_less r = None.
Proof.
  intros R Wp Wm B W. destruct (match_parts ov st f p o x0 n x r R Wp Wm B W) as (t & main & ms & ls & T & _ & _ & L & Q & _ & _).
  destruct (tree_sets ov st f x0 p o x t T) as [N _]. rewrite Q. unfold fill_ok in L.
  destruct (tr_less t) as [l|] eqn:E.
  - destruct ls as [g|]; [|contradiction L]. destruct (tree_less ov st f x0 p o x t l T E) as (-> & k & b & [S G] & ->).
    exists (rs_from_iter g), g. split; [reflexivity|]. split; [exact (fill_items _ _ _ _ _ _ _ L)|]. split.
    + apply (filled_nodup _ _ _ _ _ _ _ _ L). destruct S as (xa & za & z & _ & _ & Rz & _ & _ & Sc & _).
      apply desc_nodup. exact (conc_less_sorted f ov st p za k z b Rz Wp Sc).
    + intros a v I. destruct (filled_in _ _ _ _ _ _ _ _ L _ _ I) as (c & -> & Ic & Lu). exists c. split; [reflexivity|].
      apply in_rev in Ic. destruct (sub_sound ov st f x0 x k (SLess false p b) Wp S) as [_ So].
      destruct (So c Ic) as (S1 & S2 & S3 & S4 & S5). auto 7.
  - destruct ls; [contradiction L|]. rewrite (N eq_refl). reflexivity.
Qed.

Lemma match_more_sound ov st f p o x0 n x r : wreach ov st x0 -> wf_pid f p -> wf_mui (mo_mui o) ->
  matching ov f p o x0 n x (AtEnd (ROk r)) -> wwf_calls x ->
  if mo_more o then exists rs l, qr_more r = Some rs /\ rs_items rs = Ok l /\ NoDup (List.map fst l) /\
    forall a v, In (a, v) l -> exists c, a = (f, c) /\ 0 < p_len c /\ c <> p /\ covers f p c /\
      being_inserted x f c /\ looked_up ov x0 x f c (mo_mui o) (mo_withdrawn o) (Some v)
  else qr_more r = None.
Proof.
  intros R Wp Wm B W. destruct (match_parts ov st f p o x0 n x r R Wp Wm B W) as (t & main & ms & ls & T & _ & L & _ & _ & Q & _).
  destruct (tree_sets ov st f x0 p o x t T) as [_ N]. rewrite Q. unfold fill_ok in L.
  destruct (tr_more t) as [l|] eqn:E.
  - destruct ms as [g|]; [|contradiction L]. destruct (tree_more ov st f x0 p o x t l T E) as (-> & k & b & [S G] & ->).
    exists (rs_from_iter g), g. split; [reflexivity|]. split; [exact (fill_items _ _ _ _ _ _ _ L)|]. split.
    + apply (filled_nodup _ _ _ _ _ _ _ _ L). destruct S as (xa & za & z & _ & _ & Rz & _ & _ & Sc & _).
      apply NoDup_filter. exact (proj1 (proj2 (conc_scan_sound f ov st p za k z b Rz Wp Sc))).
    + intros a v I. destruct (filled_in _ _ _ _ _ _ _ _ L _ _ I) as (c & -> & Ic & Lu). exists c. split; [reflexivity|].
      apply filter_In in Ic. destruct Ic as [Ic Nq]. apply in_rev in Ic.
      destruct (sub_sound ov st f x0 x k (SMore p b) Wp S) as [_ So].
      destruct (So c Ic) as (S1 & S2 & S3 & S4). split; [exact S3|]. split; [|auto].
      intros ->. rewrite pid_eqb_refl in Nq. discriminate.
  - destruct ms; [contradiction L|]. rewrite (N eq_refl). reflexivity.
Qed.

(* every less specific prefix that was in the store before *)
Lemma match_less_complete ov st f p o x0 n x r : wreach ov st x0 -> wf_pid f p -> wf_mui (mo_mui o) ->
  matching ov f p o x0 n x (AtEnd (ROk r)) -> wwf_calls x -> mo_less o = true ->
  forall c, was_inserted x0 f c -> 0 < p_len c -> p_len c < p_len p -> covers f c p ->
    exists v, looked_up ov x0 x f c (mo_mui o) (mo_withdrawn o) v /\
      forall l, v = Some l -> in_set (qr_less r) ((f, c), l).
Proof.
  intros R Wp Wm B W Lo c In0 L1 L2 Cv.
  destruct (match_parts ov st f p o x0 n x r R Wp Wm B W) as (t & main & ms & ls & T & _ & _ & L & Q & _ & _).
  destruct (tree_sets ov st f x0 p o x t T) as [N _]. unfold fill_ok in L.
  destruct (tr_less t) as [l|] eqn:E; [|rewrite (N eq_refl) in Lo; discriminate].
  destruct ls as [g|]; [|contradiction L]. destruct (tree_less ov st f x0 p o x t l T E) as (_ & k & b & [S G] & ->).
  destruct (sub_before ov st f x0 x k _ S c In0) as (za & z & Rz & _ & Sc & (i & rc & ups & rep & Rt)). cbn [scan_run] in Sc.
  assert (O : look_over b = true).
  { cbn in G. unfold look_over. now destruct (bs_pc b). }
  pose proof (conc_less_complete f ov st p za k z b Rz Wp Sc O c i rc ups rep Rt L1 L2 Cv) as I.
  destruct (filled_all _ _ _ _ _ _ _ _ L c I) as (v & A & D). exists v. split; [exact A|].
  intros u Eu. rewrite Q. exists (rs_from_iter g), g. split; [reflexivity|]. split; [exact (fill_items _ _ _ _ _ _ _ L)|].
  now apply D.
Qed.

(* every more specific prefix, if there are no inserts meanwhile *)
Lemma match_more_complete ov st f p o x0 n x r : wreach ov st x0 -> wf_pid f p -> wf_mui (mo_mui o) ->
  matching ov f p o x0 n x (AtEnd (ROk r)) -> wwf_calls x -> mo_more o = true -> no_inserts x0 x f ->
  forall c, was_inserted x0 f c -> 0 < p_len c -> p_len p < p_len c -> covers f p c ->
    exists v, looked_up ov x0 x f c (mo_mui o) (mo_withdrawn o) v /\
      forall l, v = Some l -> in_set (qr_more r) ((f, c), l).
Proof.
  intros R Wp Wm B W Lo NI c In0 L1 L2 Cv.
  destruct (match_parts ov st f p o x0 n x r R Wp Wm B W) as (t & main & ms & ls & T & _ & L & _ & _ & Q & _).
  destruct (tree_sets ov st f x0 p o x t T) as [_ N]. unfold fill_ok in L.
  destruct (tr_more t) as [l|] eqn:E; [|rewrite (N eq_refl) in Lo; discriminate].
  destruct ms as [g|]; [|contradiction L]. destruct (tree_more ov st f x0 p o x t l T E) as (_ & k & b & [S G] & ->).
  pose proof (sub_not_cut ov st f x0 x k _ S NI) as NC.
  destruct (sub_before ov st f x0 x k _ S c In0) as (za & z & Rz & Sm & Sc & (i & rc & ups & rep & Rt)). cbn [scan_run] in Sc.
  assert (O : sc_pc b = MDone true).
  { cbn in G, NC. destruct (sc_pc b) as [| | | | | | | |[]|]; try discriminate G; [reflexivity|now elim NC]. }
  assert (Lp : p_len p < BITS f).
  { assert (Wc : wf_pid f c).
    { assert (St : started za i (CInsert c rc ups)) by (destruct Rt as (lc & Nc & _); now exists lc).
      exact (wf_prefix _ _ _ _ _ _ _ _ (reach_sok _ _ _ _ Rz) St). }
    destruct Wc as [Wc _]. lia. }
  pose proof (conc_scan_complete f ov st p za k z b Rz Wp Sc O c i rc ups rep Rt L1 Cv Lp) as I.
  assert (If : In c (filter (fun q => negb (pid_eqb q p)) (rev (sc_out b)))).
  { apply filter_In. split; [exact I|]. destruct (pid_eqb c p) eqn:Qc; [|reflexivity]. apply pid_eqb_spec in Qc. subst c. lia. }
  destruct (filled_all _ _ _ _ _ _ _ _ L c If) as (v & A & D). exists v. split; [exact A|].
  intros u Eu. rewrite Q. exists (rs_from_iter g), g. split; [reflexivity|]. split; [exact (fill_items _ _ _ _ _ _ _ L)|].
  now apply D.
Qed.

(* the longest match: for one prefix c at least as long as any that was in the store
   before, the result is what a look-up of c gives *)
Lemma match_longest ov st f p o x0 n x r : wreach ov st x0 -> wf_pid f p -> wf_mui (mo_mui o) ->
  matching ov f p o x0 n x (AtEnd (ROk r)) -> wwf_calls x ->
  forall q, was_inserted x0 f q -> 0 < p_len q -> covers f q p -> (mo_type o = ExactMatch -> q = p) ->
    exists c v, being_inserted x f c /\ covers f c p /\ p_len q <= p_len c /\
      looked_up ov x0 x f c (mo_mui o) (mo_withdrawn o) v /\
      match v with
      | Some (a :: l) => qr_prefix r = Some (f, c) /\ qr_records r = a :: l
      | _ => qr_prefix r = None
      end.
Proof.
  intros R Wp Wm B W q In0 L1 Cv Ex.
  destruct (match_parts ov st f p o x0 n x r R Wp Wm B W) as (t & main & ms & ls & T & M & _ & _ & _ & _ & Q).
  assert (H : exists c, tr_prefix t = Some c /\ p_len q <= p_len c).
  { destruct T as (lm & ls' & ms' & (k & b & [S G] & ->) & _ & _ & ->).
    destruct (sub_before ov st f x0 x k _ S q In0) as (za & z & Rz & _ & Sc & (i & rc & ups & rep & Rt)). cbn [scan_run] in Sc.
    assert (O : look_over b = true).
    { cbn in G. unfold look_over. now destruct (bs_pc b). }
    destruct (conc_longest f ov st p za k z b Rz Wp Sc O) as [_ Lg].
    destruct (Lg q i rc ups rep Rt L1 Cv) as (m & Em & Lm).
    assert (Eb : bs_out b = [m]).
    { rewrite <- (rev_involutive (bs_out b)). unfold matches in Em. now rewrite Em. }
    rewrite Eb. cbn [hd_error]. exists m. split; [|exact Lm].
    unfold tree_result. destruct (mo_type o) eqn:Ty; try reflexivity.
    assert (I : In m (scan_out (SLess true p b))) by (cbn [scan_out]; rewrite Eb; now left).
    destruct (sub_sound ov st f x0 x k (SLess true p b) Wp S) as [_ So]. destruct (So m I) as (_ & Wm' & _ & Cm & _).
    rewrite (Ex eq_refl) in Lm. assert (E : m = p).
    { apply (covers_antisym f); [exact Wm'|exact Wp|exact Cm|]. destruct Cm as [Cm1 _]. lia. }
    rewrite E, pid_eqb_refl. reflexivity. }
  destruct H as (c & C & Lc). unfold main_ok in M. rewrite C in M, Q. destruct M as (v & Lu & ->). exists c, v.
  destruct (tree_prefix ov st f x0 p o x t c T C) as (k & b & [S _] & Hb & _ & _).
  destruct (sub_sound ov st f x0 x k (SLess true p b) Wp S) as [_ So].
  assert (I : In c (scan_out (SLess true p b))).
  { cbn [scan_out]. destruct (bs_out b); [discriminate Hb|]. injection Hb as ->. now left. }
  destruct (So c I) as (S1 & S2 & S3 & S4 & _).
  split; [exact S1|]. split; [exact S4|]. split; [exact Lc|]. split; [exact Lu|].
  destruct v as [[|a v]|]; [now destruct Q as (_ & Q & _)| |now destruct Q as (_ & Q & _)].
  destruct Q as (_ & Q2 & Q3). auto.
Qed.

(* ---------- the iterators ---------- *)

Lemma each_no_panic ov st f k x0 n x q : wreach ov st x0 -> wf_each f k -> iterating ov f k x0 n x q -> wwf_calls x ->
  each_over q = true -> exists g, q = ItEnd g.
Proof.
  intros R Wk B W O. pose proof (each_inv ov st f x0 k R Wk n x q B W) as I.
  destruct q as [m c|sc cur got|got|]; try discriminate O; [now exists got|contradiction I].
Qed.

Lemma item_shape f k c v r : In r (each_item f k c (ROk v)) -> exists l, r = ROk ((f, c), l) /\ each_gives k v l.
Proof.
  unfold each_item, each_gives. destruct k; destruct v as [l|]; cbn [In]; intros I; try contradiction I;
    destruct I as [<-|[]]; eexists; (split; [reflexivity|easy]).
Qed.
Lemma item_given f k c v l : each_gives k v l -> In (ROk ((f, c), l)) (each_item f k c (ROk v)).
Proof. unfold each_item, each_gives. destruct k; intros ->; now left. Qed.

Lemma itemised_in ov f x0 k x l g : itemised ov f x0 k x l g -> forall r, In r g ->
  exists c v u, r = ROk ((f, c), u) /\ In c l /\ looked_up ov x0 x f c (each_mui k) (each_iw k) v /\ each_gives k v u.
Proof.
  intros F. induction F as [|l g c v F IH L]; intros r I; [easy|]. apply in_app_or in I. destruct I as [I|I].
  - destruct (IH r I) as (c' & v' & u & A & B & C). exists c', v', u. split; [exact A|]. split; [|exact C].
    apply in_or_app. now left.
  - destruct (item_shape _ _ _ _ _ I) as (u & -> & G). exists c, v, u. split; [reflexivity|].
    split; [apply in_or_app; right; now left|]. auto.
Qed.
Lemma itemised_all ov f x0 k x l g : itemised ov f x0 k x l g -> forall c, In c l ->
  exists v, looked_up ov x0 x f c (each_mui k) (each_iw k) v /\ forall u, each_gives k v u -> In (ROk ((f, c), u)) g.
Proof.
  intros F. induction F as [|l g c v F IH L]; intros a I; [easy|]. apply in_app_or in I. destruct I as [I|[<-|[]]].
  - destruct (IH a I) as (v' & A & B). exists v'. split; [exact A|]. intros u G. apply in_or_app. left. now apply B.
  - exists v. split; [exact L|]. intros u G. apply in_or_app. right. now apply item_given.
Qed.
Lemma item_prefixes f k c v : prefixes_given (each_item f k c (ROk v)) = [] \/ prefixes_given (each_item f k c (ROk v)) = [(f, c)].
Proof. unfold each_item. destruct k, v; cbn; auto. Qed.
Lemma itemised_nodup ov f x0 k x l g : itemised ov f x0 k x l g -> NoDup l -> NoDup (prefixes_given g).
Proof.
  intros F. induction F as [|l g c v F IH L]; intros N; [apply NoDup_nil|].
  assert (N' : NoDup l /\ ~ In c l).
  { pose proof (NoDup_remove l [] c N) as Q. rewrite app_nil_r in Q. exact Q. }
  destruct N' as [N1 N2]. specialize (IH N1).
  assert (Ap : prefixes_given (g ++ each_item f k c (ROk v)) = prefixes_given g ++ prefixes_given (each_item f k c (ROk v))) by apply flat_map_app.
  rewrite Ap. destruct (item_prefixes f k c v) as [E|E]; rewrite E; [now rewrite app_nil_r|].
  apply NoDup_rev in IH. rewrite <- (rev_involutive (_ ++ _)). apply NoDup_rev. rewrite rev_app_distr.
  cbn [rev app]. apply NoDup_cons; [|exact IH]. intros I. rewrite <- in_rev in I. apply in_flat_map in I.
  destruct I as (r & I & J). destruct (itemised_in _ _ _ _ _ _ _ F r I) as (c' & v' & u & -> & Ic & _).
  destruct J as [[= <-]|[]]. contradiction.
Qed.

Lemma each_sound ov st f k x0 n x g : wreach ov st x0 -> wf_each f k -> iterating ov f k x0 n x (ItEnd g) -> wwf_calls x ->
  NoDup (prefixes_given g) /\
  forall r, In r g -> exists c v l, r = ROk ((f, c), l) /\ 0 < p_len c /\ each_of f k c /\ being_inserted x f c /\
    looked_up ov x0 x f c (each_mui k) (each_iw k) v /\ each_gives k v l.
Proof.
  intros R Wk B W. pose proof (each_inv ov st f x0 k R Wk n x _ B W) as I. cbn [itI] in I.
  destruct I as [(-> & _)|(j & sc & [S G] & Sa & It)]; [split; [apply NoDup_nil|easy]|].
  pose proof (same_pfx f k Wk sc Sa) as Wp. destruct (sub_sound ov st f x0 x j sc Wp S) as [_ So]. split.
  - apply (itemised_nodup _ _ _ _ _ _ _ It). destruct S as (xa & za & z & _ & _ & Rz & _ & _ & Sc & _).
    destruct sc as [p m|[] p b]; cbn [scan_run scan_pfx scan_out] in *.
    + exact (proj1 (proj2 (conc_scan_sound f ov st p za j z m Rz Wp Sc))).
    + destruct k; contradiction Sa.
    + apply desc_nodup. exact (conc_less_sorted f ov st p za j z b Rz Wp Sc).
  - intros r Ir. destruct (itemised_in _ _ _ _ _ _ _ It r Ir) as (c & v & l & -> & Ic & Lu & Gi). apply in_rev in Ic.
    destruct (So c Ic) as (S1 & S2 & S3 & S4). exists c, v, l. split; [reflexivity|]. split; [exact S3|]. split.
    { unfold same_scan in Sa. unfold each_of. destruct k as [p mu iw|p mu iw| |mu iw], sc as [q m|[] q b]; try contradiction Sa;
        subst q; auto. destruct S4 as [S4 S5]. auto. }
    auto.
Qed.

(* every prefix that was in the store before, if there are no inserts meanwhile and the
   mui is not withdrawn *)
Lemma each_complete ov st f k x0 n x g : wreach ov st x0 -> wf_each f k -> iterating ov f k x0 n x (ItEnd g) -> wwf_calls x ->
  match k with EachLess _ _ _ => True | _ => no_inserts x0 x f end -> each_looks f k ->
  (g = [] /\ exists m w, each_asks k = Some m /\ wexec ov x0 w /\ wexec ov w x /\
     ask (store_now (sh w)) (QWithdrawn f m) = Ok (ABool true)) \/
  forall c, was_inserted x0 f c -> 0 < p_len c -> each_of f k c ->
    exists v, looked_up ov x0 x f c (each_mui k) (each_iw k) v /\ forall l, each_gives k v l -> In (ROk ((f, c), l)) g.
Proof.
  intros R Wk B W NI Lk. pose proof (each_inv ov st f x0 k R Wk n x _ B W) as I. cbn [itI] in I.
  destruct I as [(-> & m & w & A1 & A2 & A3 & A4)|(j & sc & [S G] & Sa & It)].
  - left. split; [reflexivity|]. exists m, w. split; [exact A1|]. split; [exact A2|]. split; [exact A3|].
    cbn [ask]. unfold mui_is_withdrawn.
    assert (Eb : rib_of (store_now (sh w)) f = rib_now (sh w) f) by now destruct f.
    now rewrite Eb, A4.
  - right. intros c In0 L1 Of. pose proof (same_pfx f k Wk sc Sa) as Wp.
    destruct (sub_before ov st f x0 x j sc S c In0) as (za & z & Rz & Sm & Sc & (i & rc & ups & rep & Rt)).
    apply (itemised_all _ _ _ _ _ _ _ It c).
    destruct sc as [p m|[] p b]; cbn [scan_run scan_pfx scan_out] in *.
    + assert (K : no_inserts x0 x f /\ p_len p < BITS f /\ covers f p c).
      { destruct k; try contradiction Sa; cbn in Sa; subst p; auto. }
      destruct K as (K1 & K2 & K3). pose proof (sub_not_cut ov st f x0 x j _ S K1) as NC.
      assert (O : sc_pc m = MDone true).
      { cbn in G, NC. destruct (sc_pc m) as [| | | | | | | |[]|]; try discriminate G; [reflexivity|now elim NC]. }
      exact (conc_scan_complete f ov st p za j z m Rz Wp Sc O c i rc ups rep Rt L1 K3 K2).
    + destruct k; contradiction Sa.
    + assert (O : look_over b = true).
      { cbn in G. unfold look_over. now destruct (bs_pc b). }
      destruct k as [|q mu iw| |]; try contradiction Sa. cbn in Sa. subst p. destruct Of as [O1 O2].
      exact (conc_less_complete f ov st q za j z b Rz Wp Sc O c i rc ups rep Rt L1 O2 O1).
Qed.
