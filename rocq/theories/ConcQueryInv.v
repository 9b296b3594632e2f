(* match_prefix and the iterators beside concurrent calls, part by part. *)
From Coq Require Import Arith NArith List Bool Lia.
From Verif Require Import Word Af BitSpan Spec Maps ChtMath Cht Node Tree Iter
  MultiMap RecordSet PrefixCht Lsm Rib StarCast HistSpec Ask
  Conc ConcTree ConcStore ConcMarks ConcSpec ConcScan ConcScanSpec ConcScanFacts
  ConcWhole WholeSpec ConcWholeSim ConcWholeFacts ConcWholeRead ConcQuery QuerySpec ConcQueryProofs.
Import ListNotations.
Local Open Scope N_scope.

Lemma wbeside_exec {S} ov over (next : wstate -> S -> S) x0 s0 n x s :
  wbeside ov over next x0 s0 n x s -> wexec ov x0 x.
Proof.
  intros B. induction B as [|n x y s B IH T|n x s B IH O]; [apply ex_refl|eapply ex_step; eauto|exact IH].
Qed.

Section Parts.
Variables (ov : bool) (st : strategy) (f : af) (x0 : wstore).

Definition ended (x : wstore) (n : nat) (sc : scan) : Prop := sub ov st f x0 x n sc /\ scan_stage sc = Ended.
Lemma ended_exec x y n sc : ended x n sc -> wexec ov x y -> ended y n sc.
Proof. intros [A B] E. split; [eapply sub_exec; eauto|exact B]. Qed.

(* the prefixes l were looked up one after the other, and g is what came of it *)
Inductive filled (mui : option N) (iw : bool) (x : wstore) : list pid -> list prefixrecord -> Prop :=
| fi_nil : filled mui iw x [] []
| fi_some l g c v : filled mui iw x l g -> looked_up ov x0 x f c mui iw (Some v) ->
    filled mui iw x (l ++ [c]) (g ++ [((f, c), v)])
| fi_none l g c : filled mui iw x l g -> looked_up ov x0 x f c mui iw None -> filled mui iw x (l ++ [c]) g.
Lemma filled_exec mui iw x y l g : wexec ov x y -> filled mui iw x l g -> filled mui iw y l g.
Proof.
  intros E F. induction F as [|l g c v F IH L|l g c F IH L]; [apply fi_nil|apply fi_some|apply fi_none]; auto;
    eapply looked_exec; eauto.
Qed.

Lemma filled_in mui iw x l g : filled mui iw x l g -> forall a v, In (a, v) g ->
  exists c, a = (f, c) /\ In c l /\ looked_up ov x0 x f c mui iw (Some v).
Proof.
  intros F. induction F as [|l g c w F IH L|l g c F IH L]; intros a v I; [easy| |].
  - apply in_app_or in I. destruct I as [I|[E|[]]].
    + destruct (IH a v I) as (c' & A & B & C). exists c'. split; [exact A|]. split; [|exact C]. apply in_or_app. now left.
    + injection E as <- <-. exists c. split; [easy|]. split; [|exact L]. apply in_or_app. right. now left.
  - destruct (IH a v I) as (c' & A & B & C). exists c'. split; [exact A|]. split; [|exact C]. apply in_or_app. now left.
Qed.
Lemma filled_all mui iw x l g : filled mui iw x l g -> forall c, In c l ->
  exists v, looked_up ov x0 x f c mui iw v /\ (forall w, v = Some w -> In ((f, c), w) g).
Proof.
  intros F. induction F as [|l g c w F IH L|l g c F IH L]; intros a I; [easy| |]; apply in_app_or in I.
  - destruct I as [I|[<-|[]]].
    + destruct (IH a I) as (v & A & B). exists v. split; [exact A|]. intros u E. apply in_or_app. left. now apply B.
    + exists (Some w). split; [exact L|]. intros u [= <-]. apply in_or_app. right. now left.
  - destruct I as [I|[<-|[]]]; [exact (IH a I)|]. exists None. split; [exact L|discriminate].
Qed.
(* each prefix at most once *)
Lemma filled_nodup mui iw x l g : filled mui iw x l g -> NoDup l -> NoDup (List.map fst g).
Proof.
  intros F. induction F as [|l g c w F IH L|l g c F IH L]; intros N; [apply NoDup_nil| |].
  - assert (N' : NoDup l /\ ~ In c l).
    { pose proof (NoDup_remove l [] c N) as Q. rewrite app_nil_r in Q. exact Q. }
    destruct N' as [N1 N2]. rewrite map_app. cbn [List.map fst].
    apply NoDup_rev in IH; [|exact N1]. rewrite <- (rev_involutive (_ ++ _)). apply NoDup_rev. rewrite rev_app_distr.
    cbn [rev app]. apply NoDup_cons; [|exact IH]. intros I. rewrite <- in_rev in I. apply in_map_iff in I.
    destruct I as ([a v] & E & I). cbn [fst] in E. subst a. destruct (filled_in _ _ _ _ _ F _ _ I) as (c' & [= <-] & I' & _).
    contradiction.
  - apply IH. pose proof (NoDup_remove l [] c N) as Q. rewrite app_nil_r in Q. now destruct Q.
Qed.

Section Match.
Variables (p : pid) (o : matchopts).
Hypotheses (R : wreach ov st x0) (Wp : wf_pid f p) (Wm : wf_mui (mo_mui o)).
Let mui := mo_mui o.
Let iw := mo_withdrawn o.

Definition long_ok (x : wstore) (lm : option pid) : Prop :=
  exists n b, ended x n (SLess true p b) /\ lm = hd_error (bs_out b).
Definition less_ok (x : wstore) (ls : option (list pid)) : Prop :=
  if mo_less o then exists n b, ended x n (SLess false p b) /\ ls = Some (rev (bs_out b)) else ls = None.
Definition more_ok (x : wstore) (ms : option (list pid)) : Prop :=
  if mo_more o then exists n m, ended x n (SMore p m) /\
    ms = Some (filter (fun q => negb (pid_eqb q p)) (rev (sc_out m)))
  else ms = None.
Definition tree_ok (x : wstore) (t : treeresult) : Prop :=
  exists lm ls ms, long_ok x lm /\ less_ok x ls /\ more_ok x ms /\ t = tree_result p o lm ls ms.
Definition main_ok (x : wstore) (t : treeresult) (main : option (list record)) : Prop :=
  match tr_prefix t with
  | None => main = None
  | Some c => exists v, looked_up ov x0 x f c mui iw v /\
      main = match v with Some (a :: l) => Some (a :: l) | _ => None end
  end.
Definition fill_ok (x : wstore) (l : option (list pid)) (g : option (list prefixrecord)) : Prop :=
  match l, g with
  | Some l, Some g => filled mui iw x l g
  | None, None => True
  | _, _ => False
  end.

Definition atI (x : wstore) (q : atpc) : Prop :=
  match q with
  | AtLong sc => exists n b, sc = SLess true p b /\ sub ov st f x0 x n sc
  | AtLess lm sc => mo_less o = true /\ long_ok x lm /\ exists n b, sc = SLess false p b /\ sub ov st f x0 x n sc
  | AtMore lm ls sc => mo_more o = true /\ long_ok x lm /\ less_ok x ls /\
      exists n m, sc = SMore p m /\ sub ov st f x0 x n sc
  | AtMain t l => tree_ok x t /\ exists c, tr_prefix t = Some c /\ lookW ov f mui iw x0 x c l
  | AtFill more t main ms todo got l => tree_ok x t /\ main_ok x t main /\
      (exists dn, (if more then tr_more t else tr_less t) = Some (dn ++ todo) /\ filled mui iw x dn got) /\
      (if more then ms = None else fill_ok x (tr_more t) ms) /\
      match todo with [] => True | c :: _ => lookW ov f mui iw x0 x c l end
  | AtEnd r => exists t main ms ls, tree_ok x t /\ main_ok x t main /\ fill_ok x (tr_more t) ms /\
      fill_ok x (tr_less t) ls /\ AtEnd r = at_end f t main ms ls
  | AtPanic => False
  end.

Lemma long_exec x y lm : wexec ov x y -> long_ok x lm -> long_ok y lm.
Proof. intros E (n & b & A & B). exists n, b. split; [eapply ended_exec; eauto|exact B]. Qed.
Lemma less_exec x y ls : wexec ov x y -> less_ok x ls -> less_ok y ls.
Proof.
  unfold less_ok. destruct (mo_less o); [|easy]. intros E (n & b & A & B). exists n, b.
  split; [eapply ended_exec; eauto|exact B].
Qed.
Lemma more_exec x y ls : wexec ov x y -> more_ok x ls -> more_ok y ls.
Proof.
  unfold more_ok. destruct (mo_more o); [|easy]. intros E (n & b & A & B). exists n, b.
  split; [eapply ended_exec; eauto|exact B].
Qed.
Lemma tree_exec x y t : wexec ov x y -> tree_ok x t -> tree_ok y t.
Proof.
  intros E (lm & ls & ms & A & B & C & D). exists lm, ls, ms. split; [eapply long_exec; eauto|].
  split; [eapply less_exec; eauto|]. split; [eapply more_exec; eauto|exact D].
Qed.
Lemma main_exec x y t m : wexec ov x y -> main_ok x t m -> main_ok y t m.
Proof.
  unfold main_ok. destruct (tr_prefix t); [|easy]. intros E (v & A & B). exists v. split; [eapply looked_exec; eauto|exact B].
Qed.
Lemma fill_exec x y l g : wexec ov x y -> fill_ok x l g -> fill_ok y l g.
Proof. unfold fill_ok. destruct l, g; auto. apply filled_exec. Qed.

Lemma atI_exec x y q : wexec ov x0 x -> wexec ov x y -> atI x q -> atI y q.
Proof.
  intros E0 E. destruct q as [sc|lm sc|lm ls sc|t l|more t main ms todo got l|r|]; cbn [atI]; [ | | | | | |easy].
  - intros (n & b & A & B). exists n, b. split; [exact A|]. eapply sub_exec; eauto.
  - intros (M & A & n & b & B & C). split; [exact M|]. split; [eapply long_exec; eauto|]. exists n, b. split; [exact B|].
    eapply sub_exec; eauto.
  - intros (M & A & D & n & b & B & C). split; [exact M|]. split; [eapply long_exec; eauto|].
    split; [eapply less_exec; eauto|]. exists n, b. split; [exact B|]. eapply sub_exec; eauto.
  - intros (A & c & B & C). split; [eapply tree_exec; eauto|]. exists c. split; [exact B|]. eapply lookW_exec; eauto.
  - intros (A & B & (dn & C & D) & F & G). split; [eapply tree_exec; eauto|]. split; [eapply main_exec; eauto|].
    split. { exists dn. split; [exact C|]. eapply filled_exec; eauto. }
    split. { destruct more; [exact F|]. eapply fill_exec; eauto. }
    destruct todo; [easy|]. eapply lookW_exec; eauto.
  - intros (t & main & ms & ls & A & B & C & D & F). exists t, main, ms, ls. split; [eapply tree_exec; eauto|].
    split; [eapply main_exec; eauto|]. split; [eapply fill_exec; eauto|]. split; [eapply fill_exec; eauto|exact F].
Qed.

(* what the prefixes are *)
Lemma tree_prefix x t c : tree_ok x t -> tr_prefix t = Some c ->
  exists n b, ended x n (SLess true p b) /\ hd_error (bs_out b) = Some c /\
    tr_type t = match mo_type o with ExactMatch => ExactMatch | _ => LongestMatch end /\
    (mo_type o = ExactMatch -> c = p).
Proof.
  intros (lm & ls & ms & (n & b & A & ->) & _ & _ & ->) E. exists n, b. split; [exact A|].
  unfold tree_result in *. destruct (mo_type o); cbn [tr_prefix tr_type] in *.
  - destruct (hd_error (bs_out b)) as [q|] eqn:H; [|discriminate E]. destruct (pid_eqb q p) eqn:Q; [|discriminate E].
    cbn [tr_prefix tr_type] in *. apply pid_eqb_spec in Q. injection E as ->. easy.
  - easy.
  - easy.
Qed.
Lemma tree_less x t l : tree_ok x t -> tr_less t = Some l ->
  mo_less o = true /\ exists n b, ended x n (SLess false p b) /\ l = rev (bs_out b).
Proof.
  intros (lm & ls & ms & _ & A & _ & ->) E. assert (E' : ls = Some l).
  { rewrite <- E. unfold tree_result. destruct (mo_type o); try reflexivity. destruct lm as [q|]; [|reflexivity].
    now destruct (pid_eqb q p). }
  subst ls. unfold less_ok in A. destruct (mo_less o); [|discriminate A]. split; [easy|].
  destruct A as (n & b & A & [= ->]). now exists n, b.
Qed.
Lemma tree_more x t l : tree_ok x t -> tr_more t = Some l ->
  mo_more o = true /\ exists n m, ended x n (SMore p m) /\ l = filter (fun q => negb (pid_eqb q p)) (rev (sc_out m)).
Proof.
  intros (lm & ls & ms & _ & _ & A & ->) E. assert (E' : ms = Some l).
  { rewrite <- E. unfold tree_result. destruct (mo_type o); try reflexivity. destruct lm as [q|]; [|reflexivity].
    now destruct (pid_eqb q p). }
  subst ms. unfold more_ok in A. destruct (mo_more o); [|discriminate A]. split; [easy|].
  destruct A as (n & m & A & [= ->]). now exists n, m.
Qed.
Lemma tree_sets x t : tree_ok x t -> (tr_less t = None -> mo_less o = false) /\ (tr_more t = None -> mo_more o = false).
Proof.
  intros (lm & ls & ms & _ & A & B & ->).
  assert (E : tr_less (tree_result p o lm ls ms) = ls /\ tr_more (tree_result p o lm ls ms) = ms).
  { unfold tree_result. destruct (mo_type o); try (split; reflexivity). destruct lm as [q|]; [|split; reflexivity].
    now destruct (pid_eqb q p). }
  destruct E as [-> ->]. split; intros ->.
  - unfold less_ok in A. destruct (mo_less o); [|easy]. now destruct A as (n & b & _ & ?).
  - unfold more_ok in B. destruct (mo_more o); [|easy]. now destruct B as (n & b & _ & ?).
Qed.

Lemma tree_wf x t : tree_ok x t -> (forall c, tr_prefix t = Some c -> wf_pid f c) /\
  (forall l c, tr_more t = Some l -> In c l -> wf_pid f c) /\ (forall l c, tr_less t = Some l -> In c l -> wf_pid f c).
Proof.
  intros T. split; [|split].
  - intros c E. destruct (tree_prefix x t c T E) as (n & b & [A _] & B & _).
    destruct (sub_sound ov st f x0 x n (SLess true p b) Wp A) as [_ S]. apply (S c).
    cbn [scan_out]. destruct (bs_out b); [discriminate B|]. injection B as ->. now left.
  - intros l c E I. destruct (tree_more x t l T E) as (_ & n & b & [A _] & ->).
    destruct (sub_sound ov st f x0 x n (SMore p b) Wp A) as [_ S]. apply (S c).
    apply filter_In in I. destruct I as [I _]. cbn [scan_out]. now apply in_rev.
  - intros l c E I. destruct (tree_less x t l T E) as (_ & n & b & [A _] & ->).
    destruct (sub_sound ov st f x0 x n (SLess false p b) Wp A) as [_ S]. apply (S c).
    cbn [scan_out]. now apply in_rev.
Qed.

(* the steps from one part to the next *)
Lemma atI_end x t main ms ls : tree_ok x t -> main_ok x t main -> fill_ok x (tr_more t) ms -> fill_ok x (tr_less t) ls ->
  atI x (at_end f t main ms ls).
Proof. intros A B C D. unfold at_end. cbn [atI]. exists t, main, ms, ls. auto. Qed.
Lemma atI_fill_less x t main ms : tree_ok x t -> main_ok x t main -> fill_ok x (tr_more t) ms ->
  atI x (at_fill_less f t main ms).
Proof.
  intros A B C. unfold at_fill_less. destruct (tr_less t) as [l|] eqn:E.
  - cbn [atI]. split; [exact A|]. split; [exact B|]. split. { exists []. split; [exact E|apply fi_nil]. }
    split; [exact C|]. destruct l; [easy|exact I].
  - apply atI_end; auto. rewrite E. exact I.
Qed.
Lemma atI_fill_more x t main : tree_ok x t -> main_ok x t main -> atI x (at_fill_more f t main).
Proof.
  intros A B. unfold at_fill_more. destruct (tr_more t) as [l|] eqn:E.
  - cbn [atI]. split; [exact A|]. split; [exact B|]. split. { exists []. split; [exact E|apply fi_nil]. }
    split; [reflexivity|]. destruct l; [easy|exact I].
  - apply atI_fill_less; auto. rewrite E. exact I.
Qed.
Lemma atI_main x t : tree_ok x t -> atI x (at_main f t).
Proof.
  intros A. unfold at_main. destruct (tr_prefix t) as [c|] eqn:E.
  - cbn [atI]. split; [exact A|]. exists c. split; [exact E|exact I].
  - apply atI_fill_more; [exact A|]. unfold main_ok. now rewrite E.
Qed.
Lemma atI_more x lm ls : wexec ov x0 x -> long_ok x lm -> less_ok x ls -> atI x (at_more f p o lm ls).
Proof.
  intros E A B. unfold at_more. destruct (mo_more o) eqn:M.
  - cbn [atI]. split; [exact M|]. split; [exact A|]. split; [exact B|]. exists 0%nat, mscan0. split; [reflexivity|].
    now apply sub_more.
  - apply atI_main. exists lm, ls, None. split; [exact A|]. split; [exact B|]. split; [|reflexivity].
    unfold more_ok. now rewrite M.
Qed.
Lemma atI_less x lm : wexec ov x0 x -> long_ok x lm -> atI x (at_less f p o lm).
Proof.
  intros E A. unfold at_less. destruct (mo_less o) eqn:M.
  - cbn [atI]. split; [exact M|]. split; [exact A|]. exists 0%nat, (bscan0 false p). split; [reflexivity|].
    now apply sub_less.
  - apply atI_more; [exact E|exact A|]. unfold less_ok. now rewrite M.
Qed.

Lemma sub_stage x n sc : wf_pid f (scan_pfx sc) -> sub ov st f x0 x n sc -> scan_stage sc <> Broken.
Proof. intros W S. exact (proj1 (sub_sound ov st f x0 x n sc W S)). Qed.

Lemma atI_own x q : wexec ov x0 x -> wwf_calls x -> match_over q = false -> atI x q -> atI x (match_next f p o (sh x) q).
Proof.
  intros E W. destruct q as [sc|lm sc|lm ls sc|t l|more t main ms todo got l|r|]; cbn [match_over]; try discriminate; intros _.
  - cbn [atI]. intros (n & b & -> & S). cbn [match_next].
    destruct (scan_stage (SLess true p b)) eqn:G.
    + cbn [atI]. pose proof (sub_own ov st f x0 x n (SLess true p b) Wp S G) as S'. exists (Datatypes.S n). eexists. split; [|exact S'].
      reflexivity.
    + apply atI_less; [exact E|]. exists n, b. split; [|reflexivity]. split; [exact S|exact G].
    + exact (sub_stage x n (SLess true p b) Wp S G).
  - cbn [atI]. intros (M & L & n & b & -> & S). cbn [match_next].
    destruct (scan_stage (SLess false p b)) eqn:G.
    + cbn [atI]. pose proof (sub_own ov st f x0 x n (SLess false p b) Wp S G) as S'. split; [exact M|]. split; [exact L|].
      exists (Datatypes.S n). eexists. split; [|exact S']. reflexivity.
    + apply atI_more; [exact E|exact L|]. unfold less_ok. rewrite M. exists n, b. split; [|reflexivity].
      split; [exact S|exact G].
    + exact (sub_stage x n (SLess false p b) Wp S G).
  - cbn [atI]. intros (M & L & K & n & m & -> & S). cbn [match_next].
    destruct (scan_stage (SMore p m)) eqn:G.
    + cbn [atI]. pose proof (sub_own ov st f x0 x n (SMore p m) Wp S G) as S'. split; [exact M|]. split; [exact L|].
      split; [exact K|]. exists (Datatypes.S n). eexists. split; [|exact S']. reflexivity.
    + apply atI_main. exists lm, ls. eexists. split; [exact L|]. split; [exact K|]. split; [|reflexivity].
      unfold more_ok. rewrite M. exists n, m. split; [|reflexivity]. split; [exact S|exact G].
    + exact (sub_stage x n (SMore p m) Wp S G).
  - cbn [atI]. intros (T & c & C & L). cbn [match_next]. rewrite C.
    pose proof (proj1 (tree_wf x t T) c C) as Wc.
    destruct l as [l| |bmin pc|r| |g|g g0]; try contradiction L.
    + cbn [atI]. split; [exact T|]. exists c. split; [exact C|]. exact (lookW_own ov st f mui iw x0 x c WAsk R E W Wc Wm L).
    + cbn [atI]. split; [exact T|]. exists c. split; [exact C|].
      exact (lookW_own ov st f mui iw x0 x c (WLook bmin pc) R E W Wc Wm L).
    + destruct L as (v & -> & L). apply atI_fill_more; [exact T|]. unfold main_ok. rewrite C. exists v. split; [exact L|].
      destruct v as [[|a v]|]; reflexivity.
  - cbn [atI]. intros (T & Ma & (dn & D & Fi) & Ms & L).
    destruct todo as [|c todo]; cbn [match_next].
    + rewrite app_nil_r in D. destruct more.
      * apply atI_fill_less; [exact T|exact Ma|]. rewrite D. exact Fi.
      * apply atI_end; [exact T|exact Ma|exact Ms|]. rewrite D. exact Fi.
    + assert (Wc : wf_pid f c).
      { destruct (tree_wf x t T) as (_ & T1 & T2). destruct more; [eapply T1|eapply T2]; try exact D;
          apply in_or_app; right; now left. }
      destruct l as [l| |bmin pc|r| |g|g g0]; try contradiction L.
      * cbn [atI]. split; [exact T|]. split; [exact Ma|]. split; [now exists dn|]. split; [exact Ms|].
        exact (lookW_own ov st f mui iw x0 x c WAsk R E W Wc Wm L).
      * cbn [atI]. split; [exact T|]. split; [exact Ma|]. split; [now exists dn|]. split; [exact Ms|].
        exact (lookW_own ov st f mui iw x0 x c (WLook bmin pc) R E W Wc Wm L).
      * destruct L as (v & -> & L). destruct v as [v|]; cbn [atI]; (split; [exact T|]); (split; [exact Ma|]);
          (split; [exists (dn ++ [c]); rewrite <- app_assoc; split; [exact D|]|
                   split; [exact Ms|destruct todo; exact I]]).
        -- now apply fi_some.
        -- now apply fi_none.
Qed.

Lemma atI_start : atI x0 (match_start p).
Proof.
  unfold match_start. cbn [atI]. exists 0%nat, (bscan0 true p). split; [reflexivity|]. apply sub_less; [exact R|apply ex_refl].
Qed.

Lemma match_inv n x q : matching ov f p o x0 n x q -> wwf_calls x -> atI x q.
Proof.
  intros B. induction B as [|n x y q B IH T|n x q B IH O]; intros W.
  - apply atI_start.
  - pose proof (exec_one _ _ _ _ _ T) as E. eapply atI_exec; [exact (wbeside_exec _ _ _ _ _ _ _ _ B)|exact E|].
    apply IH. exact (wwf_back ov x y E W).
  - apply atI_own; auto. exact (wbeside_exec _ _ _ _ _ _ _ _ B).
Qed.
End Match.
End Parts.
