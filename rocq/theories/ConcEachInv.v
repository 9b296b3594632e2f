(* The iterators beside concurrent calls, part by part. *)
From Coq Require Import Arith NArith List Bool Lia.
From Verif Require Import Word Af BitSpan Spec Maps ChtMath Cht Node Tree Iter
  MultiMap RecordSet PrefixCht Lsm Rib StarCast HistSpec Ask
  Conc ConcTree ConcStore ConcMarks ConcSpec ConcScan ConcScanSpec ConcScanFacts
  ConcWhole WholeSpec ConcWholeSim ConcWholeFacts ConcWholeRead ConcQuery QuerySpec ConcQueryProofs ConcQueryInv.
Import ListNotations.
Local Open Scope N_scope.

(* a step of an iterator over the tree gives at most one prefix *)
Lemma mturn_out f it out s : mturn f it out = Ok s -> sc_out s = out \/ exists c, sc_out s = c :: out.
Proof.
  unfold mturn. destruct (pfx_next f (ms_pfx it)) as [[[c pi]|]| |]; try discriminate; cbn [bind].
  - intros [= <-]. right. now exists c.
  - destruct (child_next f (ms_ptr it)) as [[[i ci]|]| |]; try discriminate; cbn [bind].
    + destruct (walk_start f NSTRIDE i); try discriminate. intros [= <-]. now left.
    + destruct (ms_stack it) as [|ci0 l]; cbn [bind]; [intros [= <-]; now left|].
      destruct (child_next f ci0) as [[[i ci]|]| |]; try discriminate; cbn [bind].
      * destruct (walk_start f NSTRIDE i); try discriminate. intros [= <-]. now left.
      * intros [= <-]. now left.
Qed.
Lemma mnext_out f p t s : sc_out (mnext f p t s) = sc_out s \/ exists c, sc_out (mnext f p t s) = c :: sc_out s.
Proof.
  unfold mnext. destruct (mstep f p (t_heap t) s) as [s'| |] eqn:E; [|now left..].
  unfold mstep in E. destruct (sc_pc s) as [|w|k|k pi|it|i l w|i l k|i l k ci|b|].
  - destruct (BITS f <=? p_len p); [injection E as <-; now left|].
    destruct (node_id_for_prefix f p) as [r| |]; try discriminate E. cbn [bind] in E.
    destruct (walk_start f NSTRIDE (fst r)); try discriminate E. injection E as <-. now left.
  - destruct (node_id_for_prefix f p) as [r| |]; try discriminate E. cbn [bind] in E.
    destruct (gstep f (fst r) (t_heap t) w); try discriminate E. injection E as <-. now left.
  - destruct (node_id_for_prefix f p) as [r| |]; try discriminate E. cbn [bind] in E.
    destruct (deref k (t_heap t)) as [v| |]; try discriminate E. cbn [bind] in E.
    destruct (more_specific_pfx_iter v (fst r) (snd r)); try discriminate E. injection E as <-. now left.
  - destruct (node_id_for_prefix f p) as [r| |]; try discriminate E. cbn [bind] in E.
    destruct (deref k (t_heap t)) as [v| |]; try discriminate E. cbn [bind] in E.
    destruct (more_specific_ptr_iter v (fst r) (snd r)); try discriminate E. injection E as <-. now left.
  - exact (mturn_out f it (sc_out s) s' E).
  - destruct (gstep f i (t_heap t) w); try discriminate E. injection E as <-. now left.
  - destruct (deref k (t_heap t)) as [v| |]; try discriminate E. cbn [bind] in E.
    destruct (more_specific_ptr_iter v i (BS 0 0)); try discriminate E. injection E as <-. now left.
  - destruct (deref k (t_heap t)) as [v| |]; try discriminate E. cbn [bind] in E.
    destruct (more_specific_pfx_iter v i (BS 0 0)); try discriminate E. injection E as <-. now left.
  - injection E as <-. now left.
  - injection E as <-. now left.
Qed.
Lemma bat_out lvl out : bs_out (bat lvl out) = out.
Proof. unfold bat. now destruct (lvl =? 0). Qed.
Lemma bnext_out f once p t s : bs_out (bnext f once p t s) = bs_out s \/ exists c, bs_out (bnext f once p t s) = c :: bs_out s.
Proof.
  unfold bnext. destruct (bstep f once p (t_heap t) s) as [s'| |] eqn:E; [|now left..].
  unfold bstep in E. destruct (bs_pc s) as [lvl x| |]; [|injection E as <-; now left..].
  destruct (xstep f (pid_truncate_to_len f p lvl) (t_heap t) x) as [x'| |]; try discriminate E. cbn [bind] in E.
  destruct x' as [|w|k|b|]; try discriminate E; try (injection E as <-; now left).
  destruct b; [destruct once|]; injection E as <-; rewrite ?bat_out; [right; eexists; reflexivity..|now left].
Qed.
Lemma scan_next_out f t sc : scan_out (scan_next f t sc) = scan_out sc \/ exists c, scan_out (scan_next f t sc) = c :: scan_out sc.
Proof. destruct sc; [apply mnext_out|apply bnext_out]. Qed.

Definition same_scan (k : each) (sc : scan) : Prop :=
  match k, sc with
  | EachLess p _ _, SLess false q _ => q = p
  | EachLess _ _ _, _ => False
  | _, SMore q _ => q = each_pfx k
  | _, _ => False
  end.

Section Parts.
Variables (ov : bool) (st : strategy) (f : af) (x0 : wstore) (k : each).
Hypotheses (R : wreach ov st x0) (Wk : wf_each f k).

(* what came of looking up the prefixes of l *)
Inductive itemised (x : wstore) : list pid -> list (result prefixrecord) -> Prop :=
| im_nil : itemised x [] []
| im_one l g c v : itemised x l g -> looked_up ov x0 x f c (each_mui k) (each_iw k) v ->
    itemised x (l ++ [c]) (g ++ each_item f k c (ROk v)).
Lemma itemised_exec x y l g : wexec ov x y -> itemised x l g -> itemised y l g.
Proof.
  intros E F. induction F as [|l g c v F IH L]; [apply im_nil|apply im_one; [exact IH|]]. eapply looked_exec; eauto.
Qed.

Definition itI (x : wstore) (q : itpc) : Prop :=
  match q with
  | ItCheck m _ => each_asks k = Some m
  | ItScan sc cur got => exists n dn, sub ov st f x0 x n sc /\ same_scan k sc /\
      rev (scan_out sc) = dn ++ match cur with Some (c, _) => [c] | None => [] end /\ itemised x dn got /\
      match cur with Some (c, l) => lookW ov f (each_mui k) (each_iw k) x0 x c l | None => True end
  | ItEnd got =>
      (got = [] /\ exists m w, each_asks k = Some m /\ wexec ov x0 w /\ wexec ov w x /\
         rib_mui_is_withdrawn (rib_now (sh w) f) m = true) \/
      (exists n sc, ended ov st f x0 x n sc /\ same_scan k sc /\ itemised x (rev (scan_out sc)) got)
  | ItPanic => False
  end.

Lemma same_pfx sc : same_scan k sc -> wf_pid f (scan_pfx sc).
Proof.
  destruct Wk as [_ W]. unfold same_scan. destruct k as [p m iw|p m iw| |m iw], sc as [q s|[] q s]; try easy;
    cbn [each_pfx]; intros ->; cbn [scan_pfx]; try exact W; apply wf_root.
Qed.

Lemma same_next t sc : same_scan k sc -> same_scan k (scan_next f t sc).
Proof. destruct k as [p m iw|p m iw| |m iw], sc as [q s|[] q s]; easy. Qed.

Lemma itI_exec x y q : wexec ov x0 x -> wexec ov x y -> itI x q -> itI y q.
Proof.
  intros E0 E. destruct q as [m n|sc cur got|got|]; cbn [itI]; [easy| | |easy].
  - intros (n & dn & A & B & C & D & F). exists n, dn. split; [eapply sub_exec; eauto|]. split; [exact B|].
    split; [exact C|]. split; [eapply itemised_exec; eauto|]. destruct cur as [[c l]|]; [|easy]. eapply lookW_exec; eauto.
  - intros [(A & m & w & B & C & D & F)|(n & sc & A & B & C)].
    + left. split; [exact A|]. exists m, w. split; [exact B|]. split; [exact C|]. split; [eapply exec_trans; eauto|exact F].
    + right. exists n, sc. split; [eapply ended_exec; eauto|]. split; [exact B|]. eapply itemised_exec; eauto.
Qed.

Lemma itI_scan x : wexec ov x0 x -> itI x (ItScan (each_scan k) None []).
Proof.
  intros E. cbn [itI]. exists 0%nat, []. split.
  { destruct k; cbn [each_scan]; (apply sub_more || apply sub_less); assumption. }
  split; [destruct k; reflexivity|]. split; [|split; [apply im_nil|exact I]].
  destruct k as [p m iw|p m iw| |m iw]; try reflexivity. cbn [each_scan less_from scan_out].
  unfold bscan0. now rewrite bat_out.
Qed.
Lemma itI_start : itI x0 (each_start k).
Proof.
  assert (G : itI x0 (ItScan (each_scan k) None [])) by (apply itI_scan; apply ex_refl).
  unfold each_start, itI in *. destruct k as [p [m|] []|p m iw| |m []]; try exact G; reflexivity.
Qed.

Lemma itI_own x q : wexec ov x0 x -> wwf_calls x -> each_over q = false -> itI x q -> itI x (each_next f k (sh x) q).
Proof.
  intros E W. destruct q as [m n|sc cur got|got|]; cbn [each_over]; try discriminate; intros _.
  - cbn [itI each_next]. intros A. destruct (rib_mui_is_withdrawn (rib_now (sh x) f) m) eqn:M.
    + left. split; [reflexivity|]. exists m, x. split; [exact A|]. split; [exact E|]. split; [apply ex_refl|exact M].
    + destruct n; [now apply itI_scan|exact A].
  - cbn [itI]. intros (n & dn & A & B & C & D & F). pose proof (same_pfx sc B) as Wp.
    destruct (sub_sound ov st f x0 x n sc Wp A) as [NB So]. cbn [each_next]. destruct cur as [[c l]|].
    + assert (Wc : wf_pid f c).
      { apply (So c). apply in_rev. rewrite C. apply in_or_app. right. now left. }
      destruct l as [l| |bmin pc|r| |g|g g0]; try contradiction F.
      * cbn [itI]. exists n, dn. split; [exact A|]. split; [exact B|]. split; [exact C|]. split; [exact D|].
        exact (lookW_own ov st f _ _ x0 x c WAsk R E W Wc (proj1 Wk) F).
      * cbn [itI]. exists n, dn. split; [exact A|]. split; [exact B|]. split; [exact C|]. split; [exact D|].
        exact (lookW_own ov st f _ _ x0 x c (WLook bmin pc) R E W Wc (proj1 Wk) F).
      * destruct F as (v & -> & F). cbn [itI]. exists n, (dn ++ [c]). split; [exact A|]. split; [exact B|].
        split; [now rewrite app_nil_r|]. split; [now apply im_one|exact I].
    + destruct (scan_stage sc) eqn:G; [| |now elim NB].
      * pose proof (sub_own ov st f x0 x n sc Wp A G) as A'. cbn [itI]. exists (Datatypes.S n), dn. split; [exact A'|].
        split; [now apply same_next|]. rewrite app_nil_r in C.
        destruct (scan_next_out f (tree_in (sh x) f) sc) as [Q|(c & Q)]; rewrite Q.
        -- assert (Z : match scan_out sc with
             | [] => None
             | c :: l => if Nat.eqb (length l) (length (scan_out sc)) then Some (c, WAsk) else None end = None).
           { destruct (scan_out sc) as [|c l]; [reflexivity|]. cbn [length].
             destruct (Nat.eqb_spec (length l) (Datatypes.S (length l))) as [X|X]; [lia|reflexivity]. }
           rewrite Z, app_nil_r. auto.
        -- rewrite Nat.eqb_refl. split; [cbn [rev]; now rewrite C|]. split; [exact D|exact I].
      * cbn [itI]. right. exists n, sc. split; [split; [exact A|exact G]|]. split; [exact B|]. rewrite app_nil_r in C.
        now rewrite C.
Qed.

Lemma each_inv n x q : iterating ov f k x0 n x q -> wwf_calls x -> itI x q.
Proof.
  intros B. induction B as [|n x y q B IH T|n x q B IH O]; intros W.
  - apply itI_start.
  - pose proof (exec_one _ _ _ _ _ T) as E. eapply itI_exec; [exact (wbeside_exec _ _ _ _ _ _ _ _ B)|exact E|].
    apply IH. exact (wwf_back ov x y E W).
  - apply itI_own; auto. exact (wbeside_exec _ _ _ _ _ _ _ _ B).
Qed.
End Parts.
