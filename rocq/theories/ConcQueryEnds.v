(* The queries end after a bounded number of their own steps, whatever the calls beside them do. *)
From Coq Require Import Arith NArith List Bool Lia.
From Verif Require Import Word Af BitSpan Spec Maps ChtMath Cht Node Tree Iter
  MultiMap RecordSet PrefixCht Lsm Rib StarCast HistSpec Ask
  Conc ConcTree ConcStore ConcMarks ConcStoreInv ConcCalls ConcSpec ConcFacts ConcScan ConcScanSpec ConcScanFacts
  ConcWhole WholeSpec ConcWholeSim ConcWholeFacts ConcWholeRead ConcQuery QuerySpec ConcQueryProofs ConcQueryInv ConcEachInv
  ConcQueryFacts ConcQueryAlone.
Import ListNotations.
Local Open Scope N_scope.

(* j steps of a look-up *)
Definition pcC (j : N) (pc : ConcStore.gpc) : Prop :=
  match pc with
  | VStart => j = 1
  | VGet w => j = 2 + w_level w /\ w_level w <= 255
  | VRead _ => j <= 258
  | VDone _ | VPanic => j <= 259
  end.
Definition lookC (j : N) (l : wpc) : Prop :=
  match l with
  | WAsk => j = 0
  | WLook _ pc => pcC j pc /\ j <= 258
  | _ => j <= 259
  end.

Lemma lookC_le j l : lookC j l -> j <= 259.
Proof. destruct l; cbn [lookC]; lia. Qed.

Lemma pcC_step f s c mui iw pc s' pc' j : pcC j pc -> vstep f s c mui iw pc = Some (s', pc') -> pcC (j + 1) pc'.
Proof.
  destruct pc as [|w|k|o|]; cbn [vstep]; try discriminate; intros P [= <- <-].
  - unfold walk_start. destruct (root_for_len f PSTRIDE (p_len c)); cbn [bind pcC w_level] in *; lia.
  - cbn [pcC] in P. destruct (hash_id f c (w_level w)) as [i| |]; cbn [bind]; [|cbn [pcC]; lia..].
    destruct (slot_get (pheap s) (w_b w) (w_path w) (w_slots w) i) as [e|]; [|cbn [pcC]; lia].
    destruct (pid_eqb c (e_id e)); [cbn [pcC]; lia|]. unfold add8. destruct (N.leb_spec (w_level w + 1) 255); cbn [bind pcC w_level]; lia.
  - cbn [pcC] in P. destruct (deref k (pheap s)); cbn [pcC]; lia.
Qed.
Lemma lookC_next f c mui iw s j l : lookC j l -> look_end l = false -> lookC (j + 1) (value_next f c mui iw s l).
Proof.
  destruct l as [l| |bmin pc|r| |g|g g0]; try discriminate; cbn [value_next]; intros L _.
  - cbn [lookC pcC] in *. lia.
  - cbn [lookC] in L. destruct L as [P J].
    assert (K : lookC (j + 1) match vstep f (ConcStore.set_rib (fam s f) (with_marks (ss_rib (fam s f)) bmin)) c mui iw pc with
      | Some (_, VDone o) => WGot (ROk o) | Some (_, VPanic) | None => WPanic | Some (_, pc') => WLook bmin pc' end).
    { destruct (vstep f (ConcStore.set_rib (fam s f) (with_marks (ss_rib (fam s f)) bmin)) c mui iw pc) as [[s' pc']|] eqn:V;
        [|cbn [lookC]; lia].
      pose proof (pcC_step _ _ _ _ _ _ _ _ _ P V) as P'. destruct pc' as [|w|k|o|]; cbn [lookC pcC] in *; lia. }
    unfold wlook. destruct (rb_strat (ss_rib (fam s f))); try exact K.
    destruct (rib_get_value _ _ _ _ _); cbn [lookC]; lia.
Qed.

(* what an iterator over the tree has given is no more than its steps *)
Lemma run_out f ov za n z sc : scan_run f ov za n z sc -> (length (scan_out sc) <= n)%nat.
Proof.
  destruct sc as [p m|once p b]; cbn [scan_run scan_out]; intros B.
  - unfold scans in B. induction B as [|n x y s B IH E|n x s B IH E]; [cbn; lia|exact IH|].
    destruct (mnext_out f p (tree_of x) s) as [Q|(c & Q)]; rewrite Q; cbn [length]; lia.
  - unfold looks in B. induction B as [|n x y s B IH E|n x s B IH E]; [unfold bscan0; rewrite bat_out; cbn; lia|exact IH|].
    destruct (bnext_out f once p (tree_of x) s) as [Q|(c & Q)]; rewrite Q; cbn [length]; lia.
Qed.

Section Ends.
Variables (ov : bool) (st : strategy) (f : af) (x0 : wstore) (B1 B2 : N).
Hypotheses (R : wreach ov st x0)
  (H1 : forall p x n once b, wf_pid f p -> sub ov st f x0 x n (SLess once p b) -> N.of_nat n <= B1)
  (H2 : forall p x n m, wf_pid f p -> sub ov st f x0 x n (SMore p m) -> N.of_nat n <= B2).

Lemma sub_out x n sc : sub ov st f x0 x n sc -> (length (scan_out sc) <= n)%nat.
Proof. intros (xa & za & z & _ & _ & _ & _ & _ & S & _). exact (run_out _ _ _ _ _ _ S). Qed.

Section Match.
Variables (p : pid) (o : matchopts).
Hypothesis (Wp : wf_pid f p).

Definition sizes (t : treeresult) : Prop :=
  (forall l, tr_more t = Some l -> N.of_nat (length l) <= B2) /\ (forall l, tr_less t = Some l -> N.of_nat (length l) <= B1).
Definition c2 := 2 * (B1 + 1).
Definition c3 := c2 + (B2 + 1).
Definition c4 := c3 + 260.
Definition c5 := c4 + 261 * B2 + 260.
Definition c6 := c5 + 261 * B1 + 260.

Definition atC (x : wstore) (n : N) (q : atpc) : Prop :=
  match q with
  | AtLong sc => exists j b, sc = SLess true p b /\ sub ov st f x0 x j sc /\ n <= N.of_nat j
  | AtLess _ sc => exists j b, sc = SLess false p b /\ sub ov st f x0 x j sc /\ n <= B1 + 1 + N.of_nat j
  | AtMore _ ls sc => exists j m, sc = SMore p m /\ sub ov st f x0 x j sc /\ n <= c2 + N.of_nat j /\
      (forall l, ls = Some l -> N.of_nat (length l) <= B1)
  | AtMain t l => sizes t /\ exists j, lookC j l /\ n <= c3 + j
  | AtFill more t _ _ todo _ l => sizes t /\ exists j d, lookC j l /\
      d + N.of_nat (length todo) <= (if more then B2 else B1) /\
      n <= (if more then c4 else c5) + 261 * d + j
  | AtEnd _ | AtPanic => n <= c6
  end.

Lemma atC_exec x y n q : wexec ov x y -> atC x n q -> atC y n q.
Proof.
  intros E. destruct q as [sc|lm sc|lm ls sc|t l|more t main ms todo got l|r|]; cbn [atC]; auto.
  - intros (j & b & A & B & C). exists j, b. split; [exact A|]. split; [eapply sub_exec; eauto|exact C].
  - intros (j & b & A & B & C). exists j, b. split; [exact A|]. split; [eapply sub_exec; eauto|exact C].
  - intros (j & b & A & B & C). exists j, b. split; [exact A|]. split; [eapply sub_exec; eauto|exact C].
Qed.

Lemma c_le : c2 <= c3 /\ c3 <= c4 /\ c4 <= c5 /\ c5 <= c6.
Proof. unfold c6, c5, c4, c3. lia. Qed.
Lemma atC_fill_less x n t main ms : sizes t -> n <= c5 -> atC x n (at_fill_less f t main ms).
Proof.
  intros S L. unfold at_fill_less. pose proof c_le. destruct (tr_less t) as [l|] eqn:E; cbn [atC at_end].
  - split; [exact S|]. exists 0, 0. split; [reflexivity|]. split; [rewrite N.add_0_l; exact (proj2 S l E)|lia].
  - lia.
Qed.
Lemma atC_fill_more x n t main : sizes t -> n <= c4 -> atC x n (at_fill_more f t main).
Proof.
  intros S L. unfold at_fill_more. pose proof c_le. destruct (tr_more t) as [l|] eqn:E.
  - cbn [atC]. split; [exact S|]. exists 0, 0. split; [reflexivity|]. split; [rewrite N.add_0_l; exact (proj1 S l E)|lia].
  - apply atC_fill_less; [exact S|lia].
Qed.
Lemma atC_main x n t : sizes t -> n <= c3 -> atC x n (at_main f t).
Proof.
  intros S L. unfold at_main. pose proof c_le. destruct (tr_prefix t).
  - cbn [atC]. split; [exact S|]. exists 0. split; [reflexivity|lia].
  - apply atC_fill_more; [exact S|lia].
Qed.
Lemma sizes_of lm ls ms : (forall l, ls = Some l -> N.of_nat (length l) <= B1) ->
  (forall l, ms = Some l -> N.of_nat (length l) <= B2) -> sizes (tree_result p o lm ls ms).
Proof.
  intros A B. assert (E : tr_less (tree_result p o lm ls ms) = ls /\ tr_more (tree_result p o lm ls ms) = ms).
  { unfold tree_result. destruct (mo_type o); try (split; reflexivity). destruct lm as [q|]; [|split; reflexivity].
    now destruct (pid_eqb q p). }
  destruct E as [E1 E2]. split; rewrite ?E1, ?E2; assumption.
Qed.
Lemma atC_more x n lm ls : wexec ov x0 x -> (forall l, ls = Some l -> N.of_nat (length l) <= B1) -> n <= c2 ->
  atC x n (at_more f p o lm ls).
Proof.
  intros E S L. unfold at_more. pose proof c_le. destruct (mo_more o).
  - cbn [atC]. exists 0%nat, mscan0. split; [reflexivity|]. split; [now apply sub_more|]. split; [lia|exact S].
  - apply atC_main; [|lia]. apply sizes_of; [exact S|discriminate].
Qed.
Lemma atC_less x n lm : wexec ov x0 x -> n <= B1 + 1 -> atC x n (at_less f p o lm).
Proof.
  intros E L. unfold at_less. destruct (mo_less o).
  - cbn [atC]. exists 0%nat, (bscan0 false p). split; [reflexivity|]. split; [now apply sub_less|lia].
  - apply atC_more; [exact E|discriminate|unfold c2; lia].
Qed.

Lemma filter_len {A} (g : A -> bool) l : (length (filter g l) <= length l)%nat.
Proof. induction l as [|a l IH]; [easy|]. cbn [filter]. destruct (g a); cbn [length]; lia. Qed.

Lemma atC_own x n q : wexec ov x0 x -> match_over q = false -> atC x n q -> atC x (n + 1) (match_next f p o (sh x) q).
Proof.
  intros E. pose proof c_le as Cl.
  destruct q as [sc|lm sc|lm ls sc|t l|more t main ms todo got l|r|]; cbn [match_over]; try discriminate; intros _; cbn [atC].
  - intros (j & b & -> & S & L). cbn [match_next]. pose proof (H1 p x j true b Wp S) as Lj.
    destruct (scan_stage (SLess true p b)) eqn:G.
    + pose proof (sub_own ov st f x0 x j (SLess true p b) Wp S G) as S'. cbn [atC]. exists (Datatypes.S j). eexists.
      split; [|split; [exact S'|lia]]. reflexivity.
    + apply atC_less; [exact E|lia].
    + cbn [atC]. unfold c2 in Cl. lia.
  - intros (j & b & -> & S & L). cbn [match_next]. pose proof (H1 p x j false b Wp S) as Lj. pose proof (sub_out _ _ _ S) as Lo. cbn [scan_out] in Lo.
    destruct (scan_stage (SLess false p b)) eqn:G.
    + pose proof (sub_own ov st f x0 x j (SLess false p b) Wp S G) as S'. cbn [atC]. exists (Datatypes.S j). eexists.
      split; [|split; [exact S'|lia]]. reflexivity.
    + apply atC_more; [exact E| |unfold c2; lia]. intros l [= <-]. cbn [scan_out]. rewrite rev_length. lia.
    + cbn [atC]. unfold c2 in Cl. lia.
  - intros (j & m & -> & S & L & Ll). cbn [match_next]. pose proof (H2 p x j m Wp S) as Lj. pose proof (sub_out _ _ _ S) as Lo. cbn [scan_out] in Lo.
    destruct (scan_stage (SMore p m)) eqn:G.
    + pose proof (sub_own ov st f x0 x j (SMore p m) Wp S G) as S'. cbn [atC]. exists (Datatypes.S j). eexists.
      split; [|split; [exact S'|split; [lia|exact Ll]]]. reflexivity.
    + apply atC_main; [|unfold c3; lia]. apply sizes_of; [exact Ll|]. intros l [= <-]. cbn [scan_out].
      match goal with |- N.of_nat (length (filter ?g ?l)) <= _ => pose proof (filter_len g l) as Fl end. rewrite rev_length in Fl. lia.
    + cbn [atC]. unfold c3 in Cl. lia.
  - intros (S & j & Lk & L). pose proof (lookC_le _ _ Lk) as Lj. cbn [match_next]. destruct (tr_prefix t) as [c|].
    2:{ cbn [atC]. unfold c4 in Cl. lia. }
    destruct l as [l| |bmin pc|r| |g|g g0]; try (cbn [atC]; unfold c4 in Cl; lia).
    + cbn [atC]. split; [exact S|]. exists (j + 1). split; [exact (lookC_next f c _ _ (sh x) j WAsk Lk eq_refl)|lia].
    + cbn [atC]. split; [exact S|]. exists (j + 1). split; [exact (lookC_next f c _ _ (sh x) j (WLook bmin pc) Lk eq_refl)|lia].
    + apply atC_fill_more; [exact S|unfold c4; lia].
  - intros (S & j & d & Lk & Ld & L). pose proof (lookC_le _ _ Lk) as Lj.
    destruct todo as [|c todo]; cbn [match_next].
    + cbn [length N.of_nat] in Ld. destruct more.
      * apply atC_fill_less; [exact S|]. unfold c5. lia.
      * cbn [at_end atC]. unfold c6. lia.
    + cbn [length] in Ld. assert (End : n + 1 <= c6) by (unfold c6, c5 in *; destruct more; lia).
      assert (Nx : forall got', atC x (n + 1) (AtFill more t main ms todo got' WAsk)).
      { intros got'. cbn [atC]. split; [exact S|]. exists 0, (d + 1). split; [reflexivity|]. split; [lia|]. lia. }
      destruct l as [l| |bmin pc|r| |g|g g0]; try exact End.
      * cbn [atC]. split; [exact S|]. exists (j + 1), d. split; [exact (lookC_next f c _ _ (sh x) j WAsk Lk eq_refl)|].
        split; [exact Ld|lia].
      * cbn [atC]. split; [exact S|]. exists (j + 1), d.
        split; [exact (lookC_next f c _ _ (sh x) j (WLook bmin pc) Lk eq_refl)|]. split; [exact Ld|lia].
      * destruct r as [[v|]|e]; [apply Nx..|exact End].
Qed.

Lemma match_count n x q : matching ov f p o x0 n x q -> N.of_nat n <= c6.
Proof.
  intros B. assert (A : atC x (N.of_nat n) q).
  { induction B as [|n x y q B IH T|n x q B IH O].
    - cbn [match_start atC]. exists 0%nat, (bscan0 true p). split; [reflexivity|]. split; [apply sub_less; [exact R|apply ex_refl]|lia].
    - exact (atC_exec x y _ q (exec_one _ _ _ _ _ T) IH).
    - replace (N.of_nat (Datatypes.S n)) with (N.of_nat n + 1) by lia.
      apply atC_own; [exact (wbeside_exec _ _ _ _ _ _ _ _ B)|exact O|exact IH]. }
  pose proof c_le as Cl. destruct q as [sc|lm sc|lm ls sc|t l|more t main ms todo got l|r|]; cbn [atC] in A.
  - destruct A as (j & b & -> & S & L). pose proof (H1 p x j true b Wp S). unfold c2 in Cl. lia.
  - destruct A as (j & b & -> & S & L). pose proof (H1 p x j false b Wp S). unfold c2 in Cl. lia.
  - destruct A as (j & m & -> & S & L & _). pose proof (H2 p x j m Wp S). unfold c3 in Cl. lia.
  - destruct A as (_ & j & Lk & L). pose proof (lookC_le _ _ Lk). unfold c4 in Cl. lia.
  - destruct A as (_ & j & d & Lk & Ld & L). pose proof (lookC_le _ _ Lk). unfold c6, c5 in *. destruct more; lia.
  - exact A.
  - exact A.
Qed.
End Match.

Section Each.
Variable (k : each).
Hypotheses (Wk : wf_each f k) (Hb : B1 <= B2).

Definition itC (x : wstore) (n : N) (q : itpc) : Prop :=
  match q with
  | ItCheck _ i => n + N.of_nat i <= 1
  | ItScan sc cur _ => exists i j d, sub ov st f x0 x i sc /\ same_scan k sc /\
      d + (match cur with Some _ => 1 | None => 0 end) <= N.of_nat (length (scan_out sc)) /\
      match cur with Some (_, l) => lookC j l | None => j = 0 end /\
      n <= 2 + N.of_nat i + 261 * d + j
  | ItEnd _ | ItPanic => n <= 3 + 262 * B2 + 260
  end.
Lemma same_bound x i sc : same_scan k sc -> sub ov st f x0 x i sc -> N.of_nat i <= B2.
Proof.
  intros S A. pose proof (same_pfx f k Wk sc S) as W. destruct sc as [q m|once q b].
  - exact (H2 q x i m W A).
  - pose proof (H1 q x i once b W A). lia.
Qed.
Lemma itC_exec x y n q : wexec ov x y -> itC x n q -> itC y n q.
Proof.
  intros E. destruct q as [m i|sc cur got|got|]; cbn [itC]; auto.
  intros (i & j & d & A & Z). exists i, j, d. split; [eapply sub_exec; eauto|exact Z].
Qed.
Lemma itC_scan x n : wexec ov x0 x -> n <= 2 -> itC x n (ItScan (each_scan k) None []).
Proof.
  intros E L. cbn [itC]. exists 0%nat, 0, 0. split.
  { destruct k; cbn [each_scan]; (apply sub_more || apply sub_less); assumption. }
  split; [destruct k; reflexivity|]. split; [lia|]. split; [reflexivity|lia].
Qed.
Lemma itC_own x n q : wexec ov x0 x -> each_over q = false -> itC x n q -> itC x (n + 1) (each_next f k (sh x) q).
Proof.
  intros E. destruct q as [m i|sc cur got|got|]; cbn [each_over]; try discriminate; intros _; cbn [itC each_next].
  - intros L. destruct (rib_mui_is_withdrawn (rib_now (sh x) f) m); [cbn [itC]; lia|].
    destruct i as [|i]; [apply itC_scan; [exact E|lia]|cbn [itC]; lia].
  - intros (i & j & d & A & B & D & F & L). pose proof (same_bound x i sc B A) as Li. pose proof (sub_out x i sc A) as Lo.
    destruct cur as [[c l]|].
    + pose proof (lookC_le _ _ F) as Lj.
      destruct l as [l| |bmin pc|r| |g|g g0]; try (cbn [itC]; lia).
      * cbn [itC]. exists i, (j + 1), d. split; [exact A|]. split; [exact B|]. split; [exact D|].
        split; [exact (lookC_next f c _ _ (sh x) j WAsk F eq_refl)|lia].
      * cbn [itC]. exists i, (j + 1), d. split; [exact A|]. split; [exact B|]. split; [exact D|].
        split; [exact (lookC_next f c _ _ (sh x) j (WLook bmin pc) F eq_refl)|lia].
      * cbn [itC]. exists i, 0, (d + 1). split; [exact A|]. split; [exact B|]. split; [lia|]. split; [reflexivity|lia].
    + destruct (scan_stage sc) eqn:G; [|cbn [itC]; lia..].
      pose proof (sub_own ov st f x0 x i sc (same_pfx f k Wk sc B) A G) as A'. cbn [itC].
      exists (Datatypes.S i), 0, d. split; [exact A'|]. split; [now apply same_next|].
      destruct (scan_next_out f (tree_in (sh x) f) sc) as [Q|(c & Q)]; rewrite Q.
      * assert (Z : match scan_out sc with
           | [] => None
           | c :: l => if Nat.eqb (length l) (length (scan_out sc)) then Some (c, WAsk) else None end = None).
        { destruct (scan_out sc) as [|c l]; [reflexivity|]. cbn [length].
          destruct (Nat.eqb_spec (length l) (Datatypes.S (length l))) as [X|X]; [lia|reflexivity]. }
        rewrite Z. split; [exact D|]. split; [reflexivity|lia].
      * rewrite Nat.eqb_refl. cbn [length]. split; [lia|]. split; [reflexivity|lia].
Qed.
Lemma each_count n x q : iterating ov f k x0 n x q -> N.of_nat n <= 3 + 262 * B2 + 260.
Proof.
  intros B. assert (A : itC x (N.of_nat n) q).
  { induction B as [|n x y q B IH T|n x q B IH O].
    - assert (G : itC x0 0 (ItScan (each_scan k) None [])) by (apply itC_scan; [apply ex_refl|lia]).
      unfold each_start, itC in *. destruct k as [p [m|] []|p m iw| |m []]; try exact G; cbn; lia.
    - exact (itC_exec x y _ q (exec_one _ _ _ _ _ T) IH).
    - replace (N.of_nat (Datatypes.S n)) with (N.of_nat n + 1) by lia.
      apply itC_own; [exact (wbeside_exec _ _ _ _ _ _ _ _ B)|exact O|exact IH]. }
  destruct q as [m i|sc cur got|got|]; cbn [itC] in A; try lia.
  destruct A as (i & j & d & A & C & D & F & L). pose proof (same_bound x i sc C A) as Li. pose proof (sub_out x i sc A) as Lo.
  destruct cur as [[c l]|]; [pose proof (lookC_le _ _ F)|]; lia.
Qed.
End Each.
End Ends.

Lemma match_ends ov st x0 n x f p o q : wreach ov st x0 -> wf_pid f p -> matching ov f p o x0 n x q ->
  N.of_nat n <= 2 ^ 214.
Proof.
  intros R W B.
  assert (Q : N.of_nat n <= c6 12868 (2 ^ 204)).
  { apply (match_count ov st f x0 12868 (2 ^ 204) R) with (p := p) (o := o) (x := x) (q := q); [| |exact W|exact B].
    - intros p' y m once b W' (xa & za & z & _ & _ & Rz & _ & _ & S & _). cbn [scan_run] in S.
      pose proof (conc_looks_end _ _ _ _ _ _ _ _ _ Rz W' S) as L. pose proof (proj1 W') as Lp.
      assert (p_len p' <= 128) by (destruct f; cbn in *; lia). lia.
    - intros p' y m s W' (xa & za & z & _ & _ & Rz & _ & _ & S & _). exact (conc_scan_ends _ _ _ _ _ _ _ _ Rz W' S). }
  assert (L : c6 12868 (2 ^ 204) <= 2 ^ 214) by (vm_compute; discriminate). exact (N.le_trans _ _ _ Q L).
Qed.
Lemma each_ends ov st x0 n x f k q : wreach ov st x0 -> wf_each f k -> iterating ov f k x0 n x q ->
  N.of_nat n <= 2 ^ 214.
Proof.
  intros R W B.
  assert (Q : N.of_nat n <= 3 + 262 * 2 ^ 204 + 260).
  { apply (each_count ov st f x0 12868 (2 ^ 204) R) with (k := k) (x := x) (q := q); [| |exact W| |exact B].
    - intros p' y m once b W' (xa & za & z & _ & _ & Rz & _ & _ & S & _). cbn [scan_run] in S.
      pose proof (conc_looks_end _ _ _ _ _ _ _ _ _ Rz W' S) as L. pose proof (proj1 W') as Lp.
      assert (p_len p' <= 128) by (destruct f; cbn in *; lia). lia.
    - intros p' y m s W' (xa & za & z & _ & _ & Rz & _ & _ & S & _). exact (conc_scan_ends _ _ _ _ _ _ _ _ Rz W' S).
    - vm_compute. discriminate. }
  assert (L : 3 + 262 * 2 ^ 204 + 260 <= 2 ^ 214) by (vm_compute; discriminate). exact (N.le_trans _ _ _ Q L).
Qed.

(* left alone, they end *)
Lemma match_finishes ov st x0 n x f p o q : wreach ov st x0 -> wf_pid f p -> wf_mui (mo_mui o) ->
  matching ov f p o x0 n x q -> wwf_calls x -> exists m r, (n <= m)%nat /\ matching ov f p o x0 m x (AtEnd (ROk r)).
Proof.
  intros R W Wm B C. pose proof (fun m s => match_ends ov st x0 m x f p o s R W) as L.
  generalize dependent (2 ^ 214). intros top L.
  assert (H : forall d m s, top < N.of_nat m + d -> matching ov f p o x0 m x s -> (n <= m)%nat ->
    exists m' r, (n <= m')%nat /\ matching ov f p o x0 m' x (AtEnd (ROk r))).
  { induction d as [|d IH] using N.peano_ind; intros m s Q M Le.
    - specialize (L m s M). lia.
    - destruct (match_over s) eqn:O.
      + destruct (match_no_panic ov st f p o x0 m x s R W Wm M C O) as [r ->]. now exists m, r.
      + apply (IH (Datatypes.S m) (match_next f p o (sh x) s)); [lia| |lia]. now apply wb_own. }
  apply (H (top + 1) n q); [lia|exact B|lia].
Qed.
Lemma each_finishes ov st x0 n x f k q : wreach ov st x0 -> wf_each f k ->
  iterating ov f k x0 n x q -> wwf_calls x -> exists m g, (n <= m)%nat /\ iterating ov f k x0 m x (ItEnd g).
Proof.
  intros R W B C. pose proof (fun m s => each_ends ov st x0 m x f k s R W) as L.
  generalize dependent (2 ^ 214). intros top L.
  assert (H : forall d m s, top < N.of_nat m + d -> iterating ov f k x0 m x s -> (n <= m)%nat ->
    exists m' g, (n <= m')%nat /\ iterating ov f k x0 m' x (ItEnd g)).
  { induction d as [|d IH] using N.peano_ind; intros m s Q M Le.
    - specialize (L m s M). lia.
    - destruct (each_over s) eqn:O.
      + destruct (each_no_panic ov st f k x0 m x s R W M C O) as [g ->]. now exists m, g.
      + apply (IH (Datatypes.S m) (each_next f k (sh x) s)); [lia| |lia]. now apply wb_own. }
  apply (H (top + 1) n q); [lia|exact B|lia].
Qed.
