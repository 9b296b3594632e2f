(* On a weak memory the queries end after a bounded number of their own steps and look-ups. *)
From Coq Require Import Arith NArith List Bool Lia.
From Verif Require Import Word Af BitSpan Spec Maps ChtMath Cht Node Tree Iter MultiMap RecordSet PrefixCht Lsm Rib StarCast HistSpec
  Conc ConcTree ConcTreeProofs ConcStore ConcTable ConcMarks ConcSpec ConcScan ConcScanSpec ConcScanFacts ConcWhole ConcQuery QuerySpec
  ConcQueryProofs ConcEachInv
  WeakTree WeakTreeFacts WeakTable WeakTableFacts WeakScan WeakScanFacts WeakStore WeakStoreInv WeakStoreFacts WeakMatch WeakMatchInv.
Import ListNotations.
Local Open Scope N_scope.

(* j steps of a look-up *)
Definition lookC (j : N) (l : wpc) : Prop :=
  match l with
  | WAsk => j = 0
  | WGot _ => j = 1
  | _ => False
  end.

(* what an iterator over the tree has given is no more than its steps *)
Lemma wrun_out f ov i za n z sc : wrun f ov i za n z sc -> (length (scan_out sc) <= n)%nat.
Proof.
  destruct sc as [p m|once p b]; cbn [wrun scan_out]; intros B.
  - unfold wscans in B. induction B as [|n t0 x y s B IH T E|n x s t B IH O Nt C]; [cbn; lia|exact IH|].
    destruct (mnext_out f p (wt_view t) s) as [Q|(c & Q)]; rewrite Q; cbn [length]; lia.
  - unfold wlooks in B. induction B as [|n t0 x y s B IH T E|n x s t B IH O Nt C]; [unfold bscan0; rewrite bat_out; cbn; lia|exact IH|].
    destruct (bnext_out f once p (wt_view t) s) as [Q|(c & Q)]; rewrite Q; cbn [length]; lia.
Qed.
Lemma filter_len {A} (g : A -> bool) l : (length (filter g l) <= length l)%nat.
Proof. induction l as [|a l IH]; [easy|]. cbn [filter]. destruct (g a); cbn [length]; lia. Qed.

Section Ends.
Variables (f : af) (ov : bool) (B : nset -> Prop) (i : nat) (x0 : sconf) (past0 : list (pid * record)) (B1 B2 : N).
Hypotheses (R : store_reach f ov x0) (N0 : nth_error (sc_sts x0) i = Some (SThread SIdle past0))
  (H1 : forall p x n once b, wf_pid f p -> wsub f ov i x0 past0 x n (SLess once p b) -> N.of_nat n <= B1)
  (H2 : forall p x n m, wf_pid f p -> wsub f ov i x0 past0 x n (SMore p m) -> N.of_nat n <= B2).
Notation wsub := (wsub f ov i x0 past0).

Lemma wsub_out x n sc : wsub x n sc -> (length (scan_out sc) <= n)%nat.
Proof. intros (xa & _ & _ & S & _). exact (wrun_out _ _ _ _ _ _ _ S). Qed.

Section Match.
Variables (p : pid) (o : matchopts).
Hypothesis (Wp : wf_pid f p).

Definition wsizes (t : treeresult) : Prop :=
  (forall l, tr_more t = Some l -> N.of_nat (length l) <= B2) /\ (forall l, tr_less t = Some l -> N.of_nat (length l) <= B1).
Definition d2 := 2 * (B1 + 1).
Definition d3 := d2 + (B2 + 1).
Definition d4 := d3 + 2.
Definition d5 := d4 + 2 * B2 + 2.
Definition d6 := d5 + 2 * B1 + 2.

Definition atC (x : sconf) (n : N) (q : atpc) : Prop :=
  match q with
  | AtLong sc => exists j b, sc = SLess true p b /\ wsub x j sc /\ n <= N.of_nat j
  | AtLess _ sc => exists j b, sc = SLess false p b /\ wsub x j sc /\ n <= B1 + 1 + N.of_nat j
  | AtMore _ ls sc => exists j m, sc = SMore p m /\ wsub x j sc /\ n <= d2 + N.of_nat j /\
      (forall l, ls = Some l -> N.of_nat (length l) <= B1)
  | AtMain t l => wsizes t /\ (exists c, tr_prefix t = Some c) /\ exists j, lookC j l /\ n <= d3 + j
  | AtFill more t _ _ todo _ l => wsizes t /\ exists j d, lookC j l /\ (todo = [] -> j = 0) /\
      d + N.of_nat (length todo) <= (if more then B2 else B1) /\
      n <= (if more then d4 else d5) + 2 * d + j
  | AtEnd _ | AtPanic => n <= d6
  end.

Lemma atC_on x y n q : store_exec f ov x y -> atC x n q -> atC y n q.
Proof.
  intros E. destruct q as [sc|lm sc|lm ls sc|t l|more t main ms todo got l|r|]; cbn [atC]; auto.
  - intros (j & b & A & D & C). exists j, b. split; [exact A|]. split; [eapply wsub_on; eauto|exact C].
  - intros (j & b & A & D & C). exists j, b. split; [exact A|]. split; [eapply wsub_on; eauto|exact C].
  - intros (j & b & A & D & C). exists j, b. split; [exact A|]. split; [eapply wsub_on; eauto|exact C].
Qed.

Lemma d_le : d2 <= d3 /\ d3 <= d4 /\ d4 <= d5 /\ d5 <= d6.
Proof. unfold d6, d5, d4, d3. lia. Qed.
Lemma atC_fill_less x n t main ms : wsizes t -> n <= d5 -> atC x n (at_fill_less f t main ms).
Proof.
  intros S L. unfold at_fill_less. pose proof d_le. destruct (tr_less t) as [l|] eqn:E; cbn [atC at_end].
  - split; [exact S|]. exists 0, 0. split; [reflexivity|]. split; [reflexivity|]. split; [rewrite N.add_0_l; exact (proj2 S l E)|lia].
  - lia.
Qed.
Lemma atC_fill_more x n t main : wsizes t -> n <= d4 -> atC x n (at_fill_more f t main).
Proof.
  intros S L. unfold at_fill_more. pose proof d_le. destruct (tr_more t) as [l|] eqn:E.
  - cbn [atC]. split; [exact S|]. exists 0, 0. split; [reflexivity|]. split; [reflexivity|]. split; [rewrite N.add_0_l; exact (proj1 S l E)|lia].
  - apply atC_fill_less; [exact S|lia].
Qed.
Lemma atC_main x n t : wsizes t -> n <= d3 -> atC x n (at_main f t).
Proof.
  intros S L. unfold at_main. pose proof d_le. destruct (tr_prefix t) as [c|] eqn:C.
  - cbn [atC]. split; [exact S|]. split; [now exists c|]. exists 0. split; [reflexivity|lia].
  - apply atC_fill_more; [exact S|lia].
Qed.
Lemma wsizes_of lm ls ms : (forall l, ls = Some l -> N.of_nat (length l) <= B1) ->
  (forall l, ms = Some l -> N.of_nat (length l) <= B2) -> wsizes (tree_result p o lm ls ms).
Proof. intros A D. destruct (tree_result_sets p o lm ls ms) as [E1 E2]. split; rewrite ?E1, ?E2; assumption. Qed.
Lemma atC_more x n lm ls : store_exec f ov x0 x -> (forall l, ls = Some l -> N.of_nat (length l) <= B1) -> n <= d2 ->
  atC x n (at_more f p o lm ls).
Proof.
  intros E S L. unfold at_more. pose proof d_le. destruct (mo_more o).
  - cbn [atC]. exists 0%nat, mscan0. split; [reflexivity|]. split; [now apply wsub_start|]. split; [lia|exact S].
  - apply atC_main; [|lia]. apply wsizes_of; [exact S|discriminate].
Qed.
Lemma atC_less x n lm : store_exec f ov x0 x -> n <= B1 + 1 -> atC x n (at_less f p o lm).
Proof.
  intros E L. unfold at_less. destruct (mo_less o).
  - cbn [atC]. exists 0%nat, (bscan0 false p). split; [reflexivity|]. split; [now apply wsub_start|lia].
  - apply atC_more; [exact E|discriminate|unfold d2; lia].
Qed.

Lemma atC_own x n q past t bmin : store_exec f ov x0 x -> match_over q = false -> match_waits q = None ->
  nth_error (sc_sts x) i = Some (SThread SIdle past) -> nth_error (wc_ths (sc_tree x)) i = Some t ->
  atC x n q -> atC x (n + 1) (match_next f p o (seeing (wt_view t) bmin) q).
Proof.
  intros E Ov Wt N Nt. pose proof d_le as Cl.
  destruct q as [sc|lm sc|lm ls sc|tr l|more tr main ms todo got l|r|]; cbn [match_over] in Ov; try discriminate Ov; cbn [atC].
  - intros (j & b & -> & S & L). cbn [match_next]. rewrite seeing_tree. pose proof (H1 p x j true b Wp S) as Lj.
    destruct (scan_stage (SLess true p b)) eqn:G.
    + pose proof (wsub_own f ov i x0 past0 R N0 x j (SLess true p b) past t Wp S G N Nt) as S'. cbn [atC]. exists (Datatypes.S j). eexists.
      split; [|split; [exact S'|lia]]. reflexivity.
    + apply atC_less; [exact E|lia].
    + cbn [atC]. unfold d2 in Cl. lia.
  - intros (j & b & -> & S & L). cbn [match_next]. rewrite seeing_tree. pose proof (H1 p x j false b Wp S) as Lj.
    pose proof (wsub_out _ _ _ S) as Lo. cbn [scan_out] in Lo. destruct (scan_stage (SLess false p b)) eqn:G.
    + pose proof (wsub_own f ov i x0 past0 R N0 x j (SLess false p b) past t Wp S G N Nt) as S'. cbn [atC]. exists (Datatypes.S j). eexists.
      split; [|split; [exact S'|lia]]. reflexivity.
    + apply atC_more; [exact E| |unfold d2; lia]. intros l [= <-]. cbn [scan_out]. rewrite rev_length. lia.
    + cbn [atC]. unfold d2 in Cl. lia.
  - intros (j & m & -> & S & L & Ll). cbn [match_next]. rewrite seeing_tree. pose proof (H2 p x j m Wp S) as Lj.
    pose proof (wsub_out _ _ _ S) as Lo. cbn [scan_out] in Lo. destruct (scan_stage (SMore p m)) eqn:G.
    + pose proof (wsub_own f ov i x0 past0 R N0 x j (SMore p m) past t Wp S G N Nt) as S'. cbn [atC]. exists (Datatypes.S j). eexists.
      split; [|split; [exact S'|split; [lia|exact Ll]]]. reflexivity.
    + apply atC_main; [|unfold d3; lia]. apply wsizes_of; [exact Ll|]. intros l [= <-]. cbn [scan_out].
      match goal with |- N.of_nat (length (filter ?g ?l)) <= _ => pose proof (filter_len g l) as Fl end. rewrite rev_length in Fl. lia.
    + cbn [atC]. unfold d3 in Cl. lia.
  - intros (S & (c & C) & j & Lk & L). cbn [match_next]. rewrite C. cbn [match_waits] in Wt.
    destruct l as [l| |bm pc|r| |g|g g0]; try contradiction Lk; [rewrite C in Wt; discriminate Wt|]. cbn [lookC] in Lk.
    apply atC_fill_more; [exact S|]. unfold d4. lia.
  - intros (S & j & d & Lk & Lz & Ld & L). cbn [match_waits] in Wt.
    destruct todo as [|c todo]; cbn [match_next].
    + rewrite (Lz eq_refl) in L. cbn [length N.of_nat] in Ld. destruct more.
      * apply atC_fill_less; [exact S|]. unfold d5. lia.
      * cbn [at_end atC]. unfold d6. lia.
    + cbn [length] in Ld.
      assert (Nx : forall got', j = 1 -> atC x (n + 1) (AtFill more tr main ms todo got' WAsk)).
      { intros got' Ej. cbn [atC]. split; [exact S|]. exists 0, (d + 1). split; [reflexivity|]. split; [reflexivity|]. split; [lia|]. lia. }
      destruct l as [l| |bm pc|r| |g|g g0]; try contradiction Lk; [discriminate Wt|]. cbn [lookC] in Lk.
      destruct r as [[v|]|e]; [now apply Nx..|]. cbn [atC]. unfold d6, d5 in *. destruct more; lia.
Qed.
Lemma atC_gets x n q c v : match_waits q = Some c -> atC x n q -> atC x (n + 1) (match_got v q).
Proof.
  intros Wt. destruct q as [sc|lm sc|lm ls sc|tr l|more tr main ms todo got l|r|]; cbn [match_waits] in Wt; try discriminate Wt; cbn [atC match_got].
  - destruct l; try discriminate Wt. cbn [lookC]. intros (S & C & j & -> & L). split; [exact S|]. split; [exact C|].
    exists 1. split; [reflexivity|lia].
  - destruct todo as [|c' todo]; [discriminate Wt|]. destruct l; try discriminate Wt. cbn [lookC].
    intros (S & j & d & -> & _ & Ld & L). split; [exact S|]. exists 1, d. split; [reflexivity|]. split; [discriminate|].
    split; [exact Ld|lia].
Qed.

Lemma wmatch_count n x q : smatching f ov B p o i x0 n x q -> N.of_nat n <= d6.
Proof.
  intros A0. assert (A : atC x (N.of_nat n) q).
  { induction A0 as [past N|n t0 x y q A IH T S|n x q past t bmin A IH Ov Wt N Nt Bm|n x q past c bmin v A IH Wt N Bm].
    - cbn [match_start atC]. exists 0%nat, (bscan0 true p). split; [reflexivity|]. split; [apply wsub_start; [apply se_here|reflexivity]|lia].
    - apply (atC_on x); [|exact IH]. eapply se_step; [apply se_here|exact T|exact S].
    - replace (N.of_nat (Datatypes.S n)) with (N.of_nat n + 1) by lia.
      eapply atC_own; eauto. exact (asking_exec _ _ _ _ _ _ _ _ _ _ _ _ _ _ _ A).
    - replace (N.of_nat (Datatypes.S n)) with (N.of_nat n + 1) by lia. eapply atC_gets; eauto. }
  pose proof d_le as Cl. destruct q as [sc|lm sc|lm ls sc|t l|more t main ms todo got l|r|]; cbn [atC] in A.
  - destruct A as (j & b & -> & S & L). pose proof (H1 p x j true b Wp S). unfold d2 in Cl. lia.
  - destruct A as (j & b & -> & S & L). pose proof (H1 p x j false b Wp S). unfold d2 in Cl. lia.
  - destruct A as (j & m & -> & S & L & _). pose proof (H2 p x j m Wp S). unfold d3 in Cl. lia.
  - destruct A as (_ & _ & j & Lk & L). assert (j <= 1) by (destruct l; cbn [lookC] in Lk; try contradiction Lk; lia). unfold d4 in Cl. lia.
  - destruct A as (_ & j & d & Lk & _ & Ld & L). assert (j <= 1) by (destruct l; cbn [lookC] in Lk; try contradiction Lk; lia).
    unfold d6, d5 in *. destruct more; lia.
  - exact A.
  - exact A.
Qed.
End Match.

Section Each.
Variable (k : each).
Hypotheses (Wk : wf_each f k) (Hb : B1 <= B2).

Definition itC (x : sconf) (n : N) (q : itpc) : Prop :=
  match q with
  | ItCheck _ j => n + N.of_nat j <= 1
  | ItScan sc cur _ => exists m j d, wsub x m sc /\ same_scan k sc /\
      d + (match cur with Some _ => 1 | None => 0 end) <= N.of_nat (length (scan_out sc)) /\
      match cur with Some (_, l) => lookC j l | None => j = 0 end /\
      n <= 2 + N.of_nat m + 2 * d + j
  | ItEnd _ | ItPanic => n <= 3 + 4 * B2
  end.
Lemma same_bound x m sc : same_scan k sc -> wsub x m sc -> N.of_nat m <= B2.
Proof.
  intros S A. pose proof (same_pfx f k Wk sc S) as W. destruct sc as [q b|once q b].
  - exact (H2 q x m b W A).
  - pose proof (H1 q x m once b W A). lia.
Qed.
Lemma itC_on x y n q : store_exec f ov x y -> itC x n q -> itC y n q.
Proof.
  intros E. destruct q as [m j|sc cur got|got|]; cbn [itC]; auto.
  intros (m & j & d & A & Z). exists m, j, d. split; [eapply wsub_on; eauto|exact Z].
Qed.
Lemma itC_scan x n : store_exec f ov x0 x -> n <= 2 -> itC x n (ItScan (each_scan k) None []).
Proof.
  intros E L. cbn [itC]. exists 0%nat, 0, 0. split; [apply wsub_start; [exact E|destruct k; reflexivity]|].
  split; [destruct k; reflexivity|]. split; [lia|]. split; [reflexivity|lia].
Qed.
Lemma itC_own x n q past t bmin : store_exec f ov x0 x -> each_over q = false -> each_waits q = None ->
  nth_error (sc_sts x) i = Some (SThread SIdle past) -> nth_error (wc_ths (sc_tree x)) i = Some t ->
  itC x n q -> itC x (n + 1) (each_next f k (seeing (wt_view t) bmin) q).
Proof.
  intros E Ov Wt N Nt. destruct q as [m j|sc cur got|got|]; cbn [each_over] in Ov; try discriminate Ov; cbn [itC each_next].
  - intros L. destruct (rib_mui_is_withdrawn (rib_now (seeing (wt_view t) bmin) f) m); [cbn [itC]; lia|].
    destruct j as [|j]; [apply itC_scan; [exact E|lia]|cbn [itC]; lia].
  - intros (m & j & d & A & A' & D & F & L). pose proof (same_bound x m sc A' A) as Li. pose proof (wsub_out x m sc A) as Lo.
    destruct cur as [[c l]|].
    + cbn [each_waits] in Wt. destruct l as [l| |bm pc|r| |g|g g0]; try contradiction F; [discriminate Wt|]. cbn [lookC] in F.
      cbn [itC]. exists m, 0, (d + 1). split; [exact A|]. split; [exact A'|]. split; [lia|]. split; [reflexivity|lia].
    + rewrite seeing_tree. destruct (scan_stage sc) eqn:G; [|cbn [itC]; lia..].
      pose proof (wsub_own f ov i x0 past0 R N0 x m sc past t (same_pfx f k Wk sc A') A G N Nt) as S'. cbn [itC].
      exists (Datatypes.S m), 0, d. split; [exact S'|]. split; [now apply same_next|].
      destruct (scan_next_out f (wt_view t) sc) as [Q|(c & Q)]; rewrite Q.
      * assert (Z : match scan_out sc with
           | [] => None
           | c :: l => if Nat.eqb (length l) (length (scan_out sc)) then Some (c, WAsk) else None end = None).
        { destruct (scan_out sc) as [|c l]; [reflexivity|]. cbn [length].
          destruct (Nat.eqb_spec (length l) (Datatypes.S (length l))) as [X|X]; [lia|reflexivity]. }
        rewrite Z. split; [exact D|]. split; [reflexivity|lia].
      * rewrite Nat.eqb_refl. cbn [length]. split; [lia|]. split; [reflexivity|lia].
Qed.
Lemma itC_gets x n q c v : each_waits q = Some c -> itC x n q -> itC x (n + 1) (each_got v q).
Proof.
  intros Wt. destruct q as [m j|sc cur got|got|]; cbn [each_waits] in Wt; try discriminate Wt.
  destruct cur as [[c' l]|]; [|discriminate Wt]. destruct l; try discriminate Wt.
  cbn [itC each_got lookC]. intros (m & j & d & A & A' & D & -> & L). exists m, 1, d. split; [exact A|]. split; [exact A'|].
  split; [exact D|]. split; [reflexivity|lia].
Qed.
Lemma weach_count n x q : siterating f ov B k i x0 n x q -> N.of_nat n <= 3 + 4 * B2.
Proof.
  intros A0. assert (A : itC x (N.of_nat n) q).
  { induction A0 as [past N|n t0 x y q A IH T S|n x q past t bmin A IH Ov Wt N Nt Bm|n x q past c bmin v A IH Wt N Bm].
    - assert (G : itC x0 0 (ItScan (each_scan k) None [])) by (apply itC_scan; [apply se_here|lia]).
      unfold each_start, itC in *. destruct k as [p [m|] []|p m iw| |m []]; try exact G; cbn; lia.
    - apply (itC_on x); [|exact IH]. eapply se_step; [apply se_here|exact T|exact S].
    - replace (N.of_nat (Datatypes.S n)) with (N.of_nat n + 1) by lia.
      eapply itC_own; eauto. exact (asking_exec _ _ _ _ _ _ _ _ _ _ _ _ _ _ _ A).
    - replace (N.of_nat (Datatypes.S n)) with (N.of_nat n + 1) by lia. eapply itC_gets; eauto. }
  destruct q as [m j|sc cur got|got|]; cbn [itC] in A; try lia.
  destruct A as (m & j & d & A & C & D & F & L). pose proof (same_bound x m sc C A) as Li. pose proof (wsub_out x m sc A) as Lo.
  destruct cur as [[c l]|]; [assert (j <= 1) by (destruct l; cbn [lookC] in F; try contradiction F; lia)|]; lia.
Qed.
End Each.
End Ends.

Lemma wsub_less_end f ov i x0 past0 : store_reach f ov x0 -> nth_error (sc_sts x0) i = Some (SThread SIdle past0) ->
  forall p x n once b, wf_pid f p -> wsub f ov i x0 past0 x n (SLess once p b) -> N.of_nat n <= 12868.
Proof.
  intros R N0 p x n once b W (xa & A & _ & G & _). destruct (thread_at f ov i x0 past0 R N0 xa A) as (_ & ta & _ & _ & Nta & _ & Ra & _).
  cbn [wrun] in G. pose proof (wlooks_end _ _ _ _ _ _ _ _ _ _ Ra Nta W G) as L. pose proof (proj1 W) as Lp.
  assert (p_len p <= 128) by (destruct f; cbn in *; lia). lia.
Qed.
Lemma wsub_more_end f ov i x0 past0 : store_reach f ov x0 -> nth_error (sc_sts x0) i = Some (SThread SIdle past0) ->
  forall p x n m, wf_pid f p -> wsub f ov i x0 past0 x n (SMore p m) -> N.of_nat n <= 2 ^ 204.
Proof.
  intros R N0 p x n m W (xa & A & _ & G & _). destruct (thread_at f ov i x0 past0 R N0 xa A) as (_ & ta & _ & _ & Nta & _ & Ra & _).
  cbn [wrun] in G. exact (wscan_ends _ _ _ _ _ _ _ _ _ Ra Nta W G).
Qed.

Lemma wmatch_bound f ov B p o i x0 n x q : store_reach f ov x0 -> wf_pid f p -> smatching f ov B p o i x0 n x q ->
  N.of_nat n <= 2 ^ 207.
Proof.
  intros R Wp A. destruct (asking_idle _ _ _ _ _ _ _ _ _ _ _ _ _ _ _ A) as (past0 & N0).
  pose proof (wmatch_count f ov B i x0 past0 12868 (2 ^ 204) R N0 (wsub_less_end _ _ _ _ _ R N0) (wsub_more_end _ _ _ _ _ R N0) p o Wp n x q A) as Q.
  assert (L : d6 12868 (2 ^ 204) <= 2 ^ 207) by (vm_compute; discriminate). exact (N.le_trans _ _ _ Q L).
Qed.
Lemma weach_bound f ov B k i x0 n x q : store_reach f ov x0 -> wf_each f k -> siterating f ov B k i x0 n x q ->
  N.of_nat n <= 2 ^ 207.
Proof.
  intros R Wk A. destruct (asking_idle _ _ _ _ _ _ _ _ _ _ _ _ _ _ _ A) as (past0 & N0).
  assert (Hb : 12868 <= 2 ^ 204) by (vm_compute; discriminate).
  pose proof (weach_count f ov B i x0 past0 12868 (2 ^ 204) R N0 (wsub_less_end _ _ _ _ _ R N0) (wsub_more_end _ _ _ _ _ R N0) k Wk Hb n x q A) as Q.
  assert (L : 3 + 4 * 2 ^ 204 <= 2 ^ 207) by (vm_compute; discriminate). exact (N.le_trans _ _ _ Q L).
Qed.
