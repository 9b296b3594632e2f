(* Two stores that answer for the same history give the same answers. *)
From Coq Require Import Arith NArith List Bool Lia Permutation.
From Verif Require Import Word Af BitSpan Spec Maps Cht Tree TreeProofs Iter IterProofs MultiMap
  PrefixCht PrefixChtProofs Lsm LsmProofs RecordSet Rib StarCast HistSpec Ask PropSpec RibProofs RibLsm RibOk
  Queries Queries2 SameSpec.
Import ListNotations.
Local Open Scope N_scope.

Lemma lists_same V l l' : lists V l -> lists V l' -> Permutation l l'.
Proof.
  intros [A B] [A' B']. apply NoDup_Permutation.
  - now apply NoDup_map_inv in A.
  - now apply NoDup_map_inv in A'.
  - intros r. now rewrite B, B'.
Qed.

Lemma lists_nil V l : lists V l -> (forall m, V m = None) -> l = [].
Proof.
  intros [_ B] N. destruct l as [|r l]; [easy|]. exfalso.
  assert (V (r_mui r) = Some r) by (apply B; now left). congruence.
Qed.

Lemma answers_same V o o' : answers V o -> answers V o' -> same_records o o'.
Proof.
  destruct o as [l|], o' as [l'|]; simpl; auto.
  - intros [_ A] [_ B]. eapply lists_same; eauto.
  - intros [N A] B. elim N. eapply lists_nil; eauto.
  - intros B [N A]. elim N. eapply lists_nil; eauto.
Qed.

Lemma same_items_app a a' b b' : same_items a a' -> same_items b b' -> same_items (a ++ b) (a' ++ b').
Proof.
  intros (m & P & F) (m' & P' & F'). exists (m ++ m'). split; [now apply Permutation_app|].
  now apply Forall2_app.
Qed.

Lemma gives_same D V : forall l l', gives D V l -> gives D V l' ->
  same_items (List.map ROk l) (List.map ROk l').
Proof.
  intros l l' (N & A & B) (N' & A' & B').
  (* each item of one list stands in the other *)
  assert (X : forall p rs, In (p, rs) l' -> exists rs0, In (p, rs0) l /\ Permutation rs0 rs).
  { intros p rs I. destruct (A' p rs I) as [Dp [Nn L]].
    assert (M : exists m, V p m <> None).
    { destruct rs as [|r rs]; [easy|]. exists (r_mui r). destruct L as [_ L].
      assert (V p (r_mui r) = Some r) as -> by (apply L; now left). discriminate. }
    destruct M as [m M]. destruct (B p m Dp M) as [rs0 I0]. exists rs0. split; [easy|].
    destruct (A p rs0 I0) as [_ [_ L0]]. eapply lists_same; eauto. }
  assert (Y : forall p rs, In (p, rs) l -> exists rs', In (p, rs') l').
  { intros p rs I. destruct (A p rs I) as [Dp [Nn L]].
    destruct rs as [|r rs]; [easy|]. apply (B' p (r_mui r) Dp). destruct L as [_ L].
    assert (V p (r_mui r) = Some r) as -> by (apply L; now left). discriminate. }
  clear A A' B B'.
  assert (Z : exists m, Permutation l m /\ Forall2 (fun a b => fst a = fst b /\ Permutation (snd a) (snd b)) m l').
  { revert l N X Y. induction l' as [|[p rs] l' IH]; intros l N X Y.
    - exists []. split; [|constructor]. destruct l as [|[q rs] l]; [constructor|].
      exfalso. destruct (Y q rs (or_introl eq_refl)) as [rs' []].
    - destruct (X p rs (or_introl eq_refl)) as (rs0 & I0 & P0).
      apply in_split in I0. destruct I0 as (l1 & l2 & ->).
      assert (Pm : Permutation (l1 ++ (p, rs0) :: l2) ((p, rs0) :: l1 ++ l2))
        by (apply Permutation_sym, Permutation_middle).
      assert (N2 : NoDup (List.map fst ((p, rs0) :: l1 ++ l2))).
      { eapply Permutation_NoDup; [|exact N]. now apply Permutation_map. }
      cbn [List.map fst] in N2. inversion N2 as [|? ? NI N3]; subst.
      cbn [List.map fst] in N'. inversion N' as [|? ? NI' N3']; subst.
      destruct (IH N3' (l1 ++ l2) N3) as (m & Pm' & F).
      + intros q rs1 I. destruct (X q rs1 (or_intror I)) as (rs2 & I2 & P2).
        exists rs2. split; [|easy]. apply (Permutation_in _ Pm) in I2. destruct I2 as [E|I2]; [|easy].
        injection E as <- <-. elim NI'. apply in_map_iff. exists (p, rs1). easy.
      + intros q rs1 I. destruct (Y q rs1) as (rs2 & [E|I2]).
        * apply in_app_or in I. apply in_or_app. destruct I; [now left|right; now right].
        * injection E as <- <-. elim NI. apply in_map_iff. exists (p, rs1). easy.
        * eauto.
      + exists ((p, rs0) :: m). split.
        * etransitivity; [exact Pm|]. now constructor.
        * constructor; [|exact F]. split; easy. }
  destruct Z as (m & P & F). exists (List.map ROk m). split; [now apply Permutation_map|].
  clear -F. induction F as [|[a ra] [b rb] m l' [E P] F IH]; cbn; constructor; auto.
  cbn in *. auto.
Qed.

Lemma longest_same h p c c' : wf_history h -> longest_match h p c -> longest_match h p c' -> c = c'.
Proof.
  intros W. destruct c as [q|], c' as [q'|]; simpl; auto.
  - intros (L & C & M) (L' & C' & M').
    pose proof (M _ L' C') as A. pose proof (M' _ L C) as A'.
    destruct p as [f p], q as [g q], q' as [g' q']. destruct C as [C0 C], C' as [C0' C'].
    simpl in *. subst g g'. f_equal. f_equal.
    assert (Wq : wf_pid f q) by (destruct L as [L _]; now apply hist_inserted_wf in L).
    assert (Wq' : wf_pid f q') by (destruct L' as [L' _]; now apply hist_inserted_wf in L').
    destruct C as [Cl C], C' as [Cl' C'].
    apply (covers_antisym f); auto; [|lia]. split; [lia|]. intros i Hi.
    rewrite C, C' by lia. easy.
  - intros (L & C & M) N. elim (N _ L C).
  - intros N (L & C & M). elim (N _ L C).
Qed.

Lemma exact_same h p c c' : exact_match h p c -> exact_match h p c' -> c = c'.
Proof.
  destruct c as [q|], c' as [q'|]; simpl; auto.
  - now intros [-> _] [-> _].
  - intros [_ L] N. now elim N.
  - intros N [_ L]. now elim N.
Qed.

Section S.
Context (s : strategy) (h : list op) (a b : store).
Hypothesis Wh : wf_history h.
Hypothesis A : forall g, rib_ans s g h (rib_of a g).
Hypothesis B : forall g, rib_ans s g h (rib_of b g).

Lemma withdrawn_same g m : rib_mui_is_withdrawn (rib_of a g) m = rib_mui_is_withdrawn (rib_of b g) m.
Proof.
  unfold rib_mui_is_withdrawn.
  now rewrite (ta_gw _ _ _ (ra_tree _ _ _ _ (A g))), (ta_gw _ _ _ (ra_tree _ _ _ _ (B g))).
Qed.

Lemma more_iter_same g id mui iw : wf_pid g id -> wf_mui mui ->
  exists l l', rib_more_specifics_iter_from g (rib_of a g) id mui iw = Ok l /\
    rib_more_specifics_iter_from g (rib_of b g) id mui iw = Ok l' /\ same_items l l'.
Proof.
  intros W Wm. destruct (rib_more_iter_ok s g h _ Wh (A g) id mui iw W Wm) as (l & E & G).
  destruct (rib_more_iter_ok s g h _ Wh (B g) id mui iw W Wm) as (l' & E' & G').
  exists (List.map ROk l), (List.map ROk l'). split; [easy|]. split; [easy|]. eapply gives_same; eauto.
Qed.

Lemma prefixes_same g : exists l l', prefixes_iter_af a g = Ok l /\ prefixes_iter_af b g = Ok l' /\
  same_items l l'.
Proof.
  destruct (rib_prefixes_iter_ok s g h _ Wh (A g)) as (l & E & G & _).
  destruct (rib_prefixes_iter_ok s g h _ Wh (B g)) as (l' & E' & G' & _).
  exists (List.map ROk l), (List.map ROk l'). split; [easy|]. split; [easy|]. eapply gives_same; eauto.
Qed.

Lemma match_same g id o : wf_pid g id -> wf_mui (mo_mui o) ->
  exists q q', rib_match_prefix g (rib_of a g) id o = Ok (ROk q) /\
    rib_match_prefix g (rib_of b g) id o = Ok (ROk q') /\ same_result q q'.
Proof.
  intros W Wm.
  destruct (rib_match_ok s g h _ Wh (A g) id o W Wm) as (q & E & (c & Mc & Rc) & L & M).
  destruct (rib_match_ok s g h _ Wh (B g) id o W Wm) as (q' & E' & (c' & Mc' & Rc') & L' & M').
  exists q, q'. split; [easy|]. split; [easy|].
  assert (c' = c) as ->.
  { destruct (mo_type o).
    - exact (exact_same _ _ _ _ Mc' Mc).
    - exact (longest_same _ _ _ _ Wh Mc' Mc).
    - exact (longest_same _ _ _ _ Wh Mc' Mc). }
  assert (R3 : qr_type q = qr_type q' /\ qr_prefix q = qr_prefix q' /\
    Permutation (qr_records q) (qr_records q')).
  { destruct c as [c|].
    - destruct Rc as (x & Ax & Rx), Rc' as (x' & Ax' & Rx').
      pose proof (answers_same _ _ _ Ax Ax') as S.
      destruct x as [rs|], x' as [rs'|]; try easy.
      + destruct Rx as (-> & -> & ->), Rx' as (-> & -> & ->). easy.
      + destruct Rx as (-> & -> & ->), Rx' as (-> & -> & ->). easy.
    - destruct Rc as (-> & -> & ->), Rc' as (-> & -> & ->). easy. }
  destruct R3 as (R1 & R2 & R3). split; [easy|]. split; [easy|]. split; [easy|]. split.
  - destruct (mo_less o).
    + destruct L as (rs & l & -> & I & G), L' as (rs' & l' & -> & I' & G').
      exists l, l'. split; [easy|]. split; [easy|]. eapply gives_same; eauto.
    + now rewrite L, L'.
  - destruct (mo_more o).
    + destruct M as (rs & l & -> & I & G), M' as (rs' & l' & -> & I' & G').
      exists l, l'. split; [easy|]. split; [easy|]. eapply gives_same; eauto.
    + now rewrite M, M'.
Qed.

(* more_specifics_from and less_specifics_from: each prefix with the records of the
   search prefix *)
Lemma from_same g o o' L L' : same_records o o' -> Permutation L L' ->
  exists x x', collect_ro (List.map (fun p => of_prefix g p (ROk o)) L) = ROk x /\
    collect_ro (List.map (fun p => of_prefix g p (ROk o')) L') = ROk x' /\
    same_set (option_map rs_from_iter x) (option_map rs_from_iter x').
Proof.
  assert (Col : forall v M, collect_ro (List.map (fun p => of_prefix g p (ROk (Some v))) M) =
    ROk (Some (List.map (fun p => ((g, p), v)) M))).
  { intros v M. induction M as [|p M IH]; cbn [List.map collect_ro]; [easy|]. rewrite IH. reflexivity. }
  assert (Items : forall v M, rs_items (rs_from_iter (List.map (fun p => ((g, p), v)) M)) =
    Ok (List.map (fun p => ((g, p), v)) M)).
  { intros v M. apply rs_items_family with (f := g). intros y Y. apply in_map_iff in Y.
    destruct Y as (z & <- & _). reflexivity. }
  intros So P. destruct o as [v|], o' as [v'|]; try contradiction So.
  - rewrite !Col. do 2 eexists. split; [reflexivity|]. split; [reflexivity|]. cbn [option_map same_set].
    do 2 eexists. split; [apply Items|]. split; [apply Items|].
    exists (List.map ROk (List.map (fun p => ((g, p), v)) L')). split.
    + now apply Permutation_map, Permutation_map.
    + clear -So. induction L'; cbn; constructor; auto. cbn. auto.
  - destruct L as [|p L], L' as [|p' L'].
    + do 2 eexists. split; [reflexivity|]. split; [reflexivity|]. exists [], []. split; [reflexivity|].
      split; [reflexivity|]. exists []. split; constructor.
    + apply Permutation_nil in P. discriminate.
    + apply Permutation_sym, Permutation_nil in P. discriminate.
    + do 2 eexists. split; [reflexivity|]. split; reflexivity.
Qed.

Lemma opt_same o o' : same_records o o' -> Permutation (opt_default o) (opt_default o').
Proof. destruct o, o'; easy. Qed.

Lemma more_from_same g id iw : wf_pid g id ->
  exists q q', rib_more_specifics_from g (rib_of a g) id None iw = Ok (ROk q) /\
    rib_more_specifics_from g (rib_of b g) id None iw = Ok (ROk q') /\ same_result q q'.
Proof.
  intros W. unfold rib_more_specifics_from.
  rewrite (rib_contains_ok s g h _ (A g)), (rib_contains_ok s g h _ (B g)) by exact W. cbn [bind].
  destruct (rib_value_ok s g h _ Wh (A g) id None iw W Logic.I) as (o & -> & X).
  destruct (rib_value_ok s g h _ Wh (B g) id None iw W Logic.I) as (o' & -> & X'). cbn [bind].
  pose proof (answers_same _ _ _ X X') as So.
  destruct (rib_more_ok s g h _ Wh (A g) id W) as (L & -> & ND & I).
  destruct (rib_more_ok s g h _ Wh (B g) id W) as (L' & -> & ND' & I'). cbn [bind].
  rewrite !(map_res_ok _ (fun p => of_prefix g p (ROk o))), !(map_res_ok _ (fun p => of_prefix g p (ROk o'))) by auto.
  cbn [bind].
  destruct (from_same g o o' L L' So) as (x & x' & -> & -> & S).
  { apply NoDup_Permutation; auto. intros q. now rewrite I, I'. }
  do 2 eexists. split; [reflexivity|]. split; [reflexivity|].
  repeat split; auto. now apply opt_same.
Qed.

Lemma less_from_same g id iw : wf_pid g id ->
  exists q q', rib_less_specifics_from g (rib_of a g) id None iw = Ok (ROk q) /\
    rib_less_specifics_from g (rib_of b g) id None iw = Ok (ROk q') /\ same_result q q'.
Proof.
  intros W. unfold rib_less_specifics_from.
  rewrite (rib_contains_ok s g h _ (A g)), (rib_contains_ok s g h _ (B g)) by exact W. cbn [bind].
  destruct (rib_value_ok s g h _ Wh (A g) id None iw W Logic.I) as (o & -> & X).
  destruct (rib_value_ok s g h _ Wh (B g) id None iw W Logic.I) as (o' & -> & X'). cbn [bind].
  pose proof (answers_same _ _ _ X X') as So.
  destruct (rib_less_ok s g h _ Wh (A g) id W) as (L & -> & LD & I).
  destruct (rib_less_ok s g h _ Wh (B g) id W) as (L' & -> & LD' & I'). cbn [bind].
  rewrite !(map_res_ok _ (fun p => of_prefix g p (ROk o))), !(map_res_ok _ (fun p => of_prefix g p (ROk o'))) by auto.
  cbn [bind].
  destruct (from_same g o o' L L' So) as (x & x' & -> & -> & S).
  { apply NoDup_Permutation; auto using len_desc_NoDup. intros q. now rewrite I, I'. }
  do 2 eexists. split; [reflexivity|]. split; [reflexivity|].
  repeat split; auto. now apply opt_same.
Qed.

Lemma ask_same q : for_records q = true -> wf_query q -> answer_alike (ask a q) (ask b q).
Proof.
  intros F W. unfold answer_alike. destruct q as [p o|p mui|p|p|p mui iw|p mui iw|p mui iw|p mui iw|p mui iw
    |g mui iw|g|g|g mui|g mui|g|g n|g|g|g|g| | |mui| | | |]; try discriminate F; cbn [ask wf_query] in *.
  - destruct p as [g id]. destruct W as [W Wm]. unfold match_prefix. cbn [fst snd].
    destruct (match_same g id o W Wm) as (x & y & -> & -> & S). cbn. eauto.
  - destruct mui; [discriminate|]. destruct p as [g id]. destruct W as [W _]. unfold contains. cbn [fst snd].
    rewrite (rib_contains_ok s g h _ (A g)), (rib_contains_ok s g h _ (B g)) by exact W. cbn.
    do 2 eexists. split; [reflexivity|]. split; [reflexivity|]. reflexivity.
  - destruct mui; [discriminate|]. destruct p as [g id]. destruct W as [W _].
    unfold more_specifics_from. cbn [fst snd].
    destruct (more_from_same g id iw W) as (x & y & -> & -> & S). cbn. eauto.
  - destruct mui; [discriminate|]. destruct p as [g id]. destruct W as [W _].
    unfold less_specifics_from. cbn [fst snd].
    destruct (less_from_same g id iw W) as (x & y & -> & -> & S). cbn. eauto.
  - destruct p as [g id]. destruct W as [W Wm]. unfold more_specifics_iter_from. cbn [fst snd].
    destruct (more_iter_same g id mui iw W Wm) as (x & y & -> & -> & S). cbn. eauto.
  - destruct p as [g id]. destruct W as [W Wm]. unfold less_specifics_iter_from. cbn [fst snd].
    destruct (rib_less_iter_ok s g h _ Wh (A g) id mui iw W Wm) as (l & -> & G & _).
    destruct (rib_less_iter_ok s g h _ Wh (B g) id mui iw W Wm) as (l' & -> & G' & _).
    cbn. do 2 eexists. split; [reflexivity|]. split; [reflexivity|]. cbn. eapply gives_same; eauto.
  - destruct p as [g id]. destruct W as [W Wm]. unfold get_records_for_prefix. cbn [fst snd].
    destruct (rib_value_ok s g h _ Wh (A g) id mui iw W Wm) as (o & -> & X).
    destruct (rib_value_ok s g h _ Wh (B g) id mui iw W Wm) as (o' & -> & X').
    cbn. do 2 eexists. split; [reflexivity|]. split; [reflexivity|]. cbn. eapply answers_same; eauto.
  - unfold iter_records_for_mui. rewrite withdrawn_same. destruct (_ && _).
    + cbn. do 2 eexists. split; [reflexivity|]. split; [reflexivity|]. exists []. split; constructor.
    + destruct (more_iter_same g (0, 0) (Some mui) iw) as (x & y & -> & -> & S); [|exact W|cbn; eauto].
      repeat split; try apply N.le_0_l. simpl. apply N.neq_0_lt_0, N.pow_nonzero. lia.
  - destruct (prefixes_same g) as (x & y & -> & -> & S). cbn. eauto.
  - do 2 eexists. split; [reflexivity|]. split; [reflexivity|]. cbn.
    unfold is_mui_active_af, rib_is_mui_active. f_equal. f_equal. apply withdrawn_same.
  - do 2 eexists. split; [reflexivity|]. split; [reflexivity|]. cbn. f_equal. apply withdrawn_same.
  - unfold prefixes_iter. destruct (prefixes_same IPv4) as (x & y & -> & -> & S).
    destruct (prefixes_same IPv6) as (x' & y' & -> & -> & S'). cbn.
    do 2 eexists. split; [reflexivity|]. split; [reflexivity|]. now apply same_items_app.
  - do 2 eexists. split; [reflexivity|]. split; [reflexivity|]. cbn.
    unfold is_mui_active, is_mui_active_af, rib_is_mui_active. f_equal.
    f_equal; f_equal; apply withdrawn_same.
Qed.

End S.
