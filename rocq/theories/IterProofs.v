(* What the iterators over the tree return. *)
From Coq Require Import Arith NArith PArith List Bool Lia.
From Verif Require Import Word Af BitSpan Spec Maps ChtMath Cht Node Tree ChainProofs TreeProofs
  NodeProofs Loop Iter.
Import ListNotations.
Local Open Scope N_scope.

Lemma slice_prefix w x s a b : a <= b -> s + b <= w ->
  slice w x s b / 2 ^ (b - a) = slice w x s a.
Proof.
  intros Hab Hw. unfold slice.
  replace (w - s - a) with ((w - s - b) + (b - a)) by lia.
  rewrite <- div_div_pow2. set (y := x / 2 ^ (w - s - b)).
  rewrite (pow2_split (b - a) b) by lia.
  replace (b - (b - a)) with a by lia.
  rewrite N.mod_mul_r by auto.
  rewrite N.mul_comm, N.div_add, N.div_small by (auto; apply N.mod_lt; auto). lia.
Qed.

Lemma NoDup_app (A : Type) (l l' : list A) : NoDup l -> NoDup l' ->
  (forall x, In x l -> In x l' -> False) -> NoDup (l ++ l').
Proof.
  induction l as [|a l IH]; intros N N' D; simpl; [easy|].
  inversion N as [|? ? NI N1]; subst. constructor.
  - rewrite in_app_iff. intros [H|H]; [easy|]. apply (D a); [now left|easy].
  - apply IH; auto. intros x Hx. apply D. now right.
Qed.

Lemma NoDup_flat_map (A B : Type) (g : A -> list B) l : NoDup l ->
  (forall x, In x l -> NoDup (g x)) ->
  (forall x y z, In x l -> In y l -> In z (g x) -> In z (g y) -> x = y) ->
  NoDup (flat_map g l).
Proof.
  induction l as [|a l IH]; intros N G D; simpl; [constructor|].
  inversion N as [|? ? NI N1]; subst. apply NoDup_app.
  - apply G. now left.
  - apply IH; auto.
    + intros x Hx. apply G. now right.
    + intros x y z Hx Hy. apply D; now right.
  - intros z Hz Hz'. apply in_flat_map in Hz'. destruct Hz' as [y [Hy Hyz]].
    assert (a = y) by (apply (D a y z); auto; [now left|now right]). now subst.
Qed.

Lemma rev_cons_app (A : Type) (p : A) acc l : rev (p :: acc) ++ l = rev acc ++ p :: l.
Proof. cbn [rev]. now rewrite <- app_assoc. Qed.

Lemma fm_cons (A B : Type) (g : A -> list B) a l : flat_map g (a :: l) = g a ++ flat_map g l.
Proof. reflexivity. Qed.

(* number of set bits below k *)
Definition cnt (k : nat) (m : N) : N := N.of_nat (length (hb k m)).
Lemma hb_cnt k w m : w = N.of_nat k -> m <> 0 -> m < 2 ^ w ->
  cnt k m = 1 + cnt k (N.lxor m (2 ^ N.log2 m)).
Proof.
  intros E NZ L. unfold cnt. rewrite (hb_top' k w m E NZ L) at 1. cbn [length]. lia.
Qed.
Lemma cnt_le k m : cnt k m <= N.of_nat k.
Proof. unfold cnt. pose proof (hb_length k m). lia. Qed.

Section I.
Variable f : af.
Notation W := (BITS f).

(* q lies strictly below node id *)
Definition under (id q : pid) : Prop :=
  p_len id < p_len q /\ id = (trunc W (p_bits q) (p_len id), p_len id).

Lemma under_node_of q : 0 < p_len q -> under (node_of f q) q.
Proof.
  intros L. pose proof (nlen_spec (p_len q)). split; [simpl; lia|reflexivity].
Qed.

Lemma under_same_node id q : wf_pid f q -> nid_ok f id -> 0 < p_len q ->
  under id q -> p_len q <= p_len id + 4 -> node_of f q = id.
Proof.
  intros Wq I L [U E] L4. destruct (nid_ok_len f id I) as [_ M].
  unfold node_of. rewrite <- (nlen_unique (p_len q) (p_len id)) by lia. now symmetry.
Qed.

Lemma under_child id q : nid_ok f id -> wf_pid f q -> under id q -> p_len id + 4 < p_len q ->
  under (child f id (slice W (p_bits q) (p_len id) 4)) q.
Proof.
  intros I Wq [U E] L4. destruct (nid_ok_len f id I) as [L M].
  split; [simpl; easy|].
  rewrite E at 1. rewrite child_trunc by easy. reflexivity.
Qed.

Lemma child_under id n q : nid_ok f id -> n < 16 -> wf_pid f q -> under (child f id n) q ->
  under id q /\ n = slice W (p_bits q) (p_len id) 4.
Proof.
  intros I Hn Wq [U E]. destruct (nid_ok_len f id I) as [L M].
  change (p_len (child f id n)) with (p_len id + 4) in *.
  assert (B : wf_bs (BS n 4)) by (split; simpl; [lia|easy]).
  assert (Eb : p_bits (addspan f id (BS n 4)) = trunc W (p_bits q) (p_len id + 4)).
  { change (addspan f id (BS n 4)) with (child f id n). now rewrite E. }
  pose proof (addspan_div f id (BS n 4) I B) as D.
  pose proof (addspan_slice f id (BS n 4) I B) as S.
  rewrite Eb in D, S. cbn [bs_len bs_bits] in S.
  destruct Wq as [W1 [W2 W3]].
  rewrite slice_trunc in S by lia. rewrite trunc_div_le in D by lia.
  split; [split; [lia|]|easy].
  destruct id as [b l] eqn:Q; cbn [p_len p_bits fst snd] in *. f_equal.
  destruct I as [[[_ [_ I3]] _] _]. unfold p_bits, p_len in I3. simpl in I3.
  rewrite <- (trunc_id W b l) by auto. unfold trunc, p_bits in *. now rewrite D.
Qed.

Lemma under_unique c c' q : p_len c = p_len c' -> under c q -> under c' q -> c = c'.
Proof. intros L [_ E] [_ E']. rewrite E, E', L. reflexivity. Qed.

(* covering within one node *)
Lemma covers_span p q : wf_pid f p -> wf_pid f q -> node_of f p = node_of f q ->
  covers f p q <-> bs_covers (span_of f p) (span_of f q) = true.
Proof.
  intros Wp Wq E. rewrite covers_div by auto. unfold bs_covers, span_of. cbn [bs_len bs_bits].
  pose proof (nlen_spec (p_len p)) as NP. pose proof (nlen_spec (p_len q)) as NQ.
  unfold node_of in E. apply pair_equal_spec in E. destruct E as [Et En].
  rewrite <- En in *. set (s := nlen (p_len p)) in *.
  destruct Wp as [P1 [P2 P3]], Wq as [Q1 [Q2 Q3]].
  apply (f_equal (fun x => x / 2 ^ (W - s))) in Et. rewrite !trunc_div in Et.
  rewrite andb_true_iff, N.leb_le, N.eqb_eq.
  assert (H : p_len p - s <= p_len q - s -> 
    (p_bits q / 2 ^ (W - p_len p) = p_bits p / 2 ^ (W - p_len p) <->
     slice W (p_bits q) s (p_len q - s) / 2 ^ (p_len q - s - (p_len p - s)) =
     slice W (p_bits p) s (p_len p - s))).
  { intros L. rewrite slice_prefix by lia.
    replace (W - p_len p) with (W - (s + (p_len p - s))) by lia.
    rewrite !div_slice by lia. rewrite Et. lia. }
  split; intros [A B]; (split; [lia|]); apply H; auto; lia.
Qed.

(* covering across a child pointer *)
Lemma covers_child p q : wf_pid f p -> wf_pid f q -> under (node_of f p) q ->
  p_len (node_of f p) + 4 < p_len q ->
  covers f p q <->
    (slice W (p_bits q) (p_len (node_of f p)) 4 / 2 ^ (4 - bs_len (span_of f p))
      =? bs_bits (span_of f p)) = true.
Proof.
  intros Wp Wq [U E] L. rewrite covers_div by auto. unfold span_of. cbn [bs_len bs_bits].
  pose proof (nlen_spec (p_len p)) as NP.
  apply (f_equal p_bits) in E. rename E into Et.
  change (trunc W (p_bits p) (nlen (p_len p)) = trunc W (p_bits q) (nlen (p_len p))) in Et.
  change (p_len (node_of f p)) with (nlen (p_len p)) in *.
  set (s := nlen (p_len p)) in *.
  apply (f_equal (fun x => x / 2 ^ (W - s))) in Et. rewrite !trunc_div in Et.
  destruct Wp as [P1 [P2 P3]], Wq as [Q1 [Q2 Q3]].
  rewrite N.eqb_eq.
  rewrite slice_prefix by lia.
  replace (W - p_len p) with (W - (s + (p_len p - s))) by lia.
  rewrite !div_slice by lia. rewrite Et. split; [intros [_ ?]; lia|].
  intros. split; lia.
Qed.

Lemma covers_under p q : wf_pid f p -> wf_pid f q -> covers f p q -> 0 < p_len q ->
  under (node_of f p) q.
Proof.
  intros Wp Wq C L. apply covers_trunc in C; auto. destruct C as [L1 E].
  pose proof (nlen_spec (p_len p)) as NP. destruct Wp as [P1 [P2 P3]].
  split; [simpl; lia|]. unfold node_of. cbn [p_len snd]. f_equal.
  rewrite E at 1. cbn [p_bits fst]. apply trunc_trunc; lia.
Qed.

(* ---------- a tree ---------- *)

Variable h : heap nodeval.
Hypothesis TI : tree_inv f h.

Lemma nodes_nid id v : nodes f h id = Some v -> nid_ok f id.
Proof.
  intros Q. split.
  - apply (nodes_dom f h id v (ti_cht f h TI) Q).
  - now apply (ti_node f h TI) in Q.
Qed.

(* every node above an existing node exists and points towards it *)
Lemma ancestors x : forall k s, s mod 4 = 0 ->
  nodes f h (trunc W x (s + 4 * N.of_nat (S k)), s + 4 * N.of_nat (S k)) <> None ->
  x < 2 ^ W ->
  exists v, nodes f h (trunc W x s, s) = Some v /\
    N.testbit (nv_ptr v) (ptr_bit (slice W x s 4)) = true.
Proof.
  induction k as [|k IH]; intros s M E X.
  - replace (s + 4 * N.of_nat 1) with (s + 4) in E by lia.
    destruct (nodes f h (trunc W x (s + 4), s + 4)) as [v|] eqn:Q; [|easy].
    pose proof (nodes_nid _ _ Q) as [_ L]. cbn [p_len snd] in L.
    destruct (ti_up f h TI _ _ Q) as [v' [Q' T]]; [cbn [p_len snd]; lia|].
    unfold parent in Q'. cbn [p_len p_bits fst snd] in *.
    replace (s + 4 - 4) with s in * by lia.
    rewrite trunc_trunc in Q' by lia. rewrite slice_trunc in T by lia.
    eauto.
  - destruct (IH (s + 4)) as [v [Q _]]; auto; [dlia|..].
    + replace (s + 4 + 4 * N.of_nat (S k)) with (s + 4 * N.of_nat (S (S k))) by lia. easy.
    + pose proof (nodes_nid _ _ Q) as [_ L]. cbn [p_len snd] in L.
      destruct (ti_up f h TI _ _ Q) as [v' [Q' T]]; [cbn [p_len snd]; lia|].
      unfold parent in Q'. cbn [p_len p_bits fst snd] in *.
      replace (s + 4 - 4) with s in * by lia.
      rewrite trunc_trunc in Q' by lia. rewrite slice_trunc in T by lia.
      eauto.
Qed.

Lemma stored_node q : stored f h q = true ->
  exists v, nodes f h (node_of f q) = Some v /\
    N.testbit (nv_pfx v) (bs_bit (span_of f q)) = true.
Proof.
  unfold stored. destruct (nodes f h (node_of f q)) as [v|]; [|easy]. eauto.
Qed.

Lemma under_stored id q : nid_ok f id -> wf_pid f q -> under id q -> stored f h q = true ->
  p_len id + 4 < p_len q ->
  exists v, nodes f h id = Some v /\
    N.testbit (nv_ptr v) (ptr_bit (slice W (p_bits q) (p_len id) 4)) = true.
Proof.
  intros I Wq [U E] St L. destruct (nid_ok_len f id I) as [_ M].
  pose proof (nlen_spec (p_len q)) as NQ.
  destruct (stored_node q St) as [v [Q _]]. rewrite E.
  cbn [p_len p_bits fst snd].
  apply (ancestors (p_bits q) (N.to_nat ((nlen (p_len q) - p_len id) / 4 - 1)) (p_len id) M);
    [|apply Wq].
  replace (p_len id + 4 * N.of_nat (S (N.to_nat ((nlen (p_len q) - p_len id) / 4 - 1))))
    with (nlen (p_len q)) by dlia.
  unfold node_of in Q. congruence.
Qed.

Lemma under_exists id q : nid_ok f id -> wf_pid f q -> 0 < p_len q -> under id q ->
  stored f h q = true -> exists v, nodes f h id = Some v.
Proof.
  intros I Wq L U S. destruct (N.le_gt_cases (p_len q) (p_len id + 4)).
  - destruct (stored_node q S) as [v [Q _]].
    rewrite (under_same_node id q) in Q by auto. eauto.
  - destruct (under_stored id q) as [v [Q _]]; eauto.
Qed.

(* ---------- the prefixes below a node, in the order of the iterator ---------- *)

Fixpoint sub (n : nat) (id : pid) : list pid :=
  match n with
  | O => []
  | S n' =>
    match nodes f h id with
    | None => []
    | Some v => pl f (PfxIter id (nv_pfx v)) ++
                flat_map (sub n') (chl f (ChildIter id (nv_ptr v)))
    end
  end.

Definition depth (id : pid) : nat := N.to_nat ((W - p_len id) / 4).
Definition subt (id : pid) : list pid := sub (depth id) id.

Lemma depth_child id n : nid_ok f id -> depth id = S (depth (child f id n)).
Proof.
  intros I. destruct (nid_ok_len f id I) as [L M]. unfold depth.
  change (p_len (child f id n)) with (p_len id + 4). pose proof (BITS_mod4 f). dlia.
Qed.

Lemma flat_map_ext_in (A B : Type) (g g' : A -> list B) l :
  (forall x, In x l -> g x = g' x) -> flat_map g l = flat_map g' l.
Proof.
  induction l as [|a l IH]; intros H; simpl; [easy|].
  rewrite H by now left. rewrite IH; [easy|]. intros x Hx. apply H. now right.
Qed.

Lemma subt_eq id v : nodes f h id = Some v ->
  subt id = pl f (PfxIter id (nv_pfx v)) ++
            flat_map subt (chl f (ChildIter id (nv_ptr v))).
Proof.
  intros Q. pose proof (nodes_nid _ _ Q) as I. unfold subt at 1.
  rewrite (depth_child id 0 I). cbn [sub]. rewrite Q. f_equal.
  apply flat_map_ext_in. intros c Hc. apply In_chl in Hc.
  destruct Hc as [n [Hn [_ ->]]]. cbn [ci_base]. unfold subt. f_equal.
Qed.

Lemma node_pbits id v : nodes f h id = Some v -> pbits_ok (nv_pfx v).
Proof. intros Q. apply (ti_node f h TI) in Q. split; apply Q. Qed.

Lemma In_subt_gen : forall n id, depth id = n -> nodes f h id <> None -> forall q,
  In q (subt id) <-> wf_pid f q /\ 0 < p_len q /\ under id q /\ stored f h q = true.
Proof.
  induction n as [|n IH]; intros id D EX q.
  - destruct (nodes f h id) as [v|] eqn:Q; [|easy].
    rewrite (depth_child id 0) in D by (eapply nodes_nid; eauto). easy.
  - destruct (nodes f h id) as [v|] eqn:Q; [|easy].
    pose proof (nodes_nid _ _ Q) as I.
    rewrite (subt_eq id v Q), in_app_iff.
    rewrite In_pl; [|easy|now apply node_pbits in Q]. cbn [pi_base pi_bits].
    assert (C : In q (flat_map subt (chl f (ChildIter id (nv_ptr v)))) <->
      exists k, k < 16 /\ N.testbit (nv_ptr v) (ptr_bit k) = true /\
        wf_pid f q /\ 0 < p_len q /\ under (child f id k) q /\ stored f h q = true).
    { rewrite in_flat_map. split.
      - intros [c [Hc Hq]]. apply In_chl in Hc. cbn [ci_base ci_range] in Hc.
        destruct Hc as [k [Hk [T ->]]]. exists k. split; [easy|]. split; [easy|].
        apply IH in Hq; [easy| |].
        + rewrite (depth_child id k I) in D. congruence.
        + now apply (ti_down f h TI id v k Q).
      - intros [k [Hk [T H]]]. exists (child f id k). split.
        + apply In_chl. exists k. auto.
        + apply IH; auto.
          * rewrite (depth_child id k I) in D. congruence.
          * now apply (ti_down f h TI id v k Q). }
    rewrite C. clear C. split.
    + intros [(Wq & L & E & T)|(k & Hk & T & Wq & L & U & S)].
      * split; [easy|]. split; [easy|]. split.
        -- rewrite <- E. now apply under_node_of.
        -- unfold stored. now rewrite E, Q.
      * split; [easy|]. split; [easy|]. split; [|easy].
        now apply child_under in U.
    + intros (Wq & L & U & S).
      destruct (N.le_gt_cases (p_len q) (p_len id + 4)) as [Le|Gt].
      * left. assert (E : node_of f q = id) by now apply under_same_node.
        unfold stored in S. rewrite E, Q in S. auto.
      * right. exists (slice W (p_bits q) (p_len id) 4).
        destruct (under_stored id q I Wq U S Gt) as [v' [Q' T]].
        rewrite Q in Q'. injection Q' as <-.
        split; [apply slice_lt|]. split; [easy|]. split; [easy|]. split; [easy|].
        split; [|easy]. now apply under_child.
Qed.

Lemma In_subt id q : nodes f h id <> None ->
  In q (subt id) <-> wf_pid f q /\ 0 < p_len q /\ under id q /\ stored f h q = true.
Proof. intros. now apply (In_subt_gen (depth id)). Qed.

(* the prefixes below the children in the range of an iterator *)
Definition cl (ci : childiter) : list pid := flat_map subt (chl f ci).

Lemma subt_cl id v : nodes f h id = Some v ->
  subt id = pl f (PfxIter id (nv_pfx v)) ++ cl (ChildIter id (nv_ptr v)).
Proof. apply subt_eq. Qed.

(* the children an iterator still has to visit exist *)
Definition ci_ok (ci : childiter) : Prop :=
  nid_ok f (ci_base ci) /\ ci_range ci < 2 ^ 16 /\
  forall n, n < 16 -> N.testbit (ci_range ci) (ptr_bit n) = true ->
    p_len (ci_base ci) + 4 < W /\ nodes f h (child f (ci_base ci) n) <> None.

Lemma In_cl ci q : ci_ok ci -> In q (cl ci) <->
  wf_pid f q /\ 0 < p_len q /\ stored f h q = true /\ under (ci_base ci) q /\
  p_len (ci_base ci) + 4 < p_len q /\
  N.testbit (ci_range ci) (ptr_bit (slice W (p_bits q) (p_len (ci_base ci)) 4)) = true.
Proof.
  intros (I & R & EX). unfold cl. rewrite in_flat_map. split.
  - intros [c [Hc Hq]]. apply In_chl in Hc. destruct Hc as [n [Hn [T ->]]].
    apply In_subt in Hq; [|now apply EX]. destruct Hq as (Wq & L & U & S).
    pose proof U as [U1 _].
    apply child_under in U; auto. destruct U as [U E]. subst n.
    repeat (split; [easy|]). easy.
  - intros (Wq & L & S & U & L4 & T).
    exists (child f (ci_base ci) (slice W (p_bits q) (p_len (ci_base ci)) 4)). split.
    + apply In_chl. exists (slice W (p_bits q) (p_len (ci_base ci)) 4).
      split; [apply slice_lt|]. auto.
    + apply In_subt; [apply EX; auto; apply slice_lt|].
      split; [easy|]. split; [easy|]. split; [|easy]. now apply under_child.
Qed.

Lemma NoDup_children ci : ci_ok ci -> (forall c, In c (chl f ci) -> NoDup (subt c)) ->
  NoDup (cl ci).
Proof.
  intros (I & R & EX) H. apply NoDup_flat_map; auto.
  - now apply NoDup_chl.
  - intros c c' q Hc Hc' Hq Hq'. apply In_chl in Hc, Hc'.
    destruct Hc as [n [Hn [T ->]]]. destruct Hc' as [n' [Hn' [T' ->]]].
    apply In_subt in Hq; [|now apply EX]. apply In_subt in Hq'; [|now apply EX].
    apply (under_unique _ _ q); [reflexivity| |]; easy.
Qed.

Lemma ci_ok_node id v : nodes f h id = Some v -> ci_ok (ChildIter id (nv_ptr v)).
Proof.
  intros Q. split; [now apply nodes_nid in Q|]. split.
  - now apply (ti_node f h TI) in Q.
  - intros n Hn T. now apply (ti_down f h TI id v n Q).
Qed.

Lemma NoDup_pl_cl id m r : ci_ok (ChildIter id r) -> pbits_ok m ->
  (forall c, In c (chl f (ChildIter id r)) -> NoDup (subt c)) ->
  NoDup (pl f (PfxIter id m) ++ cl (ChildIter id r)).
Proof.
  intros C P H. apply NoDup_app.
  - apply NoDup_pl; [apply C|easy].
  - now apply NoDup_children.
  - intros q Hp Hc. apply In_pl in Hp; [|apply C|easy].
    apply In_cl in Hc; auto. cbn [pi_base ci_base] in *.
    destruct Hp as (_ & L & E & _). destruct Hc as (_ & _ & _ & _ & L4 & _).
    rewrite <- E in L4. pose proof (nlen_spec (p_len q)).
    change (p_len (node_of f q)) with (nlen (p_len q)) in L4. lia.
Qed.

Lemma NoDup_subt_gen : forall n id, depth id = n -> nodes f h id <> None -> NoDup (subt id).
Proof.
  induction n as [|n IH]; intros id D EX;
    (destruct (nodes f h id) as [v|] eqn:Q; [|easy]);
    pose proof (nodes_nid _ _ Q) as I.
  - rewrite (depth_child id 0 I) in D. easy.
  - rewrite (subt_cl id v Q).
    apply NoDup_pl_cl; [now apply ci_ok_node|now apply node_pbits in Q|].
    intros c Hc. apply In_chl in Hc. destruct Hc as [k [Hk [T ->]]].
    apply IH.
    + cbn [ci_base]. rewrite (depth_child id k I) in D. congruence.
    + now apply (ti_down f h TI id v k Q).
Qed.

Lemma NoDup_cl ci : ci_ok ci -> forall c, In c (chl f ci) -> NoDup (subt c).
Proof.
  intros (I & R & EX) c Hc. apply In_chl in Hc. destruct Hc as [n [Hn [T ->]]].
  apply (NoDup_subt_gen (depth (child f (ci_base ci) n))); [easy|]. now apply EX.
Qed.

(* ---------- the iterator as a machine ---------- *)

Definition X (l : N) : N := 2 ^ (6 * ((W - l) / 4) + 6).
Definition cm (ci : childiter) : N :=
  1 + cnt 16 (ci_range ci) * X (p_len (ci_base ci) + 4).
Definition sumN (l : list N) : N := fold_right N.add 0 l.
Lemma sum_cons a l : sumN (a :: l) = a + sumN l.
Proof. reflexivity. Qed.
Definition mu (it : msiter) : N :=
  cnt 31 (pi_bits (ms_pfx it)) + cm (ms_ptr it) +
  sumN (List.map cm (ms_stack it)).

Definition ms_ok (it : msiter) : Prop :=
  nid_ok f (pi_base (ms_pfx it)) /\ pbits_ok (pi_bits (ms_pfx it)) /\
  ci_ok (ms_ptr it) /\ Forall ci_ok (ms_stack it).

Definition outs (it : msiter) : list pid :=
  pl f (ms_pfx it) ++ cl (ms_ptr it) ++ flat_map cl (ms_stack it).

Definition ms_post (it : msiter) (r : option (pid * msiter)) : Prop :=
  match r with
  | None => outs it = []
  | Some (p, it') => ms_ok it' /\ mu it' < mu it /\ outs it = p :: outs it'
  end.

Lemma ms_mask00 : ms_prefix_mask_arr (BS 0 0) = Ok 2147483646.
Proof. reflexivity. Qed.

Lemma full_pfx m : pbits_ok m -> N.land 2147483646 m = m.
Proof.
  intros [L T]. apply N.bits_inj. intros i. rewrite N.land_spec.
  destruct (N.lt_ge_cases i 31) as [Lt|Ge].
  - destruct (N.eq_dec i 0) as [->|]; [rewrite T; apply andb_false_r|].
    assert (N.testbit 2147483646 i = true) as ->; [|easy].
    assert (A : forallb (N.testbit 2147483646) (List.map N.of_nat (List.seq 1 30)) = true)
      by (vm_compute; reflexivity).
    rewrite forallb_forall in A. apply A.
    replace i with (N.of_nat (N.to_nat i)) by lia. apply in_map, in_seq. lia.
  - rewrite (testbit_above m 31 i) by auto. apply andb_false_r.
Qed.

Lemma full_ptr p : p < 2 ^ 16 -> exists st, ptr_range p (BS 0 0) = Ok (p, st).
Proof.
  intros L. destruct (ptr_range_ok p (BS 0 0)) as (m & st & E & H).
  { split; simpl; [lia|]. change (2 ^ 0) with 1. lia. }
  exists st. rewrite E. do 2 f_equal.
  apply N.bits_inj. intros i. rewrite N.land_spec.
  destruct (N.lt_ge_cases i 16) as [Lt|Ge].
  - specialize (H (15 - i)). unfold ptr_bit in H.
    replace (15 - (15 - i)) with i in H by lia.
    rewrite H by lia. cbn [bs_len bs_bits]. rewrite N.sub_0_r.
    rewrite N.div_small; [apply andb_true_r|]. change (2 ^ 4) with 16. lia.
  - now rewrite (testbit_above p 16 i).
Qed.

Lemma node_iters id v : nodes f h id = Some v ->
  more_specific_ptr_iter v id (BS 0 0) = Ok (ChildIter id (nv_ptr v)) /\
  more_specific_pfx_iter v id (BS 0 0) = Ok (PfxIter id (nv_pfx v)).
Proof.
  intros Q. pose proof (node_pbits id v Q) as P.
  apply (ti_node f h TI) in Q. destruct Q as (_ & L & _).
  destruct (full_ptr (nv_ptr v) L) as [st E].
  assert (C : check (BS 0 0) = Ok true) by reflexivity.
  unfold more_specific_ptr_iter, more_specific_pfx_iter, ms_pfx_mask.
  rewrite C. cbn [bind]. rewrite E, ms_mask00. cbn [bind fst].
  now rewrite full_pfx.
Qed.

(* taking the next child of an iterator *)
Lemma child_step ci : ci_ok ci -> ci_range ci <> 0 ->
  exists id ci' v, child_next f ci = Ok (Some (id, ci')) /\ ci_ok ci' /\
    nodes f h id = Some v /\ cl ci = subt id ++ cl ci' /\
    p_len id = p_len (ci_base ci) + 4 /\ cm ci = X (p_len id) + cm ci'.
Proof.
  intros (I & R & EX) NZ. destruct ci as [b r]; cbn [ci_base ci_range] in *.
  pose proof (N.bit_log2 r NZ) as T.
  assert (L : N.log2 r < 16) by (apply N.log2_lt_pow2; lia).
  destruct (EX (15 - N.log2 r)) as [L4 E]; [lia| |].
  { unfold ptr_bit. replace (15 - (15 - N.log2 r)) with (N.log2 r) by lia. easy. }
  destruct (nodes f h (child f b (15 - N.log2 r))) as [v|] eqn:Q; [|easy].
  exists (child f b (15 - N.log2 r)), (ChildIter b (N.lxor r (2 ^ N.log2 r))), v.
  split; [now apply child_next_ok|]. split; [|split; [easy|split]].
  - split; [easy|]. cbn [ci_base ci_range]. split; [now apply xor_top_lt|].
    intros n Hn Tn. apply EX; [easy|].
    rewrite (xor_top_bits r _ T) in Tn. destruct (_ =? _); easy.
  - unfold cl. rewrite chl_step by auto. apply fm_cons.
  - split; [reflexivity|]. unfold cm. cbn [ci_base ci_range].
    change (p_len (child f b (15 - N.log2 r))) with (p_len b + 4).
    rewrite (hb_cnt 16 16 r eq_refl NZ R). lia.
Qed.

Lemma cl_0 b : cl (ChildIter b 0) = [].
Proof. unfold cl, chl. cbn [ci_range]. now rewrite hb_0. Qed.

Lemma pl_0 b : pl f (PfxIter b 0) = [].
Proof. unfold pl. cbn [pi_bits]. now rewrite hb_0. Qed.

Lemma cm_pos ci : 1 <= cm ci.
Proof. unfold cm. lia. Qed.

Lemma node_cost id v : nodes f h id = Some v ->
  cnt 31 (nv_pfx v) + cm (ChildIter id (nv_ptr v)) < X (p_len id).
Proof.
  intros Q. pose proof (nodes_nid _ _ Q) as I. destruct (nid_ok_len f id I) as [L M].
  unfold cm. cbn [ci_base ci_range].
  pose proof (cnt_le 31 (nv_pfx v)). pose proof (cnt_le 16 (nv_ptr v)).
  change (N.of_nat 31) with 31 in *. change (N.of_nat 16) with 16 in *.
  assert (E : X (p_len id) = 64 * X (p_len id + 4)).
  { unfold X. replace ((W - p_len id) / 4) with ((W - (p_len id + 4)) / 4 + 1) by dlia.
    replace (6 * ((W - (p_len id + 4)) / 4 + 1) + 6)
      with (6 + (6 * ((W - (p_len id + 4)) / 4) + 6)) by lia.
    now rewrite N.pow_add_r. }
  assert (1 <= X (p_len id + 4)).
  { unfold X. pose proof (pow2_pos (6 * ((W - (p_len id + 4)) / 4) + 6)). lia. }
  nia.
Qed.

Lemma ms_turn_ok it : ms_ok it -> exists x, ms_turn f h it = Ok x /\
  match x with
  | Go it' => ms_ok it' /\ mu it' < mu it /\ outs it = outs it'
  | Stop r => ms_post it r
  end.
Proof.
  intros (IB & P & C & F). destruct it as [ci [b m] st].
  cbn [ms_ptr ms_pfx ms_stack pi_base pi_bits] in *. unfold ms_turn.
  cbn [ms_ptr ms_pfx ms_stack].
  destruct (N.eq_dec m 0) as [->|NZ].
  2:{ rewrite pfx_next_ok by auto. cbn [bind]. eexists. split; [reflexivity|].
      unfold ms_post. split; [|split].
      - split; [easy|]. split; [now apply pbits_ok_step|]. easy.
      - unfold mu. cbn [ms_ptr ms_pfx ms_stack pi_base pi_bits].
        destruct P as [P1 P2].
        rewrite (hb_cnt 31 31 m eq_refl NZ P1). lia.
      - unfold outs. cbn [ms_ptr ms_pfx ms_stack]. rewrite pl_step by auto.
        rewrite <- app_comm_cons. reflexivity. }
  rewrite pfx_next_0. cbn [bind].
  assert (Enter : forall ci0 st0, ci_ok ci0 -> Forall ci_ok st0 -> ci_range ci0 <> 0 ->
    exists id ci' v, child_next f ci0 = Ok (Some (id, ci')) /\ nodes f h id = Some v /\
      ms_ok (MsIter (ChildIter id (nv_ptr v)) (PfxIter id (nv_pfx v)) (ci' :: st0)) /\
      mu (MsIter (ChildIter id (nv_ptr v)) (PfxIter id (nv_pfx v)) (ci' :: st0)) <
        cm ci0 + sumN (List.map cm st0) /\
      cl ci0 ++ flat_map cl st0 =
        outs (MsIter (ChildIter id (nv_ptr v)) (PfxIter id (nv_pfx v)) (ci' :: st0))).
  { intros ci0 st0 C0 F0 NZ.
    destruct (child_step ci0 C0 NZ) as (id & ci' & v & E & C' & Q & Ecl & Le & Ecm).
    exists id, ci', v. split; [easy|]. split; [easy|]. split; [|split].
    - split; [now apply nodes_nid in Q|]. split; [now apply node_pbits in Q|].
      split; [now apply ci_ok_node|]. now constructor.
    - unfold mu. cbn [ms_ptr ms_pfx ms_stack pi_bits].
      rewrite map_cons, sum_cons. pose proof (node_cost id v Q). rewrite Ecm. lia.
    - rewrite Ecl, (subt_cl id v Q), <- !app_assoc. unfold outs. cbn [ms_ptr ms_pfx ms_stack].
      rewrite fm_cons. reflexivity. }
  assert (Retr : forall id v, nodes f h id = Some v -> retrieve_node f h id = Ok (Some v)).
  { intros id v Q. rewrite retrieve_node_nodes; [now rewrite Q|apply (ti_cht f h TI)|].
    apply (nodes_dom f h id v (ti_cht f h TI) Q). }
  destruct (N.eq_dec (ci_range ci) 0) as [Z|NZ].
  - destruct ci as [cb r]; cbn [ci_range] in Z; subst r.
    rewrite child_next_0. cbn [bind].
    destruct st as [|ci0 st].
    + cbn [bind]. eexists. split; [reflexivity|]. unfold ms_post, outs.
      cbn [ms_ptr ms_pfx ms_stack]. rewrite cl_0, pl_0. reflexivity.
    + apply Forall_cons_iff in F. destruct F as [C0 F].
      destruct (N.eq_dec (ci_range ci0) 0) as [Z|NZ].
      * destruct ci0 as [cb0 r0]; cbn [ci_range] in Z; subst r0.
        rewrite child_next_0. cbn [bind]. eexists. split; [reflexivity|].
        split; [|split].
        -- split; [easy|]. split; [easy|]. split; easy.
        -- unfold mu. cbn [ms_ptr ms_pfx ms_stack]. rewrite map_cons, sum_cons.
           pose proof (cm_pos (ChildIter cb 0)). lia.
        -- unfold outs. cbn [ms_ptr ms_pfx ms_stack]. rewrite fm_cons, !cl_0. reflexivity.
      * destruct (Enter ci0 st C0 F NZ) as (id & ci' & v & E & Q & OK & Mu & O).
        rewrite E. cbn [bind]. rewrite (Retr id v Q). cbn [bind].
        destruct (node_iters id v Q) as [-> ->]. cbn [bind].
        eexists. split; [reflexivity|]. split; [easy|]. split.
        -- unfold mu at 2. cbn [ms_ptr ms_pfx ms_stack]. rewrite map_cons, sum_cons.
           pose proof (cm_pos (ChildIter cb 0)). lia.
        -- rewrite <- O. unfold outs. cbn [ms_ptr ms_pfx ms_stack].
           rewrite fm_cons, cl_0, pl_0, !app_nil_l. reflexivity.
  - destruct (Enter ci st C F NZ) as (id & ci' & v & E & Q & OK & Mu & O).
    rewrite E. cbn [bind]. rewrite (Retr id v Q). cbn [bind].
    destruct (node_iters id v Q) as [-> ->]. cbn [bind].
    eexists. split; [reflexivity|]. split; [easy|]. split.
    + unfold mu at 2. cbn [ms_ptr ms_pfx ms_stack]. lia.
    + rewrite <- O. unfold outs. cbn [ms_ptr ms_pfx ms_stack].
      rewrite pl_0, app_nil_l. reflexivity.
Qed.

Lemma ms_next_ok it : ms_ok it -> mu it < Npos MS_FUEL ->
  exists r, ms_next f h it = Ok r /\ ms_post it r.
Proof.
  intros OK M. unfold ms_next.
  apply (loop_measure (ms_turn f h) ms_ok mu ms_post MS_FUEL); auto.
  intros s OKs. destruct (ms_turn_ok s OKs) as [x [E H]]. exists x. split; [easy|].
  destruct x as [it'|r]; [|easy]. destruct H as (OK' & Mu & O).
  split; [easy|]. split; [easy|].
  intros [[p it'']|]; unfold ms_post; rewrite O; [|easy].
  intros (A & B & D). split; [easy|]. split; [lia|easy].
Qed.

Lemma ms_collect_ok it : ms_ok it -> mu it < Npos MS_FUEL ->
  ms_collect f h it = Ok (outs it).
Proof.
  intros OK M. unfold ms_collect.
  match goal with |- loop ?S _ _ = _ => set (step := S) end.
  destruct (loop_measure step
    (fun s => ms_ok (fst s) /\ mu (fst s) < Npos MS_FUEL) (fun s => mu (fst s))
    (fun s r => r = rev (snd s) ++ outs (fst s)) MS_FUEL) with (s := (it, @nil pid))
    as [r [E Q]]; auto.
  - intros [s acc] [OKs Ms]. cbn [fst snd] in *. unfold step. cbn [fst snd].
    destruct (ms_next_ok s OKs Ms) as [r [E P]]. rewrite E. cbn [bind].
    destruct r as [[p it']|].
    + eexists. split; [reflexivity|]. destruct P as (A & B & D). cbn [fst snd].
      split; [split; [easy|lia]|]. split; [easy|].
      intros r ->. rewrite D. apply rev_cons_app.
    + eexists. split; [reflexivity|]. change (outs s = []) in P. rewrite P. now rewrite app_nil_r.
  - rewrite E, Q. reflexivity.
Qed.

End I.

Section Q.
Variable f : af.
Notation W := (BITS f).

Lemma stored_pos h q : tree_inv f h -> stored f h q = true -> 0 < p_len q.
Proof.
  intros TI S. destruct (N.eq_dec (p_len q) 0) as [Z|]; [|lia].
  rewrite (stored_len0 f h q TI Z) in S. easy.
Qed.

Lemma cm_bound h ci : ci_ok f h ci -> cm f ci <= 1 + 16 * 2 ^ 192.
Proof.
  intros (I & _). unfold cm. pose proof (cnt_le 16 (ci_range ci)) as C.
  change (N.of_nat 16) with 16 in C. destruct (nid_ok_len f _ I) as [L M].
  assert (X f (p_len (ci_base ci) + 4) <= 2 ^ 192).
  { unfold X. apply pow2_le. pose proof (BITS_le f). dlia. }
  nia.
Qed.

Theorem more_specifics_ok t p : tree_inv f (t_heap t) -> wf_pid f p ->
  exists L, more_specifics f t p = Ok L /\ NoDup L /\
    forall q, In q L <-> wf_pid f q /\ stored f (t_heap t) q = true /\ covers f p q /\
                         p_len p < W.
Proof.
  intros TI Wp. unfold more_specifics, more_specific_prefix_iter_from.
  destruct (N.leb_spec W (p_len p)) as [Le|Lt].
  { cbn [bind]. exists []. split; [easy|]. split; [constructor|].
    intros q. simpl. split; [easy|]. intros (_ & _ & _ & H). lia. }
  rewrite node_id_for_prefix_ok by auto. cbn [bind].
  pose proof (nid_ok_node_of f p Wp) as I.
  rewrite retrieve_node_nodes by (apply I || apply TI). cbn [bind].
  set (h := t_heap t) in *.
  destruct (nodes f h (node_of f p)) as [v|] eqn:Q.
  2:{ cbn [bind]. exists []. split; [easy|]. split; [constructor|].
      intros q. simpl. split; [easy|]. intros (Wq & S & C & _).
      pose proof (stored_pos h q TI S) as Lq.
      pose proof (covers_under f p q Wp Wq C Lq) as U.
      destruct (under_exists f h TI (node_of f p) q I Wq Lq U S) as [v Qv]. congruence. }
  pose proof (wf_span f p) as Bs.
  unfold more_specific_pfx_iter, more_specific_ptr_iter, ms_pfx_mask.
  rewrite check_ok by auto. cbn [bind].
  destruct (ms_prefix_mask_ok _ Bs) as (m & Em & Lm & Tm & Hm). rewrite Em. cbn [bind].
  destruct (ptr_range_ok (nv_ptr v) _ Bs) as (pm & st & Ep & Hp). rewrite Ep. cbn [bind fst].
  pose proof (node_pbits f h TI _ _ Q) as [P1 P2].
  assert (PB : pbits_ok (N.land m (nv_pfx v))).
  { split.
    - destruct (N.eq_dec (N.land m (nv_pfx v)) 0) as [->|NZ]; [auto|].
      apply N.log2_lt_pow2; [lia|]. pose proof (N.log2_land m (nv_pfx v)).
      destruct (N.eq_dec m 0) as [->|]; [rewrite N.land_0_l in NZ; lia|].
      assert (N.log2 m < 31) by (apply N.log2_lt_pow2; lia). lia.
    - now rewrite N.land_spec, Tm. }
  pose proof (ci_ok_node f h TI _ _ Q) as (C1 & C2 & C3). cbn [ci_base ci_range] in *.
  assert (CI : ci_ok f h (ChildIter (node_of f p) (N.land (nv_ptr v) pm))).
  { split; [easy|]. cbn [ci_base ci_range]. split.
    - destruct (N.eq_dec (N.land (nv_ptr v) pm) 0) as [->|NZ]; [auto|].
      apply N.log2_lt_pow2; [lia|]. pose proof (N.log2_land (nv_ptr v) pm).
      destruct (N.eq_dec (nv_ptr v) 0) as [E0|]; [rewrite E0, N.land_0_l in NZ; lia|].
      assert (N.log2 (nv_ptr v) < 16) by (apply N.log2_lt_pow2; lia). lia.
    - intros n Hn T. rewrite N.land_spec in T. apply andb_true_iff in T. now apply C3. }
  set (it := MsIter (ChildIter (node_of f p) (N.land (nv_ptr v) pm))
                    (PfxIter (node_of f p) (N.land m (nv_pfx v))) []).
  assert (OK : ms_ok f h it) by (split; [easy|]; split; [easy|]; split; [easy|constructor]).
  exists (outs f h it). split; [|split].
  - apply ms_collect_ok; auto. unfold mu, it. cbn [ms_ptr ms_pfx ms_stack pi_bits List.map].
    pose proof (cm_bound h _ CI). pose proof (cnt_le 31 (N.land m (nv_pfx v))).
    change (N.of_nat 31) with 31 in *. unfold sumN; cbn [fold_right].
    assert (31 + (1 + 16 * 2 ^ 192) < Npos MS_FUEL) by (vm_compute; reflexivity). lia.
  - unfold outs, it. cbn [ms_ptr ms_pfx ms_stack flat_map]. rewrite app_nil_r.
    apply NoDup_pl_cl; auto. now apply NoDup_cl.
  - intros q. unfold outs, it. cbn [ms_ptr ms_pfx ms_stack flat_map]. rewrite app_nil_r.
    rewrite in_app_iff, In_pl by auto. rewrite In_cl by auto.
    cbn [pi_base pi_bits ci_base ci_range]. rewrite !N.land_spec.
    split.
    + intros [(Wq & Lq & E & T)|(Wq & Lq & S & U & L4 & T)].
      * apply andb_true_iff in T. destruct T as [T1 T2].
        split; [easy|]. split; [unfold stored; now rewrite E, Q|]. split; [|easy].
        apply covers_span; auto. rewrite Hm in T1 by apply wf_span.
        now apply andb_true_iff in T1.
      * apply andb_true_iff in T. destruct T as [T1 T2].
        split; [easy|]. split; [easy|]. split; [|easy].
        apply covers_child; auto. rewrite <- Hp; [easy|]. apply slice_lt.
    + intros (Wq & S & C & _). pose proof (stored_pos h q TI S) as Lq.
      pose proof (covers_under f p q Wp Wq C Lq) as U.
      destruct (N.le_gt_cases (p_len q) (p_len (node_of f p) + 4)) as [Le|Gt].
      * left. pose proof (under_same_node f _ q Wq I Lq U Le) as E.
        split; [easy|]. split; [easy|]. split; [easy|].
        unfold stored in S. rewrite E, Q in S. rewrite S, andb_true_r.
        rewrite Hm by apply wf_span. apply andb_true_iff. split.
        -- apply N.leb_le. pose proof (nlen_spec (p_len q)). simpl. lia.
        -- apply covers_span; auto.
      * right. split; [easy|]. split; [easy|]. split; [easy|]. split; [easy|]. split; [easy|].
        destruct (under_stored f h TI (node_of f p) q I Wq U S Gt) as [v' [Q' T]].
        rewrite Q in Q'. injection Q' as <-. rewrite T. cbn [andb].
        rewrite Hp by apply slice_lt. now apply covers_child.
Qed.

(* ---------- longest match ---------- *)

Lemma pid_trunc_ok p l : wf_pid f p -> l <= p_len p ->
  pid_truncate_to_len f p l = (trunc W (p_bits p) l, l).
Proof.
  intros [L [B M]] H. unfold pid_truncate_to_len. rewrite truncate_to_len_ok; auto. lia.
Qed.

Lemma lmp_loop_ok t p : tree_inv f (t_heap t) -> wf_pid f p ->
  forall fuel l, l <= p_len p -> l < N.of_nat fuel ->
  exists r, lmp_loop fuel f t (trunc W (p_bits p) l, l) = Ok r /\
    match r with
    | None => forall k, 0 < k <= l -> stored f (t_heap t) (trunc W (p_bits p) k, k) = false
    | Some q => exists k, 0 < k <= l /\ q = (trunc W (p_bits p) k, k) /\
        stored f (t_heap t) q = true /\
        forall k', k < k' <= l -> stored f (t_heap t) (trunc W (p_bits p) k', k') = false
    end.
Proof.
  intros TI Wp. pose proof Wp as [L [B M]]. pose proof (BITS_le f) as WL.
  induction fuel as [|fuel IH]; intros l Hl Hf; [lia|].
  assert (Wt : wf_pid f (trunc W (p_bits p) l, l)) by (apply wf_trunc; auto; lia).
  cbn [lmp_loop]. cbn [p_len snd].
  destruct (N.eqb_spec l 0) as [->|NZ].
  { exists None. split; [easy|]. intros; lia. }
  rewrite prefix_exists_ok by (auto; apply TI). cbn [bind].
  destruct (stored f (t_heap t) (trunc W (p_bits p) l, l)) eqn:S.
  - eexists. split; [reflexivity|]. exists l. split; [lia|]. split; [easy|]. split; [easy|]. lia.
  - rewrite sub8_ok by lia. cbn [bind].
    rewrite pid_trunc_ok by (auto; cbn [p_len snd]; lia). cbn [p_bits fst].
    rewrite trunc_trunc by lia.
    destruct (IH (l - 1)) as [r [E H]]; [lia|lia|]. exists r. split; [easy|].
    destruct r as [q|].
    + destruct H as [k (K1 & K2 & K3 & K4)]. exists k. split; [lia|]. split; [easy|].
      split; [easy|]. intros k' Hk'. destruct (N.eq_dec k' l) as [->|]; [easy|]. apply K4. lia.
    + intros k Hk. destruct (N.eq_dec k l) as [->|]; [easy|]. apply H. lia.
Qed.

Theorem longest_matching_prefix_ok t p : tree_inv f (t_heap t) -> wf_pid f p ->
  exists r, longest_matching_prefix f t p = Ok r /\
    match r with
    | None => forall q, wf_pid f q -> stored f (t_heap t) q = true -> ~ covers f q p
    | Some q => wf_pid f q /\ stored f (t_heap t) q = true /\ covers f q p /\
        forall q', wf_pid f q' -> stored f (t_heap t) q' = true -> covers f q' p ->
          p_len q' <= p_len q
    end.
Proof.
  intros T Wp. pose proof Wp as [L [B M]].
  destruct (lmp_loop_ok t p T Wp (S (N.to_nat (p_len p))) (p_len p)) as [r [E H]]; [lia|lia|].
  replace (trunc W (p_bits p) (p_len p), p_len p) with p in E.
  2:{ rewrite trunc_id by auto. now destruct p. }
  exists r. split; [easy|]. destruct r as [q|].
  - destruct H as [k (K1 & K2 & K3 & K4)].
    assert (Wq : wf_pid f q) by (subst q; apply wf_trunc; auto; lia).
    split; [easy|]. split; [easy|]. split.
    + apply covers_trunc; auto. subst q. cbn [p_len p_bits snd fst]. split; [lia|easy].
    + intros q' Wq' S C. apply covers_trunc in C; auto. destruct C as [C1 C2].
      destruct (N.le_gt_cases (p_len q') (p_len q)) as [|Gt]; [easy|].
      rewrite C2 in S. rewrite K4 in S; [easy|]. subst q. cbn [p_len snd] in Gt. lia.
  - intros q Wq S C. apply covers_trunc in C; auto. destruct C as [C1 C2].
    pose proof (stored_pos _ q T S).
    rewrite C2 in S. rewrite H in S; [easy|]. lia.
Qed.

(* ---------- less specifics ---------- *)

(* n, n-1, .., 1 *)
Fixpoint down (n : nat) : list N :=
  match n with O => [] | S n' => N.of_nat n :: down n' end.

Lemma In_down n k : In k (down n) <-> 0 < k <= N.of_nat n.
Proof. induction n as [|n IH]; simpl; [lia|]. rewrite IH. lia. Qed.

Definition ls_list (h : heap nodeval) (p : pid) (n : nat) : list pid :=
  filter (stored f h) (List.map (fun l => (trunc W (p_bits p) l, l)) (down n)).

Lemma ls_next_loop_ok t p : tree_inv f (t_heap t) -> wf_pid f p ->
  forall fuel l, l <= p_len p -> l < N.of_nat fuel ->
  exists r, ls_next_loop fuel f t p l = Ok r /\
    match r with
    | None => ls_list (t_heap t) p (N.to_nat l) = []
    | Some (q, k) => 0 < k <= l /\
        ls_list (t_heap t) p (N.to_nat l) = q :: ls_list (t_heap t) p (N.to_nat (k - 1))
    end.
Proof.
  intros TI Wp. pose proof Wp as [L [B M]].
  induction fuel as [|fuel IH]; intros l Hl Hf; [lia|].
  cbn [ls_next_loop]. destruct (N.eqb_spec l 0) as [->|NZ].
  { exists None. split; easy. }
  rewrite pid_trunc_ok by auto.
  rewrite prefix_exists_ok; [|apply TI|apply wf_trunc; auto; lia]. cbn [bind].
  assert (EQ : ls_list (t_heap t) p (N.to_nat l) =
    if stored f (t_heap t) (trunc W (p_bits p) l, l)
    then (trunc W (p_bits p) l, l) :: ls_list (t_heap t) p (N.to_nat (l - 1))
    else ls_list (t_heap t) p (N.to_nat (l - 1))).
  { unfold ls_list. replace (N.to_nat l) with (S (N.to_nat (l - 1))) by lia.
    cbn [down List.map filter].
    replace (N.of_nat (S (N.to_nat (l - 1)))) with l by lia. easy. }
  destruct (stored f (t_heap t) (trunc W (p_bits p) l, l)).
  - eexists. split; [reflexivity|]. cbn beta iota. split; [lia|easy].
  - destruct (IH (l - 1)) as [r [E H]]; [lia|lia|]. exists r. unfold sat_sub.
    split; [easy|]. destruct r as [[q k]|]; rewrite EQ; [|easy].
    split; [lia|easy].
Qed.

Lemma ls_collect_ok t p : tree_inv f (t_heap t) -> wf_pid f p ->
  forall fuel l, l <= p_len p -> l < N.of_nat fuel ->
  ls_collect fuel f t p l = Ok (ls_list (t_heap t) p (N.to_nat (l - 1))).
Proof.
  intros T Wp. induction fuel as [|fuel IH]; intros l Hl Hf; [lia|].
  cbn [ls_collect]. unfold ls_next, sat_sub.
  destruct (ls_next_loop_ok t p T Wp (S (N.to_nat l)) (l - 1)) as [r [E H]]; [lia|lia|].
  rewrite E. cbn [bind]. destruct r as [[q k]|].
  - destruct H as [K H]. rewrite IH by lia. cbn [bind]. now rewrite H.
  - now rewrite H.
Qed.


Lemma len_desc_NoDup L : len_desc L -> NoDup L.
Proof.
  induction L as [|p L IH]; intros H; [constructor|]. destruct H as [A B].
  constructor; auto. intros C. apply A in C. lia.
Qed.

Lemma ls_list_desc h p n : len_desc (ls_list h p n).
Proof.
  induction n as [|n IH]; [exact I|]. unfold ls_list in *. cbn [down List.map filter].
  destruct (stored f h (trunc W (p_bits p) (N.of_nat (S n)), N.of_nat (S n))); [|easy].
  split; [|easy]. intros q Hq. apply filter_In in Hq. destruct Hq as [Hq _].
  apply in_map_iff in Hq. destruct Hq as [l [<- Hl]]. apply In_down in Hl.
  cbn [p_len snd]. lia.
Qed.

Theorem less_specifics_ok t p : tree_inv f (t_heap t) -> wf_pid f p ->
  exists L, less_specifics f t p = Ok L /\ len_desc L /\
    forall q, In q L <-> wf_pid f q /\ stored f (t_heap t) q = true /\ less_specific f q p.
Proof.
  intros T Wp. pose proof Wp as [Lp [B M]].
  exists (ls_list (t_heap t) p (N.to_nat (p_len p - 1))). split; [|split].
  - unfold less_specifics. apply ls_collect_ok; auto; lia.
  - apply ls_list_desc.
  - intros q. unfold ls_list. rewrite filter_In, in_map_iff. split.
    + intros [[l [<- Hl]] S]. apply In_down in Hl.
      assert (Wq : wf_pid f (trunc W (p_bits p) l, l)) by (apply wf_trunc; auto; lia).
      split; [easy|]. split; [easy|]. split; [|cbn [p_len snd]; lia].
      apply covers_trunc; auto. cbn [p_len snd]. split; [lia|easy].
    + intros (Wq & S & C & L). split; [|easy]. exists (p_len q).
      apply covers_trunc in C; auto. destruct C as [C1 C2]. split; [now symmetry|].
      apply In_down. pose proof (stored_pos _ q T S). lia.
Qed.

End Q.
