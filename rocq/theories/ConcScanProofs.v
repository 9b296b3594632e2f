(* What a scan among inserts gives. *)
From Coq Require Import Arith NArith PArith List Bool Sorted Lia.
From Verif Require Import Word Af BitSpan Spec Maps ChtMath Cht Node Tree ChainProofs TreeProofs
  NodeProofs Loop Iter IterProofs ConcMarks ConcTree ConcTreeProofs ConcTreeInv ConcTreeStep
  ConcTreeEnd ConcScan.
Import ListNotations.
Local Open Scope N_scope.

Section T.
Variable f : af.
Notation W := (BITS f).

(* ---------- the tree among inserts ---------- *)

(* what is used of the tree while a reader is under way: not that a node has its
   pointer in its parent *)
Record hV (C : pid -> Prop) (h : heap nodeval) : Prop := {
  v_cht : ninv f h;
  v_node : forall id v, nodes f h id = Some v -> p_len id < W /\ nv_ptr v < 2 ^ 16;
  v_ptr : forall id v b, nodes f h id = Some v -> N.testbit (nv_ptr v) b = true ->
    exists p, C p /\ on_path f p id = true /\ p_len id + 4 < p_len p /\
      b = ptr_bit (nib f p (p_len id));
  v_pfx : forall id v b, nodes f h id = Some v -> N.testbit (nv_pfx v) b = true ->
    exists p, C p /\ 0 < p_len p /\ node_of f p = id /\ b = bs_bit (span_of f p)
}.
Arguments v_cht {C h}. Arguments v_node {C h}. Arguments v_ptr {C h}. Arguments v_pfx {C h}.

Lemma hG_hV C h : hG f C h -> hV C h.
Proof. intros [A _ B _ D E]. now constructor. Qed.

Section V.
Variable C : pid -> Prop.
Variable h : heap nodeval.
Hypothesis G : hV C h.

Lemma hg_nid id v : nodes f h id = Some v -> nid_ok f id.
Proof.
  intros Q. split.
  - apply (nodes_dom f h id v (v_cht G) Q).
  - now apply (v_node G) in Q.
Qed.

Lemma hg_pbits id v : nodes f h id = Some v -> pbits_ok (nv_pfx v).
Proof.
  intros Q.
  assert (B : forall i, N.testbit (nv_pfx v) i = true -> 0 < i < 31).
  { intros i T. destruct (v_pfx G _ _ _ Q T) as (p & _ & Lp & _ & ->). now apply span_bit. }
  split; [apply bits_lt; intros i T; now apply B in T|].
  destruct (N.testbit (nv_pfx v) 0) eqn:T; [|easy]. apply B in T. lia.
Qed.

(* one turn of retrieve_node *)
Lemma gstep_ok id w : ndom f id -> walk_ok NSTRIDE f h id w ->
  exists o, gstep f id h w = Ok o /\
    match o with
    | GMore w' => walk_ok NSTRIDE f h id w' /\ w_level w' = w_level w + 1
    | GFound k => at_id h k id
    | GNone => nodes f h id = None
    end.
Proof.
  intros D I. pose proof (v_cht G) as NI.
  destruct I as (k & K & -> & O). unfold gstep. cbn [w_level w_b w_path w_slots].
  rewrite hash_at by auto. cbn [bind].
  rewrite (slot_get_level f NSTRIDE) by (auto; unfold nlev in K; lia).
  destruct (lookup (kof f NSTRIDE id k) h) as [e|] eqn:L.
  - rewrite walk_key. destruct (pid_eqb id (e_id e)) eqn:Q.
    + apply pid_eqb_spec in Q. eexists. split; [reflexivity|]. exists e. auto.
    + assert (NE : e_id e <> id).
      { intros X. rewrite X, pid_eqb_refl in Q. discriminate. }
      destruct (walk_next NSTRIDE NSTRIDE_nz f h id k e NI D K O L NE)
        as (A1 & A2 & A3 & A4 & A5).
      rewrite A1. cbn [bind]. rewrite A2. cbn [bind]. rewrite A3.
      eexists. split; [reflexivity|]. split; [easy|]. simpl. lia.
  - eexists. split; [reflexivity|]. unfold nodes.
    destruct (find f NSTRIDE h id) eqn:F; [|easy].
    exfalso. eapply walk_none; eauto.
Qed.

End V.

Section H.
Variable C : pid -> Prop.
Variable h : heap nodeval.
Hypothesis G : hG f C h.

Lemma hg_ancestors x : forall k s, s mod 4 = 0 ->
  nodes f h (trunc W x (s + 4 * N.of_nat (S k)), s + 4 * N.of_nat (S k)) <> None ->
  x < 2 ^ W ->
  exists v, nodes f h (trunc W x s, s) = Some v /\
    N.testbit (nv_ptr v) (ptr_bit (slice W x s 4)) = true.
Proof.
  induction k as [|k IH]; intros s M E X.
  - replace (s + 4 * N.of_nat 1) with (s + 4) in E by lia.
    destruct (nodes f h (trunc W x (s + 4), s + 4)) as [v|] eqn:Q; [|easy].
    pose proof (hg_nid C h (hG_hV C h G) _ _ Q) as [_ L]. cbn [p_len snd] in L.
    destruct (g_up f C h G _ _ Q) as [v' [Q' T]]; [cbn [p_len snd]; lia|].
    unfold parent in Q'. cbn [p_len p_bits fst snd] in *.
    replace (s + 4 - 4) with s in * by lia.
    rewrite trunc_trunc in Q' by lia. rewrite slice_trunc in T by lia.
    eauto.
  - destruct (IH (s + 4)) as [v [Q _]]; auto; [dlia|..].
    + replace (s + 4 + 4 * N.of_nat (S k)) with (s + 4 * N.of_nat (S (S k))) by lia. easy.
    + pose proof (hg_nid C h (hG_hV C h G) _ _ Q) as [_ L]. cbn [p_len snd] in L.
      destruct (g_up f C h G _ _ Q) as [v' [Q' T]]; [cbn [p_len snd]; lia|].
      unfold parent in Q'. cbn [p_len p_bits fst snd] in *.
      replace (s + 4 - 4) with s in * by lia.
      rewrite trunc_trunc in Q' by lia. rewrite slice_trunc in T by lia.
      eauto.
Qed.

End H.

(* a prefix that can be reached from the root *)
Definition linked (h : heap nodeval) (q : pid) : Prop :=
  stored f h q = true /\ path_done f h q (nlen (p_len q)).

Lemma linked_hle h h' q : ninv f h -> ninv f h' -> hle h h' -> linked h q -> linked h' q.
Proof.
  intros I I' H [A B]. split; [exact (stored_hle f h h' q I I' H A)|exact (path_done_hle f h h' q _ I I' H B)].
Qed.

Lemma linked_under h id q : nid_ok f id -> wf_pid f q -> under f id q -> linked h q ->
  p_len id + 4 < p_len q ->
  exists v, nodes f h id = Some v /\
    N.testbit (nv_ptr v) (ptr_bit (slice W (p_bits q) (p_len id) 4)) = true.
Proof.
  intros I Wq [U E] [_ St] L. destruct (nid_ok_len f id I) as [_ M].
  pose proof (nlen_spec (p_len q)) as NQ.
  destruct (St (p_len id) M ltac:(dlia)) as (v & Q & T). unfold anc in Q. rewrite <- E in Q. eauto.
Qed.

Lemma linked_exists h id q : nid_ok f id -> wf_pid f q -> 0 < p_len q -> under f id q ->
  linked h q -> exists v, nodes f h id = Some v.
Proof.
  intros I Wq L U S. destruct (N.le_gt_cases (p_len q) (p_len id + 4)).
  - destruct S as [S _]. destruct (stored_node f h q S) as [v [Q _]].
    rewrite (under_same_node f id q) in Q by auto. eauto.
  - destruct (linked_under h id q) as [v [Q _]]; eauto.
Qed.

Lemma hG_linked C h q : hG f C h -> wf_pid f q -> stored f h q = true -> linked h q.
Proof.
  intros G Wq St. split; [easy|]. intros s M L. pose proof (nlen_spec (p_len q)) as NQ.
  destruct (stored_node f h q St) as [v [Q _]].
  apply (hg_ancestors C h G (p_bits q) (N.to_nat ((nlen (p_len q) - s) / 4 - 1)) s M); [|apply Wq].
  replace (s + 4 * N.of_nat (S (N.to_nat ((nlen (p_len q) - s) / 4 - 1)))) with (nlen (p_len q)) by dlia.
  unfold node_of in Q. congruence.
Qed.

(* ---------- regions of the tree ---------- *)

Definition okp (q : pid) : Prop := wf_pid f q /\ 0 < p_len q.

(* the prefixes below the children a child iterator has yet to visit *)
Definition area (ci : childiter) (q : pid) : Prop :=
  under f (ci_base ci) q /\ p_len (ci_base ci) + 4 < p_len q /\
  N.testbit (ci_range ci) (ptr_bit (slice W (p_bits q) (p_len (ci_base ci)) 4)) = true.

(* the prefixes that a prefix iterator has yet to give *)
Definition parea (pi : pfxiter) (q : pid) : Prop :=
  node_of f q = pi_base pi /\ N.testbit (pi_bits pi) (bs_bit (span_of f q)) = true.

Definition cwell (h : heap nodeval) (ci : childiter) : Prop :=
  nid_ok f (ci_base ci) /\ ci_range ci < 2 ^ 16 /\
  exists v, nodes f h (ci_base ci) = Some v /\ bits_in (ci_range ci) (nv_ptr v).

Definition pwell (h : heap nodeval) (pi : pfxiter) : Prop :=
  nid_ok f (pi_base pi) /\ pbits_ok (pi_bits pi) /\
  exists v, nodes f h (pi_base pi) = Some v /\ bits_in (pi_bits pi) (nv_pfx v).

Lemma cwell_hle h h' ci : ninv f h -> ninv f h' -> hle h h' -> cwell h ci -> cwell h' ci.
Proof.
  intros I I' H (A & B & v & N & S). split; [easy|]. split; [easy|].
  destruct (nodes_hle f h h' _ _ I I' H N) as (v' & N' & (L & _)). exists v'. split; [easy|].
  eapply bits_in_trans; eauto.
Qed.
Lemma pwell_hle h h' ci : ninv f h -> ninv f h' -> hle h h' -> pwell h ci -> pwell h' ci.
Proof.
  intros I I' H (A & B & v & N & S). split; [easy|]. split; [easy|].
  destruct (nodes_hle f h h' _ _ I I' H N) as (v' & N' & (_ & L & _)). exists v'. split; [easy|].
  eapply bits_in_trans; eauto.
Qed.

Fixpoint apart (rs : list (pid -> Prop)) : Prop :=
  match rs with
  | [] => True
  | r :: rs' => (forall r' q, In r' rs' -> okp q -> r q -> r' q -> False) /\ apart rs'
  end.

Lemma apart_app rs rs' : apart rs -> apart rs' ->
  (forall r r' q, In r rs -> In r' rs' -> okp q -> r q -> r' q -> False) -> apart (rs ++ rs').
Proof.
  induction rs as [|r rs IH]; intros A A' D; simpl; [easy|].
  destruct A as [A1 A2]. split.
  - intros r' q I. apply in_app_iff in I. destruct I as [I|I]; [now apply A1|].
    apply D; [now left|easy].
  - apply IH; auto. intros r1 r' q I. apply D. now right.
Qed.

Variable p : pid.
Hypothesis Wp : wf_pid f p.

(* [D]: the prefixes that must be found *)
Record rI (C D : pid -> Prop) (out : list pid) (rs : list (pid -> Prop)) : Prop := {
  r_nodup : NoDup out;
  r_out : forall q, In q out -> okp q /\ C q /\ covers f p q /\ forall r, In r rs -> r q -> False;
  r_cov : forall r q, In r rs -> okp q -> r q -> covers f p q;
  r_apart : apart rs;
  r_all : forall q, D q -> covers f p q -> p_len p < W -> In q out \/ exists r, In r rs /\ r q
}.

Lemma rI_refine (C D : pid -> Prop) out r0 rs (rs' : list (pid -> Prop)) : (forall q, D q -> okp q) -> rI C D out (r0 :: rs) ->
  (forall r' q, In r' rs' -> okp q -> r' q -> r0 q) -> apart rs' ->
  (forall q, D q -> covers f p q -> p_len p < W -> r0 q -> exists r', In r' rs' /\ r' q) ->
  rI C D out (rs' ++ rs).
Proof.
  intros DO [A1 A2 A3 [A4 A5] A6] S P K. constructor; auto.
  - intros q I. destruct (A2 q I) as (B1 & B2 & B3 & B4). repeat (split; [easy|]).
    intros r Ir R. apply in_app_iff in Ir. destruct Ir as [Ir|Ir].
    + apply (B4 r0); [now left|]. eapply S; eauto.
    + apply (B4 r); [now right|easy].
  - intros r q Ir O R. apply in_app_iff in Ir. destruct Ir as [Ir|Ir].
    + apply (A3 r0); auto; [now left|]. eapply S; eauto.
    + apply (A3 r); auto. now right.
  - apply apart_app; auto. intros r r' q I I' O R R'. eapply A4; eauto.
  - intros q Dq Cq Lp. destruct (A6 q Dq Cq Lp) as [I|(r & [<-|I] & R)]; [auto| |].
    + destruct (K q Dq Cq Lp R) as (r' & I' & R'). right. exists r'. split; [|easy].
      apply in_app_iff. auto.
    + right. exists r. split; [|easy]. apply in_app_iff. auto.
Qed.

Lemma rI_swap (C D : pid -> Prop) out r1 r2 rs : rI C D out (r1 :: r2 :: rs) -> rI C D out (r2 :: r1 :: rs).
Proof.
  intros [A1 A2 A3 (A4 & A5 & A6) A7].
  assert (P : forall r, In r (r2 :: r1 :: rs) <-> In r (r1 :: r2 :: rs)).
  { intros r. simpl. tauto. }
  constructor; auto.
  - intros q I. destruct (A2 q I) as (B1 & B2 & B3 & B4). repeat (split; [easy|]).
    intros r Ir. apply B4. now apply P.
  - intros r q Ir. apply A3. now apply P.
  - simpl. split; [|split; [|easy]].
    + intros r' q [<-|I] O R R'; [|eapply A5; eauto]. eapply (A4 r2); eauto. now left.
    + intros r' q I O R R'. eapply (A4 r'); eauto. now right.
  - intros q Dq Cq Lp. destruct (A7 q Dq Cq Lp) as [I|(r & I & R)]; [auto|].
    right. exists r. split; [now apply P|easy].
Qed.

Lemma rI_mono (C C' D : pid -> Prop) out rs : (forall q, C q -> C' q) -> rI C D out rs -> rI C' D out rs.
Proof.
  intros S [A1 A2 A3 A4 A5]. constructor; auto.
  intros q I. destruct (A2 q I) as (B1 & B2 & B3 & B4). auto.
Qed.

Definition mI (C D : pid -> Prop) (h : heap nodeval) (s : mscan) : Prop :=
  (forall q, D q -> okp q /\ linked h q) /\
  let out := sc_out s in
  match sc_pc s with
  | MStart => rI C D out [covers f p]
  | MFirst w => p_len p < W /\ walk_ok NSTRIDE f h (node_of f p) w /\ rI C D out [covers f p]
  | MFirstPfx k => p_len p < W /\ at_id h k (node_of f p) /\ rI C D out [covers f p]
  | MFirstPtr k pi => p_len p < W /\ at_id h k (node_of f p) /\ pwell h pi /\
      pi_base pi = node_of f p /\
      rI C D out [(fun q => covers f p q /\ p_len (node_of f p) + 4 < p_len q); parea pi]
  | MIter it => pwell h (ms_pfx it) /\ cwell h (ms_ptr it) /\ Forall (cwell h) (ms_stack it) /\
      rI C D out (parea (ms_pfx it) :: area (ms_ptr it) :: List.map area (ms_stack it))
  | MGet id st w => nid_ok f id /\ Forall (cwell h) st /\ walk_ok NSTRIDE f h id w /\
      (exists b n v, id = child f b n /\ n < 16 /\ nodes f h b = Some v /\
         N.testbit (nv_ptr v) (ptr_bit n) = true) /\
      rI C D out (under f id :: List.map area st)
  | MPtr id st k => nid_ok f id /\ Forall (cwell h) st /\ at_id h k id /\
      rI C D out (under f id :: List.map area st)
  | MPfx id st k ci => nid_ok f id /\ Forall (cwell h) st /\ at_id h k id /\ cwell h ci /\
      ci_base ci = id /\
      rI C D out ((fun q => node_of f q = id) :: area ci :: List.map area st)
  | MDone true => rI C D out []
  | MDone false => exists rs, rI C D out rs
  | MPanic => False
  end.

Lemma mI_hle (C D : pid -> Prop) h h' s : ninv f h -> ninv f h' -> hle h h' -> mI C D h s -> mI C D h' s.
Proof.
  intros I I' H [A B]. pose proof (hle_grows _ _ H) as G. split.
  { intros q Dq. destruct (A q Dq) as [O S]. split; [easy|]. exact (linked_hle h h' q I I' H S). }
  assert (FC : forall st, Forall (cwell h) st -> Forall (cwell h') st).
  { intros st. apply Forall_impl. intros ci. now apply cwell_hle. }
  pose proof (fun ci => cwell_hle h h' ci I I' H) as CW.
  pose proof (fun pi => pwell_hle h h' pi I I' H) as PW.
  destruct (sc_pc s); cbv zeta in *; try easy.
  - destruct B as (B1 & B2 & B3). eauto using walk_ok_grows.
  - destruct B as (B1 & B2 & B3). eauto using at_id_grows.
  - destruct B as (B1 & B2 & B3 & B4 & B5). eauto 8 using at_id_grows.
  - destruct B as (B1 & B2 & B3 & B4). auto.
  - destruct B as (B1 & B2 & B3 & (b & n & v & E & Hn & N & T) & B5). split; [easy|].
    split; [auto|]. split; [eauto using walk_ok_grows|]. split; [|easy].
    destruct (nodes_hle f h h' _ _ I I' H N) as (v' & N' & (L & _)).
    exists b, n, v'. split; [easy|]. split; [easy|]. split; [easy|]. now apply L.
  - destruct B as (B1 & B2 & B3 & B4). eauto 6 using at_id_grows.
  - destruct B as (B1 & B2 & B3 & B4 & B5 & B6).
    repeat match goal with |- _ /\ _ => split end; eauto using at_id_grows.
Qed.

Lemma mI_mono (C C' D : pid -> Prop) h s : (forall q, C q -> C' q) -> mI C D h s -> mI C' D h s.
Proof.
  intros S [A B]. split; [easy|]. pose proof (fun o r => rI_mono C C' D o r S) as M.
  destruct (sc_pc s) as [| | | | | | | |[]|]; cbv zeta in *;
    try (destruct B as [rs B]; exists rs; now apply M);
    repeat match goal with H : _ /\ _ |- _ => destruct H end;
    repeat match goal with |- _ /\ _ => split end; eauto.
Qed.

(* ---------- the parts of a turn ---------- *)

Lemma top_bit r : r <> 0 -> r < 2 ^ 16 -> N.log2 r < 16.
Proof. intros. apply N.log2_lt_pow2; lia. Qed.

Lemma area_0 b q : area (ChildIter b 0) q -> False.
Proof. intros (_ & _ & T). cbn [ci_range] in T. now rewrite N.bits_0 in T. Qed.
Lemma parea_0 b q : parea (PfxIter b 0) q -> False.
Proof. intros (_ & T). cbn [pi_bits] in T. now rewrite N.bits_0 in T. Qed.

(* taking the next child of an iterator *)
Lemma cwell_next C h ci : hV C h -> (forall q, C q -> wf_pid f q) -> cwell h ci -> ci_range ci <> 0 ->
  exists n ci', child_next f ci = Ok (Some (child f (ci_base ci) n, ci')) /\ n < 16 /\
    cwell h ci' /\ nid_ok f (child f (ci_base ci) n) /\
    (exists v, nodes f h (ci_base ci) = Some v /\ N.testbit (nv_ptr v) (ptr_bit n) = true) /\
    (forall q, okp q -> area ci q <-> under f (child f (ci_base ci) n) q \/ area ci' q) /\
    (forall q, okp q -> under f (child f (ci_base ci) n) q -> area ci' q -> False) /\
    cm f ci = X f (p_len (child f (ci_base ci) n)) + cm f ci'.
Proof.
  intros G CW (I & R & v & N & S) NZ. destruct ci as [b r]; cbn [ci_base ci_range] in *.
  pose proof (N.bit_log2 r NZ) as T. pose proof (top_bit r NZ R) as L.
  assert (PB : ptr_bit (15 - N.log2 r) = N.log2 r) by (unfold ptr_bit; lia).
  exists (15 - N.log2 r), (ChildIter b (N.lxor r (2 ^ N.log2 r))).
  split; [now apply child_next_ok|]. split; [lia|].
  assert (XB : forall i, N.testbit (N.lxor r (2 ^ N.log2 r)) i =
     if i =? N.log2 r then false else N.testbit r i).
  { intros i. rewrite (xor_top_bits r _ T). now destruct (i =? N.log2 r). }
  assert (L4 : p_len b + 4 < W).
  { destruct (v_ptr G b v (N.log2 r) N) as (q & Cq & _ & Lq & _); [now apply S|].
    destruct (CW q Cq) as [Lw _]. lia. }
  assert (NC : nid_ok f (child f b (15 - N.log2 r))).
  { apply child_ok; auto; lia. }
  assert (UC : forall q, okp q -> under f (child f b (15 - N.log2 r)) q <->
     under f b q /\ p_len b + 4 < p_len q /\ slice W (p_bits q) (p_len b) 4 = 15 - N.log2 r).
  { intros q [Wq Lq]. split.
    - intros U. pose proof U as [U1 _]. change (p_len (child f b (15 - N.log2 r))) with (p_len b + 4) in U1.
      apply child_under in U; auto; [|lia]. destruct U as [U ->]. auto.
    - intros (U & U4 & <-). now apply under_child. }
  assert (SB : forall q, ptr_bit (slice W (p_bits q) (p_len b) 4) = N.log2 r <->
     slice W (p_bits q) (p_len b) 4 = 15 - N.log2 r).
  { intros q. pose proof (slice_lt W (p_bits q) (p_len b) 4) as Sl. change (2 ^ 4) with 16 in Sl.
    unfold ptr_bit. lia. }
  split.
  { split; [easy|]. cbn [ci_base ci_range]. split; [now apply xor_top_lt|].
    exists v. split; [easy|]. intros i Ti. rewrite XB in Ti. destruct (i =? N.log2 r); [easy|]. now apply S. }
  split; [easy|]. split.
  { exists v. split; [easy|]. rewrite PB. now apply S. }
  split; [|split].
  - intros q O. rewrite UC by easy. unfold area. cbn [ci_base ci_range]. rewrite XB.
    destruct (N.eqb_spec (ptr_bit (slice W (p_bits q) (p_len b) 4)) (N.log2 r)) as [E|NE].
    + pose proof E as E'. apply SB in E'. rewrite E. rewrite T. split; [tauto|].
      intros [?|(_ & _ & ?)]; [tauto|discriminate].
    + split; [tauto|]. intros [(_ & _ & E)|?]; [|tauto]. now apply SB in E.
  - intros q O U (_ & _ & A). cbn [ci_base ci_range] in A. apply UC in U; auto.
    destruct U as (_ & _ & E). apply SB in E. rewrite XB, E, N.eqb_refl in A. discriminate.
  - unfold cm. cbn [ci_base ci_range].
    change (p_len (child f b (15 - N.log2 r))) with (p_len b + 4).
    rewrite (hb_cnt 16 16 r eq_refl NZ R). lia.
Qed.

Lemma hg_parea C h pi q : hV C h -> (forall q, C q -> wf_pid f q) -> pwell h pi -> okp q ->
  parea pi q -> C q.
Proof.
  intros G CW (I & P & v & N & S) [Wq Lq] [Q1 Q2].
  destruct (v_pfx G _ v (bs_bit (span_of f q)) N) as (p' & Cp & Lp & Np & Ep); [now apply S|].
  pose proof (nlen_spec (p_len q)) as Nq. pose proof (nlen_spec (p_len p')) as Np'.
  assert (Bq : 0 < bs_len (span_of f q)) by (unfold span_of; cbn [bs_len]; lia).
  assert (Bp : 0 < bs_len (span_of f p')) by (unfold span_of; cbn [bs_len]; lia).
  pose proof (span_at_bit (span_of f q) (wf_span f q) Bq) as Eq1.
  pose proof (span_at_bit (span_of f p') (wf_span f p') Bp) as Ep1.
  pose proof (addspan_node_of f q Wq Lq) as Eq2.
  pose proof (addspan_node_of f p' (CW p' Cp) Lp) as Ep2.
  rewrite Ep, Ep1 in Eq1. rewrite <- Eq1, Q1, <- Np in Eq2. congruence.
Qed.

(* taking the next prefix *)
Lemma pwell_next C h pi : hV C h -> (forall q, C q -> wf_pid f q) -> pwell h pi -> pi_bits pi <> 0 ->
  exists q pi', pfx_next f pi = Ok (Some (q, pi')) /\ pwell h pi' /\ okp q /\ parea pi q /\ C q /\
    (forall q', okp q' -> parea pi q' <-> q' = q \/ parea pi' q') /\
    (parea pi' q -> False) /\ cnt 31 (pi_bits pi) = 1 + cnt 31 (pi_bits pi').
Proof.
  intros G CW (I & P & v & N & S) NZ. destruct pi as [b m]; cbn [pi_base pi_bits] in *.
  exists (addspan f b (span_at (N.log2 m))), (PfxIter b (N.lxor m (2 ^ N.log2 m))).
  split; [exact (pfx_next_ok f b m I P NZ)|].
  pose proof (N.bit_log2 m NZ) as T.
  assert (XB : forall i, N.testbit (N.lxor m (2 ^ N.log2 m)) i =
     if i =? N.log2 m then false else N.testbit m i).
  { intros i. rewrite (xor_top_bits m _ T). now destruct (i =? N.log2 m). }
  pose proof (pl_step f b m NZ P) as PL.
  assert (P' : pbits_ok (N.lxor m (2 ^ N.log2 m))) by now apply pbits_ok_step.
  assert (IN : forall q, In q (pl f (PfxIter b m)) <-> okp q /\ parea (PfxIter b m) q).
  { intros q. rewrite In_pl by auto. unfold okp, parea. tauto. }
  assert (IN' : forall q, In q (pl f (PfxIter b (N.lxor m (2 ^ N.log2 m)))) <->
    okp q /\ parea (PfxIter b (N.lxor m (2 ^ N.log2 m))) q).
  { intros q. rewrite In_pl by auto. unfold okp, parea. tauto. }
  pose proof (NoDup_pl f (PfxIter b m) I P) as ND.
  remember (pl f (PfxIter b m)) as l1 eqn:E1. clear E1.
  remember (pl f (PfxIter b (N.lxor m (2 ^ N.log2 m)))) as l2 eqn:E2. clear E2.
  remember (addspan f b (span_at (N.log2 m))) as q eqn:Eq. clear Eq. subst l1.
  apply NoDup_cons_iff in ND. destruct ND as [NI _].
  assert (Q : okp q /\ parea (PfxIter b m) q) by (apply (proj1 (IN q)); apply in_eq).
  destruct Q as [O Q].
  split; [split; [exact I|]; split; [exact P'|]; exists v; split; [exact N|]|].
  { cbn [pi_bits]. intros i Ti. rewrite XB in Ti. destruct (i =? N.log2 m); [easy|]. now apply S. }
  split; [exact O|]. split; [exact Q|]. split.
  { exact (hg_parea C h (PfxIter b m) q G CW (conj I (conj P (ex_intro _ v (conj N S)))) O Q). }
  split; [|split].
  - intros q' O'. split; intros A.
    + destruct (in_inv (proj2 (IN q') (conj O' A))) as [J|J].
      * left. symmetry. exact J.
      * right. exact (proj2 (proj1 (IN' q') J)).
    + destruct A as [A|A]; [subst q'; exact Q|].
      exact (proj2 (proj1 (IN q') (in_cons _ _ _ (proj2 (IN' q') (conj O' A))))).
  - intros A. exact (NI (proj2 (IN' q) (conj O A))).
  - cbn [pi_bits]. destruct P as [P1 P2]. exact (hb_cnt 31 31 m eq_refl NZ P1).
Qed.

Lemma cost id x y : nid_ok f id ->
  cnt 31 x + cm f (ChildIter id y) < X f (p_len id).
Proof.
  intros I. destruct (nid_ok_len f id I) as [L M].
  unfold cm. cbn [ci_base ci_range].
  pose proof (cnt_le 31 x). pose proof (cnt_le 16 y).
  change (N.of_nat 31) with 31 in *. change (N.of_nat 16) with 16 in *.
  assert (E : X f (p_len id) = 64 * X f (p_len id + 4)).
  { unfold X. replace ((W - p_len id) / 4) with ((W - (p_len id + 4)) / 4 + 1) by dlia.
    replace (6 * ((W - (p_len id + 4)) / 4 + 1) + 6)
      with (6 + (6 * ((W - (p_len id + 4)) / 4) + 6)) by lia.
    now rewrite N.pow_add_r. }
  assert (1 <= X f (p_len id + 4)).
  { unfold X. pose proof (pow2_pos (6 * ((W - (p_len id + 4)) / 4) + 6)). lia. }
  nia.
Qed.

Definition B0 : N := 32 + 16 * 2 ^ 192.

(* how many steps of its own the scan has before it *)
Definition mmu (s : mscan) : N :=
  match sc_pc s with
  | MStart => 100 * B0 + 100
  | MFirst w => 100 * B0 + 3 + (32 - w_level w)
  | MFirstPfx _ => 100 * B0 + 2
  | MFirstPtr _ _ => 100 * B0 + 1
  | MIter it => 100 * mu f it
  | MGet id st w => 100 * (X f (p_len id) - 1 + sumN (List.map (cm f) st)) + 3 + (32 - w_level w)
  | MPtr id st _ => 100 * (X f (p_len id) - 1 + sumN (List.map (cm f) st)) + 2
  | MPfx id st _ ci => 100 * (X f (p_len id) - 1 + sumN (List.map (cm f) st)) + 1
  | MDone _ | MPanic => 0
  end.

Definition finished (s : mscan) : bool :=
  match sc_pc s with MDone _ | MPanic => true | _ => false end.

Lemma X_pos l : 1 <= X f l.
Proof. unfold X. pose proof (pow2_pos (6 * ((W - l) / 4) + 6)). lia. Qed.

Lemma mturn_ok C D h it out : hV C h -> (forall q, C q -> wf_pid f q) ->
  mI C D h (MScan (MIter it) out) ->
  exists s', mturn f it out = Ok s' /\ mI C D h s' /\ mmu s' < mmu (MScan (MIter it) out) /\
    sc_pc s' <> MDone false.
Proof.
  intros G CW (DS & PW & CI & FS & R). cbn [sc_pc sc_out] in *.
  assert (DO : forall q, D q -> okp q) by (intros q Dq; now apply DS).
  unfold mturn. destruct it as [ci pi st]. cbn [ms_ptr ms_pfx ms_stack] in *.
  destruct (N.eq_dec (pi_bits pi) 0) as [Z|NZ].
  2:{ destruct (pwell_next C h pi G CW PW NZ) as (q & pi' & E & PW' & O & A & Cq & EQ & NA & CN).
      rewrite E. cbn [bind]. eexists. split; [reflexivity|]. split; [|split].
      - split; [easy|]. cbn [sc_pc sc_out ms_ptr ms_pfx ms_stack].
        split; [easy|]. split; [easy|]. split; [easy|].
        destruct R as [R1 R2 R3 [R4 R5] R6].
        assert (NIn : ~ In q out).
        { intros J. destruct (R2 q J) as (_ & _ & _ & R2'). apply (R2' (parea pi)); [now left|easy]. }
        constructor.
        + now constructor.
        + intros q' [<-|J].
          * split; [easy|]. split; [easy|]. split; [apply (R3 (parea pi)); auto; now left|].
            intros r [<-|Ir] Rr; [easy|]. eapply (R4 r q); eauto.
          * destruct (R2 q' J) as (J1 & J2 & J3 & J4). repeat (split; [easy|]).
            intros r [<-|Ir] Rr.
            -- apply (J4 (parea pi)); [now left|]. apply EQ; auto.
            -- apply (J4 r); [now right|easy].
        + intros r q' [<-|Ir] O' Rr.
          * apply (R3 (parea pi)); auto; [now left|]. apply EQ; auto.
          * apply (R3 r); auto. now right.
        + split; [|easy]. intros r q' Ir O' A' Rr. eapply (R4 r q'); eauto. apply EQ; auto.
        + intros q' Dq Cv Lp. destruct (R6 q' Dq Cv Lp) as [J|(r & [<-|Ir] & Rr)].
          * left. now right.
          * apply EQ in Rr; [|now apply DO]. destruct Rr as [->|Rr]; [left; now left|].
            right. exists (parea pi'). split; [now left|easy].
          * right. exists r. split; [now right|easy].
      - unfold mmu, mu. cbn [sc_pc ms_ptr ms_pfx ms_stack]. lia.
      - easy. }
  assert (Epi : pfx_next f pi = Ok None).
  { destruct pi as [b m]. cbn [pi_bits] in Z. subst m. apply pfx_next_0. }
  rewrite Epi. cbn [bind].
  (* the prefixes of the node are done *)
  assert (R1 : rI C D out (area ci :: List.map area st)).
  { apply (rI_refine C D out (parea pi) _ [] DO R); simpl; try easy.
    intros q _ _ _ A. destruct pi as [b m]. cbn [pi_bits] in Z. subst m. now apply parea_0 in A. }
  assert (Enter : forall ci0 st0, cwell h ci0 -> Forall (cwell h) st0 -> ci_range ci0 <> 0 ->
    rI C D out (area ci0 :: List.map area st0) ->
    exists n ci', child_next f ci0 = Ok (Some (child f (ci_base ci0) n, ci')) /\
      exists w, walk_start f NSTRIDE (child f (ci_base ci0) n) = Ok w /\
        mI C D h (MScan (MGet (child f (ci_base ci0) n) (ci' :: st0) w) out) /\
        mmu (MScan (MGet (child f (ci_base ci0) n) (ci' :: st0) w) out) <
          100 * (cm f ci0 + sumN (List.map (cm f) st0))).
  { intros ci0 st0 C0 F0 NZ R0.
    destruct (cwell_next C h ci0 G CW C0 NZ) as (n & ci' & E & Hn & C' & NI & PT & EQ & DJ & CMe).
    exists n, ci'. split; [easy|].
    destruct (walk_start_ok NSTRIDE NSTRIDE_nz f h _ (proj1 NI)) as (w & Ew & Ow & L0).
    exists w. split; [easy|]. split.
    - split; [easy|]. cbn [sc_pc sc_out]. split; [easy|]. split; [now constructor|].
      split; [easy|]. split.
      { destruct PT as (v & Nv & Tv). exists (ci_base ci0), n, v. auto. }
      apply (rI_refine C D out (area ci0) _ [under f (child f (ci_base ci0) n); area ci'] DO R0).
      + intros r q [<-|[<-|[]]] O Rq; apply EQ; auto.
      + cbn [apart]. split; [|now split]. intros r q [<-|[]] O U A. eapply DJ; eauto.
      + intros q Dq _ _ A. apply EQ in A; [|now apply DO]. destruct A as [A|A].
        * eexists. split; [left; reflexivity|easy].
        * eexists. split; [right; left; reflexivity|easy].
    - unfold mmu. cbn [sc_pc]. rewrite map_cons, sum_cons. rewrite L0.
      pose proof (X_pos (p_len (child f (ci_base ci0) n))). rewrite CMe. lia. }
  destruct (N.eq_dec (ci_range ci) 0) as [Zc|NZc].
  - assert (Ec : child_next f ci = Ok None).
    { destruct ci as [b r]. cbn [ci_range] in Zc. subst r. apply child_next_0. }
    assert (R2 : rI C D out (List.map area st)).
    { apply (rI_refine C D out (area ci) _ [] DO R1); simpl; try easy.
      intros q _ _ _ A. destruct ci as [b m]. cbn [ci_range] in Zc. subst m. now apply area_0 in A. }
    rewrite Ec. cbn [bind]. destruct st as [|ci0 st].
    + cbn [bind]. eexists. split; [reflexivity|]. split; [now split|]. split; [|easy].
      unfold mmu, mu. cbn [sc_pc ms_ptr ms_pfx ms_stack]. pose proof (cm_pos f ci). lia.
    + apply Forall_cons_iff in FS. destruct FS as [C0 FS].
      destruct (N.eq_dec (ci_range ci0) 0) as [Z0|NZ0].
      * assert (E0 : child_next f ci0 = Ok None).
        { destruct ci0 as [b r]. cbn [ci_range] in Z0. subst r. apply child_next_0. }
        rewrite E0. cbn [bind]. eexists. split; [reflexivity|]. split; [|split].
        -- split; [easy|]. cbn [sc_pc sc_out ms_ptr ms_pfx ms_stack].
           split; [easy|]. split; [easy|]. split; [easy|].
           rewrite map_cons in R, R2. apply rI_swap in R.
           apply (rI_refine C D out (area ci) _ [] DO R); simpl; try easy.
           intros q _ _ _ A. destruct ci as [b m]. cbn [ci_range] in Zc. subst m. now apply area_0 in A.
        -- unfold mmu, mu. cbn [sc_pc ms_ptr ms_pfx ms_stack]. rewrite map_cons, sum_cons.
           pose proof (cm_pos f ci). lia.
        -- easy.
      * destruct (Enter ci0 st C0 FS NZ0 R2) as (n & ci' & E & w & Ew & I & M).
        rewrite E. cbn [bind]. rewrite Ew. cbn [bind]. eexists. split; [reflexivity|].
        split; [exact I|]. split; [|easy].
        eapply N.lt_le_trans; [exact M|].
        unfold mmu, mu. cbn [sc_pc ms_ptr ms_pfx ms_stack]. rewrite map_cons, sum_cons. lia.
  - destruct (Enter ci st CI FS NZc R1) as (n & ci' & E & w & Ew & I & M).
    rewrite E. cbn [bind]. rewrite Ew. cbn [bind]. eexists. split; [reflexivity|].
    split; [exact I|]. split; [|easy].
    eapply N.lt_le_trans; [exact M|].
    unfold mmu, mu. cbn [sc_pc ms_ptr ms_pfx ms_stack]. lia.
Qed.


Lemma bits_in_land_l a b : bits_in (N.land a b) a.
Proof. intros i T. rewrite N.land_spec in T. now apply andb_true_iff in T. Qed.
Lemma bits_in_land_r a b : bits_in (N.land a b) b.
Proof. intros i T. rewrite N.land_spec in T. now apply andb_true_iff in T. Qed.
Lemma bits_in_lt a b w : bits_in a b -> b < 2 ^ w -> a < 2 ^ w.
Proof.
  intros S L. apply bits_lt. intros i T. apply S in T.
  destruct (N.lt_ge_cases i w); [easy|]. rewrite (testbit_above b w i) in T by auto. discriminate.
Qed.

Lemma B0_pos : 1 <= B0.
Proof. unfold B0. lia. Qed.

Lemma cm_le_B0 ci : nid_ok f (ci_base ci) -> 31 + cm f ci <= B0.
Proof.
  intros I. unfold cm. pose proof (cnt_le 16 (ci_range ci)) as C.
  change (N.of_nat 16) with 16 in C. destruct (nid_ok_len f _ I) as [L M].
  assert (X f (p_len (ci_base ci) + 4) <= 2 ^ 192).
  { unfold X. apply pow2_le. pose proof (BITS_le f). dlia. }
  unfold B0. nia.
Qed.

(* reading the bitmaps of a node other than the first *)
Lemma more_ptr C h id v : hV C h -> nodes f h id = Some v ->
  more_specific_ptr_iter v id (BS 0 0) = Ok (ChildIter id (nv_ptr v)) /\
  more_specific_pfx_iter v id (BS 0 0) = Ok (PfxIter id (nv_pfx v)).
Proof.
  intros G Q. pose proof (hg_pbits C h G id v Q) as P.
  destruct (v_node G _ _ Q) as (_ & L).
  destruct (full_ptr (nv_ptr v) L) as [st E].
  assert (K : check (BS 0 0) = Ok true) by reflexivity.
  unfold more_specific_ptr_iter, more_specific_pfx_iter, ms_pfx_mask.
  rewrite K. cbn [bind]. rewrite E, ms_mask00. cbn [bind fst].
  now rewrite full_pfx.
Qed.

Lemma mstep_ok C D h s : hV C h -> (forall q, C q -> wf_pid f q) -> mI C D h s ->
  exists s', mstep f p h s = Ok s' /\ mI C D h s' /\ (finished s = false -> mmu s' < mmu s).
Proof.
  intros G CW M. pose proof (v_cht G) as NI. destruct s as [pc out].
  destruct pc as [|w|k|k pi|it|id st w|id st k|id st k ci|b|].
  - destruct M as [DS R]. cbn [sc_pc sc_out] in R. unfold mstep. cbn [sc_pc sc_out].
    assert (DO : forall q, D q -> okp q) by (intros q Dq; now apply DS).
    destruct (N.leb_spec W (p_len p)) as [Le|Lt].
    + eexists. split; [reflexivity|]. split.
      * split; [easy|]. cbn [sc_pc sc_out].
        apply (rI_refine C D out (covers f p) [] [] DO R); simpl; try easy.
        intros. lia.
      * intros _. unfold mmu. cbn [sc_pc]. pose proof B0_pos. lia.
    + rewrite node_id_for_prefix_ok by auto. cbn [bind fst].
      destruct (walk_start_ok NSTRIDE NSTRIDE_nz f h (node_of f p) (node_of_dom f p Wp)) as (w & E & O & L0).
      rewrite E. cbn [bind]. eexists. split; [reflexivity|]. split; [now split|].
      intros _. unfold mmu. cbn [sc_pc]. rewrite L0. lia.
  - destruct M as (DS & Lp & O & R). cbn [sc_pc sc_out] in *. unfold mstep. cbn [sc_pc sc_out].
    assert (DO : forall q, D q -> okp q) by (intros q Dq; now apply DS).
    rewrite node_id_for_prefix_ok by auto. cbn [bind fst].
    pose proof (walk_level _ _ _ _ (node_of_dom f p Wp) O) as LV.
    destruct (gstep_ok C h G (node_of f p) w (node_of_dom f p Wp) O) as (o & E & Ho).
    rewrite E. cbn [bind]. eexists. split; [reflexivity|]. destruct o as [w'|k|].
    + destruct Ho as [O' L']. split; [now split|]. intros _. unfold mmu. cbn [sc_pc]. lia.
    + split; [now split|]. intros _. unfold mmu. cbn [sc_pc]. lia.
    + split.
      * split; [easy|]. cbn [sc_pc sc_out].
        apply (rI_refine C D out (covers f p) [] [] DO R); simpl; try easy.
        intros q Dq _ _ Cv. exfalso. destruct (DS q Dq) as [[Wq Lq] Sq].
        destruct (linked_exists h (node_of f p) q (nid_ok_node_of f p Wp) Wq Lq
          (covers_under f p q Wp Wq Cv Lq) Sq) as [v Qv]. congruence.
      * intros _. unfold mmu. cbn [sc_pc]. pose proof B0_pos. lia.
  - destruct M as (DS & Lp & AT & R). cbn [sc_pc sc_out] in *. unfold mstep. cbn [sc_pc sc_out].
    assert (DO : forall q, D q -> okp q) by (intros q Dq; now apply DS).
    rewrite node_id_for_prefix_ok by auto. cbn [bind fst snd].
    destruct (at_id_lookup _ _ _ AT) as (v & DR & sl & LK).
    pose proof (at_id_nodes f _ _ _ _ _ NI LK) as NV.
    rewrite DR. cbn [bind]. pose proof (wf_span f p) as Bs.
    unfold more_specific_pfx_iter, ms_pfx_mask. rewrite check_ok by auto. cbn [bind].
    destruct (ms_prefix_mask_ok _ Bs) as (m & Em & Lm & Tm & Hm). rewrite Em. cbn [bind].
    eexists. split; [reflexivity|]. split.
    2:{ intros _. unfold mmu. cbn [sc_pc]. lia. }
    split; [easy|]. cbn [sc_pc sc_out]. split; [easy|]. split; [easy|].
    destruct (hg_pbits C h G _ _ NV) as [P1 P2].
    assert (PW : pwell h (PfxIter (node_of f p) (N.land m (nv_pfx v)))).
    { split; [apply (nid_ok_node_of f p Wp)|]. cbn [pi_base pi_bits]. split.
      - split; [|now rewrite N.land_spec, Tm]. eapply bits_in_lt; [apply bits_in_land_l|easy].
      - exists v. split; [easy|]. apply bits_in_land_r. }
    split; [exact PW|]. split; [easy|].
    change [(fun q => covers f p q /\ p_len (node_of f p) + 4 < p_len q);
            parea (PfxIter (node_of f p) (N.land m (nv_pfx v)))] with
      ([(fun q => covers f p q /\ p_len (node_of f p) + 4 < p_len q);
            parea (PfxIter (node_of f p) (N.land m (nv_pfx v)))] ++ []).
    assert (CS : forall q, okp q -> node_of f q = node_of f p ->
      N.testbit m (bs_bit (span_of f q)) = true <-> covers f p q).
    { intros q [Wq Lq] E. rewrite Hm by apply wf_span. rewrite (covers_span f p q Wp Wq) by now symmetry.
      rewrite andb_true_iff, N.leb_le. pose proof (nlen_spec (p_len q)).
      change (bs_len (span_of f q)) with (p_len q - nlen (p_len q)). split; [tauto|]. intros; split; [lia|easy]. }
    apply (rI_refine C D out (covers f p) [] _ DO R).
    + intros r q [<-|[<-|[]]] O Rq; [easy|]. destruct Rq as [E T]. cbn [pi_base pi_bits] in *.
      rewrite N.land_spec in T. apply andb_true_iff in T. now apply (CS q O E).
    + cbn [apart]. split; [|now split]. intros r q [<-|[]] O [_ L4] [E _]. cbn [pi_base] in E.
      rewrite <- E in L4. change (p_len (node_of f q)) with (nlen (p_len q)) in L4.
      pose proof (nlen_spec (p_len q)). destruct O. lia.
    + intros q Dq Cv _ _. destruct (DS q Dq) as [[Wq Lq] Sq].
      pose proof (covers_under f p q Wp Wq Cv Lq) as U.
      destruct (N.le_gt_cases (p_len q) (p_len (node_of f p) + 4)) as [Le|Gt].
      * pose proof (under_same_node f _ q Wq (nid_ok_node_of f p Wp) Lq U Le) as E.
        eexists. split; [right; left; reflexivity|]. split; [easy|]. cbn [pi_bits].
        rewrite N.land_spec. apply andb_true_iff. split; [apply CS; easy|].
        destruct Sq as [Sq _]. unfold stored in Sq. now rewrite E, NV in Sq.
      * eexists. split; [left; reflexivity|]. easy.
  - destruct M as (DS & Lp & AT & PW & PB & R). cbn [sc_pc sc_out] in *. unfold mstep. cbn [sc_pc sc_out].
    assert (DO : forall q, D q -> okp q) by (intros q Dq; now apply DS).
    rewrite node_id_for_prefix_ok by auto. cbn [bind fst snd].
    destruct (at_id_lookup _ _ _ AT) as (v & DR & sl & LK).
    pose proof (at_id_nodes f _ _ _ _ _ NI LK) as NV.
    rewrite DR. cbn [bind]. pose proof (wf_span f p) as Bs.
    unfold more_specific_ptr_iter. rewrite check_ok by auto. cbn [bind].
    destruct (ptr_range_ok (nv_ptr v) _ Bs) as (pm & st & Ep & Hp). rewrite Ep. cbn [bind fst].
    eexists. split; [reflexivity|]. split.
    2:{ intros _. unfold mmu, mu. cbn [sc_pc ms_ptr ms_pfx ms_stack List.map].
        pose proof (cm_le_B0 (ChildIter (node_of f p) (N.land (nv_ptr v) pm)) (nid_ok_node_of f p Wp)).
        pose proof (cnt_le 31 (pi_bits pi)). change (N.of_nat 31) with 31 in *.
        unfold sumN; cbn [fold_right]. lia. }
    split; [easy|]. cbn [sc_pc sc_out ms_ptr ms_pfx ms_stack List.map].
    split; [easy|].
    assert (CI : cwell h (ChildIter (node_of f p) (N.land (nv_ptr v) pm))).
    { split; [apply (nid_ok_node_of f p Wp)|]. cbn [ci_base ci_range]. split.
      - eapply bits_in_lt; [apply bits_in_land_l|]. now apply (v_node G) in NV.
      - exists v. split; [easy|]. apply bits_in_land_l. }
    split; [exact CI|]. split; [constructor|]. apply rI_swap.
    change [area (ChildIter (node_of f p) (N.land (nv_ptr v) pm)); parea pi]
      with ([area (ChildIter (node_of f p) (N.land (nv_ptr v) pm))] ++ [parea pi]).
    refine (rI_refine C D out _ _ _ DO R _ _ _).
    + intros r q [<-|[]] [Wq Lq] (U & L4 & T). cbn [ci_base ci_range] in *. split; [|easy].
      apply covers_child; auto. rewrite N.land_spec in T. apply andb_true_iff in T.
      destruct T as [_ T]. rewrite Hp in T; [easy|apply slice_lt].
    + cbn [apart]. now split.
    + intros q Dq Cv _ [_ L4]. destruct (DS q Dq) as [[Wq Lq] Sq].
      pose proof (covers_under f p q Wp Wq Cv Lq) as U.
      eexists. split; [left; reflexivity|]. split; [easy|]. split; [easy|]. cbn [ci_base ci_range].
      destruct (linked_under h (node_of f p) q (nid_ok_node_of f p Wp) Wq U Sq L4) as [v' [Q' T]].
      rewrite NV in Q'. injection Q' as <-. rewrite N.land_spec, T. cbn [andb].
      rewrite Hp by apply slice_lt. apply (covers_child f p q Wp Wq U L4). exact Cv.
  - destruct (mturn_ok C D h it out G CW M) as (s' & E & I & Mu & _).
    exists s'. split; [exact E|]. split; [exact I|]. intros _. exact Mu.
  - destruct M as (DS & NO & FS & O & PT & R). cbn [sc_pc sc_out] in *. unfold mstep. cbn [sc_pc sc_out].
    pose proof (walk_level _ _ _ _ (proj1 NO) O) as LV.
    destruct (gstep_ok C h G id w (proj1 NO) O) as (o & E & Ho).
    rewrite E. cbn [bind]. eexists. split; [reflexivity|]. destruct o as [w'|k|].
    + destruct Ho as [O' L']. split.
      * split; [easy|]. cbn [sc_pc sc_out]. repeat (split; [easy|]). easy.
      * intros _. unfold mmu. cbn [sc_pc]. lia.
    + split; [now split|]. intros _. unfold mmu. cbn [sc_pc]. lia.
    + split; [|intros _; unfold mmu; cbn [sc_pc]; lia].
      split; [easy|]. cbn [sc_pc sc_out]. eauto.
  - destruct M as (DS & NO & FS & AT & R). cbn [sc_pc sc_out] in *. unfold mstep. cbn [sc_pc sc_out].
    assert (DO : forall q, D q -> okp q) by (intros q Dq; now apply DS).
    destruct (at_id_lookup _ _ _ AT) as (v & DR & sl & LK).
    pose proof (at_id_nodes f _ _ _ _ _ NI LK) as NV.
    rewrite DR. cbn [bind]. destruct (more_ptr C h id v G NV) as [-> _]. cbn [bind].
    eexists. split; [reflexivity|]. split.
    2:{ intros _. unfold mmu. cbn [sc_pc]. lia. }
    split; [easy|]. cbn [sc_pc sc_out]. split; [easy|]. split; [easy|]. split; [easy|]. split.
    { split; [easy|]. cbn [ci_base ci_range]. split; [now apply (v_node G) in NV|].
      exists v. split; [easy|]. apply bits_in_refl. }
    split; [easy|].
    change ((fun q => node_of f q = id) :: area (ChildIter id (nv_ptr v)) :: List.map area st)
      with ([(fun q => node_of f q = id); area (ChildIter id (nv_ptr v))] ++ List.map area st).
    apply (rI_refine C D out (under f id) _ _ DO R).
    + intros r q [<-|[<-|[]]] [Wq Lq] Rq; [|apply Rq]. rewrite <- Rq. now apply under_node_of.
    + cbn [apart]. split; [|now split]. intros r q [<-|[]] [Wq Lq] E (_ & L4 & _). cbn [ci_base] in L4.
      rewrite <- E in L4. change (p_len (node_of f q)) with (nlen (p_len q)) in L4.
      pose proof (nlen_spec (p_len q)). lia.
    + intros q Dq _ _ U. destruct (DS q Dq) as [[Wq Lq] Sq].
      destruct (N.le_gt_cases (p_len q) (p_len id + 4)) as [Le|Gt].
      * eexists. split; [left; reflexivity|]. now apply under_same_node.
      * eexists. split; [right; left; reflexivity|]. split; [easy|]. split; [easy|].
        cbn [ci_base ci_range].
        destruct (linked_under h id q NO Wq U Sq Gt) as [v' [Q' T]].
        rewrite NV in Q'. now injection Q' as <-.
  - destruct M as (DS & NO & FS & AT & CI & CB & R). cbn [sc_pc sc_out] in *. unfold mstep. cbn [sc_pc sc_out].
    assert (DO : forall q, D q -> okp q) by (intros q Dq; now apply DS).
    destruct (at_id_lookup _ _ _ AT) as (v & DR & sl & LK).
    pose proof (at_id_nodes f _ _ _ _ _ NI LK) as NV.
    rewrite DR. cbn [bind]. destruct (more_ptr C h id v G NV) as [_ ->]. cbn [bind].
    eexists. split; [reflexivity|]. split.
    2:{ intros _. unfold mmu, mu. cbn [sc_pc ms_ptr ms_pfx ms_stack pi_bits].
        destruct ci as [b r]. cbn [ci_base] in CB. subst b. pose proof (cost id (nv_pfx v) r NO). lia. }
    split; [easy|]. cbn [sc_pc sc_out ms_ptr ms_pfx ms_stack]. split.
    { split; [easy|]. cbn [pi_base pi_bits]. split; [apply (hg_pbits C h G _ _ NV)|].
      exists v. split; [easy|]. apply bits_in_refl. }
    split; [easy|]. split; [easy|].
    change (parea (PfxIter id (nv_pfx v)) :: area ci :: List.map area st)
      with ([parea (PfxIter id (nv_pfx v))] ++ area ci :: List.map area st).
    refine (rI_refine C D out _ _ _ DO R _ _ _).
    + intros r q [<-|[]] _ [E _]. exact E.
    + cbn [apart]. now split.
    + intros q Dq _ _ E. destruct (DS q Dq) as [_ Sq]. eexists. split; [left; reflexivity|].
      split; [easy|]. cbn [pi_bits]. destruct Sq as [Sq _]. unfold stored in Sq. now rewrite E, NV in Sq.
  - eexists. split; [reflexivity|]. split; [easy|]. easy.
  - now destruct M.
Qed.

(* the scan stops early only where a pointer leads to a node that is not there *)
Lemma mstep_cut C D h s s' : hV C h -> (forall q, C q -> wf_pid f q) -> mI C D h s ->
  mstep f p h s = Ok s' -> sc_pc s' = MDone false -> sc_pc s <> MDone false ->
  ~ (forall b v n, nodes f h b = Some v -> n < 16 -> N.testbit (nv_ptr v) (ptr_bit n) = true ->
       nodes f h (child f b n) <> None).
Proof.
  intros G CW M E F NF TI. destruct s as [pc out].
  destruct pc as [|w|k|k pi|it|id st w|id st k|id st k ci|b|]; cbn [sc_pc] in NF.
  all: unfold mstep in E; cbn [sc_pc sc_out] in E.
  - destruct (W <=? p_len p); [injection E as <-; discriminate F|].
    destruct (node_id_for_prefix _ _); cbn [bind] in E; try discriminate E.
    destruct (walk_start _ _ _); cbn [bind] in E; try discriminate E. injection E as <-. discriminate F.
  - destruct (node_id_for_prefix _ _); cbn [bind] in E; try discriminate E.
    destruct (gstep _ _ _ _) as [[]| |]; cbn [bind] in E; try discriminate E; injection E as <-; discriminate F.
  - destruct (node_id_for_prefix _ _); cbn [bind] in E; try discriminate E.
    destruct (deref _ _); cbn [bind] in E; try discriminate E.
    destruct (more_specific_pfx_iter _ _ _); cbn [bind] in E; try discriminate E.
    injection E as <-; discriminate F.
  - destruct (node_id_for_prefix _ _); cbn [bind] in E; try discriminate E.
    destruct (deref _ _); cbn [bind] in E; try discriminate E.
    destruct (more_specific_ptr_iter _ _ _); cbn [bind] in E; try discriminate E.
    injection E as <-; discriminate F.
  - destruct (mturn_ok C D h it out G CW M) as (s1 & E1 & _ & _ & N1).
    rewrite E1 in E. injection E as ->. congruence.
  - destruct M as (DS & NO & FS & O & PT & R). cbn [sc_pc sc_out] in *.
    destruct (gstep_ok C h G id w (proj1 NO) O) as (o & Eg & Ho).
    rewrite Eg in E. cbn [bind] in E. injection E as <-. destruct o; try discriminate F.
    destruct PT as (b & n & v & -> & Hn & Nv & Tv).
    exact (TI b v n Nv Hn Tv Ho).
  - destruct (deref _ _); cbn [bind] in E; try discriminate E.
    destruct (more_specific_ptr_iter _ _ _); cbn [bind] in E; try discriminate E.
    injection E as <-; discriminate F.
  - destruct (deref _ _); cbn [bind] in E; try discriminate E.
    destruct (more_specific_pfx_iter _ _ _); cbn [bind] in E; try discriminate E.
    injection E as <-; discriminate F.
  - injection E as <-. easy.
  - now destruct M.
Qed.

Lemma mI_start (C D : pid -> Prop) h : (forall q, D q -> okp q /\ linked h q) -> mI C D h mscan0.
Proof.
  intros DS. split; [easy|]. cbn [sc_pc sc_out mscan0]. constructor.
  - constructor.
  - easy.
  - intros r q [<-|[]] _ A. exact A.
  - simpl. easy.
  - intros q _ Cv _. right. exists (covers f p). split; [now left|easy].
Qed.


(* ---------- the readers of the shorter prefixes ---------- *)

Section L.
Variable once : bool.
Definition top : N := if once then p_len p else sat_sub (p_len p) 1.
Definition at_len (k : N) : pid := (trunc W (p_bits p) k, k).

Record bI (C D : pid -> Prop) (h : heap nodeval) (lvl : N) (out : list pid) : Prop := {
  b_must : forall q, D q -> stored f h q = true;
  b_top : lvl <= top;
  b_out : forall q, In q out -> exists k, lvl < k <= top /\ q = at_len k /\ C q;
  b_sort : StronglySorted (fun a b => p_len a < p_len b) out;
  b_all : forall k, lvl < k <= top -> D (at_len k) -> In (at_len k) out
}.

Definition bsI (C D : pid -> Prop) (h : heap nodeval) (s : bscan) : Prop :=
  match bs_pc s with
  | BAt lvl x => 0 < lvl /\ bI C D h lvl (bs_out s) /\ (once = true -> bs_out s = []) /\
      exists b, (D (at_len lvl) -> b = true) /\ xI f (at_len lvl) b h x /\
        match x with XDone _ => False | _ => True end
  | BDone => exists lvl, bI C D h lvl (bs_out s) /\
      (lvl = 0 /\ (once = true -> bs_out s = []) \/
       once = true /\ bs_out s = [at_len (lvl + 1)])
  | BPanic => False
  end.

Definition bmu (s : bscan) : N :=
  match bs_pc s with BAt lvl x => 100 * lvl + xmu x | _ => 0 end.
Definition bfinished (s : bscan) : bool :=
  match bs_pc s with BAt _ _ => false | _ => true end.

Lemma top_le : top <= p_len p.
Proof. unfold top, sat_sub. destruct once; lia. Qed.

Lemma at_len_wf k : k <= top -> wf_pid f (at_len k).
Proof.
  intros K. pose proof top_le. pose proof Wp as [A [B _]]. apply wf_trunc; auto; lia.
Qed.

Lemma bI_hle (C D : pid -> Prop) h h' lvl out : ninv f h -> ninv f h' -> hle h h' ->
  bI C D h lvl out -> bI C D h' lvl out.
Proof.
  intros I I' H [A1 A2 A3 A4 A5]. constructor; auto.
  intros q Dq. exact (stored_hle f h h' q I I' H (A1 q Dq)).
Qed.
Lemma bsI_hle (C D : pid -> Prop) h h' s : ninv f h -> ninv f h' -> hle h h' ->
  bsI C D h s -> bsI C D h' s.
Proof.
  intros I I' H. unfold bsI. destruct (bs_pc s) as [lvl x| |]; [| |easy].
  - intros (A & B & E & b & Db & XI & NX). split; [easy|]. split; [exact (bI_hle C D h h' _ _ I I' H B)|].
    split; [easy|]. exists b. split; [easy|]. split; [|easy]. exact (xI_hle f (at_len lvl) b h h' x I I' H XI).
  - intros (lvl & B & E). exists lvl. split; [exact (bI_hle C D h h' _ _ I I' H B)|easy].
Qed.
Lemma bI_mono (C C' D : pid -> Prop) h lvl out : (forall q, C q -> C' q) ->
  bI C D h lvl out -> bI C' D h lvl out.
Proof.
  intros S [A1 A2 A3 A4 A5]. constructor; auto.
  intros q I. destruct (A3 q I) as (k & K & E & Cq). exists k. auto.
Qed.
Lemma bsI_mono (C C' D : pid -> Prop) h s : (forall q, C q -> C' q) -> bsI C D h s -> bsI C' D h s.
Proof.
  intros S. unfold bsI. destruct (bs_pc s) as [lvl x| |]; [| |easy].
  - intros (A & B & E). split; [easy|]. split; [eapply bI_mono; eauto|easy].
  - intros (lvl & B & E). exists lvl. split; [eapply bI_mono; eauto|easy].
Qed.

Lemma bat_ok C D h lvl out : bI C D h lvl out -> (once = true -> out = []) ->
  bsI C D h (bat lvl out) /\ bmu (bat lvl out) <= 100 * lvl + 68.
Proof.
  intros B E. unfold bat. destruct (N.eqb_spec lvl 0) as [->|NZ].
  - split; [|unfold bmu; cbn [bs_pc]; lia]. cbv [bsI bs_pc bs_out]. exists 0. auto.
  - split; [|unfold bmu; cbn [bs_pc xmu]; lia]. cbv [bsI bs_pc bs_out].
    split; [lia|]. split; [easy|]. split; [easy|].
    exists (stored f h (at_len lvl)). split; [apply B|]. split; [|easy]. now split.
Qed.

Lemma bstep_ok C D h s : hV C h -> (forall q, C q -> wf_pid f q) ->
  (forall q, wf_pid f q -> stored f h q = true -> C q) -> bsI C D h s ->
  exists s', bstep f once p h s = Ok s' /\ bsI C D h s' /\ (bfinished s = false -> bmu s' < bmu s).
Proof.
  intros G CW SC M. unfold bstep. destruct s as [pc out]. cbn [bs_pc bs_out].
  destruct pc as [lvl x| |]; [|eexists; split; [reflexivity|]; now split|easy].
  cbv [bsI bs_pc bs_out] in M. destruct M as (L & B & EO & b & Db & XI & NX).
  pose proof (b_top _ _ _ _ _ B) as LT. pose proof top_le as TL.
  assert (PT : pid_truncate_to_len f p lvl = at_len lvl) by (apply pid_trunc_ok; auto; lia).
  rewrite PT. pose proof (at_len_wf lvl LT) as Wq.
  destruct (xstep_known f (at_len lvl) b h x (v_cht G) Wq XI) as (x' & E & XI' & Mu).
  rewrite E. cbn [bind].
  assert (SS : sat_sub lvl 1 = lvl - 1) by (unfold sat_sub; lia). rewrite SS.
  assert (NB : forall out', (forall q, In q out' -> exists k, lvl - 1 < k <= top /\ q = at_len k /\ C q) ->
     StronglySorted (fun a b => p_len a < p_len b) out' ->
     (forall k, lvl - 1 < k <= top -> D (at_len k) -> In (at_len k) out') ->
     bI C D h (lvl - 1) out').
  { intros out' A1 A2 A3. constructor; auto; [apply B|lia]. }
  assert (Done : forall r, x' = XDone r ->
    (D (at_len lvl) -> r = true) /\ (r = true -> C (at_len lvl))).
  { intros r ->. destruct XI' as [_ [X1 X2]]. split; [auto|]. intros R. apply SC; auto. }
  assert (MX : 1 <= xmu x).
  { destruct x; simpl; try lia; try easy. now destruct XI. }
  destruct x' as [|w|k|r|].
  - eexists. split; [reflexivity|]. split.
    + cbv [bsI bs_pc bs_out]. split; [easy|]. split; [easy|]. split; [easy|]. exists b. auto.
    + intros _. unfold bmu. cbn [bs_pc]. destruct x; try lia; easy.
  - eexists. split; [reflexivity|]. split.
    + cbv [bsI bs_pc bs_out]. split; [easy|]. split; [easy|]. split; [easy|]. exists b. auto.
    + intros _. unfold bmu. cbn [bs_pc]. destruct x; try lia; easy.
  - eexists. split; [reflexivity|]. split.
    + cbv [bsI bs_pc bs_out]. split; [easy|]. split; [easy|]. split; [easy|]. exists b. auto.
    + intros _. unfold bmu. cbn [bs_pc]. destruct x; try lia; easy.
  - destruct (Done r eq_refl) as [D1 D2]. destruct r.
    + assert (NB' : bI C D h (lvl - 1) (at_len lvl :: out)).
      { apply NB.
        - intros q [<-|J]; [exists lvl; split; [lia|]; auto|].
          destruct (b_out _ _ _ _ _ B q J) as (k & K & R). exists k. split; [lia|easy].
        - constructor; [apply B|]. apply Forall_forall. intros q J.
          destruct (b_out _ _ _ _ _ B q J) as (k & K & -> & _). simpl. lia.
        - intros k K Dk. destruct (N.eq_dec k lvl) as [->|]; [now left|]. right.
          apply (b_all _ _ _ _ _ B); [lia|easy]. }
      destruct once eqn:On.
      * eexists. split; [reflexivity|]. split; [|intros _; unfold bmu; cbn [bs_pc]; lia].
        unfold bsI. cbn [bs_pc bs_out]. exists (lvl - 1). split; [easy|]. right.
        split; [easy|]. rewrite EO by easy. now replace (lvl - 1 + 1) with lvl by lia.
      * eexists. split; [reflexivity|].
        destruct (bat_ok C D h (lvl - 1) (at_len lvl :: out) NB') as [A1 A2]; [congruence|].
        split; [exact A1|]. intros _. unfold bmu at 2. cbn [bs_pc]. lia.
    + assert (NB' : bI C D h (lvl - 1) out).
      { apply NB.
        - intros q J. destruct (b_out _ _ _ _ _ B q J) as (k & K & R). exists k. split; [lia|easy].
        - apply B.
        - intros k K Dk. destruct (N.eq_dec k lvl) as [->|]; [now apply D1 in Dk|].
          apply (b_all _ _ _ _ _ B); [lia|easy]. }
      eexists. split; [reflexivity|]. destruct (bat_ok C D h (lvl - 1) out NB' EO) as [A1 A2].
      split; [exact A1|]. intros _. unfold bmu at 2. cbn [bs_pc]. lia.
  - now destruct XI'.
Qed.

Lemma bsI_start (C D : pid -> Prop) h : (forall q, D q -> stored f h q = true) ->
  bsI C D h (bscan0 once p).
Proof.
  intros DS. apply bat_ok; [|easy]. fold top. constructor; try easy.
  - constructor.
  - intros. lia.
Qed.

End L.

End T.
