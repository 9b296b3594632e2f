(* What the invariants of the long readers say to a caller. *)
From Coq Require Import Arith NArith List Bool Sorted Lia.
From Verif Require Import Word Af BitSpan Spec Maps ChtMath Cht Node Tree ChainProofs TreeProofs
  Iter IterProofs Conc ConcTree ConcTreeProofs ConcTreeInv ConcTreeStep ConcTreeEnd ConcTreeSeen ConcStore
  ConcTable ConcStoreInv ConcStoreStep ConcInsert ConcCalls ConcSpec ConcFacts ConcScan
  ConcScanProofs ConcScanSpec.
Import ListNotations.
Local Open Scope N_scope.

Definition cset (x : cstore) (q : pid) : Prop := exists i r ups, started x i (CInsert q r ups).
(* inserts that had returned when the reader began *)
Definition dset (x0 : cstore) (q : pid) : Prop :=
  0 < p_len q /\ exists i r ups rep, returned x0 i (CInsert q r ups) (RetIns (ROk rep)).

Lemma cset_hG f ov st x : reach f ov st x ->
  hG f (cset x) (t_heap (tree_of x)) /\ (forall q, cset x q -> wf_pid f q) /\
  (forall q, wf_pid f q -> stored f (t_heap (tree_of x)) q = true -> cset x q).
Proof.
  intros R. pose proof (reach_sok _ _ _ _ R) as S. split; [|split].
  - apply (hG_mono f (insp (calls x))).
    + intros q (i & r & ups & N). exists i, r, ups. now apply started_calls.
    + exact (proj1 (g_tree _ _ _ _ _ (proj1 S))).
  - intros q (i & r & ups & N). exact (wf_prefix _ _ _ _ _ _ _ _ S N).
  - intros q W E. exact (conc_stored_started _ _ _ _ _ _ _ S W E).
Qed.

Lemma cset_step f ov x y q : sexec f ov x y -> cset x q -> cset y q.
Proof.
  intros E (i & r & ups & l & N). destruct (exec_call _ _ _ _ _ _ _ _ E N) as (l' & N').
  exists i, r, ups, l'. easy.
Qed.

Lemma dset_stored f ov st x0 : reach f ov st x0 -> forall q, dset x0 q ->
  okp f q /\ stored f (t_heap (tree_of x0)) q = true.
Proof.
  intros R q (L & i & r & ups & rep & Rt). pose proof (reach_sok _ _ _ _ R) as S.
  split; [split; [|easy]|].
  - destruct Rt as (l & N & _). apply (wf_prefix _ _ _ _ _ _ i (CInsert q r ups) S). now exists l.
  - apply inserted_stored; [|easy]. exact (insert_done _ _ _ _ _ _ _ _ _ _ _ S Rt).
Qed.

Lemma beside_exec {S} f ov over (next : tree -> S -> S) x0 s0 n x s :
  beside f ov over next x0 s0 n x s -> sexec f ov x0 x.
Proof.
  induction 1 as [|n x y s B IH E|n x s B IH E]; [apply ex_refl| |easy]. eapply ex_step; eauto.
Qed.

Lemma heaps_step f ov st x y : reach f ov st x -> cstep cstart (slegal f) (ststep f ov) x y ->
  hle (t_heap (tree_of x)) (t_heap (tree_of y)).
Proof.
  intros R E. destruct (reach_from f ov st x y R (exec_one _ _ _ _ _ E)) as [_ Q]. apply Q.
Qed.

(* ---------- the more-specifics iterator ---------- *)

Lemma scans_inv f ov st p x0 n x s : reach f ov st x0 -> wf_pid f p -> scans f ov p x0 n x s ->
  mI f p (cset x) (dset x0) (t_heap (tree_of x)) s /\ N.of_nat n + mmu f s <= mmu f mscan0.
Proof.
  intros R W B. induction B as [|n x y s B [IH ST] E|n x s B [IH ST] E].
  - split; [|simpl; lia]. apply mI_start. intros q D.
    destruct (dset_stored f ov st x0 R q D) as [O S]. split; [easy|].
    exact (hG_linked f _ _ q (proj1 (cset_hG _ _ _ _ R)) (proj1 O) S).
  - split; [|easy]. pose proof (reach_exec _ _ _ _ _ R (beside_exec _ _ _ _ _ _ _ _ _ B)) as Rx.
    pose proof (reach_exec _ _ _ _ _ Rx (exec_one _ _ _ _ _ E)) as Ry.
    apply (mI_mono f p (cset x)).
    { intros q. apply (cset_step f ov). exact (exec_one _ _ _ _ _ E). }
    apply (mI_hle f p (cset x) (dset x0) (t_heap (tree_of x))); auto.
    + exact (g_cht _ _ _ (proj1 (cset_hG _ _ _ _ Rx))).
    + exact (g_cht _ _ _ (proj1 (cset_hG _ _ _ _ Ry))).
    + exact (heaps_step _ _ _ _ _ Rx E).
  - pose proof (reach_exec _ _ _ _ _ R (beside_exec _ _ _ _ _ _ _ _ _ B)) as Rx.
    destruct (cset_hG _ _ _ _ Rx) as (G & CW & _).
    destruct (mstep_ok f p W _ _ _ _ (hG_hV _ _ _ G) CW IH) as (s' & Es & I' & M).
    unfold mnext. rewrite Es. split; [easy|].
    assert (F : finished s = false) by exact E. specialize (M F). lia.
Qed.

Lemma mI_rI f p C D h s : mI f p C D h s -> exists rs, rI f p C D (sc_out s) rs.
Proof.
  intros [_ B]. destruct (sc_pc s) as [| | | | | | | |[]|]; cbv zeta in B;
    repeat match goal with H : _ /\ _ |- _ => destruct H end; try easy; eauto.
Qed.

Lemma conc_scan_sound f ov st p x0 n x s : reach f ov st x0 -> wf_pid f p -> scans f ov p x0 n x s ->
  sc_pc s <> MPanic /\ NoDup (given s) /\
  forall q, In q (given s) ->
    (exists i r ups, started x i (CInsert q r ups)) /\ 0 < p_len q /\ covers f p q.
Proof.
  intros R W B. destruct (scans_inv _ _ _ _ _ _ _ _ R W B) as [I _]. split.
  - destruct I as [_ I]. intros E. rewrite E in I. exact I.
  - destruct (mI_rI _ _ _ _ _ _ I) as [rs [A1 A2 _ _ _]]. unfold given. split.
    + now apply NoDup_rev.
    + intros q Iq. apply in_rev in Iq. destruct (A2 q Iq) as ((_ & L) & Cq & Cv & _). easy.
Qed.

Lemma conc_scan_complete f ov st p x0 n x s : reach f ov st x0 -> wf_pid f p ->
  scans f ov p x0 n x s -> sc_pc s = MDone true ->
  forall q i r ups rep, returned x0 i (CInsert q r ups) (RetIns (ROk rep)) ->
    0 < p_len q -> covers f p q -> p_len p < BITS f -> In q (given s).
Proof.
  intros R W B E q i r ups rep Rt L Cv Lp. destruct (scans_inv _ _ _ _ _ _ _ _ R W B) as [[_ I] _].
  rewrite E in I. cbv zeta in I. unfold given. apply in_rev. rewrite rev_involutive.
  destruct (r_all _ _ _ _ _ _ I q) as [A|(r0 & A & _)]; auto; [|destruct A].
  split; [easy|]. exists i, r, ups, rep. easy.
Qed.

Lemma done_tree f ov st x : reach f ov st x -> inserts_done x -> tree_inv f (t_heap (tree_of x)).
Proof.
  intros R Id. pose proof (reach_sok _ _ _ _ R) as S.
  apply (hG_tree_inv f (insp (calls x))).
  { intros q (i & r & ups & N). apply started_calls in N. exact (wf_prefix _ _ _ _ _ _ _ _ S N). }
  { exact (proj1 (g_tree _ _ _ _ _ (proj1 S))). }
  intros q (i & r & ups & N) Lq. apply started_calls in N. destruct (Id _ _ _ _ N) as (a & Rt).
  pose proof (insert_done _ _ _ _ _ _ _ _ _ _ _ S Rt) as I. unfold inserted in I.
  destruct (N.eqb_spec (p_len q) 0); [lia|exact I].
Qed.

Lemma conc_scan_cut f ov st p x0 n x s : reach f ov st x0 -> wf_pid f p -> scans f ov p x0 n x s ->
  scan_over s = false -> sc_pc (mnext f p (tree_of x) s) = MDone false -> ~ inserts_done x.
Proof.
  intros R W B NO E Id. pose proof (reach_exec _ _ _ _ _ R (beside_exec _ _ _ _ _ _ _ _ _ B)) as Rx.
  destruct (scans_inv _ _ _ _ _ _ _ _ R W B) as [I _]. destruct (cset_hG _ _ _ _ Rx) as (G & CW & _).
  destruct (mstep_ok f p W _ _ _ _ (hG_hV _ _ _ G) CW I) as (s' & Es & _). unfold mnext in E. rewrite Es in E.
  pose proof (done_tree _ _ _ _ Rx Id) as TI.
  refine (mstep_cut f p _ _ _ _ _ (hG_hV _ _ _ G) CW I Es E _ (fun b v n Nv Hn Tv => proj2 (ti_down f _ TI b v n Nv Hn Tv))).
  intros Q. unfold scan_over in NO. rewrite Q in NO. discriminate.
Qed.

Lemma conc_scan_ends f ov st p x0 n x s : reach f ov st x0 -> wf_pid f p -> scans f ov p x0 n x s ->
  N.of_nat n <= 2 ^ 204.
Proof.
  intros R W B. destruct (scans_inv _ _ _ _ _ _ _ _ R W B) as [_ M].
  assert (Q : mmu f mscan0 <= 2 ^ 204) by (vm_compute; discriminate). lia.
Qed.

(* ---------- the longest match and the less specifics ---------- *)

Lemma looks_inv f ov st once p x0 n x s : reach f ov st x0 -> wf_pid f p ->
  looks f ov once p x0 n x s ->
  bsI f p once (cset x) (dset x0) (t_heap (tree_of x)) s /\
  N.of_nat n + bmu s <= bmu (bscan0 once p).
Proof.
  intros R W B. induction B as [|n x y s B [IH ST] E|n x s B [IH ST] E].
  - split; [|simpl; lia]. apply bsI_start; auto. intros q D.
    now destruct (dset_stored f ov st x0 R q D).
  - split; [|easy]. pose proof (reach_exec _ _ _ _ _ R (beside_exec _ _ _ _ _ _ _ _ _ B)) as Rx.
    pose proof (reach_exec _ _ _ _ _ Rx (exec_one _ _ _ _ _ E)) as Ry.
    apply (bsI_mono f p once (cset x)).
    { intros q. apply (cset_step f ov). exact (exec_one _ _ _ _ _ E). }
    apply (bsI_hle f p once (cset x) (dset x0) (t_heap (tree_of x))); auto.
    + exact (g_cht _ _ _ (proj1 (cset_hG _ _ _ _ Rx))).
    + exact (g_cht _ _ _ (proj1 (cset_hG _ _ _ _ Ry))).
    + exact (heaps_step _ _ _ _ _ Rx E).
  - pose proof (reach_exec _ _ _ _ _ R (beside_exec _ _ _ _ _ _ _ _ _ B)) as Rx.
    destruct (cset_hG _ _ _ _ Rx) as (G & CW & SC).
    destruct (bstep_ok f p W once _ _ _ _ (hG_hV _ _ _ G) CW SC IH) as (s' & Es & I' & M).
    unfold bnext. rewrite Es. split; [easy|].
    assert (F : bfinished s = false) by exact E. specialize (M F). lia.
Qed.

Lemma bsI_bI f p once C D h s : bsI f p once C D h s ->
  bs_pc s <> BPanic /\ exists lvl, bI f p once C D h lvl (bs_out s).
Proof.
  unfold bsI. destruct (bs_pc s) as [lvl x| |]; [| |easy].
  - intros (_ & B & _). split; [easy|eauto].
  - intros (lvl & B & _). split; [easy|eauto].
Qed.

Lemma at_len_covers f p k : wf_pid f p -> k <= p_len p -> covers f (at_len f p k) p.
Proof.
  intros W K. apply covers_trunc; auto.
  - pose proof W as [A [B _]]. apply wf_trunc; auto. lia.
Qed.

Lemma conc_looks_sound f ov st once p x0 n x s : reach f ov st x0 -> wf_pid f p ->
  looks f ov once p x0 n x s ->
  bs_pc s <> BPanic /\
  forall q, In q (matches s) -> (exists i r ups, started x i (CInsert q r ups)) /\
    0 < p_len q /\ covers f q p /\ (once = false -> p_len q < p_len p).
Proof.
  intros R W B. destruct (looks_inv _ _ _ _ _ _ _ _ _ R W B) as [I _].
  destruct (bsI_bI _ _ _ _ _ _ _ I) as [NP (lvl & J)]. split; [easy|].
  intros q Iq. unfold matches in Iq. apply in_rev in Iq.
  destruct (b_out _ _ _ _ _ _ _ _ J q Iq) as (k & K & -> & Cq).
  pose proof (top_le p once) as T. split; [easy|]. simpl. split; [lia|].
  split; [apply at_len_covers; auto; lia|]. intros ->. unfold top, sat_sub in K. lia.
Qed.

Lemma desc_app (l : list pid) a : len_desc l -> (forall b, In b l -> p_len a < p_len b) ->
  len_desc (l ++ [a]).
Proof.
  induction l as [|b l IH]; intros S A; simpl; [tauto|]. destruct S as [S1 S2]. split.
  - intros q Iq. apply in_app_or in Iq. destruct Iq as [Iq|[<-|[]]]; [now apply S1|].
    apply A. apply in_eq.
  - apply IH; [easy|]. intros c Ic. apply A. now apply in_cons.
Qed.

Lemma rev_desc (l : list pid) : StronglySorted (fun a b => p_len a < p_len b) l -> len_desc (rev l).
Proof.
  induction 1 as [|a l S IH A]; [exact I|]. simpl. apply desc_app; [easy|].
  intros b Ib. apply in_rev in Ib. rewrite Forall_forall in A. now apply A.
Qed.

Lemma conc_less_sorted f ov st p x0 n x s : reach f ov st x0 -> wf_pid f p ->
  looks f ov false p x0 n x s -> len_desc (matches s).
Proof.
  intros R W B. destruct (looks_inv _ _ _ _ _ _ _ _ _ R W B) as [I _].
  destruct (bsI_bI _ _ _ _ _ _ _ I) as [_ (lvl & J)]. apply rev_desc. exact (b_sort _ _ _ _ _ _ _ _ J).
Qed.

Lemma conc_less_complete f ov st p x0 n x s : reach f ov st x0 -> wf_pid f p ->
  looks f ov false p x0 n x s -> look_over s = true ->
  forall q i r ups rep, returned x0 i (CInsert q r ups) (RetIns (ROk rep)) ->
    0 < p_len q -> p_len q < p_len p -> covers f q p -> In q (matches s).
Proof.
  intros R W B O q i r ups rep Rt L Lq Cv.
  destruct (looks_inv _ _ _ _ _ _ _ _ _ R W B) as [I _].
  assert (D : dset x0 q) by (split; [easy|]; exists i, r, ups, rep; easy).
  destruct (dset_stored _ _ _ _ R q D) as [[Wq _] _].
  apply covers_trunc in Cv; auto. destruct Cv as [_ Q]. change (q = at_len f p (p_len q)) in Q.
  unfold bsI in I. unfold look_over in O. destruct (bs_pc s) as [lvl y| |]; [discriminate| |easy].
  destruct I as (lvl & J & [[-> _]|[? _]]); [|easy]. unfold matches. rewrite <- in_rev.
  rewrite Q. apply (b_all _ _ _ _ _ _ _ _ J).
  - unfold top, sat_sub. lia.
  - now rewrite <- Q.
Qed.

Lemma conc_longest f ov st p x0 n x s : reach f ov st x0 -> wf_pid f p ->
  looks f ov true p x0 n x s -> look_over s = true ->
  (length (matches s) <= 1)%nat /\
  forall q i r ups rep, returned x0 i (CInsert q r ups) (RetIns (ROk rep)) ->
    0 < p_len q -> covers f q p -> exists m, matches s = [m] /\ p_len q <= p_len m.
Proof.
  intros R W B O. destruct (looks_inv _ _ _ _ _ _ _ _ _ R W B) as [I _].
  unfold bsI in I. unfold look_over in O. destruct (bs_pc s) as [lvl y| |]; [discriminate| |easy].
  destruct I as (lvl & J & E). split.
  { unfold matches. rewrite rev_length. destruct E as [[_ E]|[_ ->]]; [rewrite (E eq_refl); simpl; lia|simpl; lia]. }
  intros q i r ups rep Rt L Cv.
  assert (D : dset x0 q) by (split; [easy|]; exists i, r, ups, rep; easy).
  destruct (dset_stored _ _ _ _ R q D) as [[Wq _] _].
  apply covers_trunc in Cv; auto. destruct Cv as [Le Q]. change (q = at_len f p (p_len q)) in Q.
  pose proof (b_all _ _ _ _ _ _ _ _ J (p_len q)) as A. rewrite <- Q in A. unfold top in A.
  destruct E as [[-> E]|[_ E]].
  - specialize (E eq_refl). rewrite E in A. destruct A; auto; lia.
  - exists (at_len f p (lvl + 1)). unfold matches. rewrite E. split; [easy|]. simpl.
    destruct (N.le_gt_cases (p_len q) (lvl + 1)) as [|Gt]; [easy|].
    assert (K : lvl < p_len q <= p_len p) by lia. specialize (A K D). rewrite E in A.
    destruct A as [A|[]]. rewrite <- A. simpl. lia.
Qed.

Lemma conc_looks_end f ov st once p x0 n x s : reach f ov st x0 -> wf_pid f p ->
  looks f ov once p x0 n x s -> N.of_nat n <= 100 * p_len p + 68.
Proof.
  intros R W B. destruct (looks_inv _ _ _ _ _ _ _ _ _ R W B) as [_ M].
  pose proof (top_le p once) as T. unfold bscan0 in M. fold (top p once) in M. unfold bat in M.
  assert (X : xmu XStart <= 68) by (vm_compute; discriminate).
  destruct (N.eqb_spec (top p once) 0); cbn [bmu bs_pc] in M; lia.
Qed.

Lemma conc_longest_sound f ov st p x0 n x s : reach f ov st x0 -> wf_pid f p ->
  looks f ov true p x0 n x s ->
  bs_pc s <> BPanic /\
  forall q, In q (matches s) -> (exists i r ups, started x i (CInsert q r ups)) /\
    0 < p_len q /\ covers f q p.
Proof.
  intros R W B. destruct (conc_looks_sound _ _ _ _ _ _ _ _ _ R W B) as [A H]. split; [easy|].
  intros q I. destruct (H q I) as (H1 & H2 & H3 & _). easy.
Qed.

Lemma conc_less_sound f ov st p x0 n x s : reach f ov st x0 -> wf_pid f p ->
  looks f ov false p x0 n x s ->
  bs_pc s <> BPanic /\
  forall q, In q (matches s) -> (exists i r ups, started x i (CInsert q r ups)) /\
    0 < p_len q /\ p_len q < p_len p /\ covers f q p.
Proof.
  intros R W B. destruct (conc_looks_sound _ _ _ _ _ _ _ _ _ R W B) as [A H]. split; [easy|].
  intros q I. destruct (H q I) as (H1 & H2 & H3 & H4). auto.
Qed.

Lemma conc_longest_ends f ov st p x0 n x s : reach f ov st x0 -> wf_pid f p ->
  looks f ov true p x0 n x s -> N.of_nat n <= 100 * p_len p + 68.
Proof. apply conc_looks_end. Qed.
Lemma conc_less_ends f ov st p x0 n x s : reach f ov st x0 -> wf_pid f p ->
  looks f ov false p x0 n x s -> N.of_nat n <= 100 * p_len p + 68.
Proof. apply conc_looks_end. Qed.
