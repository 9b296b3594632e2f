(* The tree once all inserts have returned, the tree at the start, and a reader
   among inserts. *)
From Coq Require Import Arith NArith List Bool Lia.
From Verif Require Import Word Af BitSpan Maps ChtMath Cht Node Tree ChainProofs TreeProofs
  ConcMarks ConcTree ConcTreeProofs ConcTreeInv ConcTreeStep.
Import ListNotations.
Local Open Scope N_scope.

Lemma bits_lt x w : (forall i, N.testbit x i = true -> i < w) -> x < 2 ^ w.
Proof.
  intros H. destruct (N.eq_dec x 0) as [->|NZ]; [apply pow2_pos|].
  apply N.log2_lt_pow2; [lia|]. apply H. now apply N.bit_log2.
Qed.

Section E.
Variable f : af.
Notation W := (BITS f).
Variable C : pid -> Prop.
Hypothesis Cwf : forall p, C p -> wf_pid f p.

(* when every insert has done its work the sequential invariant holds *)
Lemma hG_tree_inv h : hG f C h ->
  (forall p, C p -> 0 < p_len p -> path_done f h p (nlen (p_len p)) /\ stored f h p = true) ->
  tree_inv f h.
Proof.
  intros G A. pose proof G as [G1 G2 G3 G4 G5 G6]. constructor; auto.
  - intros id v N. destruct (G3 _ _ N) as [L P]. split; [easy|]. split; [easy|].
    assert (B : forall i, N.testbit (nv_pfx v) i = true -> 0 < i < 31).
    { intros i T. destruct (G6 _ _ _ N T) as (p & _ & Lp & _ & ->). now apply span_bit. }
    split; [apply bits_lt; intros i T; now apply B in T|].
    destruct (N.testbit (nv_pfx v) 0) eqn:T; [|easy]. apply B in T. lia.
  - intros id v n N Hn T. destruct (G5 _ _ _ N T) as (p & Cp & O & L & E).
    pose proof (Cwf _ Cp) as [Hl [Hb Hm]].
    apply on_path_inv in O. destruct O as (O1 & O2 & O3).
    assert (n = nib f p (p_len id)) as -> by (apply ptr_bit_inj; auto; apply slice_lt).
    split; [lia|]. rewrite O3. simpl p_len. unfold nib. rewrite child_trunc by lia.
    destruct (A p Cp ltac:(lia)) as [P S].
    pose proof (nlen_spec (p_len p)) as (N1 & N2 & N3 & N4).
    destruct (N.lt_ge_cases (p_len id + 4) (nlen (p_len p))).
    + destruct (P (p_len id + 4)) as (v' & NV & _); [dlia|easy|].
      unfold anc in NV. congruence.
    + assert (p_len id + 4 = nlen (p_len p)) as -> by dlia.
      unfold stored in S. fold (node_of f p) in *.
      change (trunc W (p_bits p) (nlen (p_len p)), nlen (p_len p)) with (node_of f p).
      destruct (nodes f h (node_of f p)); easy.
Qed.

Lemma tG_new t : tree_new f = Ok t -> tG f C t /\ (forall q, present f t q = false) /\
  t_withdrawn t = [].
Proof.
  intros E. destruct (tree_new_ok f) as (t' & E' & (I & _) & Wd & D & S & N).
  rewrite E in E'. injection E' as <-. split; [split|split; [|easy]].
  - destruct I as [I1 I2 I3 I4 I5].
    assert (Z : forall id v, nodes f (t_heap t) id = Some v ->
       nv_ptr v = 0 /\ nv_pfx v = 0).
    { intros id v Q. rewrite N in Q. destruct (pid_eqb id (0, 0)); [|discriminate].
      injection Q as <-. easy. }
    constructor; auto.
    + intros id v Q. apply I3 in Q. easy.
    + intros id v b Q T. destruct (Z _ _ Q) as [Z1 _]. rewrite Z1, N.bits_0 in T. discriminate.
    + intros id v b Q T. destruct (Z _ _ Q) as [_ Z1]. rewrite Z1, N.bits_0 in T. discriminate.
  - congruence.
  - intros q. unfold present. destruct (p_len q =? 0); auto.
Qed.

(* ---------- a reader ---------- *)

Definition xmu (pc : xpc) : N :=
  match pc with
  | XStart => 68
  | XGet w => 2 * (32 - w_level w) + 2
  | XLoad _ => 1
  | XDone _ | XPanic => 0
  end.

(* [before]: the prefix was stored when the call began *)
Definition xI (p : pid) (before : bool) (h : heap nodeval) (pc : xpc) : Prop :=
  (before = true -> stored f h p = true) /\
  match pc with
  | XStart => True
  | XGet w => walk_ok NSTRIDE f h (node_of f p) w
  | XLoad k => at_id h k (node_of f p)
  | XDone b => (before = true -> b = true) /\ (b = true -> stored f h p = true)
  | XPanic => False
  end.

Lemma xI_hle p b h h' pc : ninv f h -> ninv f h' -> hle h h' -> xI p b h pc -> xI p b h' pc.
Proof.
  intros I I' H [A B]. pose proof (stored_hle f h h' p I I' H) as S.
  pose proof (hle_grows _ _ H) as G.
  split; [auto|]. destruct pc; eauto using walk_ok_grows, at_id_grows.
  destruct B as [B1 B2]. auto.
Qed.

Lemma walk_none (h : heap nodeval) id k e : ninv f h -> (k < nlev id)%nat ->
  (forall j, (j < k)%nat -> exists e, lookup (kof f NSTRIDE id j) h = Some e /\ e_id e <> id) ->
  lookup (kof f NSTRIDE id k) h = None -> find f NSTRIDE h id = Some e -> False.
Proof.
  intros I K O L F. pose proof (walk_vac NSTRIDE NSTRIDE_nz f h id k K O L) as V.
  unfold find in F. rewrite V in F. discriminate.
Qed.

Lemma xstep_known p b h pc : ninv f h -> wf_pid f p -> xI p b h pc ->
  exists pc', xstep f p h pc = Ok pc' /\ xI p b h pc' /\
    match pc with XDone _ | XPanic => True | _ => xmu pc' < xmu pc end.
Proof.
  intros NI Wp [B I]. pose proof (node_of_dom f p Wp) as D.
  unfold xstep. rewrite node_id_for_prefix_ok by auto. cbn [bind].
  destruct pc as [|w|k|r|]; [| | |eexists; split; [reflexivity|now split]|easy].
  - destruct (walk_start_ok NSTRIDE NSTRIDE_nz f h (node_of f p) D) as (w & E & O & L0).
    rewrite E. cbn [bind]. eexists. split; [reflexivity|]. split; [now split|]. simpl. rewrite L0. lia.
  - pose proof (walk_level _ _ _ _ D I) as LV.
    destruct I as (k & K & -> & O). cbn [w_level w_b w_path w_slots].
    rewrite hash_at by auto. cbn [bind].
    rewrite (slot_get_level f NSTRIDE) by (auto; unfold nlev in K; lia).
    destruct (lookup (kof f NSTRIDE (node_of f p) k) h) as [e|] eqn:L.
    + rewrite walk_key. destruct (pid_eqb (node_of f p) (e_id e)) eqn:Q.
      * apply pid_eqb_spec in Q. eexists. split; [reflexivity|]. split; [|simpl; lia].
        split; [easy|]. exists e. auto.
      * assert (NE : e_id e <> node_of f p).
        { intros X. rewrite X, pid_eqb_refl in Q. discriminate. }
        destruct (walk_next NSTRIDE NSTRIDE_nz f h (node_of f p) k e NI D K O L NE)
          as (A1 & A2 & A3 & A4 & A5).
        rewrite A1. cbn [bind]. rewrite A2. cbn [bind]. rewrite A3.
        eexists. split; [reflexivity|]. split; [now split|].
        simpl. unfold nlev in A4.
        pose proof (nlevels_le f (p_len (node_of f p)) (proj1 (proj1 D))). lia.
    + eexists. split; [reflexivity|]. split; [|simpl; lia]. split; [easy|]. split; [|easy].
      intros X. apply B in X. unfold stored, nodes in X.
      destruct (find f NSTRIDE h (node_of f p)) eqn:F; [|easy].
      exfalso. eapply walk_none; eauto.
  - simpl in I. destruct (at_id_lookup _ _ _ I) as (v & DR & s & LK).
    pose proof (at_id_nodes f _ _ _ _ _ NI LK) as NV.
    rewrite DR. cbn [bind]. rewrite into_bit_pos_ok by apply wf_span. cbn [bind].
    rewrite land_pow2_gt. eexists. split; [reflexivity|]. split; [|simpl; lia].
    unfold xI, stored in *. rewrite NV in *. auto.
Qed.

Lemma xstep_ok p b h pc : hG f C h -> wf_pid f p -> xI p b h pc ->
  exists pc', xstep f p h pc = Ok pc' /\ xI p b h pc' /\
    match pc with XDone _ | XPanic => True | _ => xmu pc' < xmu pc end.
Proof. intros G. apply xstep_known. exact (g_cht _ _ _ G). Qed.

End E.
