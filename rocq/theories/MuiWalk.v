(* The walk of contains(prefix, Some(mui)): what it finds in terms of the chain
   and of the mui indexes of the entries on it. *)
From Coq Require Import Arith NArith List Bool Lia.
From Verif Require Import Word Af BitSpan Spec Maps ChtMath Cht Node Tree ChainProofs TreeProofs
  MultiMap RecordSet Rib StarCast HistSpec Ask PropSpec RibProofs RibLsm RibOk Queries.
Import ListNotations.
Local Open Scope N_scope.

Section W.
Variable f : af.

(* the entries of the chain of id at the levels k .. k+n-1 all hold mui *)
Fixpoint has_mui (h : heap nodeval) (id : pid) (mui : N) (k n : nat) : bool :=
  match n with
  | O => true
  | S n' =>
    match lookup (kof f NSTRIDE id k) h with
    | Some e => mem mui (nv_rbm (e_val e)) && has_mui h id mui (S k) n'
    | None => false
    end
  end.

Lemma for_mui_loop h id mui : ninv f h -> ndom f id ->
  forall n k fuel, (n + k = nlev id)%nat -> (0 < n)%nat -> (n <= fuel)%nat ->
  retrieve_node_for_mui_loop fuel f h id mui (p_len id / NSTRIDE) (hpath f id k)
     (slots_at (p_len id) k) (N.of_nat k) =
  Ok (match locate f NSTRIDE n h id k with
      | LHit j e => if has_mui h id mui k (S j - k) then Some (e_val e) else None
      | _ => None end).
Proof.
  intros I D. pose proof (proj1 D) as W.
  induction n as [|n IH]; intros k fuel E P F; [lia|].
  destruct fuel as [|fuel]; [lia|]. cbn [retrieve_node_for_mui_loop locate].
  rewrite hash_id_ok by (auto; unfold nlev in *; lia). cbn [bind].
  rewrite (slot_get_level f NSTRIDE) by (auto; unfold nlev in *; lia).
  destruct (lookup (kof f NSTRIDE id k) h) as [e|] eqn:L; [|easy].
  destruct (pid_eqb id (e_id e)) eqn:Q.
  - replace (S k - k)%nat with 1%nat by lia. cbn [has_mui]. rewrite L.
    destruct (mem mui (nv_rbm (e_val e))); easy.
  - destruct (mem mui (nv_rbm (e_val e))) eqn:M; cbn [negb].
    + rewrite (lvl_succ f id) by (auto; lia). cbn [bind].
      rewrite (size_next f) by (auto; lia). cbn [bind].
      rewrite (size_next_pos id) by lia.
      destruct (Nat.ltb_spec (S k) (nlev id)).
      * rewrite <- hpath_S.
        rewrite (slots_next f NSTRIDE NSTRIDE_nz h id k e) by auto.
        rewrite IH by lia. f_equal.
        destruct (locate f NSTRIDE n h id (S k)) as [j e'| |] eqn:Lo; auto.
        apply locate_hit in Lo; auto. destruct Lo as (_ & _ & B & _).
        replace (S j - k)%nat with (S (S j - S k)) by lia. cbn [has_mui]. now rewrite L, M.
      * replace n with 0%nat by lia. easy.
    + f_equal. destruct (locate f NSTRIDE n h id (S k)) as [j e'| |] eqn:Lo; auto.
      apply locate_hit in Lo; auto. destruct Lo as (_ & _ & B & _).
      replace (S j - k)%nat with (S (S j - S k)) by lia. cbn [has_mui]. now rewrite L, M.
Qed.

Lemma for_mui_ok h id mui : ninv f h -> ndom f id ->
  retrieve_node_for_mui f h id mui =
  Ok (match locate f NSTRIDE (nlev id) h id 0 with
      | LHit j e => if has_mui h id mui 0 (S j) then Some (e_val e) else None
      | _ => None end).
Proof.
  intros I D. unfold retrieve_node_for_mui.
  rewrite (root_for_len_ok f NSTRIDE NSTRIDE_nz) by auto. cbn [bind].
  change root_slots with (slots_at (p_len id) 0).
  change (@nil N) with (hpath f id 0). change 0 with (N.of_nat 0).
  rewrite (for_mui_loop h id mui I D (nlev id) 0).
  - destruct (locate f NSTRIDE (nlev id) h id 0); auto.
  - lia.
  - apply nlev_pos.
  - pose proof (nlev_le f id (proj1 D)). unfold CHAIN_FUEL. lia.
Qed.

Lemma has_mui_spec h id mui n : forall k, has_mui h id mui k n = true <->
  forall i, (k <= i < k + n)%nat -> exists e, lookup (kof f NSTRIDE id i) h = Some e /\
    mem mui (nv_rbm (e_val e)) = true.
Proof.
  induction n as [|n IH]; intros k; simpl.
  - split; [intros _ i; lia|easy].
  - split.
    + destruct (lookup (kof f NSTRIDE id k) h) as [e|] eqn:L; [|easy].
      rewrite andb_true_iff, IH. intros [M R] i B.
      destruct (Nat.eq_dec i k) as [->|]; [eauto|]. apply R. lia.
    + intros R. destruct (R k) as [e [L M]]; [lia|]. rewrite L, M. simpl. apply IH.
      intros i B. apply R. lia.
Qed.

End W.

Section C.
Context (s : strategy) (f : af) (h : list op) (rb : rib).
Hypothesis Wh : wf_history h.
Hypothesis R : rib_ans s f h rb.

Lemma rib_contains_mui_ok id m : wf_pid f id ->
  exists b, rib_contains f rb id (Some m) = Ok b /\
    (b = true -> listed h (f, id) /\ via h f (node_of f id) m = true) /\
    (b = false -> listed h (f, id) -> via h f (node_of f id) m = true ->
       exists id', id' <> node_of f id /\ p_len id' = p_len (node_of f id) /\
         hidx f id' 0 = hidx f (node_of f id) 0 /\
         visited h f id' = true /\ via h f id' m = false).
Proof.
  intros W. unfold rib_contains, prefix_exists_for_mui.
  rewrite node_id_for_prefix_ok by auto. cbn [bind].
  pose proof (ra_tree _ _ _ _ R) as T. pose proof (ta_inv _ _ _ T) as TI.
  pose proof (ti_cht _ _ TI) as NI. pose proof (node_of_dom f id W) as D.
  rewrite for_mui_ok by auto. cbn [bind].
  set (t := rb_tree rb) in *. set (nd := node_of f id) in *.
  assert (Nd : nodes f (t_heap t) nd =
    match locate f NSTRIDE (nlev nd) (t_heap t) nd 0 with LHit j e => Some (e_val e) | _ => None end).
  { unfold nodes, find. destruct (locate f NSTRIDE (nlev nd) (t_heap t) nd 0); easy. }
  pose proof (ta_rbm _ _ _ T nd m) as Vm. rewrite Nd in Vm.
  pose proof (stored_listed s f h rb R id W) as SL. unfold stored in SL. fold nd t in SL.
  rewrite Nd in SL.
  destruct (locate f NSTRIDE (nlev nd) (t_heap t) nd 0) as [j e|j|] eqn:L.
  - destruct (locate_hit f NSTRIDE NSTRIDE_nz _ _ _ _ _ _ L) as (Lk & Ei & Bj & Oth).
    destruct (has_mui f (t_heap t) nd m 0 (S j)) eqn:HM.
    + rewrite into_bit_pos_ok by apply wf_span. cbn [bind]. rewrite land_pow2_gt.
      eexists. split; [reflexivity|]. split.
      * intros B. split; [now apply SL|]. rewrite <- Vm.
        apply has_mui_spec with (i := j) in HM; [|lia]. destruct HM as [e' [Lk' M]]. congruence.
      * intros B Li. apply SL in Li. congruence.
    + eexists. split; [reflexivity|]. split; [easy|]. intros _ Li V.
      assert (X : exists i, (i < S j)%nat /\ exists e', lookup (kof f NSTRIDE nd i) (t_heap t) = Some e' /\
        mem m (nv_rbm (e_val e')) = false).
      { clear - HM Oth Lk. destruct (Forall_dec (fun i => exists e', lookup (kof f NSTRIDE nd i) (t_heap t) = Some e' /\
          mem m (nv_rbm (e_val e')) = true)) with (l := seq 0 (S j)) as [F|F].
        - intros i. destruct (lookup (kof f NSTRIDE nd i) (t_heap t)) as [e'|].
          + destruct (mem m (nv_rbm (e_val e'))) eqn:M; [left; eauto|right].
            intros (e2 & E2 & M2). inversion E2; subst. congruence.
          + right. intros (e2 & E2 & _). discriminate.
        - exfalso. enough (has_mui f (t_heap t) nd m 0 (S j) = true) by congruence.
          apply has_mui_spec. intros i B. rewrite Forall_forall in F. apply F. apply in_seq. lia.
        - apply neg_Forall_Exists_neg in F.
          + apply Exists_exists in F. destruct F as [i [Ii N]]. apply in_seq in Ii. exists i.
            split; [lia|]. destruct (Nat.eq_dec i j) as [->|Ne].
            * exists e. split; auto. destruct (mem m (nv_rbm (e_val e))) eqn:M; auto.
              elim N. eauto.
            * destruct (Oth i) as (e' & L' & _); [lia|]. exists e'. split; auto.
              destruct (mem m (nv_rbm (e_val e'))) eqn:M; auto. elim N. eauto.
          + intros i. destruct (lookup (kof f NSTRIDE nd i) (t_heap t)) as [e'|].
            * destruct (mem m (nv_rbm (e_val e'))) eqn:M; [left; eauto|right].
              intros (e2 & E2 & M2). inversion E2; subst. congruence.
            * right. intros (e2 & E2 & _). discriminate. }
      destruct X as (i & Bi & e' & Lk' & M).
      destruct (Nat.eq_dec i j) as [->|Ne]; [exfalso; congruence|].
      destruct (Oth i) as (e2 & L2 & Nid); [lia|]. rewrite Lk' in L2. inversion L2; subst e2. clear L2.
      destruct (NI _ _ Lk') as (D' & k & Ek & _).
      destruct (kof_inj_len f NSTRIDE NSTRIDE_nz _ _ _ _ D D' Ek) as [El Ekk]. subst k.
      exists (e_id e'). split; auto. split; auto.
      assert (F' : nodes f (t_heap t) (e_id e') = Some (e_val e')).
      { unfold nodes. rewrite (proj2 (find_spec f NSTRIDE NSTRIDE_nz _ _ e' NI)); [easy|]. eauto. }
      split; [|split].
      * unfold kof in Ek. apply pair_equal_spec in Ek. destruct Ek as [_ Ek].
        symmetry. apply (hpath_eq_idx f nd (e_id e') (S i) Ek 0). lia.
      * rewrite <- (ta_nodes _ _ _ T). fold t. now rewrite F'.
      * pose proof (ta_rbm _ _ _ T (e_id e') m) as Q. fold t in Q. rewrite F' in Q. congruence.
  - eexists. split; [reflexivity|]. split; [easy|]. intros _ Li. apply SL in Li. discriminate.
  - eexists. split; [reflexivity|]. split; [easy|]. intros _ Li. apply SL in Li. discriminate.
Qed.
End C.
