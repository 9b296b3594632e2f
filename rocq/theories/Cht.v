(* The chained hash table of cht/mod.rs and cht/oncebox.rs, used for tree nodes
   (tree_bitmap/node_cht.rs) and for prefixes (prefix_cht/cht.rs).

   Every slot of the nested slot arrays is addressed by the root bucket and the
   list of slot indices that leads to it.  The heap maps the addresses of the
   initialised once-cells to their contents. *)
From Coq Require Import Arith NArith List Bool Lia.
From Verif Require Import Word Af BitSpan Maps ChtMath.
Import ListNotations.
Local Open Scope N_scope.

Section Cht.
Context {V : Type}.

(* node_cht.rs:17-29 StoredNode and prefix_cht/cht.rs:369-378 StoredPrefix: the
   id, the payload, and the size of the slot array for the next level.  Slot
   arrays are allocated lazily (oncebox.rs:116-153); here an array is its size. *)
Record entry : Type := Entry { e_id : pid; e_val : V; e_slots : N }.

(* root bucket and slot indices from the root to the slot *)
Definition key : Type := (N * list N)%type.
Definition heap : Type := map key entry.

(* cht/mod.rs:21-25: every root slot array has 2^STRIDE_SIZE slots *)
Definition root_slots : N := slots_for STRIDE_SIZE.

(* cht/mod.rs:31-33; ROOT_SIZE is 9/33 for nodes (stride 4) and 33/129 for
   prefixes (stride 1), see rib/starcast_af.rs and rib/starcast.rs *)
Definition root_for_len (f : af) (stride len : N) : res N :=
  let b := len / stride in
  if b <? BITS f / stride + 1 then Ok b else Panic.

(* oncebox.rs:92-100: a null array and an index outside the array give None *)
Definition slot_get (h : heap) (b : N) (path : list N) (slots idx : N) : option entry :=
  if idx <? slots then lookup (b, path ++ [idx]) h else None.

(* oncebox.rs:106-114 (panics when idx is outside the array) and 32-58: returns
   the entry now in the slot and whether this call put it there *)
Definition slot_get_or_init (h : heap) (b : N) (path : list N) (slots idx : N)
    (mk : entry) : res (heap * entry * bool) :=
  if idx <? slots then
    match lookup (b, path ++ [idx]) h with
    | Some e => Ok (h, e, false)
    | None => Ok (update (b, path ++ [idx]) mk h, mk, true)
    end
  else Panic.

(* ---------- the meaning of a chain ---------- *)

Definition hpath (f : af) (id : pid) (n : nat) : list N :=
  List.map (fun k => hidx f id (N.of_nat k)) (List.seq 0 n).

Definition set_val (e : entry) (v : V) : entry := Entry (e_id e) v (e_slots e).

(* ids a table with the given stride may hold *)
Definition dom (f : af) (stride : N) (id : pid) : Prop :=
  wf_pid f id /\ p_len id mod stride = 0.

Definition kof (f : af) (stride : N) (id : pid) (k : nat) : key :=
  (p_len id / stride, hpath f id (S k)).

Definition slots_at (len : N) (k : nat) : N :=
  match k with O => root_slots | _ => slots_for (lvl_size len (N.of_nat k)) end.

Definition cht_inv (f : af) (stride : N) (h : heap) : Prop :=
  forall key e, lookup key h = Some e ->
    dom f stride (e_id e) /\
    exists k, key = kof f stride (e_id e) k /\
      N.of_nat k < nlevels (p_len (e_id e)) /\
      e_slots e = slots_at (p_len (e_id e)) (S k) /\
      (forall j, (j < k)%nat -> exists e', lookup (kof f stride (e_id e) j) h = Some e' /\
                                   e_id e' <> e_id e).

Lemma hpath_S f id n : hpath f id (S n) = hpath f id n ++ [hidx f id (N.of_nat n)].
Proof. unfold hpath. now rewrite seq_S, map_app. Qed.

Lemma hpath_length f id n : length (hpath f id n) = n.
Proof. unfold hpath. now rewrite map_length, seq_length. Qed.

Lemma hpath_eq_idx f p q n : hpath f p n = hpath f q n ->
  forall k, (k < n)%nat -> hidx f p (N.of_nat k) = hidx f q (N.of_nat k).
Proof.
  induction n as [|n IH]; intros E k Hk; [lia|].
  rewrite !hpath_S in E. apply app_inj_tail in E. destruct E as [E1 E2].
  destruct (Nat.eq_dec k n) as [->|]; [easy|]. apply IH; auto. lia.
Qed.

Lemma hpath_eq_le f p q n m : (m <= n)%nat -> hpath f p n = hpath f q n ->
  hpath f p m = hpath f q m.
Proof.
  induction 1 as [|n H IH]; [easy|]. intros E. apply IH.
  rewrite !hpath_S in E. now apply app_inj_tail in E.
Qed.

Lemma stride_inj stride a b : stride <> 0 -> a mod stride = 0 -> b mod stride = 0 ->
  a / stride = b / stride -> a = b.
Proof.
  intros S A B E.
  rewrite (N.div_mod a stride), (N.div_mod b stride), A, B, E by auto. easy.
Qed.

Definition nlev (id : pid) : nat := N.to_nat (nlevels (p_len id)).

Lemma nlev_pos id : (0 < nlev id)%nat.
Proof. unfold nlev. pose proof (nlevels_pos (p_len id)). lia. Qed.

Section Inv.
Variable f : af.
Variable stride : N.
Hypothesis stride_nz : stride <> 0.

Lemma kof_inj_len p q i j : dom f stride p -> dom f stride q ->
  kof f stride p i = kof f stride q j -> p_len p = p_len q /\ i = j.
Proof.
  intros [_ Dp] [_ Dq] E. unfold kof in E. apply pair_equal_spec in E. destruct E as [E1 E2].
  split; [now apply (stride_inj stride)|].
  apply (f_equal (@length N)) in E2. rewrite !hpath_length in E2. lia.
Qed.

Lemma kof_slot id k : kof f stride id k =
  (p_len id / stride, hpath f id k ++ [hidx f id (N.of_nat k)]).
Proof. unfold kof. now rewrite hpath_S. Qed.

Inductive loc : Type :=
| LHit (k : nat) (e : entry)
| LVac (k : nat)
| LOut.

(* walk the chain of an id from level k, at most n levels *)
Fixpoint locate (n : nat) (h : heap) (id : pid) (k : nat) : loc :=
  match n with
  | O => LOut
  | S n' =>
    match lookup (kof f stride id k) h with
    | None => LVac k
    | Some e => if pid_eqb id (e_id e) then LHit k e else locate n' h id (S k)
    end
  end.

(* the entry at the last level of an id's chain is the id's own *)
Lemma last_level_own h id k e : cht_inv f stride h -> dom f stride id ->
  S k = nlev id -> lookup (kof f stride id k) h = Some e -> e_id e = id.
Proof.
  intros I D K L. destruct (I _ _ L) as [D' [k' [E [Hk [_ _]]]]].
  pose proof (kof_inj_len _ _ _ _ D D' E) as [El Ek]. subst k'.
  symmetry. apply (hidx_inj f); auto; try apply D; try apply D'.
  intros lvl Hl. unfold kof in E. apply pair_equal_spec in E. destruct E as [_ E2].
  replace lvl with (N.of_nat (N.to_nat lvl)) by lia.
  apply (hpath_eq_idx _ _ _ _ E2). unfold nlev in K. lia.
Qed.

Lemma locate_not_out h id : cht_inv f stride h -> dom f stride id ->
  forall n k, (n + k = nlev id)%nat -> (0 < n)%nat -> locate n h id k <> LOut.
Proof.
  intros I D. induction n as [|n IH]; intros k E P; [lia|]. simpl.
  destruct (lookup (kof f stride id k) h) as [e|] eqn:L; [|easy].
  destruct (pid_eqb id (e_id e)) eqn:Q; [easy|].
  destruct n as [|n].
  - exfalso. assert (e_id e = id).
    { apply (last_level_own h id k e); auto; lia. }
    rewrite H, pid_eqb_refl in Q. discriminate.
  - apply IH; lia.
Qed.

Lemma locate_hit h id n : forall k j e, locate n h id k = LHit j e ->
  lookup (kof f stride id j) h = Some e /\ e_id e = id /\ (k <= j < k + n)%nat /\
  (forall i, (k <= i < j)%nat -> exists e', lookup (kof f stride id i) h = Some e' /\
      e_id e' <> id).
Proof.
  induction n as [|n IH]; intros k j e E; simpl in E; [discriminate|].
  destruct (lookup (kof f stride id k) h) as [e0|] eqn:L; [|discriminate].
  destruct (pid_eqb id (e_id e0)) eqn:Q.
  - inversion E; subst. apply pid_eqb_spec in Q.
    repeat split; auto; try lia; intros i Hi; lia.
  - destruct (IH _ _ _ E) as [A [B [C D]]].
    repeat split; auto; try lia.
    intros i Hi. destruct (Nat.eq_dec i k) as [->|].
    + exists e0. split; [easy|]. intros X. rewrite X, pid_eqb_refl in Q. discriminate.
    + apply D. lia.
Qed.

Lemma locate_vac h id n : forall k j, locate n h id k = LVac j ->
  lookup (kof f stride id j) h = None /\ (k <= j < k + n)%nat /\
  (forall i, (k <= i < j)%nat -> exists e', lookup (kof f stride id i) h = Some e' /\
      e_id e' <> id).
Proof.
  induction n as [|n IH]; intros k j E; simpl in E; [discriminate|].
  destruct (lookup (kof f stride id k) h) as [e0|] eqn:L.
  - destruct (pid_eqb id (e_id e0)) eqn:Q; [discriminate|].
    destruct (IH _ _ E) as [A [B C]].
    repeat split; auto; try lia.
    intros i Hi. destruct (Nat.eq_dec i k) as [->|].
    + exists e0. split; [easy|]. intros X. rewrite X, pid_eqb_refl in Q. discriminate.
    + apply C. lia.
  - inversion E; subst. repeat split; auto; try lia; intros; lia.
Qed.

(* if all levels from k up to j-1 are occupied by others, the walk reaches j *)
Lemma locate_reach h id n : forall k j, (k <= j < k + n)%nat ->
  (forall i, (k <= i < j)%nat -> exists e', lookup (kof f stride id i) h = Some e' /\
      e_id e' <> id) ->
  locate n h id k = locate (n - (j - k)) h id j.
Proof.
  induction n as [|n IH]; intros k j K O; [lia|].
  destruct (Nat.eq_dec k j) as [->|NE].
  - now rewrite Nat.sub_diag, Nat.sub_0_r.
  - replace (S n - (j - k))%nat with (n - (j - S k))%nat by lia.
    simpl. destruct (O k) as [e [L NQ]]; [lia|]. rewrite L.
    rewrite pid_eqb_neq by auto.
    apply IH; [lia|]. intros i Hi. apply O. lia.
Qed.

Definition find (h : heap) (id : pid) : option entry :=
  match locate (nlev id) h id 0 with LHit _ e => Some e | _ => None end.

Lemma locate_complete h k e : cht_inv f stride h -> lookup k h = Some e ->
  exists j, k = kof f stride (e_id e) j /\ locate (nlev (e_id e)) h (e_id e) 0 = LHit j e.
Proof.
  intros I L. destruct (I _ _ L) as [D [j [E [Hj [_ O]]]]].
  exists j. split; [easy|].
  rewrite (locate_reach h (e_id e) (nlev (e_id e)) 0 j).
  - unfold nlev. destruct (N.to_nat (nlevels (p_len (e_id e))) - (j - 0))%nat eqn:Z; [lia|].
    simpl. rewrite <- E, L, pid_eqb_refl. easy.
  - unfold nlev. lia.
  - intros i Hi. apply O. lia.
Qed.

Lemma find_spec h id e : cht_inv f stride h ->
  (find h id = Some e <-> exists k, lookup k h = Some e /\ e_id e = id).
Proof.
  intros I. split.
  - unfold find. destruct (locate (nlev id) h id 0) as [j e'| |] eqn:L; intros E; try discriminate.
    inversion E; subst. destruct (locate_hit _ _ _ _ _ _ L) as [A [B _]]. eauto.
  - intros [k [L E]]. destruct (locate_complete _ _ _ I L) as [j [_ Q]].
    unfold find. subst id. now rewrite Q.
Qed.

Lemma find_id h id e : find h id = Some e -> e_id e = id.
Proof.
  unfold find. destruct (locate (nlev id) h id 0) eqn:L; intros E; try discriminate.
  inversion E; subst. now apply locate_hit in L.
Qed.

Lemma find_dom h id e : cht_inv f stride h -> find h id = Some e -> dom f stride id.
Proof.
  intros I F. pose proof (find_id _ _ _ F) as E. apply find_spec in F; auto.
  destruct F as [k [L _]]. apply I in L. subst. apply L.
Qed.

Lemma find_None_vac h id : cht_inv f stride h -> dom f stride id -> find h id = None ->
  exists k, locate (nlev id) h id 0 = LVac k.
Proof.
  intros I D F. unfold find in F. pose proof (nlev_pos id).
  pose proof (locate_not_out h id I D (nlev id) 0%nat).
  destruct (locate (nlev id) h id 0); try discriminate; eauto.
  exfalso. apply H0; auto; lia.
Qed.

(* ids are unique: one address per id *)
Lemma key_unique h k1 k2 e1 e2 : cht_inv f stride h ->
  lookup k1 h = Some e1 -> lookup k2 h = Some e2 -> e_id e1 = e_id e2 -> k1 = k2.
Proof.
  intros I L1 L2 E.
  destruct (locate_complete _ _ _ I L1) as [j1 [K1 Q1]].
  destruct (locate_complete _ _ _ I L2) as [j2 [K2 Q2]].
  rewrite E in Q1, K1. rewrite Q1 in Q2. inversion Q2; subst. easy.
Qed.

Lemma inv_empty : cht_inv f stride [].
Proof. intros k e L. discriminate. Qed.

(* creating an entry in the vacant slot of a walk *)
Lemma inv_insert h id k v : cht_inv f stride h -> dom f stride id ->
  locate (nlev id) h id 0 = LVac k ->
  cht_inv f stride
    (update (kof f stride id k) (Entry id v (slots_at (p_len id) (S k))) h).
Proof.
  intros I D L. apply locate_vac in L. destruct L as [L [K O]].
  intros k' e L'. rewrite lookup_update in L'.
  assert (P : forall k1 e1, lookup k1 h = Some e1 ->
    lookup k1 (update (kof f stride id k) (Entry id v (slots_at (p_len id) (S k))) h) = Some e1).
  { intros k1 e1 L1. rewrite lookup_update.
    destruct (eqb k1 (kof f stride id k)) eqn:Q; [|easy].
    apply eqb_eq in Q. subst. congruence. }
  destruct (eqb k' (kof f stride id k)) eqn:Q.
  - apply eqb_eq in Q. inversion L'; subst; clear L'. simpl.
    split; [easy|]. exists k. repeat split; auto.
    + unfold nlev in K. lia.
    + intros j Hj. destruct (O j) as [e' [L1 N1]]; [lia|]. exists e'. split; auto.
  - destruct (I _ _ L') as [D' [j [E [Hj [S O']]]]].
    split; [easy|]. exists j. repeat split; auto.
    intros i Hi. destruct (O' i Hi) as [e' [L1 N1]]. exists e'. split; auto.
Qed.

(* changing the payload of an entry *)
Lemma inv_set_val h k e v : cht_inv f stride h -> lookup k h = Some e ->
  cht_inv f stride (update k (set_val e v) h).
Proof.
  intros I L.
  assert (P : forall k1 e1, lookup k1 h = Some e1 ->
    exists e2, lookup k1 (update k (set_val e v) h) = Some e2 /\ e_id e2 = e_id e1).
  { intros k1 e1 L1. rewrite lookup_update. destruct (eqb k1 k) eqn:Q.
    - apply eqb_eq in Q. subst. rewrite L in L1. inversion L1; subst.
      exists (set_val e1 v). easy.
    - eauto. }
  assert (X : forall k' e0, lookup k' h = Some e0 -> forall e', e_id e' = e_id e0 ->
     e_slots e' = e_slots e0 ->
     dom f stride (e_id e') /\ exists j, k' = kof f stride (e_id e') j /\
      N.of_nat j < nlevels (p_len (e_id e')) /\
      e_slots e' = slots_at (p_len (e_id e')) (S j) /\
      (forall i, (i < j)%nat -> exists e'',
         lookup (kof f stride (e_id e') i) (update k (set_val e v) h) = Some e'' /\
         e_id e'' <> e_id e')).
  { intros k' e0 L0 e' Ei Es. rewrite Ei, Es.
    destruct (I _ _ L0) as [D [j [E [Hj [S O]]]]].
    split; [easy|]. exists j. repeat split; auto.
    intros i Hi. destruct (O i Hi) as [e1 [L1 N1]].
    destruct (P _ _ L1) as [e2 [L2 E2]]. exists e2. split; [easy|]. congruence. }
  intros k' e' L'. rewrite lookup_update in L'. destruct (eqb k' k) eqn:Q.
  - apply eqb_eq in Q. inversion L'; subst. apply (X k e); easy.
  - apply (X k' e'); easy.
Qed.

Lemma find_insert h id k v id' : cht_inv f stride h -> dom f stride id ->
  locate (nlev id) h id 0 = LVac k ->
  find (update (kof f stride id k) (Entry id v (slots_at (p_len id) (S k))) h) id' =
  if pid_eqb id' id then Some (Entry id v (slots_at (p_len id) (S k))) else find h id'.
Proof.
  intros I D L. pose proof (inv_insert h id k v I D L) as I'.
  apply locate_vac in L. destruct L as [L _].
  destruct (pid_eqb id' id) eqn:Q.
  - apply pid_eqb_spec in Q. subst. apply find_spec; [easy|].
    exists (kof f stride id k). rewrite lookup_update_same. easy.
  - destruct (find h id') as [e|] eqn:F.
    + apply find_spec; [easy|]. apply find_spec in F; [|easy].
      destruct F as [k1 [L1 E1]]. exists k1. split; [|easy].
      rewrite lookup_update. destruct (eqb k1 (kof f stride id k)) eqn:Q1; [|easy].
      apply eqb_eq in Q1. subst. congruence.
    + match goal with |- ?x = None => destruct x as [e|] eqn:F' end; [|easy].
      exfalso. apply find_spec in F'; [|easy]. destruct F' as [k1 [L1 E1]].
      rewrite lookup_update in L1. destruct (eqb k1 (kof f stride id k)) eqn:Q1.
      * inversion L1; subst. simpl in *. now rewrite pid_eqb_refl in Q.
      * assert (find h id' = Some e) by (apply find_spec; eauto). congruence.
Qed.

Lemma find_set_val h k e v id' : cht_inv f stride h -> lookup k h = Some e ->
  find (update k (set_val e v) h) id' =
  if pid_eqb id' (e_id e) then Some (set_val e v) else find h id'.
Proof.
  intros I L. pose proof (inv_set_val h k e v I L) as I'.
  destruct (pid_eqb id' (e_id e)) eqn:Q.
  - apply pid_eqb_spec in Q. subst. apply find_spec; [easy|].
    exists k. rewrite lookup_update_same. easy.
  - destruct (find h id') as [e1|] eqn:F.
    + apply find_spec; [easy|]. apply find_spec in F; [|easy].
      destruct F as [k1 [L1 E1]]. exists k1. split; [|easy].
      rewrite lookup_update. destruct (eqb k1 k) eqn:Q1; [|easy].
      apply eqb_eq in Q1. subst. rewrite L in L1. inversion L1; subst.
      now rewrite pid_eqb_refl in Q.
    + match goal with |- ?x = None => destruct x as [e1|] eqn:F' end; [|easy].
      exfalso. apply find_spec in F'; [|easy]. destruct F' as [k1 [L1 E1]].
      rewrite lookup_update in L1. destruct (eqb k1 k) eqn:Q1.
      * inversion L1; subst. simpl in *. now rewrite pid_eqb_refl in Q.
      * assert (find h id' = Some e1) by (apply find_spec; eauto). congruence.
Qed.

(* the code's slot access at a level of the chain is the heap lookup *)
Lemma slot_get_level h id k : dom f stride id -> N.of_nat k < nlevels (p_len id) ->
  slot_get h (p_len id / stride) (hpath f id k) (slots_at (p_len id) k)
    (hidx f id (N.of_nat k)) = lookup (kof f stride id k) h.
Proof.
  intros D K. unfold slot_get. rewrite kof_slot.
  assert (hidx f id (N.of_nat k) < slots_at (p_len id) k) as H.
  { destruct k as [|k]; simpl slots_at.
    - apply hidx_lt16.
    - apply hidx_slots. lia. }
  apply N.ltb_lt in H. now rewrite H.
Qed.

Lemma slot_init_level h id k mk : dom f stride id -> N.of_nat k < nlevels (p_len id) ->
  slot_get_or_init h (p_len id / stride) (hpath f id k) (slots_at (p_len id) k)
    (hidx f id (N.of_nat k)) mk =
  match lookup (kof f stride id k) h with
  | Some e => Ok (h, e, false)
  | None => Ok (update (kof f stride id k) mk h, mk, true)
  end.
Proof.
  intros D K. unfold slot_get_or_init. rewrite kof_slot.
  assert (hidx f id (N.of_nat k) < slots_at (p_len id) k) as H.
  { destruct k as [|k]; simpl slots_at.
    - apply hidx_lt16.
    - apply hidx_slots. lia. }
  apply N.ltb_lt in H. now rewrite H.
Qed.

(* following a colliding entry at level k leads to the slot array of level k+1 *)
Lemma slots_next h id k e : cht_inv f stride h -> dom f stride id ->
  lookup (kof f stride id k) h = Some e -> e_slots e = slots_at (p_len id) (S k).
Proof.
  intros I D L. destruct (I _ _ L) as [D' [j [E [_ [S _]]]]].
  destruct (kof_inj_len _ _ _ _ D D' E) as [El Ek]. subst j. congruence.
Qed.

Lemma root_for_len_ok id : dom f stride id ->
  root_for_len f stride (p_len id) = Ok (p_len id / stride).
Proof.
  intros [[Hl _] _]. unfold root_for_len.
  assert (p_len id / stride <= BITS f / stride) by (apply N.div_le_mono; auto).
  destruct (N.ltb_spec (p_len id / stride) (BITS f / stride + 1)); [easy|lia].
Qed.

End Inv.
End Cht.
Arguments entry V : clear implicits.
Arguments heap V : clear implicits.
Arguments loc V : clear implicits.
