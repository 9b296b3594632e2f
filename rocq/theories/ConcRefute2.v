(* More executions that show where the code departs from what one would claim of
   concurrent calls. *)
From Coq Require Import Arith NArith List Bool Lia.
From Verif Require Import Word Af BitSpan Spec Maps ChtMath Cht Node Tree Iter MultiMap PrefixCht Lsm Rib
  StarCast HistSpec Conc ConcTree ConcStore ConcSpec ConcFacts ConcOnly ConcSerial Examples ConcDemo ConcRefute.
Import ListNotations.
Local Open Scope N_scope.

(* ---------- C67: every insert selects, and none fails ---------- *)

(* call 2 has computed its selection and loaded the old one; call 3 puts back the
   record that call 2 replaced and finds the stored selection right; then call 2
   stores its own *)
Definition overwritten : list sact :=
  [Start (upd p8 1 1 [5]); Steps 0 all; Start (upd p8 2 1 [7]); Steps 1 all;
   Start (upd p8 1 2 [9]); Steps 2 15; Start (upd p8 1 3 [5]); Steps 3 all; Steps 2 all].

Definition all_select (t : tbi) (x : cstore) : Prop := forall i c, started x i c ->
  exists p r, c = CInsert p r (Some t).

Lemma selection_stale_all :
  ~ (forall f ov st x p t r, reach f ov st x -> idle x -> no_errors x -> all_select t x ->
     rib_is_ps_outdated f (ss_rib (sh x)) p = Ok (ROk false) ->
     rib_best_path f (ss_rib (sh x)) p = Ok (Some (ROk r)) ->
     exists k, selection t (fun m => rec_after p m (order x)) (Some (r_mui r), k)).
Proof.
  intros H. set (x := go IPv4 false (at0 IPv4 MemoryOnly) overwritten).
  destruct (H IPv4 false MemoryOnly x p8 by_byte (act 2 1 [7])) as (k & S).
  - schedule.
  - apply idleb_ok. vm_compute. reflexivity.
  - intros i c e (l & E & V). vm_compute in E.
    destruct i as [|[|[|[|[|i]]]]]; try discriminate E; injection E as <- <-; discriminate V.
  - intros i c (l & E). vm_compute in E.
    destruct i as [|[|[|[|[|i]]]]]; try discriminate E; injection E as <- _; do 2 eexists; reflexivity.
  - vm_compute. reflexivity.
  - vm_compute. reflexivity.
  - assert (B : best_of by_byte (fun m => rec_after p8 m (order x)) (fun _ => True) 2).
    { destruct k; apply S. }
    destruct B as (_ & _ & B). specialize (B 1 I).
    assert (N1 : rec_after p8 1 (order x) <> None) by (vm_compute; discriminate).
    specialize (B N1 ltac:(discriminate)).
    destruct B as (r & r' & E1 & E2 & O).
    assert (V2 : rec_after p8 2 (order x) = Some (act 2 1 [7])) by (vm_compute; reflexivity).
    assert (V1 : rec_after p8 1 (order x) = Some (act 1 3 [5])) by (vm_compute; reflexivity).
    rewrite V2 in E1. rewrite V1 in E2. injection E1 as <-. injection E2 as <-.
    simpl in O. lia.
Qed.

(* ---------- C48: the counter of the prefixes in memory ---------- *)

(* both find no entry, both have a record that is new: both count the prefix *)
Definition memory_twice : list sact :=
  [Start (ins p4 1 1 [1]); Steps 0 7; Start (ins p4 2 1 [2]); Steps 1 6; Steps 0 all; Steps 1 all].
Lemma memory_counted_twice :
  ~ (forall f ov st x ps, reach f ov st x -> idle x -> NoDup ps ->
     (forall p, In p ps <-> exists i r ups, started x i (CInsert p r ups)) ->
     uc_memory (rib_prefixes_count (ss_rib (sh x))) <= N.of_nat (length ps)).
Proof.
  intros H. specialize (H IPv4 false MemoryOnly (go IPv4 false (at0 IPv4 MemoryOnly) memory_twice) [p4]).
  assert (A : 2 <= 1); [|vm_compute in A; now apply A].
  apply H.
  - schedule.
  - apply idleb_ok. vm_compute. reflexivity.
  - constructor; [easy|constructor].
  - intros p. split.
    + intros [<-|[]]. exists 0%nat, (act 1 1 [1]), None. eexists. vm_compute. reflexivity.
    + intros (i & r & ups & l & E). vm_compute in E. left.
      destruct i as [|[|[|i]]]; try discriminate E; injection E as <- _ _ _; reflexivity.
Qed.

(* call 0 makes the entry, call 1 stores its record for the same mui first: neither
   counts *)
Definition memory_never : list sact :=
  [Start (ins p4 1 1 [1]); Steps 0 8; Start (ins p4 1 2 [2]); Steps 1 all; Steps 0 all].
Lemma memory_counted_never :
  ~ (forall f ov st x i p r ups rep, st <> PersistOnly -> reach f ov st x -> idle x -> no_errors x ->
     returned x i (CInsert p r ups) (RetIns (ROk rep)) ->
     1 <= uc_memory (rib_prefixes_count (ss_rib (sh x)))).
Proof.
  intros H. specialize (H IPv4 false MemoryOnly (go IPv4 false (at0 IPv4 MemoryOnly) memory_never) 0%nat
    p4 (act 1 1 [1]) None (Report 0 true false 1)).
  assert (A : 1 <= 0); [|vm_compute in A; now apply A].
  apply H; [discriminate|schedule|apply idleb_ok; vm_compute; reflexivity| |ret].
  intros i c e (l & E & V). vm_compute in E.
  destruct i as [|[|[|i]]]; try discriminate E; injection E as <- <-; discriminate V.
Qed.

(* ---------- C78: PersistOnly, an activation ---------- *)

(* the mark as active reads a record without meta data; an insert replaces it; the
   mark writes: it has emptied the meta data of a record that it would have left
   alone had it come after the insert *)
Definition first_insert : list sact := [Start (ins p4 1 1 []); Steps 0 all].
Definition emptied : list sact :=
  [Start (CMark Active p4 1 2); Steps 1 1; Start (ins p4 1 3 [7]); Steps 2 all; Steps 1 all].

Definition first_inserted : cstore := go IPv4 false (at0 IPv4 PersistOnly) first_insert.
Definition then_emptied : cstore := go IPv4 false first_inserted emptied.

Lemma emptied_orders h1 h2 : an_order IPv4 first_inserted h1 -> an_order IPv4 then_emptied (h2 ++ h1) ->
  List.map snd (h2 ++ h1) =
    [MarkActive (IPv4, p4) 1 2; Insert (IPv4, p4) (act 1 3 [7]) None; Insert (IPv4, p4) (act 1 1 []) None] \/
  List.map snd (h2 ++ h1) =
    [Insert (IPv4, p4) (act 1 3 [7]) None; MarkActive (IPv4, p4) 1 2; Insert (IPv4, p4) (act 1 1 []) None].
Proof.
  intros A1 A2.
  assert (S1 : forall i o, In (i, o) h1 -> i = 0%nat /\ o = Insert (IPv4, p4) (act 1 1 []) None).
  { intros i o I. destruct (ao_calls _ _ _ A1 i o I) as (c & (l & E) & O). vm_compute in E.
    destruct i as [|[|i]]; try discriminate E. injection E as <- _. injection O as <-. split; reflexivity. }
  assert (S2 : forall i o, In (i, o) (h2 ++ h1) ->
    (i = 0%nat /\ o = Insert (IPv4, p4) (act 1 1 []) None) \/
    (i = 1%nat /\ o = MarkActive (IPv4, p4) 1 2) \/
    (i = 2%nat /\ o = Insert (IPv4, p4) (act 1 3 [7]) None)).
  { intros i o I. destruct (ao_calls _ _ _ A2 i o I) as (c & (l & E) & O). vm_compute in E.
    destruct i as [|[|[|i]]]; try discriminate E.
    - injection E as <- _. injection O as <-. left. split; reflexivity.
    - injection E as <- _. injection O as <-. right. left. split; reflexivity.
    - injection E as <- _. injection O as <-. right. right. split; reflexivity.
    - destruct i; discriminate E. }
  assert (T0 : In (0%nat, Insert (IPv4, p4) (act 1 1 []) None) h1).
  { refine (ao_all _ _ _ A1 0%nat (ins p4 1 1 []) _ (RetIns (ROk (Report 0 true true 0))) _ _ _);
      [ret|discriminate|reflexivity]. }
  assert (T1 : In (1%nat, MarkActive (IPv4, p4) 1 2) (h2 ++ h1)).
  { refine (ao_all _ _ _ A2 1%nat (CMark Active p4 1 2) _ (RetMark (ROk tt)) _ _ _);
      [ret|discriminate|reflexivity]. }
  assert (T2 : In (2%nat, Insert (IPv4, p4) (act 1 3 [7]) None) (h2 ++ h1)).
  { refine (ao_all _ _ _ A2 2%nat (ins p4 1 3 [7]) _ (RetIns (ROk (Report 0 true true 0))) _ _ _);
      [ret|discriminate|reflexivity]. }
  pose proof (ao_once _ _ _ A1) as N1. pose proof (ao_once _ _ _ A2) as N2.
  clear A1 A2.
  assert (E1 : h1 = [(0%nat, Insert (IPv4, p4) (act 1 1 []) None)]).
  { destruct h1 as [|[i o] [|[j o'] h]]; [destruct T0| |].
    - now destruct (S1 i o (or_introl eq_refl)) as [-> ->].
    - destruct (S1 i o (or_introl eq_refl)) as [-> _].
      destruct (S1 j o' (or_intror (or_introl eq_refl))) as [-> _].
      inversion N1 as [|? ? X _]. exfalso. apply X. now left. }
  subst h1. rewrite map_app in N2. cbn [List.map fst] in N2.
  assert (N0 : ~ In 0%nat (List.map fst h2)).
  { apply NoDup_remove_2 in N2. now rewrite app_nil_r in N2. }
  assert (S3 : forall i o, In (i, o) h2 ->
    (i = 1%nat /\ o = MarkActive (IPv4, p4) 1 2) \/
    (i = 2%nat /\ o = Insert (IPv4, p4) (act 1 3 [7]) None)).
  { intros i o I. destruct (S2 i o) as [[-> _]|X]; [apply in_or_app; now left| |exact X].
    exfalso. apply N0. exact (in_map fst _ _ I). }
  assert (T1' : In (1%nat, MarkActive (IPv4, p4) 1 2) h2).
  { apply in_app_or in T1. destruct T1 as [T1|[T1|[]]]; [exact T1|discriminate]. }
  assert (T2' : In (2%nat, Insert (IPv4, p4) (act 1 3 [7]) None) h2).
  { apply in_app_or in T2. destruct T2 as [T2|[T2|[]]]; [exact T2|discriminate]. }
  apply NoDup_remove_1 in N2. rewrite app_nil_r in N2.
  assert (E2 : h2 = [(1%nat, MarkActive (IPv4, p4) 1 2); (2%nat, Insert (IPv4, p4) (act 1 3 [7]) None)] \/
               h2 = [(2%nat, Insert (IPv4, p4) (act 1 3 [7]) None); (1%nat, MarkActive (IPv4, p4) 1 2)]).
  { destruct h2 as [|[i o] [|[j o'] [|[k o''] h]]]; [destruct T1'| | |].
    - destruct T1' as [T1'|[]]. destruct T2' as [T2'|[]]. congruence.
    - destruct (S3 i o (or_introl eq_refl)) as [[-> ->]|[-> ->]];
      destruct (S3 j o' (or_intror (or_introl eq_refl))) as [[-> ->]|[-> ->]]; auto; exfalso;
      cbn in N2; inversion N2 as [|? ? X _]; apply X; now left.
    - exfalso. cbn [List.map fst] in N2. inversion N2 as [|? ? X N3]. inversion N3 as [|? ? Y N4]. subst.
      destruct (S3 i o (or_introl eq_refl)) as [[-> _]|[-> _]];
      destruct (S3 j o' (or_intror (or_introl eq_refl))) as [[-> _]|[-> _]];
      destruct (S3 k o'' (or_intror (or_intror (or_introl eq_refl)))) as [[-> _]|[-> _]];
      solve [apply X; left; reflexivity|apply X; right; left; reflexivity|apply Y; left; reflexivity]. }
  destruct E2 as [-> | ->]; [left|right]; reflexivity.
Qed.

Lemma emptied_calls : reach IPv4 false PersistOnly first_inserted /\
  sexec IPv4 false first_inserted then_emptied /\ idle first_inserted /\ idle then_emptied /\
  wf_calls then_emptied.
Proof.
  unfold then_emptied, first_inserted. split; [|split; [|split; [|split]]].
  - schedule.
  - apply go_exec. vm_compute. reflexivity.
  - apply idleb_ok. vm_compute. reflexivity.
  - apply idleb_ok. vm_compute. reflexivity.
  - split.
    + intros i p r ups (l & E). vm_compute in E.
      destruct i as [|[|[|[|i]]]]; try discriminate E; injection E as <- <- _ _; split; reflexivity.
    + intros i sm p m t (l & E). vm_compute in E.
      destruct i as [|[|[|[|i]]]]; try discriminate E; injection E as <- <- <- <- _; split; reflexivity.
Qed.

Lemma only_not_serial :
  ~ (forall f ov x y, reach f ov PersistOnly x -> sexec f ov x y -> idle x -> idle y -> wf_calls y ->
     exists h1 h2, an_order f x h1 /\ an_order f y (h2 ++ h1) /\
       (exists st, after PersistOnly (List.map snd (h2 ++ h1)) st /\ rb_lsm (rib_of st f) = disk_of y)).
Proof.
  intros H. destruct emptied_calls as (R & E & I1 & I2 & W).
  destruct (H _ _ _ _ R E I1 I2 W) as (h1 & h2 & A1 & A2 & st & (_ & B) & C).
  destruct (emptied_orders h1 h2 A1 A2) as [O|O]; rewrite O in B;
    vm_compute in B; injection B as <-; vm_compute in C; discriminate C.
Qed.
