(* Properties that the store does not have: each statement is the negation of the
   property, proved with a concrete history. *)
From Coq Require Import Arith NArith List Bool Lia Permutation.
From Verif Require Import Word Af BitSpan Spec Maps Tree Iter MultiMap Lsm RecordSet Rib StarCast
  HistSpec Ask PropSpec RibOk Facts1 Facts2 Facts3 Examples.
Import ListNotations.
Local Open Scope N_scope.

Ltac ranok := apply ran_after; vm_compute; reflexivity.
Ltac wfp := apply wf_prefix_b; vm_compute; reflexivity.
(* compute a hypothesis with a cast that the kernel checks by computation too *)
Ltac vmc H := let T := type of H in let T' := eval vm_compute in T in
  let H' := fresh in assert (H' : T') by (vm_cast_no_check H); clear H; rename H' into H.
Ltac wfi := apply wf_pidb_ok; vm_compute; reflexivity.

(* ---------- contains for a mui ---------- *)

(* 10.16.0.0/12 and 11.16.0.0/12 live in nodes that share a hash slot *)
Definition h_collide : list op :=
  [Insert (v4 11 16 0 0 12) (act 2 2 [1]) None; Insert (v4 10 16 0 0 12) (act 1 1 [1]) None].

Lemma contains_mui_misses : ~ (forall s h st p r u, after s h st -> In (Insert p r u) h ->
  0 < p_len (snd p) -> contains st p (Some (r_mui r)) = Ok true).
Proof.
  intros H. specialize (H MemoryOnly h_collide (ran MemoryOnly h_collide) (v4 11 16 0 0 12)
    (act 2 2 [1]) None). assert (X : contains (ran MemoryOnly h_collide) (v4 11 16 0 0 12) (Some 2) = Ok true).
  { apply H; [ranok|now left|vm_compute; reflexivity]. }
  vmc X. discriminate.
Qed.

(* 10.16.0.0/12 and 10.32.0.0/12 live in one node *)
Definition h_share : list op :=
  [Insert (v4 10 32 0 0 12) (act 2 2 [1]) None; Insert (v4 10 16 0 0 12) (act 1 1 [1]) None].

Lemma contains_mui_extra : ~ (forall s h st p m, after s h st -> wf_prefix p -> m < 2 ^ 32 ->
  contains st p (Some m) = Ok true -> exists r u, In (Insert p r u) h /\ r_mui r = m).
Proof.
  intros H. destruct (H MemoryOnly h_share (ran MemoryOnly h_share) (v4 10 16 0 0 12) 2)
    as (r & u & I & E); [ranok|wfp|lia|vm_compute; reflexivity|].
  destruct I as [I|[I|[]]]; [discriminate I|]. injection I as <- <-. discriminate.
Qed.

(* ---------- the default route ---------- *)

Definition h_default : list op := [Insert (v4 0 0 0 0 0) (act 1 1 [1]) None].

Lemma default_not_contained : ~ (forall s h st f r u, after s h st ->
  In (Insert (f, (0, 0)) r u) h -> contains st (f, (0, 0)) None = Ok true).
Proof.
  intros H. assert (X : contains (ran MemoryOnly h_default) (IPv4, (0, 0)) None = Ok true).
  { apply (H MemoryOnly h_default (ran MemoryOnly h_default) IPv4 (act 1 1 [1]) None); [ranok|now left]. }
  vmc X. discriminate.
Qed.

Lemma default_not_matched : ~ (forall s h st f r u p, after s h st -> wf_prefix p -> fst p = f ->
  In (Insert (f, (0, 0)) r u) h ->
  exists q c, match_prefix st p (MatchOpts LongestMatch true false false None false) = Ok (ROk q) /\
    qr_prefix q = Some c).
Proof.
  intros H. destruct (H MemoryOnly h_default (ran MemoryOnly h_default) IPv4 (act 1 1 [1]) None
    (v4 10 0 0 0 8)) as (q & c & E & F); [ranok|wfp|reflexivity|now left|].
  vmc E. injection E as <-. discriminate.
Qed.

(* ---------- matching ---------- *)

Definition h_hidden : list op :=
  [Insert (v4 10 1 0 0 16) (wdr 2 2 [1]) None; Insert (v4 10 0 0 0 8) (act 1 1 [1]) None].

Lemma longest_no_fallback : ~ (forall s h st p o, after s h st -> wf_prefix p ->
  wf_mui (mo_mui o) -> mo_type o = LongestMatch ->
  (exists q m, listed h q /\ pcovers q p /\ view_ideal h q (mo_mui o) (mo_withdrawn o) m <> None) ->
  exists r c, match_prefix st p o = Ok (ROk r) /\ qr_prefix r = Some c).
Proof.
  intros H. destruct (H MemoryOnly h_hidden (ran MemoryOnly h_hidden) (v4 10 1 0 0 24)
    (longest_opts false None)) as (r & c & E & F);
    [ranok|wfp|exact I|reflexivity| |].
  - exists (v4 10 0 0 0 8), 1. split; [|split].
    + split; vm_compute; reflexivity.
    + split; [reflexivity|]. apply covers_div; [wfi|wfi|]. split; vm_compute; [discriminate|reflexivity].
    + vm_compute. discriminate.
  - vmc E. injection E as <-. discriminate.
Qed.

Lemma less_not_itself : ~ (forall s h st p, after s h st -> wf_prefix p -> listed h p ->
  exists l rs, less_specifics_iter_from st p None true = Ok l /\ In (ROk (p, rs)) l).
Proof.
  intros H. destruct (H MemoryOnly h_hidden (ran MemoryOnly h_hidden) (v4 10 1 0 0 16))
    as (l & rs & E & J); [ranok|wfp|split; vm_compute; reflexivity|].
  vmc E. injection E as <-. destruct J as [J|[]]. discriminate.
Qed.

Definition h_host : list op := [Insert (v4 10 1 2 3 32) (act 1 1 [1]) None].

Lemma more_not_itself : ~ (forall s h st p, after s h st -> wf_prefix p -> listed h p ->
  exists l rs, more_specifics_iter_from st p None true = Ok l /\ In (ROk (p, rs)) l).
Proof.
  intros H. destruct (H MemoryOnly h_host (ran MemoryOnly h_host) (v4 10 1 2 3 32))
    as (l & rs & E & J); [ranok|wfp|split; vm_compute; reflexivity|].
  vmc E. injection E as <-. destruct J.
Qed.

Lemma more_from_wrong : ~ (forall s h st p q rs x l, after s h st -> wf_prefix p ->
  more_specifics_from st p None true = Ok (ROk x) -> qr_more x = Some rs ->
  rs_items rs = Ok l -> In q l -> answers (view s h (fst q) None true) (Some (snd q))).
Proof.
  intros H.
  specialize (H MemoryOnly demo (ran MemoryOnly demo) (v4 10 1 2 0 24)
    (v4 10 1 2 128 25, [act 1 6 [5; 5]])).
  assert (E : exists x rs l, more_specifics_from (ran MemoryOnly demo) (v4 10 1 2 0 24) None true = Ok (ROk x) /\
    qr_more x = Some rs /\ rs_items rs = Ok l /\ In (v4 10 1 2 128 25, [act 1 6 [5; 5]]) l).
  { eexists _, _, _. split; [vm_compute; reflexivity|]. split; [reflexivity|].
    split; [vm_compute; reflexivity|]. vm_compute. auto. }
  destruct E as (x & rs & l & E1 & E2 & E3 & E4).
  specialize (H rs x l (demo_after _) ltac:(wfp) E1 E2 E3 E4).
  destruct H as [_ [_ H]]. specialize (H (act 1 6 [5; 5])).
  destruct H as [H _]. specialize (H (or_introl eq_refl)). vmc H. discriminate.
Qed.

Lemma more_from_inverted : ~ (forall s h st p x, after s h st -> wf_prefix p ->
  more_specifics_from st p None true = Ok (ROk x) -> (qr_prefix x = Some p <-> listed h p)).
Proof.
  intros H.
  assert (E : exists x, more_specifics_from (ran MemoryOnly demo) (v4 10 1 2 0 24) None true = Ok (ROk x) /\
     qr_prefix x = None).
  { eexists. split; [vm_compute; reflexivity|reflexivity]. }
  destruct E as (x & E1 & E2).
  specialize (H MemoryOnly demo (ran MemoryOnly demo) (v4 10 1 2 0 24) x (demo_after _) ltac:(wfp) E1).
  rewrite E2 in H. assert (X : @None prefix = Some (v4 10 1 2 0 24)); [|discriminate].
  apply H. split; vm_compute; reflexivity.
Qed.

Lemma less_from_wrong : ~ (forall s h st p q rs x l, after s h st -> wf_prefix p ->
  less_specifics_from st p None true = Ok (ROk x) -> qr_less x = Some rs ->
  rs_items rs = Ok l -> In q l -> answers (view s h (fst q) None true) (Some (snd q))).
Proof.
  intros H.
  specialize (H MemoryOnly demo (ran MemoryOnly demo) (v4 10 1 2 128 25)
    (v4 10 1 2 0 24, [act 1 7 [8]])).
  assert (E : exists x rs l, less_specifics_from (ran MemoryOnly demo) (v4 10 1 2 128 25) None true = Ok (ROk x) /\
    qr_less x = Some rs /\ rs_items rs = Ok l /\ In (v4 10 1 2 0 24, [act 1 7 [8]]) l).
  { eexists _, _, _. split; [vm_compute; reflexivity|]. split; [reflexivity|].
    split; [vm_compute; reflexivity|]. vm_compute. auto. }
  destruct E as (x & rs & l & E1 & E2 & E3 & E4).
  specialize (H rs x l (demo_after _) ltac:(wfp) E1 E2 E3 E4).
  destruct H as [_ [_ H]]. specialize (H (act 1 7 [8])).
  destruct H as [H _]. specialize (H (or_introl eq_refl)). vmc H. discriminate.
Qed.

(* ---------- marks ---------- *)

Definition h_gone : list op := [GlobalWithdrawn IPv4 1; Insert (v4 10 0 0 0 8) (act 1 1 [1]) None].

Lemma named_not_hidden : ~ (forall s h st p m o r, after s h st -> wf_prefix p -> m < 2 ^ 32 ->
  mui_is_withdrawn st (fst p) m = true ->
  get_records_for_prefix st p (Some m) false = Ok (ROk o) -> holds o r -> r_mui r <> m).
Proof.
  intros H. apply (H MemoryOnly h_gone (ran MemoryOnly h_gone) (v4 10 0 0 0 8) 1 (Some [act 1 1 [1]])
    (act 1 1 [1])); [ranok|wfp|lia|vm_compute; reflexivity|vm_compute; reflexivity|now left|reflexivity].
Qed.

Definition p_new : prefix := v4 10 0 0 0 8.

Lemma mark_unknown_ok : ~ (forall s h st p m t st' x, in_memory s -> after s h st -> wf_prefix p ->
  m < 2 ^ 32 -> t < 2 ^ 64 -> inserted h p = false ->
  exec st (MarkWithdrawn p m t) = Ok (st', x) -> exists e, x = OUnit (RErr e)).
Proof.
  intros H. set (h := [MarkWithdrawn p_new 1 1]).
  assert (E : exists st', exec (ran MemoryOnly h) (MarkWithdrawn p_new 1 1) = Ok (st', OUnit (ROk tt))).
  { eexists. vm_compute. reflexivity. }
  destruct E as (st' & E).
  destruct (H MemoryOnly h (ran MemoryOnly h) p_new 1 1 st' (OUnit (ROk tt))) as (e & X);
    [discriminate|ranok|wfp|lia|lia|vm_compute; reflexivity|exact E|discriminate].
Qed.

(* the mark changes later answers: the in-memory counter misses the prefix *)
Lemma mark_unknown_effect : ~ (forall s h st p m t r u q, in_memory s -> wf_prefix p ->
  m < 2 ^ 32 -> t < 2 ^ 64 -> after s (Insert p r u :: h) st -> inserted h p = false ->
  exists st', after s (Insert p r u :: MarkWithdrawn p m t :: h) st' /\
    ask st' q = ask st q).
Proof.
  intros H.
  destruct (H MemoryOnly [] (ran MemoryOnly [Insert p_new (act 1 1 []) None]) p_new 1 1 (act 1 1 []) None
    (QPrefixCount IPv4)) as (st' & A & E);
    [discriminate|wfp|lia|lia|ranok|vm_compute; reflexivity|].
  set (h := [Insert p_new (act 1 1 []) None; MarkWithdrawn p_new 1 1]) in *.
  assert (E' : st' = ran MemoryOnly h).
  { destruct A as [_ A]. unfold ran. now rewrite A. }
  subst st'. vmc E. discriminate.
Qed.

Lemma active_not_both : ~ (forall s h st m, after s h st ->
  is_mui_active st m = negb (g_withdrawn h IPv4 m) && negb (g_withdrawn h IPv6 m)).
Proof.
  intros H. specialize (H MemoryOnly h_gone (ran MemoryOnly h_gone) 1 ltac:(ranok)).
  vmc H. discriminate.
Qed.

(* ---------- reports and counters ---------- *)

Definition h_one : list op := [Insert p_new (act 1 1 [1]) None].

Lemma mui_new_wrong : ~ (forall s h st p r u st' rep, in_memory s -> after s h st ->
  wf_prefix p -> wf_record r -> exec st (Insert p r u) = Ok (st', OReport (ROk rep)) ->
  (rp_mui_new rep = true <-> last_rec h p (r_mui r) = None)).
Proof.
  intros H.
  assert (E : exists st' rep, exec (ran MemoryOnly h_one) (Insert p_new (act 1 2 [2]) None) =
    Ok (st', OReport (ROk rep)) /\ rp_mui_new rep = true).
  { eexists _, _. split; [vm_compute; reflexivity|reflexivity]. }
  destruct E as (st' & rep & E & N).
  specialize (H MemoryOnly h_one (ran MemoryOnly h_one) p_new (act 1 2 [2]) None st' rep).
  destruct H as [H _]; auto; [discriminate|ranok|wfp|split; vm_compute; reflexivity|].
  specialize (H N). vmc H. discriminate.
Qed.

Lemma mui_count_wrong : ~ (forall s h st p r u st' rep, in_memory s -> after s h st ->
  wf_prefix p -> wf_record r -> exec st (Insert p r u) = Ok (st', OReport (ROk rep)) ->
  rp_mui_count rep = n_muis p (Insert p r u :: h)).
Proof.
  intros H.
  assert (E : exists st' rep, exec (ran MemoryOnly h_one) (Insert p_new (act 2 2 [2]) None) =
    Ok (st', OReport (ROk rep)) /\ rp_mui_count rep = 1).
  { eexists _, _. split; [vm_compute; reflexivity|reflexivity]. }
  destruct E as (st' & rep & E & N).
  specialize (H MemoryOnly h_one (ran MemoryOnly h_one) p_new (act 2 2 [2]) None st' rep).
  rewrite N in H. assert (X : 1 = n_muis p_new (Insert p_new (act 2 2 [2]) None :: h_one)).
  { apply H; auto; [discriminate|ranok|wfp|split; vm_compute; reflexivity]. }
  vmc X. discriminate.
Qed.

Definition h_over : list op := [Insert p_new (act 1 2 [2]) None; Insert p_new (act 1 1 [1]) None].

Lemma routes_wrong : ~ (forall s h st f, after s h st ->
  uc_total (routes_count_af st f) = n_routes f h).
Proof.
  intros H. specialize (H MemoryOnly h_over (ran MemoryOnly h_over) IPv4 ltac:(ranok)).
  vmc H. discriminate.
Qed.

Lemma memory_routes_wrong : ~ (forall s h st f, in_memory s -> after s h st ->
  uc_memory (routes_count_af st f) = n_routes f h).
Proof.
  intros H. specialize (H MemoryOnly h_one (ran MemoryOnly h_one) IPv4 ltac:(discriminate) ltac:(ranok)).
  vmc H. discriminate.
Qed.

Lemma memory_prefixes_wrong : ~ (forall s h st f, in_memory s -> after s h st ->
  uc_memory (prefixes_count_af st f) = n_prefixes f h).
Proof.
  intros H. set (h := [Insert p_new (act 1 1 []) None; MarkWithdrawn p_new 1 1]).
  specialize (H MemoryOnly h (ran MemoryOnly h) IPv4 ltac:(discriminate) ltac:(ranok)).
  vmc H. discriminate.
Qed.

Lemma persist_only_prefix_new : ~ (forall h st p r u st' rep, after PersistOnly h st ->
  wf_prefix p -> wf_record r -> exec st (Insert p r u) = Ok (st', OReport (ROk rep)) ->
  (rp_prefix_new rep = true <-> inserted h p = false)).
Proof.
  intros H.
  assert (E : exists st' rep, exec (ran PersistOnly h_one) (Insert p_new (act 1 2 [2]) None) =
    Ok (st', OReport (ROk rep)) /\ rp_prefix_new rep = true).
  { eexists _, _. split; [vm_compute; reflexivity|reflexivity]. }
  destruct E as (st' & rep & E & N).
  specialize (H h_one (ran PersistOnly h_one) p_new (act 1 2 [2]) None st' rep).
  destruct H as [H _]; auto; [ranok|wfp|split; vm_compute; reflexivity|].
  specialize (H N). vmc H. discriminate.
Qed.

(* ---------- path selection ---------- *)

(* the second calculation selects the same two paths as the first *)
Definition h_recalc : list op :=
  [Calculate p_new by_byte; Insert p_new (act 1 3 [1]) None; Calculate p_new by_byte;
   Insert p_new (act 2 2 [2]) None; Insert p_new (act 1 1 [1]) None].

Lemma outdated_after_calculation : ~ (forall s h st p t, in_memory s ->
  after s (Calculate p t :: h) st -> inserted h p = true -> is_ps_outdated st p = Ok (ROk false)).
Proof.
  intros H. assert (X : is_ps_outdated (ran MemoryOnly h_recalc) p_new = Ok (ROk false)).
  { apply (H MemoryOnly (tl h_recalc) _ p_new by_byte); [discriminate|ranok|vm_compute; reflexivity]. }
  vmc X. discriminate.
Qed.

Definition h_mark_after : list op :=
  [MarkWithdrawn p_new 1 4; Calculate p_new by_byte; Insert p_new (act 2 2 [2]) None;
   Insert p_new (act 1 1 [1]) None].

Lemma mark_not_outdated : ~ (forall s h st p m t r, in_memory s ->
  after s (MarkWithdrawn p m t :: h) st -> last_rec h p m = Some r ->
  is_ps_outdated st p = Ok (ROk true)).
Proof.
  intros H. assert (X : is_ps_outdated (ran MemoryOnly h_mark_after) p_new = Ok (ROk true)).
  { apply (H MemoryOnly (tl h_mark_after) _ p_new 1 4 (act 1 1 [1]));
      [discriminate|ranok|vm_compute; reflexivity]. }
  vmc X. discriminate.
Qed.

(* the first insert for a prefix does not count as a change *)
Lemma first_insert_not_outdated : ~ (forall s st p r, in_memory s ->
  after s [Insert p r None] st -> is_ps_outdated st p = Ok (ROk true)).
Proof.
  intros H. specialize (H MemoryOnly (ran MemoryOnly h_one) p_new (act 1 1 [1])).
  assert (X : is_ps_outdated (ran MemoryOnly h_one) p_new = Ok (ROk true)).
  { apply H; [discriminate|ranok]. }
  vmc X. discriminate.
Qed.

Definition h_best_gone : list op :=
  [Calculate p_new by_byte; MarkWithdrawn p_new 1 3; Insert p_new (act 2 2 [2]) None;
   Insert p_new (act 1 1 [1]) None].

Lemma best_withdrawn : ~ (forall s h st p t m r, in_memory s -> after s (Calculate p t :: h) st ->
  last_rec h p m = Some r -> r_status r = Active ->
  exists b, best_path st p = Ok (Some (ROk b))).
Proof.
  intros H. destruct (H MemoryOnly (tl h_best_gone) (ran MemoryOnly h_best_gone) p_new by_byte 2
    (act 2 2 [2])) as (b & E); [discriminate|ranok|vm_compute; reflexivity|reflexivity|].
  vmc E. discriminate.
Qed.

Lemma insert_no_selection : ~ (forall s h st p r t, in_memory s ->
  after s (Insert p r (Some t) :: h) st -> r_status r = Active ->
  exists b, best_path st p = Ok (Some (ROk b))).
Proof.
  intros H. set (h := [Insert p_new (act 1 1 [1]) (Some by_byte)]).
  destruct (H MemoryOnly [] (ran MemoryOnly h) p_new (act 1 1 [1]) by_byte) as (b & E);
    [discriminate|ranok|reflexivity|].
  vmc E. discriminate.
Qed.

(* ---------- persistence ---------- *)

Lemma persist_only_mark_drops : ~ (forall h st p m t r st' x, after PersistOnly h st -> wf_prefix p ->
  m < 2 ^ 32 -> t < 2 ^ 64 ->
  get_records_for_prefix st p (Some m) true = Ok (ROk (Some [r])) ->
  exec st (MarkWithdrawn p m t) = Ok (st', x) ->
  get_records_for_prefix st' p (Some m) true = Ok (ROk (Some [Rec m t Withdrawn (r_meta r)]))).
Proof.
  intros H.
  assert (E : exists st' x, exec (ran PersistOnly h_one) (MarkWithdrawn p_new 1 5) = Ok (st', x) /\
    get_records_for_prefix st' p_new (Some 1) true = Ok (ROk (Some [wdr 1 5 []]))).
  { eexists _, _. split; [vm_compute; reflexivity|vm_compute; reflexivity]. }
  destruct E as (st' & x & E & G).
  specialize (H h_one (ran PersistOnly h_one) p_new 1 5 (act 1 1 [1]) st' x ltac:(ranok) ltac:(wfp)
    ltac:(lia) ltac:(lia)).
  rewrite H in G; [discriminate|vm_compute; reflexivity|exact E].
Qed.

Definition h_one_gone : list op := [Insert p_new (wdr 1 1 [1]) None].

Lemma persist_only_mark_active_ignored : ~ (forall h st p m t r st' x, after PersistOnly h st ->
  wf_prefix p -> m < 2 ^ 32 -> t < 2 ^ 64 ->
  get_records_for_prefix st p (Some m) true = Ok (ROk (Some [r])) ->
  exec st (MarkActive p m t) = Ok (st', x) ->
  exists r', get_records_for_prefix st' p (Some m) true = Ok (ROk (Some [r'])) /\ r_status r' = Active).
Proof.
  intros H.
  assert (E : exists st' x, exec (ran PersistOnly h_one_gone) (MarkActive p_new 1 5) = Ok (st', x) /\
    get_records_for_prefix st' p_new (Some 1) true = Ok (ROk (Some [wdr 1 1 [1]]))).
  { eexists _, _. split; [vm_compute; reflexivity|vm_compute; reflexivity]. }
  destruct E as (st' & x & E & G).
  destruct (H h_one_gone (ran PersistOnly h_one_gone) p_new 1 5 (wdr 1 1 [1]) st' x ltac:(ranok) ltac:(wfp)
    ltac:(lia) ltac:(lia)) as (r' & G' & S); [vm_compute; reflexivity|exact E|].
  rewrite G in G'. injection G' as <-. discriminate.
Qed.

Lemma history_active_wrong : ~ (forall h st p m t r st' x, after PersistHistory h st ->
  wf_prefix p -> m < 2 ^ 32 -> t < 2 ^ 64 ->
  get_records_for_prefix st p (Some m) true = Ok (ROk (Some [r])) ->
  exec st (MarkActive p m t) = Ok (st', x) ->
  exists r', on_disk st' p r' /\ r_mui r' = m /\ r_ltime r' = t /\ r_status r' = Active).
Proof.
  intros H.
  assert (E : exists st' x, exec (ran PersistHistory h_one) (MarkActive p_new 1 5) = Ok (st', x) /\
    disk st' IPv4 = [Some (p_new, wdr 1 5 [])]).
  { eexists _, _. split; [vm_compute; reflexivity|vm_compute; reflexivity]. }
  destruct E as (st' & x & E & G).
  destruct (H h_one (ran PersistHistory h_one) p_new 1 5 (act 1 1 [1]) st' x ltac:(ranok) ltac:(wfp)
    ltac:(lia) ltac:(lia)) as (r' & D & _ & _ & S); [vm_compute; reflexivity|exact E|].
  unfold on_disk in D. cbn [p_new v4 fst] in D. change (fst p_new) with IPv4 in D.
  rewrite G in D. destruct D as [D|[]]. injection D as <-. discriminate.
Qed.

(* a record inserted as InActive *)
Definition h_inactive : list op := [Insert p_new (Rec 1 1 InActive [1]) None].

Lemma persist_only_differs : ~ (forall h st1 st2 p mui iw a b, after MemoryOnly h st1 ->
  after PersistOnly h st2 -> wf_prefix p -> wf_mui mui ->
  get_records_for_prefix st1 p mui iw = Ok (ROk a) ->
  get_records_for_prefix st2 p mui iw = Ok (ROk b) -> same_records a b).
Proof.
  intros H.
  specialize (H h_inactive (ran MemoryOnly h_inactive) (ran PersistOnly h_inactive) p_new None false
    None (Some [Rec 1 1 InActive [1]]) ltac:(ranok) ltac:(ranok) ltac:(wfp) I).
  apply H; vm_compute; reflexivity.
Qed.

Lemma persist_iter_fails : ~ (forall s h st p r, s <> MemoryOnly -> after s h st -> on_disk st p r ->
  exists l rs, persist_prefixes_iter_af st (fst p) = Ok l /\ In (ROk (p, rs)) l /\ In r rs).
Proof.
  intros H. destruct (H WriteAhead h_one (ran WriteAhead h_one) p_new (act 1 1 [1])) as (l & rs & E & J & _);
    [discriminate|ranok|vm_compute; auto|].
  vmc E. injection E as <-. destruct J as [J|[]]. discriminate.
Qed.

(* the history of a prefix is on disk and asked for, and not returned *)
Lemma history_never_returned : ~ (forall s h st p r q, after s h st -> on_disk st p r ->
  match_prefix st p (MatchOpts ExactMatch true false false None true) = Ok (ROk q) ->
  In r (qr_records q)).
Proof.
  intros H.
  assert (E : exists q, match_prefix (ran PersistHistory h_over) p_new
    (MatchOpts ExactMatch true false false None true) = Ok (ROk q) /\ qr_records q = [act 1 2 [2]]).
  { eexists. split; [vm_compute; reflexivity|reflexivity]. }
  destruct E as (q & E & R).
  assert (A : after PersistHistory h_over (ran PersistHistory h_over)) by ranok.
  assert (D : on_disk (ran PersistHistory h_over) p_new (act 1 1 [1])) by (vm_compute; auto).
  specialize (H PersistHistory h_over (ran PersistHistory h_over) p_new (act 1 1 [1]) q A D E).
  rewrite R in H. destruct H as [H|[]]. vmc H. discriminate.
Qed.
