(* types/prefix_record.rs (Record), types/route_status.rs, types/stats.rs
   (Counters) and the record map and path selections of prefix_cht/cht.rs, run
   by one thread at a time.  Lock poisoning is not modelled. *)
From Coq Require Import NArith List Bool Lia.
From Verif Require Import Word Maps.
Import ListNotations.
Local Open Scope N_scope.

(* types/route_status.rs:19-23 *)
Inductive status : Type := Active | InActive | Withdrawn.
Definition status_eqb (a b : status) : bool :=
  match a, b with
  | Active, Active | InActive, InActive | Withdrawn, Withdrawn => true
  | _, _ => false
  end.
Lemma status_eqb_spec a b : status_eqb a b = true <-> a = b.
Proof. destruct a, b; simpl; split; easy. Qed.

(* the meta data: Meta is AsRef<[u8]> and From<Vec<u8>> (prefix_record.rs:15-32),
   so it is taken to be its bytes *)
Definition meta : Type := list N.

(* Meta::TBI with Meta::as_orderable (prefix_record.rs:26-31): the order that a
   value of tie-breaker info induces, as a rank.  Only the relative order of the
   finitely many meta values of one prefix is ever used. *)
Definition tbi : Type := meta -> N.

(* types/prefix_record.rs:37-42 *)
Record record : Type := Rec { r_mui : N; r_ltime : N; r_status : status; r_meta : meta }.
(* prefix_cht/cht.rs:279-284 *)
Record mmval : Type := MMV { v_meta : meta; v_ltime : N; v_status : status }.

(* prefix_cht/cht.rs:321-329 *)
Definition mmval_of (r : record) : mmval := MMV (r_meta r) (r_ltime r) (r_status r).
(* prefix_cht/cht.rs:331-340 *)
Definition record_of (mui : N) (v : mmval) : record := Rec mui (v_ltime v) (v_status v) (v_meta v).

(* prefix_cht/cht.rs:35-37; the iteration order of the HashMap is unspecified *)
Definition mmap : Type := map N mmval.

(* prefix_cht/cht.rs:85-99 *)
Definition get_record_for_mui (m : mmap) (mui : N) (include_withdrawn : bool) : option record :=
  match lookup mui m with
  | Some v => if include_withdrawn || status_eqb (v_status v) Active
              then Some (record_of mui v) else None
  | None => None
  end.

(* prefix_cht/cht.rs:301-303 *)
Definition set_route_status (s : status) (v : mmval) : mmval := MMV (v_meta v) (v_ltime v) s.
(* prefix_cht/cht.rs:289-291 *)
Definition set_logical_time (t : N) (v : mmval) : mmval := MMV (v_meta v) t (v_status v).

(* prefix_cht/cht.rs:111-127, the rewrite inside it *)
Definition rewrite_status (mui : N) (bmin : nset) (s : status) (v : mmval) : mmval :=
  if mem mui bmin then set_route_status s v else v.
Definition get_record_for_mui_with_rewritten_status (m : mmap) (mui : N) (bmin : nset)
    (s : status) : option record :=
  option_map (fun v => record_of mui (rewrite_status mui bmin s v)) (lookup mui m).

(* prefix_cht/cht.rs:129-143 *)
Definition get_filtered_record_for_mui (m : mmap) (mui : N) (include_withdrawn : bool)
    (bmin : nset) : option record :=
  if include_withdrawn
  then get_record_for_mui_with_rewritten_status m mui bmin Withdrawn
  else get_record_for_mui m mui include_withdrawn.

(* prefix_cht/cht.rs:185-201 *)
Definition as_records_with_rewritten_status (m : mmap) (bmin : nset) (s : status) : list record :=
  List.map (fun kv => record_of (fst kv) (rewrite_status (fst kv) bmin s (snd kv))) m.

(* prefix_cht/cht.rs:214-231; filter_map as a map over a filter *)
Definition as_active_records_not_in_bmin (m : mmap) (bmin : nset) : list record :=
  List.map (fun kv => record_of (fst kv) (snd kv))
    (filter (fun kv => status_eqb (v_status (snd kv)) Active && negb (mem (fst kv) bmin)) m).

Definition none_if_empty {A} (l : list A) : option (list A) :=
  match l with [] => None | _ => Some l end.

(* prefix_cht/cht.rs:147-179 *)
Definition get_filtered_records (m : mmap) (mui : option N) (include_withdrawn : bool)
    (bmin : nset) : option (list record) :=
  match mui with
  | Some mui => option_map (fun r => [r]) (get_filtered_record_for_mui m mui include_withdrawn bmin)
  | None =>
    if include_withdrawn then none_if_empty (as_records_with_rewritten_status m bmin Withdrawn)
    else none_if_empty (as_active_records_not_in_bmin m bmin)
  end.

(* prefix_cht/cht.rs:234-249 *)
Definition mark_for_mui (s : status) (m : mmap) (mui ltime : N) : mmap :=
  match lookup mui m with
  | Some v => update mui (set_logical_time ltime (set_route_status s v)) m
  | None => m
  end.
Definition mark_as_withdrawn_for_mui := mark_for_mui Withdrawn.
Definition mark_as_active_for_mui := mark_for_mui Active.

(* prefix_cht/cht.rs:256-277; retry_count is 0 since the lock is not poisoned *)
Definition upsert_record (m : mmap) (r : record) : mmap * option (mmval * N) :=
  let m' := update (r_mui r) (mmval_of r) m in
  (m', match lookup (r_mui r) m with
       | Some old => Some (old, N.of_nat (length m'))
       | None => None
       end).

(* the order on (orderable, mui) tuples used at prefix_cht/cht.rs:103-105 *)
Definition cand : Type := (N * N)%type.
Definition cand_ltb (a b : cand) : bool :=
  (fst a <? fst b) || ((fst a =? fst b) && (snd a <? snd b)).

(* routecore's best_backup_generic (external): one pass that keeps the least and
   the second least candidate *)
Definition bb_step (acc : option cand * option cand) (c : cand) : option cand * option cand :=
  match acc with
  | (None, k) => (Some c, k)
  | (Some b, k) =>
    if cand_ltb c b then (Some c, Some b)
    else match k with
         | None => (Some b, Some c)
         | Some k0 => if cand_ltb c k0 then (Some b, Some c) else (Some b, Some k0)
         end
  end.
Definition best_backup_generic (l : list cand) : option cand * option cand :=
  fold_left bb_step l (None, None).

Definition cands (t : tbi) (m : mmap) : list cand :=
  List.map (fun kv => (t (v_meta (snd kv)), fst kv)) m.

(* prefix_cht/cht.rs:101-109 *)
Definition best_backup (m : mmap) (t : tbi) : option N * option N :=
  let '(b, k) := best_backup_generic (cands t m) in (option_map snd b, option_map snd k).

(* prefix_cht/cht.rs:350-378: the record map, the path selections behind the
   atomic pointer and the pointer's tag (true is tag 1, outdated) *)
Record pval : Type := PVal {
  pv_recs : mmap;
  pv_sel : option N * option N;
  pv_out : bool
}.

(* prefix_cht/cht.rs:381-417: the payload of StoredPrefix::new *)
Definition pval_new : pval := PVal [] (None, None) false.

Definition opt_eqb (a b : option N) : bool :=
  match a, b with
  | None, None => true
  | Some x, Some y => x =? y
  | _, _ => false
  end.
Definition sel_eqb (a b : option N * option N) : bool :=
  opt_eqb (fst a) (fst b) && opt_eqb (snd a) (snd b).
Lemma sel_eqb_spec a b : sel_eqb a b = true <-> a = b.
Proof.
  destruct a as [[?|] [?|]], b as [[?|] [?|]]; unfold sel_eqb; simpl; split; intros E;
    rewrite ?andb_true_iff, ?N.eqb_eq in *; try easy; try (now inversion E);
    try (destruct E; subst; easy); try (now subst); try (inversion E; subst; easy).
Qed.

(* prefix_cht/cht.rs:435-458 without interference: the compare_exchange succeeds *)
Definition set_path_selections (p : pval) (s : option N * option N) : pval :=
  if sel_eqb (pv_sel p) s then p else PVal (pv_recs p) s false.
(* prefix_cht/cht.rs:460-470 *)
Definition set_ps_outdated (p : pval) : pval := PVal (pv_recs p) (pv_sel p) true.
(* prefix_cht/cht.rs:476-491 *)
Definition calculate_and_store_best_backup (p : pval) (t : tbi) : pval * (option N * option N) :=
  let s := best_backup (pv_recs p) t in (set_path_selections p s, s).
Definition set_recs (p : pval) (m : mmap) : pval := PVal m (pv_sel p) (pv_out p).

(* ---------- types/stats.rs:117-196 Counters ---------- *)

(* the 129 prefix counters and the routes counter; the nodes counter is kept
   where it is used (Tree.v) *)
Record counters : Type := Counters { c_prefixes : list N; c_routes : N }.
(* 183-196 *)
Definition counters_new : counters := Counters (repeat 0 129) 0.
Fixpoint inc_nth (i : nat) (l : list N) : list N :=
  match l, i with
  | [], _ => []
  | x :: l', O => (x + 1) :: l'
  | x :: l', S i' => x :: inc_nth i' l'
  end.
(* 142-146: an index outside the array is ignored *)
Definition inc_prefixes_count (c : counters) (len : N) : counters :=
  Counters (inc_nth (N.to_nat len) (c_prefixes c)) (c_routes c).
(* 176-178; wrap-around at 2^64 is not modelled *)
Definition inc_routes_count (c : counters) : counters :=
  Counters (c_prefixes c) (c_routes c + 1).
(* prefixes_count().iter().sum() *)
Definition sumN (l : list N) : N := fold_right N.add 0 l.

(* types/stats.rs:266-279 *)
Record report : Type := Report {
  rp_cas : N;
  rp_prefix_new : bool;
  rp_mui_new : bool;
  rp_mui_count : N
}.

(* ---------- lemmas ---------- *)

Lemma inc_nth_length i l : length (inc_nth i l) = length l.
Proof. revert i; induction l as [|x l IH]; intros [|i]; simpl; auto. Qed.

Lemma inc_nth_nth i l j : nth j (inc_nth i l) 0 =
  nth j l 0 + (if (Nat.eqb i j && Nat.ltb j (length l))%bool then 1 else 0).
Proof.
  revert i j. induction l as [|x l IH]; intros i j; simpl.
  - destruct j, i; simpl; rewrite ?andb_false_r; lia.
  - destruct i as [|i], j as [|j]; simpl; try lia.
    rewrite IH. reflexivity.
Qed.

Lemma sumN_inc i l : (i < length l)%nat -> sumN (inc_nth i l) = sumN l + 1.
Proof.
  revert i. induction l as [|x l IH]; intros i H; simpl in *; [lia|].
  destruct i as [|i]; simpl; [lia|]. rewrite IH by lia. lia.
Qed.

Lemma none_if_empty_spec {A} (l : list A) :
  match none_if_empty l with Some l' => l' = l /\ l <> [] | None => l = [] end.
Proof. destruct l; simpl; easy. Qed.

(* the candidates that win *)
Lemma cand_ltb_spec a b : cand_ltb a b = true <->
  fst a < fst b \/ (fst a = fst b /\ snd a < snd b).
Proof.
  unfold cand_ltb. rewrite orb_true_iff, andb_true_iff, !N.ltb_lt, N.eqb_eq. tauto.
Qed.
Definition cand_lt (a b : cand) : Prop := fst a < fst b \/ (fst a = fst b /\ snd a < snd b).
Lemma cand_ltb_false a b : cand_ltb a b = false -> ~ cand_lt a b.
Proof. intros E C. apply cand_ltb_spec in C. congruence. Qed.
Lemma cand_total a b : ~ cand_lt a b -> a <> b -> cand_lt b a.
Proof. destruct a, b; unfold cand_lt; simpl. intros H N. assert (n <> n1 \/ n0 <> n2).
  { destruct (N.eq_dec n n1); [right|left; auto]. intros ->. apply N. now subst. } lia. Qed.
Lemma cand_lt_trans a b c : cand_lt a b -> cand_lt b c -> cand_lt a c.
Proof. unfold cand_lt. lia. Qed.
Lemma cand_lt_irrefl a : ~ cand_lt a a.
Proof. unfold cand_lt. lia. Qed.

(* what a selection over a set of candidates is, given by membership *)
Definition bb_ok (P : cand -> Prop) (r : option cand * option cand) : Prop :=
  match r with
  | (None, None) => forall c, ~ P c
  | (Some b, None) => P b /\ forall c, P c -> c = b
  | (Some b, Some k) => P b /\ P k /\ cand_lt b k /\
      forall c, P c -> c = b \/ c = k \/ cand_lt k c
  | (None, Some _) => False
  end.

Lemma bb_step_ok P acc c : bb_ok P acc -> ~ P c ->
  bb_ok (fun x => P x \/ x = c) (bb_step acc c).
Proof.
  intros H NP. destruct acc as [[b|] [k|]]; simpl in H; try easy.
  - destruct H as [Pb [Pk [L A]]]. simpl.
    destruct (cand_ltb c b) eqn:E1; [apply cand_ltb_spec in E1|apply cand_ltb_false in E1].
    + repeat split; auto. intros x [X|X]; [|now left].
      destruct (A x X) as [->|[->|D]]; auto. right. right. eapply cand_lt_trans; eauto.
    + assert (cand_lt b c) as Lb by (apply cand_total; auto; congruence).
      destruct (cand_ltb c k) eqn:E2; [apply cand_ltb_spec in E2|apply cand_ltb_false in E2].
      * repeat split; auto. intros x [X|X]; [|auto].
        destruct (A x X) as [->|[->|D]]; auto. right. right. eapply cand_lt_trans; eauto.
      * assert (cand_lt k c) by (apply cand_total; auto; congruence).
        repeat split; auto. intros x [X|X]; [auto|]. subst. auto.
  - destruct H as [Pb A]. simpl.
    destruct (cand_ltb c b) eqn:E1; [apply cand_ltb_spec in E1|apply cand_ltb_false in E1].
    + repeat split; auto. intros x [X|X]; auto.
    + repeat split; auto.
      * apply cand_total; auto. congruence.
      * intros x [X|X]; auto.
  - simpl. split; auto. intros x [X|X]; [now apply H in X|easy].
Qed.

Lemma bb_ok_ext (P Q : cand -> Prop) r : (forall c, P c <-> Q c) -> bb_ok P r -> bb_ok Q r.
Proof.
  intros E. destruct r as [[b|] [k|]]; simpl; try easy.
  - intros [A [B [C D]]]. repeat split; try (now apply E); auto. intros c X. apply D. now apply E.
  - intros [A B]. split; [now apply E|]. intros c X. apply B. now apply E.
  - intros A c X. apply (A c). now apply E.
Qed.

Lemma best_backup_generic_ok l : NoDup l -> bb_ok (fun c => In c l) (best_backup_generic l).
Proof.
  unfold best_backup_generic.
  enough (forall (l : list cand) (P : cand -> Prop) acc, NoDup l -> (forall c, P c -> ~ In c l) -> bb_ok P acc ->
    bb_ok (fun c => P c \/ In c l) (fold_left bb_step l acc)) as H.
  { intros ND. specialize (H l (fun _ => False) (None, None) ND).
    eapply bb_ok_ext; [|apply H]; simpl; try tauto. }
  clear l. induction l as [|c l IH]; intros P acc ND D B; simpl.
  - eapply bb_ok_ext; [|exact B]. tauto.
  - inversion ND; subst.
    eapply bb_ok_ext; [|apply (IH (fun x => P x \/ x = c))]; auto.
    + intros x. simpl. intuition.
    + intros x [X|X] I; [apply (D x X); now right|]. now subst.
    + apply bb_step_ok; auto. intros X. apply (D c X). now left.
Qed.

Lemma cands_NoDup t m : NoDup (keys m) -> NoDup (cands t m).
Proof.
  intros ND. unfold cands. apply (NoDup_map_inv snd).
  rewrite map_map. simpl. exact ND.
Qed.

Lemma In_cands t m c : NoDup (keys m) ->
  (In c (cands t m) <-> exists v, lookup (snd c) m = Some v /\ fst c = t (v_meta v)).
Proof.
  intros ND. unfold cands. rewrite in_map_iff. destruct c as [o u]; simpl. split.
  - intros [[k v] [E I]]. simpl in E. inversion E; subst. exists v.
    split; [now apply In_lookup|easy].
  - intros [v [L ->]]. exists (u, v). split; [easy|now apply lookup_In].
Qed.

Lemma get_filtered_all m bmin : NoDup (keys m) ->
  forall r, In r (as_records_with_rewritten_status m bmin Withdrawn) <->
    exists v, lookup (r_mui r) m = Some v /\
      r = record_of (r_mui r) (rewrite_status (r_mui r) bmin Withdrawn v).
Proof.
  intros ND r. unfold as_records_with_rewritten_status. rewrite in_map_iff. split.
  - intros [[k v] [E I]]. simpl in E. subst r. simpl. exists v.
    split; [now apply In_lookup|easy].
  - intros [v [L E]]. exists (r_mui r, v). split; [easy|now apply lookup_In].
Qed.

Lemma get_filtered_active m bmin : NoDup (keys m) ->
  forall r, In r (as_active_records_not_in_bmin m bmin) <->
    exists v, lookup (r_mui r) m = Some v /\ v_status v = Active /\
      mem (r_mui r) bmin = false /\ r = record_of (r_mui r) v.
Proof.
  intros ND r. unfold as_active_records_not_in_bmin. rewrite in_map_iff. split.
  - intros [[k v] [E I]]. apply filter_In in I. destruct I as [I F].
    apply andb_true_iff in F. destruct F as [F1 F2]. simpl in *. subst r. simpl.
    apply status_eqb_spec in F1. apply negb_true_iff in F2.
    exists v. repeat split; auto. now apply In_lookup.
  - intros [v [L [A [M E]]]]. exists (r_mui r, v). split; [easy|].
    apply filter_In. split; [now apply lookup_In|]. simpl. rewrite A, M. easy.
Qed.

Lemma all_muis_NoDup m bmin s : NoDup (keys m) ->
  NoDup (List.map r_mui (as_records_with_rewritten_status m bmin s)).
Proof. intros ND. unfold as_records_with_rewritten_status. rewrite map_map. exact ND. Qed.

Lemma NoDup_map_filter {A B} (g : A -> B) p l : NoDup (List.map g l) ->
  NoDup (List.map g (filter p l)).
Proof.
  induction l as [|x l IH]; simpl; intros ND; [constructor|]. inversion ND; subst.
  destruct (p x); simpl; auto. constructor; auto.
  intros C. apply H1. apply in_map_iff in C. destruct C as [y [E I]].
  apply filter_In in I. rewrite <- E. now apply in_map.
Qed.

Lemma active_muis_NoDup m bmin : NoDup (keys m) ->
  NoDup (List.map r_mui (as_active_records_not_in_bmin m bmin)).
Proof.
  intros ND. unfold as_active_records_not_in_bmin. rewrite map_map. simpl.
  now apply NoDup_map_filter.
Qed.

Lemma mark_lookup s m mui ltime k : lookup k (mark_for_mui s m mui ltime) =
  if k =? mui then option_map (fun v => MMV (v_meta v) ltime s) (lookup k m)
  else lookup k m.
Proof.
  unfold mark_for_mui. destruct (N.eqb_spec k mui) as [->|NE].
  - destruct (lookup mui m) eqn:L; [|now rewrite L].
    now rewrite lookup_update_same.
  - destruct (lookup mui m); [|easy]. now apply lookup_update_other.
Qed.

Lemma mark_NoDup s m mui ltime : NoDup (keys m) -> NoDup (keys (mark_for_mui s m mui ltime)).
Proof. intros. unfold mark_for_mui. destruct (lookup mui m); [now apply update_NoDup|easy]. Qed.
