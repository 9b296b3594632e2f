(* The properties of the counter of the routes in memory on a weak memory. *)
From Coq Require Import Arith NArith List Bool Lia.
From Verif Require Import Word Af BitSpan Maps ChtMath Cht Node Tree ChainProofs MultiMap PrefixCht PrefixChtProofs HistSpec
  Conc ConcTree ConcStore ConcTable ConcStoreStep ConcSpec ConcFacts WeakTable WeakTableInv WeakTableFacts WeakTreeInv WeakCount.
Import ListNotations.
Local Open Scope N_scope.

(* ---------- the first upserts of the routes ---------- *)

Definition route_eqb (a b : pid * N) : bool := pid_eqb (fst a) (fst b) && (snd a =? snd b).
Lemma route_eqb_ok a b : route_eqb a b = true <-> a = b.
Proof.
  destruct a as [p m], b as [q n]. unfold route_eqb. cbn [fst snd]. rewrite andb_true_iff, pid_eqb_spec, N.eqb_eq. split.
  - now intros [-> ->].
  - intros E. injection E as -> ->. auto.
Qed.
Definition first_of (acc : list (nat * (pid * N))) (e : nat * pid * recop) : list (nat * (pid * N)) :=
  match e with
  | (i, p, OUp r) => if existsb (route_eqb (p, r_mui r)) (List.map snd acc) then acc else acc ++ [(i, (p, r_mui r))]
  | _ => acc
  end.
Definition firsts (log : list (nat * pid * recop)) : list (nat * (pid * N)) := fold_left first_of log [].
Lemma firsts_snoc l e : firsts (l ++ [e]) = first_of (firsts l) e.
Proof. unfold firsts. now rewrite fold_left_app. Qed.
Lemma firsts_nodup l : NoDup (List.map snd (firsts l)).
Proof.
  induction l as [|e l IH] using rev_ind; [constructor|]. rewrite firsts_snoc. destruct e as [[i p] [r|]]; cbn [first_of]; [|exact IH].
  destruct (existsb _ _) eqn:E; [exact IH|]. rewrite map_app. cbn [List.map snd]. apply NoDup_snoc; [exact IH|].
  intros In. assert (existsb (route_eqb (p, r_mui r)) (List.map snd (firsts l)) = true); [|congruence].
  apply existsb_exists. exists (p, r_mui r). split; [exact In|]. now apply route_eqb_ok.
Qed.
Lemma rec_after_snoc p m l i q o : rec_after p m (l ++ [(i, q, o)]) =
  if pid_eqb q p then rec_step m (rec_after p m l) o else rec_after p m l.
Proof.
  unfold rec_after. rewrite filter_app, map_app, fold_left_app. cbn [filter fst snd]. now destruct (pid_eqb q p).
Qed.
Lemma firsts_in l p m : In (p, m) (List.map snd (firsts l)) <-> rec_after p m l <> None.
Proof.
  induction l as [|e l IH] using rev_ind; [cbn; split; [easy|now intros H]|].
  rewrite firsts_snoc. destruct e as [[i q] o]. rewrite rec_after_snoc. destruct o as [r|s n t]; cbn [first_of rec_step].
  - assert (E : In (p, m) (List.map snd (if existsb (route_eqb (q, r_mui r)) (List.map snd (firsts l)) then firsts l else firsts l ++ [(i, (q, r_mui r))]))
      <-> In (p, m) (List.map snd (firsts l)) \/ (p, m) = (q, r_mui r)).
    { destruct (existsb _ _) eqn:X.
      - apply existsb_exists in X. destruct X as (b & X1 & X2). apply route_eqb_ok in X2. subst b. split; [tauto|].
        intros [A|A]; [exact A|]. now rewrite A.
      - rewrite map_app, in_app_iff. cbn. firstorder congruence. }
    rewrite E, IH. destruct (pid_eqb q p) eqn:Q.
    + apply pid_eqb_spec in Q. subst q. destruct (N.eqb_spec (r_mui r) m) as [<-|N1].
      * split; [intros _; discriminate|now right].
      * split; [intros [A|A]; [exact A|congruence]|tauto].
    + split; [|tauto]. intros [A|A]; [exact A|]. injection A as -> _. rewrite pid_eqb_refl in Q. discriminate Q.
  - rewrite IH. destruct (pid_eqb q p); [|tauto]. destruct (n =? m); [|tauto].
    destruct (rec_after p m l); split; intros A; try discriminate; now elim A.
Qed.

Definition adds_of (i : nat) (l : list (nat * (pid * N))) : list (pid * N) :=
  List.map snd (filter (fun e => Nat.eqb (fst e) i) l).
Lemma adds_app i a b : adds_of i (a ++ b) = adds_of i a ++ adds_of i b.
Proof. unfold adds_of. now rewrite filter_app, map_app. Qed.
Lemma adds_one i j a : adds_of i [(j, a)] = if Nat.eqb j i then [a] else [].
Proof. unfold adds_of. cbn. now destruct (Nat.eqb j i). Qed.
Lemma in_adds i a l : In a (adds_of i l) <-> In (i, a) l.
Proof.
  unfold adds_of. rewrite in_map_iff. split.
  - intros ((j & b) & E & I). apply filter_In in I. destruct I as [I J]. cbn in *. subst b. apply Nat.eqb_eq in J. now subst j.
  - intros I. exists (i, a). split; [reflexivity|]. apply filter_In. split; [exact I|]. cbn. apply Nat.eqb_refl.
Qed.
Lemma nodup_adds i l : NoDup (List.map snd l) -> NoDup (adds_of i l).
Proof.
  induction l as [|[j a] l IH]; [constructor|]. cbn [List.map snd]. intros ND. inversion ND as [|? ? N1 N2]; subst.
  change ((j, a) :: l) with ([(j, a)] ++ l). rewrite adds_app, adds_one. destruct (Nat.eqb j i); [|now apply IH].
  cbn. constructor; [|now apply IH]. intros I. apply N1. apply in_adds in I. apply in_map_iff. now exists (i, a).
Qed.
(* what each contributes without repetition, and no two the same, is without repetition *)
Lemma nodup_parts l : (forall i, NoDup (adds_of i l)) -> (forall i j a, In (i, a) l -> In (j, a) l -> i = j) -> NoDup (List.map snd l).
Proof.
  induction l as [|[j a] l IH]; [constructor|]. intros H U. cbn [List.map snd]. constructor.
  - intros I. apply in_map_iff in I. destruct I as ((i & b) & E & I). cbn in E. subst b.
    pose proof (U j i a (or_introl eq_refl) (or_intror I)) as E. subst i. specialize (H j).
    change ((j, a) :: l) with ([(j, a)] ++ l) in H. rewrite adds_app, adds_one, Nat.eqb_refl in H. inversion H as [|? ? N1 N2]; subst.
    apply N1. now apply in_adds.
  - apply IH.
    + intros i. specialize (H i). change ((j, a) :: l) with ([(j, a)] ++ l) in H. rewrite adds_app, adds_one in H.
      destruct (Nat.eqb j i); [now inversion H|exact H].
    + intros i k b A B. apply (U i k b); now right.
Qed.

(* ---------- invariant ---------- *)

Definition pending (t : athread) : list (pid * N) := match new_route t with Some a => [a] | None => [] end.

Record countI (f : af) (x : rconf) : Prop := {
  ci_tab : areach f (rc_tab x);
  ci_len : length (rc_ths x) = length (ac_ths (rc_tab x));
  ci_adds : forall i t, nth_error (ac_ths (rc_tab x)) i = Some t ->
    adds_of i (firsts (tm_log (ac_mem (rc_tab x)))) = adds_of i (rc_adds x) ++ pending t;
  ci_others : forall i a, In (i, a) (rc_adds x) \/ In (i, a) (firsts (tm_log (ac_mem (rc_tab x)))) -> (i < length (rc_ths x))%nat;
  ci_views : forall i u, nth_error (rc_ths x) i = Some u ->
    (rt_view u <= length (rc_adds x))%nat /\
    (forall a, In a (rt_past u) -> In a (List.map snd (firstn (rt_view u) (rc_adds x)))) /\
    (forall k, rt_got u = Some k -> rt_view u = k) /\
    (forall a, In (i, a) (rc_adds x) -> In a (rt_past u))
}.

Lemma in_firstn_more {A} (a : A) n m l : (n <= m)%nat -> In a (firstn n l) -> In a (firstn m l).
Proof.
  intros L. revert m l L. induction n as [|n IH]; intros [|m] [|b l] L I; cbn in *; try easy; try lia.
  destruct I as [I|I]; [now left|right]. apply (IH m); [lia|exact I].
Qed.
Lemma in_firstn_app {A} (a : A) n l l' : In a (firstn n l) -> In a (firstn n (l ++ l')).
Proof. intros I. rewrite firstn_app. apply in_or_app. now left. Qed.
Lemma map_firstn_in n (l : list (nat * (pid * N))) l' m a : (n <= m)%nat ->
  In a (List.map snd (firstn n l)) -> In a (List.map snd (firstn m (l ++ l'))).
Proof.
  intros L I. apply in_map_iff in I. destruct I as (b & E & I). apply in_map_iff. exists b. split; [exact E|].
  apply in_firstn_app. now apply in_firstn_more with n.
Qed.

(* a critical section on the records *)
Lemma exists_last_or {A} (l : list A) : l = [] \/ exists l' e, l = l' ++ [e].
Proof. destruct l using rev_ind; [now left|right; eauto]. Qed.
Lemma crit_first f x i t p r n found o l : areach f x -> nth_error (ac_ths x) i = Some t ->
  tm_log (ac_mem x) = l ++ [(i, p, OUp r)] -> n = many p (tm_log (ac_mem x)) ->
  at_run t = Some (p, AUp r, ADone n (RUp found o)) -> o = None <-> rec_after p (r_mui r) l = None.
Proof.
  intros R N L E C. destruct (wtable_upserted f x i t p r n found o R N C) as (l1 & l2 & A & B & _ & D).
  assert (X : l1 = l).
  { destruct (exists_last_or l2) as [->|(l2' & e & ->)].
    - rewrite L in A. apply app_inj_tail in A. symmetry. apply A.
    - rewrite L in A. rewrite (app_comm_cons l2' [e]), app_assoc in A. apply app_inj_tail in A. destruct A as [A _].
      rewrite E, L, A in B. unfold many in B. rewrite !ops_of_app, !app_length in B. cbn in B. rewrite !pid_eqb_refl in B.
      cbn in B. lia. }
  subst l1. destruct (rec_after p (r_mui r) l) as [r0|]; [|tauto].
  destruct D as (ms & -> & _). split; discriminate.
Qed.

Lemma step_routes f x i t m t' : areach f x -> nth_error (ac_ths x) i = Some t -> atstep f i (ac_mem x) t m t' ->
  (at_run t' = None /\ at_run t <> None /\ tm_log m = tm_log (ac_mem x)) \/
  (firsts (tm_log m) = firsts (tm_log (ac_mem x)) /\ pending t' = pending t) \/
  (exists a, firsts (tm_log m) = firsts (tm_log (ac_mem x)) ++ [(i, a)] /\ pending t = [] /\ pending t' = [a]).
Proof.
  intros R N S. assert (R' : areach f (AConf m (set_nth i t' (ac_ths x)))).
  { eapply ar_step; [exact R|]. destruct x as [m0 ts]. eapply as_thread; [exact N|exact S]. }
  pose proof (set_nth_here i t' t (ac_ths x) N) as N'.
  inversion S as [p c E W|v K|p c q E G|p c w E|p c k found v E D log|p c k found E D|p c n a E]; subst m t'; clear S.
  - right. left. split; [reflexivity|]. unfold pending, new_route. cbn [at_run]. rewrite E. unfold abegin, or_apanic.
    destruct (walk_start f PSTRIDE p); cbn; [|destruct c; reflexivity|destruct c; reflexivity]. destruct c; reflexivity.
  - right. left. split; reflexivity.
  - right. left. split; [reflexivity|]. unfold pending, new_route. cbn [at_run]. rewrite E. destruct c; try reflexivity.
    unfold or_apanic. destruct (pstep f p (at_view t) q) as [[h o]| |]; cbn; [|reflexivity|reflexivity]. destruct o; reflexivity.
  - right. left. split; [reflexivity|]. unfold pending, new_route. cbn [at_run]. rewrite E. destruct c; try reflexivity.
    unfold or_apanic, alook. destruct (hash_id f p (w_level w)) as [ix| |]; cbn; [|reflexivity|reflexivity].
    destruct (slot_get _ _ _ _ _) as [e|]; [|reflexivity]. destruct (pid_eqb p (e_id e)); [reflexivity|].
    destruct (add8 (w_level w) 1); reflexivity.
  - right. unfold log in *. clear log. unfold pending, new_route. cbn [at_run tm_log]. rewrite E.
    destruct c as [r|s mui lt|mui iw bm]; cbn [op_of_call List.map].
    + rewrite firsts_snoc. cbn [first_of acrit snd].
      destruct (snd (upsert_record (pv_recs v) r)) as [mv|] eqn:U.
      * left. split; [|reflexivity].
        assert (C := crit_first f _ i _ p r _ found _ _ R' N' eq_refl eq_refl eq_refl). cbn [acrit snd] in C. rewrite U in C.
        assert (Y : existsb (route_eqb (p, r_mui r)) (List.map snd (firsts (tm_log (ac_mem x)))) = true); [|now rewrite Y].
        apply existsb_exists. exists (p, r_mui r). split; [|now apply route_eqb_ok]. apply firsts_in.
        intros Z. apply C in Z. discriminate Z.
      * right. exists (p, r_mui r). split; [|split; reflexivity].
        assert (C := crit_first f _ i _ p r _ found _ _ R' N' eq_refl eq_refl eq_refl). cbn [acrit snd] in C. rewrite U in C.
        assert (Y : existsb (route_eqb (p, r_mui r)) (List.map snd (firsts (tm_log (ac_mem x)))) = false); [|now rewrite Y].
        destruct (existsb _ _) eqn:X; [|reflexivity]. apply existsb_exists in X. destruct X as (b & X1 & X2).
        apply route_eqb_ok in X2. subst b. apply firsts_in in X1. elim X1. now apply C.
    + left. rewrite firsts_snoc. split; reflexivity.
    + left. rewrite app_nil_r. split; reflexivity.
  - right. left. split; [reflexivity|]. unfold pending, new_route. cbn [at_run]. rewrite E. destruct c; reflexivity.
  - left. split; [reflexivity|]. split; [rewrite E; discriminate|reflexivity].
Qed.

Lemma pending_idle t : at_run t = None -> pending t = [].
Proof. intros E. unfold pending, new_route. now rewrite E. Qed.

Lemma countI_step f x y : countI f x -> rstep f x y -> countI f y.
Proof.
  intros [IT IL IA IO IV] S. inversion S as [|i t m t' u Nt Nu A D|i t m t' u p mui Nt Nu A D D'|i t u k Nt Nu E K|i j ti tj ui uj Ni Nj Ei Ej Ui Uj];
    subst y; clear S.
  - split; cbn [rc_tab rc_adds rc_ths ac_ths ac_mem].
    + eapply ar_step; [exact IT|]. destruct (rc_tab x). apply as_spawn.
    + rewrite !app_length. cbn. now rewrite IL.
    + intros i t E. destruct (Nat.lt_ge_cases i (length (ac_ths (rc_tab x)))) as [L|L].
      * rewrite nth_error_app1 in E by exact L. now apply IA.
      * assert (Z : forall l, (forall a, In (i, a) l -> (i < length (rc_ths x))%nat) -> adds_of i l = []).
        { intros l H. destruct (adds_of i l) as [|a l'] eqn:Q; [reflexivity|].
          assert (I : In (i, a) l) by (apply in_adds; rewrite Q; now left). apply H in I. lia. }
        rewrite (Z (firsts _)), (Z (rc_adds x)); [|intros a I; apply (IO i a); auto|intros a I; apply (IO i a); auto].
        rewrite nth_error_app2 in E by exact L. destruct (i - length (ac_ths (rc_tab x)))%nat as [|q]; [|destruct q; discriminate E].
        injection E as <-. reflexivity.
    + intros i a H. rewrite app_length. cbn. specialize (IO i a H). lia.
    + intros i u E. destruct (Nat.lt_ge_cases i (length (rc_ths x))) as [L|L].
      * rewrite nth_error_app1 in E by exact L. now apply IV.
      * rewrite nth_error_app2 in E by exact L. destruct (i - length (rc_ths x))%nat as [|q]; [|destruct q; discriminate E].
        injection E as <-. cbn. split; [lia|]. split; [easy|]. split; [discriminate|].
        intros a I. specialize (IO i a (or_introl I)). lia.
  - pose proof (step_routes f _ i t m t' IT Nt A) as C.
    assert (L : (i < length (rc_ths x))%nat) by (apply nth_error_Some; now rewrite Nu).
    split; cbn [rc_tab rc_adds rc_ths ac_ths ac_mem].
    + eapply ar_step; [exact IT|]. destruct (rc_tab x) as [m0 ts]. eapply as_thread; [exact Nt|exact A].
    + now rewrite !set_nth_length.
    + intros j tj E. apply set_nth_cases in E. destruct E as [[-> ->]|[Ne E]].
      * pose proof (IA i t Nt) as B. destruct C as [(C1 & C2 & C3)|[(C1 & C2)|(a & C1 & C2 & C3)]].
        -- rewrite C3, B. f_equal. rewrite (pending_idle t' C1). destruct D as [D|D]; [|now elim D].
           unfold pending. now rewrite D.
        -- now rewrite C1, C2.
        -- rewrite C1, adds_app, adds_one, Nat.eqb_refl, B, C2, C3. now rewrite app_nil_r.
      * rewrite <- (IA j tj E). destruct C as [(C1 & C2 & C3)|[(C1 & C2)|(a & C1 & C2 & C3)]].
        -- now rewrite C3.
        -- now rewrite C1.
        -- rewrite C1, adds_app, adds_one. destruct (Nat.eqb_spec i j) as [X|X]; [now elim Ne|apply app_nil_r].
    + intros j a H. rewrite set_nth_length. destruct C as [(C1 & C2 & C3)|[(C1 & C2)|(b & C1 & C2 & C3)]].
      * rewrite C3 in H. now apply (IO j a).
      * rewrite C1 in H. now apply (IO j a).
      * rewrite C1 in H. destruct H as [H|H]; [apply (IO j a); auto|]. apply in_app_or in H. destruct H as [H|[H|[]]].
        -- apply (IO j a). auto.
        -- injection H as <- _. exact L.
    + intros j v E. apply set_nth_cases in E. destruct E as [[-> ->]|[Ne E]]; [|now apply IV].
      destruct (IV i u Nu) as (V1 & V2 & V3 & V4). cbn. split; [exact V1|]. split; [exact V2|]. split; [discriminate|exact V4].
  - pose proof (step_routes f _ i t m t' IT Nt A) as C.
    assert (P : pending t = [(p, mui)]) by (unfold pending; now rewrite D).
    assert (C3 : tm_log m = tm_log (ac_mem (rc_tab x))).
    { destruct C as [(C1 & C2 & C3)|[(C1 & C2)|(a & C1 & C2 & C3)]]; [exact C3| |].
      - rewrite P, (pending_idle t' D') in C2. discriminate C2.
      - rewrite P in C2. discriminate C2. }
    assert (L : (i < length (rc_ths x))%nat) by (apply nth_error_Some; now rewrite Nu).
    split; cbn [rc_tab rc_adds rc_ths ac_ths ac_mem]; rewrite ?C3.
    + eapply ar_step; [exact IT|]. destruct (rc_tab x) as [m0 ts]. eapply as_thread; [exact Nt|exact A].
    + now rewrite !set_nth_length.
    + intros j tj E. rewrite adds_app, adds_one. apply set_nth_cases in E. destruct E as [[-> ->]|[Ne E]].
      * rewrite Nat.eqb_refl, (pending_idle t' D'), app_nil_r, (IA i t Nt), P. reflexivity.
      * rewrite (IA j tj E). destruct (Nat.eqb_spec i j) as [X|X]; [now elim Ne|now rewrite app_nil_r].
    + intros j a H. rewrite set_nth_length. destruct H as [H|H]; [|apply (IO j a); auto].
      apply in_app_or in H. destruct H as [H|[H|[]]]; [apply (IO j a); auto|]. injection H as <- _. exact L.
    + intros j v E. rewrite app_length. cbn [length]. apply set_nth_cases in E. destruct E as [[-> ->]|[Ne E]].
      * destruct (IV i u Nu) as (V1 & V2 & V3 & V4). cbn [rt_view rt_got rt_past]. split; [lia|].
        assert (F : firstn (Datatypes.S (length (rc_adds x))) (rc_adds x ++ [(i, (p, mui))]) = rc_adds x ++ [(i, (p, mui))]).
        { apply firstn_all2. rewrite app_length. cbn. lia. }
        split; [|split; [discriminate|]].
        -- intros a [<-|I]; [rewrite F, map_app; apply in_or_app; right; now left|].
           eapply map_firstn_in; [|apply V2; exact I]. lia.
        -- intros a I. apply in_app_or in I. destruct I as [I|[I|[]]]; [right; now apply V4|]. injection I as <-. now left.
      * destruct (IV j v E) as (V1 & V2 & V3 & V4). split; [lia|]. split; [|split; [exact V3|]].
        -- intros a I. eapply map_firstn_in; [|apply V2; exact I]. lia.
        -- intros a I. apply in_app_or in I. destruct I as [I|[I|[]]]; [now apply V4|]. injection I as X _. now elim Ne.
  - split; cbn [rc_tab rc_adds rc_ths].
    + exact IT.
    + now rewrite set_nth_length.
    + exact IA.
    + intros j a H. rewrite set_nth_length. now apply (IO j a).
    + intros j v E'. apply set_nth_cases in E'. destruct E' as [[-> ->]|[Ne E']]; [|now apply IV].
      destruct (IV i u Nu) as (V1 & V2 & V3 & V4). cbn [rt_view rt_got rt_past]. split; [apply K|]. split; [|split; [|exact V4]].
      * intros a I. rewrite <- (app_nil_r (rc_adds x)). eapply map_firstn_in; [|apply V2; exact I]. apply K.
      * intros k' H. now injection H as <-.
  - split; cbn [rc_tab rc_adds rc_ths ac_ths ac_mem].
    + eapply ar_step; [exact IT|]. destruct (rc_tab x) as [m0 ts]. eapply as_told; [exact Ni|exact Nj|exact Ei|exact Ej].
    + now rewrite !set_nth_length.
    + intros k tk E. apply set_nth_cases in E. destruct E as [[-> ->]|[Ne E]]; [|now apply IA].
      rewrite (IA j tj Nj), (pending_idle tj Ej). reflexivity.
    + intros k a H. rewrite set_nth_length. now apply (IO k a).
    + intros k v E. apply set_nth_cases in E. destruct E as [[-> ->]|[Ne E]]; [|now apply IV].
      destruct (IV i ui Ui) as (V1 & V2 & V3 & V4), (IV j uj Uj) as (W1 & W2 & W3 & W4). cbn [rt_view rt_got rt_past].
      split; [lia|]. split; [|split; [discriminate|]].
      * intros a I. rewrite <- (app_nil_r (rc_adds x)). apply in_app_or in I.
        destruct I as [I|I]; (eapply map_firstn_in; [|first [apply V2; exact I|apply W2; exact I]]); lia.
      * intros a I. apply in_or_app. right. now apply W4.
Qed.
Lemma countI_reach f x : rreach f x -> countI f x.
Proof.
  intros R. induction R as [|y z R IH S]; [|now apply (countI_step f y)].
  split; cbn; [constructor|reflexivity|intros [|i] t E; discriminate E|intros i a [[]|[]]|intros [|i] u E; discriminate E].
Qed.

Lemma adds_nodup f x : rreach f x -> NoDup (List.map snd (rc_adds x)) /\
  incl (List.map snd (rc_adds x)) (List.map snd (firsts (tm_log (ac_mem (rc_tab x))))).
Proof.
  intros R. destruct (countI_reach f x R) as [IT IL IA IO IV].
  assert (F : forall i a, In (i, a) (rc_adds x) -> In (i, a) (firsts (tm_log (ac_mem (rc_tab x))))).
  { intros i a I. apply in_adds. pose proof (IO i a (or_introl I)) as L. rewrite IL in L. apply nth_error_Some in L.
    destruct (nth_error (ac_ths (rc_tab x)) i) as [t|] eqn:E; [|now elim L]. rewrite (IA i t E). apply in_or_app. left.
    now apply in_adds. }
  split.
  - apply nodup_parts.
    + intros i. destruct (nth_error (ac_ths (rc_tab x)) i) as [t|] eqn:E.
      * pose proof (nodup_adds i _ (firsts_nodup (tm_log (ac_mem (rc_tab x))))) as ND. rewrite (IA i t E) in ND.
        clear -ND. induction (adds_of i (rc_adds x)) as [|a l IH]; [constructor|]. cbn in ND. inversion ND as [|? ? N1 N2]; subst.
        constructor; [|now apply IH]. intros I. apply N1. apply in_or_app. now left.
      * destruct (adds_of i (rc_adds x)) as [|a l] eqn:Q; [constructor|].
        assert (I : In (i, a) (rc_adds x)) by (apply in_adds; rewrite Q; now left). pose proof (IO i a (or_introl I)) as L.
        rewrite IL in L. apply nth_error_Some in L. now elim L.
    + intros i j a A B. apply F in A, B. pose proof (firsts_nodup (tm_log (ac_mem (rc_tab x)))) as ND.
      revert A B ND. generalize (firsts (tm_log (ac_mem (rc_tab x)))). clear. intros l A B ND.
      induction l as [|[k b] l IH]; [easy|]. cbn in ND. inversion ND as [|? ? N1 N2]; subst.
      destruct A as [A|A], B as [B|B]; [congruence| | |auto].
      * injection A as -> ->. elim N1. apply in_map_iff. now exists (j, a).
      * injection B as -> ->. elim N1. apply in_map_iff. now exists (i, a).
  - intros a I. apply in_map_iff in I. destruct I as ((i & b) & E & I). cbn in E. subst b. apply in_map_iff. exists (i, a). auto.
Qed.

(* ---------- what a load gives ---------- *)

(* at least the routes whose counting happened before *)
Lemma wroutes_low f x i u k l : rreach f x -> nth_error (rc_ths x) i = Some u -> rt_got u = Some k ->
  NoDup l -> (forall a, In a l -> In a (rt_past u)) -> (length l <= k)%nat.
Proof.
  intros R N G ND I. destruct (countI_reach f x R) as [IT IL IA IO IV]. destruct (IV i u N) as (V1 & V2 & V3 & V4).
  pose proof (V3 k G) as <-. assert (In' : incl l (List.map snd (firstn (rt_view u) (rc_adds x)))) by (intros a Ia; auto).
  pose proof (NoDup_incl_length ND In') as L. rewrite map_length, firstn_length in L. lia.
Qed.
(* at most the routes that there are *)
Lemma wroutes_high f x i u k l : rreach f x -> nth_error (rc_ths x) i = Some u -> rt_got u = Some k ->
  (forall p m, rec_after p m (tm_log (ac_mem (rc_tab x))) <> None -> In (p, m) l) -> (k <= length l)%nat.
Proof.
  intros R N G I. destruct (adds_nodup f x R) as [ND Ic]. destruct (countI_reach f x R) as [IT IL IA IO IV].
  destruct (IV i u N) as (V1 & V2 & V3 & V4). pose proof (V3 k G) as <-.
  assert (In' : incl (List.map snd (rc_adds x)) l).
  { intros [p m] Ia. apply I. apply firsts_in. now apply Ic. }
  pose proof (NoDup_incl_length ND In') as L. rewrite map_length in L. lia.
Qed.
(* a route is counted when the call that was the first to store it returns *)
Lemma wroutes_counted f x i t u p r l1 l2 : rreach f x -> nth_error (ac_ths (rc_tab x)) i = Some t -> nth_error (rc_ths x) i = Some u ->
  tm_log (ac_mem (rc_tab x)) = l1 ++ (i, p, OUp r) :: l2 -> rec_after p (r_mui r) l1 = None -> at_run t = None ->
  In (p, r_mui r) (rt_past u).
Proof.
  intros R N Nu L Z E. destruct (countI_reach f x R) as [IT IL IA IO IV]. destruct (IV i u Nu) as (_ & _ & _ & V4). apply V4.
  apply in_adds. pose proof (IA i t N) as A. rewrite (pending_idle t E), app_nil_r in A. rewrite <- A. apply in_adds. rewrite L.
  replace (l1 ++ (i, p, OUp r) :: l2) with ((l1 ++ [(i, p, OUp r)]) ++ l2) by (now rewrite <- app_assoc).
  clear -Z. induction l2 as [|e l2 IH] using rev_ind.
  - rewrite app_nil_r, firsts_snoc. cbn [first_of]. destruct (existsb _ _) eqn:X; [|apply in_or_app; right; now left].
    apply existsb_exists in X. destruct X as (b & X1 & X2). apply route_eqb_ok in X2. subst b. now apply firsts_in in X1.
  - rewrite app_assoc, firsts_snoc. destruct e as [[j q] [s|]]; cbn [first_of]; [|exact IH].
    destruct (existsb _ _); [exact IH|apply in_or_app; now left].
Qed.
(* the same thread's loads do not go back *)
Lemma wroutes_view f x y i u : rexec f x y -> nth_error (rc_ths x) i = Some u -> countI f x ->
  exists v, nth_error (rc_ths y) i = Some v /\ (rt_view u <= rt_view v)%nat /\ forall a, In a (rt_past u) -> In a (rt_past v).
Proof.
  intros E N CI. induction E as [|y z E IH S]; [eauto|]. destruct IH as (v & Nv & L & P).
  assert (CY : countI f y). { clear -E CI. induction E as [|y z E IH S]; [exact CI|]. now apply (countI_step f y). }
  assert (H : exists w, nth_error (rc_ths z) i = Some w /\ (rt_view v <= rt_view w)%nat /\ forall a, In a (rt_past v) -> In a (rt_past w)).
  { inversion S as [|j t m t' w Nt Nw A D|j t m t' w p mui Nt Nw A D D'|j t w k Nt Nw E' K|k j ti tj ui uj Ni Nj Ei Ej Ui Uj];
      subst z; cbn [rc_ths].
    - exists v. rewrite nth_error_app1 by (apply nth_error_Some; now rewrite Nv). auto.
    - destruct (Nat.eq_dec j i) as [->|Ne]; [|exists v; rewrite set_nth_there by exact Ne; auto].
      rewrite Nv in Nw. injection Nw as <-. eexists. split; [eapply set_nth_here; exact Nv|]. cbn. auto.
    - destruct (Nat.eq_dec j i) as [->|Ne]; [|exists v; rewrite set_nth_there by exact Ne; auto].
      rewrite Nv in Nw. injection Nw as <-. eexists. split; [eapply set_nth_here; exact Nv|]. cbn [rt_view rt_past].
      split; [|intros a I; now right]. destruct (ci_views f y CY i v Nv) as (V1 & _). lia.
    - destruct (Nat.eq_dec j i) as [->|Ne]; [|exists v; rewrite set_nth_there by exact Ne; auto].
      rewrite Nv in Nw. injection Nw as <-. eexists. split; [eapply set_nth_here; exact Nv|]. cbn [rt_view rt_past].
      split; [apply K|auto].
    - destruct (Nat.eq_dec j i) as [->|Ne]; [|exists v; rewrite set_nth_there by exact Ne; auto].
      rewrite Nv in Uj. injection Uj as <-. eexists. split; [eapply set_nth_here; exact Nv|]. cbn [rt_view rt_past].
      split; [lia|]. intros a I. apply in_or_app. now right. }
  destruct H as (w & Nw & L' & P'). exists w. split; [exact Nw|]. split; [lia|auto].
Qed.
Lemma wroutes_grow f x y i u v k k' : rreach f x -> rexec f x y -> nth_error (rc_ths x) i = Some u -> nth_error (rc_ths y) i = Some v ->
  rt_got u = Some k -> rt_got v = Some k' -> (k <= k')%nat.
Proof.
  intros R E Nu Nv G G'. pose proof (countI_reach f x R) as CX.
  destruct (wroutes_view f x y i u E Nu CX) as (w & Nw & L & _). rewrite Nv in Nw. injection Nw as <-.
  assert (CY : countI f y). { clear -E CX. induction E as [|y z E IH S]; [exact CX|]. now apply (countI_step f y). }
  destruct (ci_views f x CX i u Nu) as (_ & _ & V3 & _), (ci_views f y CY i v Nv) as (_ & _ & W3 & _).
  rewrite (V3 k G), (W3 k' G') in L. exact L.
Qed.
(* whoever knows of the counting of all routes is given their number *)
Lemma wroutes_exact f x i u k l : rreach f x -> nth_error (rc_ths x) i = Some u -> rt_got u = Some k ->
  NoDup l -> (forall p m, In (p, m) l <-> rec_after p m (tm_log (ac_mem (rc_tab x))) <> None) ->
  (forall a, In a l -> In a (rt_past u)) -> k = length l.
Proof.
  intros R N G ND A I. apply Nat.le_antisymm.
  - apply (wroutes_high f x i u k l R N G). intros p m H. now apply A.
  - exact (wroutes_low f x i u k l R N G ND I).
Qed.
