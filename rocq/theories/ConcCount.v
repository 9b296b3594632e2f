(* The counters of the RIB under concurrency, and an induction over the reachable
   states of the store for facts that need no more than the steps themselves. *)
From Coq Require Import Arith NArith List Bool Lia.
From Verif Require Import Word Af Maps Cht Tree MultiMap PrefixCht Lsm Rib HistSpec Conc ConcTree
  ConcStore ConcSpec.
Import ListNotations.
Local Open Scope N_scope.

Lemma reach_ind f ov st (P : cstore -> Prop) :
  (forall rb, rib_init f st = Ok rb -> P (sconf0 rb)) ->
  (forall s ts c, reach f ov st (Conf s ts) -> P (Conf s ts) -> slegal f c ->
     P (Conf s (ts ++ [(c, cstart c)]))) ->
  (forall s ts i c l s' l', reach f ov st (Conf s ts) -> P (Conf s ts) ->
     nth_error ts i = Some (c, l) -> ststep f ov i s c l = Some (s', l') ->
     P (Conf s' (set_nth i (c, l') ts))) ->
  forall x, reach f ov st x -> P x.
Proof.
  intros A B C x (rb & I & E). revert x E. apply exec_ind_l; [now apply A|].
  intros y z E Y T. assert (R : reach f ov st y) by (now exists rb).
  destruct T; [now apply B|eapply C; eauto].
Qed.

(* ---------- counting threads ---------- *)

Definition cnt {A} (q : A -> bool) (l : list A) : N := N.of_nat (length (filter q l)).
Definition b2n (b : bool) : N := if b then 1 else 0.

Lemma cnt_app {A} (q : A -> bool) l l' : cnt q (l ++ l') = cnt q l + cnt q l'.
Proof. unfold cnt. rewrite filter_app, app_length. lia. Qed.

Lemma cnt_one {A} (q : A -> bool) a : cnt q [a] = b2n (q a).
Proof. unfold cnt, b2n. simpl. now destruct (q a). Qed.

Lemma cnt_set {A} (q : A -> bool) l i a b : nth_error l i = Some a ->
  cnt q (set_nth i b l) + b2n (q a) = cnt q l + b2n (q b).
Proof.
  revert i. induction l as [|y l IH]; intros [|i] E; simpl in E; try discriminate.
  - injection E as ->. unfold cnt, b2n. simpl. destruct (q a), (q b); simpl; lia.
  - specialize (IH i E). unfold cnt in *. simpl. destruct (q y); simpl in *; lia.
Qed.

Lemma cnt_ext {A} (q q' : A -> bool) l : (forall a, In a l -> q a = q' a) -> cnt q l = cnt q' l.
Proof.
  intros H. unfold cnt. f_equal. induction l as [|a l IH]; [easy|]. simpl.
  rewrite (H a (or_introl eq_refl)). destruct (q' a); simpl; rewrite IH; auto; intros; apply H; now right.
Qed.

(* ---------- routes ---------- *)

Definition new_route (o : option ret) : bool :=
  match o with Some (RetIns (ROk rep)) => rp_mui_new rep | _ => false end.
(* how many inserts have returned and say that their route is new *)
Definition new_routes (x : cstore) : N := cnt (fun t => new_route (ret_of (snd t))) (ths x).
(* how many inserts are under way *)
Definition inserting (t : scall * cpc) : bool :=
  match t with
  | (CInsert _ _ _, l) => match ret_of l with None => true | Some _ => false end
  | _ => false
  end.
Definition inserting_now (x : cstore) : N := cnt inserting (ths x).

Definition routed (t : scall * cpc) : bool :=
  match snd t with
  | LIns (IDone (ROk rep)) => rp_mui_new rep
  | LIns (IRibPrefix _ rep) => rp_mui_new rep
  | _ => false
  end.
Definition route_pending (l : cpc) : Prop :=
  match l with LIns (IRibRoute _ rep) => rp_mui_new rep = true | _ => True end.

Lemma routed_route c b rep : routed (c, LIns (after_route b rep)) = rp_mui_new rep.
Proof. unfold after_route. now destruct (snd b). Qed.
Lemma routed_upsert c b rep : routed (c, LIns (after_upsert b rep)) = false.
Proof. unfold after_upsert. destruct (rp_mui_new rep) eqn:E; [easy|]. now rewrite routed_route. Qed.
Lemma routed_cht c st b o pn mn : routed (c, LIns (after_cht st b o pn mn)) = false.
Proof. unfold after_cht. destruct st, o as [[? ?]|]; try apply routed_upsert; easy. Qed.
Lemma routed_count c st ups b k o : routed (c, LIns (after_count st ups b k o)) = false.
Proof. unfold after_count. destruct ups; [easy|apply routed_cht]. Qed.
Lemma routed_begin c f rb p b : routed (c, LIns (or_ipanic (begin_upsert f rb p b))) = false.
Proof.
  unfold begin_upsert. destruct (rb_strat rb); try (destruct (walk_start f PSTRIDE p); easy);
    destruct (rb_lsm rb); easy.
Qed.

Lemma pending_route b rep : route_pending (LIns (after_route b rep)).
Proof. unfold after_route. now destruct (snd b). Qed.
Lemma pending_upsert b rep : route_pending (LIns (after_upsert b rep)).
Proof. unfold after_upsert. destruct (rp_mui_new rep) eqn:E; [exact E|apply pending_route]. Qed.
Lemma pending_cht st b o pn mn : route_pending (LIns (after_cht st b o pn mn)).
Proof. unfold after_cht. destruct st, o as [[? ?]|]; try apply pending_upsert; easy. Qed.
Lemma pending_count st ups b k o : route_pending (LIns (after_count st ups b k o)).
Proof. unfold after_count. destruct ups; [easy|apply pending_cht]. Qed.
Lemma pending_begin f rb p b : route_pending (LIns (or_ipanic (begin_upsert f rb p b))).
Proof.
  unfold begin_upsert. destruct (rb_strat rb); try (destruct (walk_start f PSTRIDE p); easy);
    destruct (rb_lsm rb); easy.
Qed.

Definition routes_at (s : sstate) : N := c_routes (rb_cnt (ss_rib s)).

Lemma route_istep f ov i s p r ups pc s' pc' c : route_pending (LIns pc) ->
  istep f ov i s p r ups pc = Some (s', pc') ->
  route_pending (LIns pc') /\
  routes_at s' + b2n (routed (c, LIns pc)) = routes_at s + b2n (routed (c, LIns pc')).
Proof.
  intros J E. unfold istep in E.
  destruct pc; cbv zeta in E.
  - destruct (tnext f ov p (r_mui r) (rb_tree (ss_rib s)) t) as [tr t'].
    injection E as <- <-. unfold routes_at.
    destruct t'; try easy. destruct r0 as [[? ?]|]; [|easy].
    split; [apply pending_begin|]. now rewrite routed_begin.
  - destruct (rb_lsm (ss_rib s)); injection E as <- <-; [|easy]. unfold routes_at.
    destruct (walk_start f PSTRIDE p); easy.
  - destruct (pstep f p (pheap s) p0) as [[h o]| |]; injection E as <- <-; [|easy..].
    destruct o as [|? []]; easy.
  - injection E as <- <-. easy.
  - destruct (deref k (pheap s)) as [v| |]; [|injection E as <- <-; easy..].
    destruct (upsert_record (pv_recs v) r) as [m o]. injection E as <- <-. unfold routes_at.
    destruct o, found; try easy; (split; [apply pending_count || apply pending_cht|]);
      rewrite ?routed_count, ?routed_cht; easy.
  - injection E as <- <-. destruct found; [|easy].
    split; [apply pending_count|]. now rewrite routed_count.
  - injection E as <- <-. split; [apply pending_cht|]. now rewrite routed_cht.
  - destruct (deref k (pheap s)) as [v| |]; [destruct ups|..]; injection E as <- <-; easy.
  - destruct (deref k (pheap s)) as [v| |]; injection E as <- <-; [|easy..].
    destruct (sel_eqb (pv_sel v) sel); [|easy]. split; [apply pending_cht|]. now rewrite routed_cht.
  - destruct (deref k (pheap s)) as [v| |]; [|injection E as <- <-; easy..].
    destruct (_ && _); injection E as <- <-; [|easy]. split; [apply pending_cht|]. now rewrite routed_cht.
  - injection E as <- <-. split; [apply pending_upsert|]. rewrite routed_upsert.
    destruct (rb_lsm (ss_rib s)); easy.
  - destruct (tnext f ov p (r_mui r) (rb_tree (ss_rib s)) t) as [tr t'].
    injection E as <- <-. unfold routes_at. destruct t'; try easy. destruct r0 as [[? ?]|]; easy.
  - destruct (rb_lsm (ss_rib s)); injection E as <- <-; [|easy].
    split; [apply pending_upsert|]. now rewrite routed_upsert.
  - injection E as <- <-. split; [apply pending_route|]. rewrite routed_route.
    simpl in J. rewrite J. unfold routes_at. cbn. lia.
  - injection E as <- <-. easy.
  - discriminate.
  - discriminate.
Qed.

Lemma route_kstep f i s sm p mui lt pc s' pc' : kstep f i s sm p mui lt pc = Some (s', pc') ->
  routes_at s' = routes_at s.
Proof.
  intros E. unfold kstep in E. destruct pc; cbv zeta in E.
  - destruct (rb_strat (ss_rib s)); try (injection E as <- <-; easy).
    destruct (rb_lsm (ss_rib s)); injection E as <- <-; easy.
  - destruct (pstep f p (pheap s) p0) as [[h o]| |]; injection E as <- <-; easy.
  - injection E as <- <-. easy.
  - destruct (deref k (pheap s)); injection E as <- <-; easy.
  - destruct (rb_lsm (ss_rib s)); injection E as <- <-; easy.
  - destruct recs as [|b recs]; [injection E as <- <-; easy|].
    destruct (rb_lsm (ss_rib s)); [|injection E as <- <-; easy].
    destruct (rewrite_header_for_record _ _ _ _ _); injection E as <- <-; easy.
  - discriminate.
  - discriminate.
Qed.

Lemma vstep_same f s p m iw pc s' pc' : vstep f s p m iw pc = Some (s', pc') -> s' = s.
Proof. destruct pc; cbn; intros E; try discriminate; now injection E as <- <-. Qed.

(* which step a call makes *)
Lemma ststep_cases f ov i s c l s' l' : ststep f ov i s c l = Some (s', l') ->
  (exists p r ups pc pc', c = CInsert p r ups /\ l = LIns pc /\ l' = LIns pc' /\
     istep f ov i s p r ups pc = Some (s', pc')) \/
  (exists sm p mui lt pc pc', c = CMark sm p mui lt /\ l = LMark pc /\ l' = LMark pc' /\
     kstep f i s sm p mui lt pc = Some (s', pc')) \/
  (s' = s /\ ((exists p pc pc', c = CContains p /\ l = LHas pc /\ l' = LHas pc') \/
              exists p m iw pc pc', c = CRecords p m iw /\ l = LVal pc /\ l' = LVal pc')).
Proof.
  intros E. destruct c, l; cbn [ststep] in E; try discriminate.
  - left. destruct (istep f ov i s p r ups pc) as [[s1 pc']|] eqn:Q; [|discriminate].
    injection E as <- <-. do 5 eexists. repeat split; eauto.
  - right; left. destruct (kstep f i s st p mui ltime pc) as [[s1 pc']|] eqn:Q; [|discriminate].
    injection E as <- <-. do 6 eexists. repeat split; eauto.
  - right; right. destruct pc; try discriminate; injection E as <- <-; (split; [easy|]); left;
      do 3 eexists; repeat split; eauto.
  - right; right. destruct (vstep f s p mui iw pc) as [[s1 pc']|] eqn:Q; [|discriminate].
    injection E as <- <-. apply vstep_same in Q. split; [easy|]. right.
    do 5 eexists. repeat split; eauto.
Qed.

Lemma routes_inv f ov st x : reach f ov st x ->
  routes_at (sh x) = cnt routed (ths x) /\
  forall i c l, nth_error (ths x) i = Some (c, l) -> route_pending l.
Proof.
  revert x. apply reach_ind.
  - intros rb H. unfold rib_init in H. destruct (tree_new f); [|discriminate..].
    cbn in H. injection H as <-. split; [easy|].
    intros [|i] c l E; discriminate E.
  - intros s ts c _ [A B] Lc. simpl in *. split.
    + rewrite cnt_app, cnt_one, A. unfold routed. destruct c; simpl; lia.
    + intros i c0 l E. destruct (Nat.lt_ge_cases i (length ts)) as [H|H].
      * rewrite nth_error_app1 in E by easy. eauto.
      * rewrite nth_error_app2 in E by easy. destruct (i - length ts)%nat as [|n]; simpl in E; [|now destruct n].
        injection E as <- <-. now destruct c.
  - intros s ts i c l s' l' _ [A B] E T. cbn [sh ths] in *.
    pose proof (cnt_set routed ts i (c, l) (c, l') E) as Q.
    assert (X : route_pending l' /\ routes_at s' + b2n (routed (c, l)) = routes_at s + b2n (routed (c, l'))).
    { destruct (ststep_cases _ _ _ _ _ _ _ _ T) as
        [(p & r & ups & pc & pc' & -> & -> & -> & W)|
         [(sm & p & mui & lt & pc & pc' & -> & -> & -> & W)|[-> [(p & pc & pc' & -> & -> & ->)|
          (p & m & iw & pc & pc' & -> & -> & ->)]]]]; try easy.
      - exact (route_istep _ _ _ _ _ _ _ _ _ _ _ (B _ _ _ E) W).
      - split; [easy|]. rewrite (route_kstep _ _ _ _ _ _ _ _ _ _ W). easy. }
    destruct X as [X Y]. split; [lia|].
    intros j c0 l0 E0. rewrite nth_set_nth in E0 by (eapply nth_some_lt; eauto).
    destruct (Nat.eqb_spec i j); [now injection E0 as <- <-|eauto].
Qed.

Lemma idle_inserting (x : cstore) : idle x -> inserting_now x = 0.
Proof.
  intros H. unfold inserting_now, cnt. replace (filter inserting (ths x)) with (@nil (scall * cpc)); [easy|].
  symmetry. destruct (filter inserting (ths x)) as [|[c l] q] eqn:F; [easy|]. exfalso.
  assert (I : In (c, l) (filter inserting (ths x))) by (rewrite F; now left).
  apply filter_In in I. destruct I as [I J]. destruct (In_nth_error _ _ I) as [i E].
  destruct (H i c) as (v & (l0 & E0 & R0) & _); [now exists l|]. rewrite E in E0. injection E0 as <-.
  unfold inserting in J. destruct c; try discriminate. now rewrite R0 in J.
Qed.

Lemma conc_routes f ov st x : reach f ov st x ->
  new_routes x <= uc_total (rib_routes_count (ss_rib (sh x))) <= new_routes x + inserting_now x.
Proof.
  intros Rx. destruct (routes_inv f ov st x Rx) as [A _].
  unfold rib_routes_count. cbn [uc_total]. fold (routes_at (sh x)). rewrite A.
  assert (T : forall i c l, nth_error (ths x) i = Some (c, l) ->
     match l with LIns _ => exists p r ups, c = CInsert p r ups | _ => True end).
  { clear A. revert x Rx. apply (reach_ind f ov st (fun x => forall i c l, nth_error (ths x) i = Some (c, l) ->
     match l with LIns _ => exists p r ups, c = CInsert p r ups | _ => True end)).
    - intros rb _ [|i] c l E; discriminate E.
    - intros s ts c _ IH _ i c0 l E. cbn [ths] in *. destruct (Nat.lt_ge_cases i (length ts)) as [H|H].
      + rewrite nth_error_app1 in E by easy. exact (IH _ _ _ E).
      + rewrite nth_error_app2 in E by easy. destruct (i - length ts)%nat as [|n]; simpl in E; [|now destruct n].
        injection E as <- <-. destruct c; cbn; [do 3 eexists; reflexivity|exact I..].
    - intros s ts i c l s' l' _ IH E T j c0 l0 E0. cbn [ths] in *.
      rewrite nth_set_nth in E0 by (eapply nth_some_lt; eauto).
      destruct (Nat.eqb_spec i j) as [->|]; [|exact (IH _ _ _ E0)]. injection E0 as <- <-. specialize (IH _ _ _ E).
      destruct (ststep_cases _ _ _ _ _ _ _ _ T) as
        [(p & r & ups & pc & pc' & -> & -> & -> & W)|
         [(sm & p & mui & lt & pc & pc' & -> & -> & -> & W)|[-> [(p & pc & pc' & -> & -> & ->)|
          (p & m & iw & pc & pc' & -> & -> & ->)]]]]; eauto. }
  unfold new_routes, inserting_now, cnt.
  assert (L : forall ts, (forall c l, In (c, l) ts -> match l with LIns _ => exists p r ups, c = CInsert p r ups | _ => True end) ->
    (length (filter (fun t => new_route (ret_of (snd t))) ts) <= length (filter routed ts) <=
     length (filter (fun t => new_route (ret_of (snd t))) ts) + length (filter inserting ts))%nat).
  { induction ts as [|[c l] ts IH]; intros H; [simpl; lia|].
    assert (IH' : (length (filter (fun t => new_route (ret_of (snd t))) ts) <= length (filter routed ts) <=
     length (filter (fun t => new_route (ret_of (snd t))) ts) + length (filter inserting ts))%nat)
      by (apply IH; intros; apply H; now right).
    specialize (H c l (or_introl eq_refl)). cbn [filter].
    destruct l as [pc|pc|pc|pc]; try (destruct pc; cbn; try lia; fail).
    - destruct H as (p & r & ups & ->). destruct pc; try (cbn; lia).
      + cbn. destruct (rp_mui_new rep); cbn; lia.
      + cbn. destruct r0; cbn; try lia. destruct (rp_mui_new a); cbn; lia.
    - destruct c, pc; cbn; lia.
    - destruct c, pc; cbn; lia.
    - destruct c, pc; cbn; lia. }
  specialize (L (ths x)). assert (K : forall c l, In (c, l) (ths x) ->
     match l with LIns _ => exists p r ups, c = CInsert p r ups | _ => True end).
  { intros c l I. destruct (In_nth_error _ _ I) as [i E]. exact (T _ _ _ E). }
  specialize (L K). lia.
Qed.

Lemma conc_routes_idle f ov st x : reach f ov st x -> idle x ->
  uc_total (rib_routes_count (ss_rib (sh x))) = new_routes x.
Proof. intros A B. pose proof (conc_routes f ov st x A). rewrite (idle_inserting x B) in *. lia. Qed.
