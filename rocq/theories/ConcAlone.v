(* A call that runs with no step of another in between: the steps of ConcTree.v
   and ConcStore.v one after the other are the functions of Tree.v, PrefixCht.v
   and Rib.v. *)
From Coq Require Import Arith NArith List Bool Lia.
From Verif Require Import Word Af BitSpan Maps ChtMath Cht Node Tree MultiMap PrefixCht Lsm Rib
  Conc ConcTree ConcStore.
Import ListNotations.
Local Open Scope N_scope.

Inductive star {A} (g : A -> option A) : A -> A -> Prop :=
| star_refl x : star g x x
| star_step x y z : g x = Some y -> star g y z -> star g x z.

Lemma star_trans {A} (g : A -> option A) x y z : star g x y -> star g y z -> star g x z.
Proof. induction 1; intros H1; [easy|]. eapply star_step; eauto. Qed.
Lemma star_one {A} (g : A -> option A) x y : g x = Some y -> star g x y.
Proof. intros E. eapply star_step; [exact E|apply star_refl]. Qed.
Lemma star_map {A B} (g : A -> option A) (g' : B -> option B) (u : A -> B) :
  (forall x y, g x = Some y -> g' (u x) = Some (u y)) -> forall x y, star g x y -> star g' (u x) (u y).
Proof. intros H x y S. induction S; [apply star_refl|]. eapply star_step; eauto. Qed.

Lemma update_lookup {K V} `{EqB K} (k : K) (v : V) m : lookup k m = Some v -> update k v m = m.
Proof.
  induction m as [|[k' v'] m IH]; simpl; [discriminate|]. destruct (eqb k k') eqn:E.
  - intros X. injection X as ->. apply eqb_eq in E. now subst.
  - intros X. now rewrite IH.
Qed.
Lemma modify_lookup {V} k (g : V -> V) h e : lookup k h = Some e -> modify k g h = update k (set_val e (g (e_val e))) h.
Proof. intros L. unfold modify. now rewrite L. Qed.
Lemma modify_update {V} k (g : V -> V) h e : modify k g (update k e h) = update k (set_val e (g (e_val e))) h.
Proof. unfold modify. now rewrite lookup_update_same, update_update. Qed.
Lemma deref_lookup {V} k (h : heap V) e : lookup k h = Some e -> deref k h = Ok (e_val e).
Proof. intros L. unfold deref. now rewrite L. Qed.

Ltac bd E := match type of E with bind ?r _ = Ok _ => destruct r eqn:?; cbn [bind] in E; [|discriminate E..] end.

(* ---------- the chains of the tree ---------- *)

Definition gr (f : af) (id : pid) (mui : N) (x : heap nodeval * rout) : option (heap nodeval * rout) :=
  match snd x with
  | RMore r => match rstep f id mui (fst x) r with Ok y => Some y | _ => None end
  | _ => None
  end.
Definition gs (f : af) (id : pid) (mui : N) (x : heap nodeval * sout) : option (heap nodeval * sout) :=
  match snd x with
  | SMore s => match sstep f id mui node_new (fst x) s with Ok y => Some y | _ => None end
  | _ => None
  end.

Lemma slot_get_lookup {V} (h : heap V) b path slots index e :
  slot_get h b path slots index = Some e -> lookup (b, path ++ [index]) h = Some e.
Proof. unfold slot_get. destruct (index <? slots); [easy|discriminate]. Qed.
Lemma slot_init_vacant {V} (h : heap V) b path slots index mk h1 e u :
  slot_get h b path slots index = None -> slot_get_or_init h b path slots index mk = Ok (h1, e, u) ->
  h1 = update (b, path ++ [index]) mk h /\ e = mk /\ u = true.
Proof.
  unfold slot_get, slot_get_or_init. destruct (index <? slots); [|discriminate]. intros ->.
  intros X. now injection X as <- <- <-.
Qed.

Lemma retrieve_alone f id mui : forall fuel h b path slots level h' o,
  retrieve_node_mut_loop fuel f h id mui b path slots level = Ok (h', o) ->
  star (gr f id mui) (h, RMore (RGet (Walk b path slots level)))
    (h', match o with Some (k, _) => RFound k | None => RNone end) /\
  (forall k e, o = Some (k, e) -> lookup k h' = Some e).
Proof.
  induction fuel as [|fuel IH]; intros h b path slots level h' o E; [discriminate|].
  cbn [retrieve_node_mut_loop] in E. bd E. rename a into index, Heqr into Hi.
  destruct (slot_get h b path slots index) as [e|] eqn:Sg.
  - cbn [bind] in E. destruct (pid_eqb id (e_id e)) eqn:Q.
    + injection E as <- <-. split.
      * eapply star_step.
        { unfold gr. cbn [fst snd rstep w_level w_b w_path w_slots]. rewrite Hi. cbn [bind]. rewrite Sg.
          unfold rcheck. rewrite Q. cbn [bind]. reflexivity. }
        eapply star_step; [unfold gr; cbn [fst snd rstep]; reflexivity|].
        unfold wkey. cbn [w_b w_path].
        rewrite (modify_lookup _ _ _ e) by (eapply slot_get_lookup; eauto). apply star_refl.
      * intros k e' X. injection X as <- <-. apply lookup_update_same.
    + bd E. rename a into level'. bd E. rename a into size. destruct (0 <? size) eqn:Z.
      * destruct (IH _ _ _ _ _ _ _ E) as [A B]. split; [|exact B]. eapply star_step; [|exact A].
        unfold gr. cbn [fst snd rstep w_level w_b w_path w_slots]. rewrite Hi. cbn [bind]. rewrite Sg.
        unfold rcheck. rewrite Q. cbn [w_level w_b w_path]. rewrite Heqr. cbn [bind]. rewrite Heqr0. cbn [bind].
        rewrite Z. reflexivity.
      * injection E as <- <-. split; [|discriminate]. apply star_one.
        unfold gr. cbn [fst snd rstep w_level w_b w_path w_slots]. rewrite Hi. cbn [bind]. rewrite Sg.
        unfold rcheck. rewrite Q. cbn [w_level w_b w_path]. rewrite Heqr. cbn [bind]. rewrite Heqr0. cbn [bind].
        rewrite Z. reflexivity.
  - bd E. destruct a as [h1 e]. bd Heqr. rename a into l1. bd Heqr. rename a into nl. bd Heqr.
    destruct a as [[h2 e2] u]. injection Heqr as -> ->.
    destruct (slot_init_vacant _ _ _ _ _ _ _ _ _ Sg Heqr2) as (-> & -> & ->).
    cbn [e_id e_val] in E. rewrite pid_eqb_refl in E. injection E as <- <-. split.
    + eapply star_step.
      { unfold gr. cbn [fst snd rstep w_level w_b w_path w_slots]. rewrite Hi. cbn [bind]. rewrite Sg. reflexivity. }
      eapply star_step.
      { unfold gr. cbn [fst snd rstep w_level w_b w_path w_slots]. rewrite Hi. cbn [bind]. rewrite Heqr0. cbn [bind].
        rewrite Heqr1. cbn [bind]. rewrite Heqr2. cbn [bind]. unfold rcheck. cbn [e_id]. rewrite pid_eqb_refl.
        cbn [bind]. reflexivity. }
      eapply star_step; [unfold gr; cbn [fst snd rstep]; reflexivity|].
      unfold wkey. cbn [w_b w_path]. rewrite modify_update, update_update. apply star_refl.
    + intros k e' X. injection X as <- <-. apply lookup_update_same.
Qed.

Lemma store_alone f id mui : forall fuel h b path slots level h' o,
  store_node_loop fuel f h id mui node_new b path slots level = Ok (h', o) ->
  star (gs f id mui) (h, SMore (SGet (Walk b path slots level))) (h', SDone o) /\
  (forall x n, o = Some (x, n) -> n = 0).
Proof.
  induction fuel as [|fuel IH]; intros h b path slots level h' o E; [discriminate|].
  cbn [store_node_loop] in E. bd E. rename a into index, Heqr into Hi.
  destruct (slot_get h b path slots index) as [e|] eqn:Sg.
  - destruct (pid_eqb id (e_id e)) eqn:Q.
    + cbn [node_new nv_ptr nv_pfx N.eqb] in E. injection E as <- <-. split; [|intros ? ? X; now injection X as <- <-].
      eapply star_step.
      { unfold gs. cbn [fst snd sstep w_level w_b w_path w_slots]. rewrite Hi. cbn [bind]. rewrite Sg, Q. reflexivity. }
      eapply star_step; [unfold gs; cbn [fst snd sstep]; reflexivity|].
      unfold wkey. cbn [w_b w_path].
      rewrite (modify_lookup _ _ _ e) by (eapply slot_get_lookup; eauto). apply star_refl.
    + bd E. rename a into level'. bd E. rename a into size. destruct (0 <? size) eqn:Z.
      * destruct (IH _ _ _ _ _ _ _ E) as [A B]. split; [|exact B]. eapply star_step; [|exact A].
        unfold gs. cbn [fst snd sstep w_level w_b w_path w_slots]. rewrite Hi. cbn [bind]. rewrite Sg, Q.
        rewrite Heqr. cbn [bind]. rewrite Heqr0. cbn [bind]. rewrite Z. reflexivity.
      * injection E as <- <-. split; [|discriminate]. apply star_one.
        unfold gs. cbn [fst snd sstep w_level w_b w_path w_slots]. rewrite Hi. cbn [bind]. rewrite Sg, Q.
        rewrite Heqr. cbn [bind]. rewrite Heqr0. cbn [bind]. rewrite Z. reflexivity.
  - bd E. rename a into l1. bd E. rename a into nl. bd E. destruct a as [[h2 e2] u].
    destruct (slot_init_vacant _ _ _ _ _ _ _ _ _ Sg Heqr1) as (-> & -> & ->).
    cbn [e_id e_val] in E. rewrite pid_eqb_refl in E.
    cbn [negb andb N.add] in E. injection E as <- <-. split; [|intros ? ? X; now injection X as <- <-].
    eapply star_step.
    { unfold gs. cbn [fst snd sstep w_level w_b w_path w_slots]. rewrite Hi. cbn [bind]. rewrite Sg. reflexivity. }
    eapply star_step.
    { unfold gs. cbn [fst snd sstep w_level w_b w_path w_slots]. rewrite Hi. cbn [bind]. rewrite Heqr. cbn [bind].
      rewrite Heqr0. cbn [bind]. rewrite Heqr1. cbn [bind]. cbn [e_id]. rewrite pid_eqb_refl.
      cbn [bind length N.of_nat]. reflexivity. }
    eapply star_step; [unfold gs; cbn [fst snd sstep]; reflexivity|].
    unfold wkey. cbn [w_b w_path]. rewrite modify_update, update_update. apply star_refl.
Qed.

(* ---------- set_prefix_exists ---------- *)

Definition gt (f : af) (ov : bool) (p : pid) (mui : N) (x : tree * tpc) : option (tree * tpc) :=
  match snd x with
  | TDone _ | TPanic => None
  | pc => match tstep f ov p mui (fst x) pc with Ok y => Some y | _ => None end
  end.

Lemma gt_tnext f ov p mui t pc t' pc' : gt f ov p mui (t, pc) = Some (t', pc') ->
  tnext f ov p mui t pc = (t', pc') /\ match pc with TDone _ | TPanic => False | _ => True end.
Proof.
  unfold gt, tnext. cbn [fst snd]. destruct pc; try discriminate;
    (destruct (tstep _ _ _ _ _ _); [|discriminate..]; intros E; injection E as ->; split; [reflexivity|exact I]).
Qed.

Lemma retrieve_turn f ov p mui fr t h h' o :
  star (gr f (fr_cur fr) mui) (h, RMore o) h' ->
  star (gt f ov p mui) (set_heap t h, TNode fr o)
    (set_heap t (fst h'), match snd h' with
      | RMore r' => TNode fr r' | RFound k => TLoadPtr fr k
      | RNone => TDone (RErr NodeCreationMaxRetryError) end).
Proof.
  intros S. pose (u := fun x : heap nodeval * rout => (set_heap t (fst x), match snd x with
      | RMore r' => TNode fr r' | RFound k => TLoadPtr fr k
      | RNone => TDone (RErr NodeCreationMaxRetryError) end)).
  apply (star_map (gr f (fr_cur fr) mui) (gt f ov p mui) u) in S; [exact S|].
  intros [h0 o0] [h1 o1] E. unfold gr in E. cbn [fst snd] in E. destruct o0 as [r| |]; [|discriminate..].
  destruct (rstep f (fr_cur fr) mui h0 r) as [y| |] eqn:R; [|discriminate..]. injection E as ->.
  unfold u, gt. cbn [fst snd tstep set_heap t_heap]. rewrite R. cbn [bind]. destruct o1; reflexivity.
Qed.

Lemma retrieve_default f ov p mui b t h h' o :
  star (gr f root_node_id mui) (h, RMore o) h' ->
  star (gt f ov p mui) (set_heap t h, TDefault b o)
    (set_heap t (fst h'), match snd h' with
      | RMore r' => TDefault b r' | RFound _ => TDone (ROk (0, b))
      | RNone => TDone (RErr StoreNotReadyError) end).
Proof.
  intros S. pose (u := fun x : heap nodeval * rout => (set_heap t (fst x), match snd x with
      | RMore r' => TDefault b r' | RFound _ => TDone (ROk (0, b))
      | RNone => TDone (RErr StoreNotReadyError) end)).
  apply (star_map (gr f root_node_id mui) (gt f ov p mui) u) in S; [exact S|].
  intros [h0 o0] [h1 o1] E. unfold gr in E. cbn [fst snd] in E. destruct o0 as [r| |]; [|discriminate..].
  destruct (rstep f root_node_id mui h0 r) as [y| |] eqn:R; [|discriminate..]. injection E as ->.
  unfold u, gt. cbn [fst snd tstep set_heap t_heap]. rewrite R. cbn [bind]. destruct o1; reflexivity.
Qed.

Lemma store_turn f ov p mui fr rc id t h h' o : new_id f p fr = Ok id ->
  star (gs f id mui) (h, SMore o) h' ->
  star (gt f ov p mui) (set_heap t h, TStore fr rc node_new o)
    (set_heap t (fst h'), match snd h' with
        | SMore s' => TStore fr rc node_new s'
        | SDone (Some (node_id, s_retry)) => or_panic (go_on f ov p fr node_id s_retry rc)
        | SDone None => or_panic (next_turn f p (fr_end fr) (fr_cur fr) (fr_acc fr))
        end).
Proof.
  intros Id S. pose (u := fun x : heap nodeval * sout => (set_heap t (fst x), match snd x with
        | SMore s' => TStore fr rc node_new s'
        | SDone (Some (node_id, s_retry)) => or_panic (go_on f ov p fr node_id s_retry rc)
        | SDone None => or_panic (next_turn f p (fr_end fr) (fr_cur fr) (fr_acc fr))
        end)).
  apply (star_map (gs f id mui) (gt f ov p mui) u) in S; [exact S|].
  intros [h0 o0] [h1 o1] E. unfold gs in E. cbn [fst snd] in E. destruct o0 as [r|]; [|discriminate..].
  destruct (sstep f id mui node_new h0 r) as [y| |] eqn:R; [|discriminate..]. injection E as ->.
  unfold u, gt. cbn [fst snd tstep set_heap t_heap]. rewrite Id. cbn [bind]. rewrite R. cbn [bind].
  destruct o1; reflexivity.
Qed.

Lemma add32_0 ov a : add32 ov 0 a = if a <? 2 ^ 32 then Ok a else if ov then Panic else Ok (a mod 2 ^ 32).
Proof. reflexivity. Qed.
Lemma add32_00 ov : add32 ov 0 0 = Ok 0.
Proof. reflexivity. Qed.

Lemma loop_alone f ov p mui w d : forall fuel h cnt se cur h' cnt' o,
  set_prefix_exists_loop fuel f h cnt p mui se cur 0 = Ok (h', cnt', o) ->
  exists pc, next_turn f p se cur 0 = Ok pc /\
    star (gt f ov p mui) (Tree h w cnt d, pc) (Tree h' w cnt' d, TDone o).
Proof.
  induction fuel as [|fuel IH]; intros h cnt se cur h' cnt' o E; [discriminate|].
  cbn [set_prefix_exists_loop] in E. unfold next_turn.
  bd E. rename a into se'. bd E. rename a into nl. cbn [bind].
  bd E. rename a into ss. bd E. rename a into bs. bd E. destruct a as [h1 o1]. cbn [bind].
  unfold retrieve_node_mut in Heqr3. bd Heqr3. rename a into b.
  unfold walk_start. rewrite Heqr4. cbn [bind].
  rewrite Heqr0. cbn [bind]. rewrite Heqr2. cbn [bind].
  eexists; split; [reflexivity|].
  set (fr := Frame se' ss bs (p_len p <=? se') cur 0) in *.
  destruct (retrieve_alone _ _ _ _ _ _ _ _ _ _ _ Heqr3) as [S L].
  apply (retrieve_turn f ov p mui fr (Tree h w cnt d)) in S.
  unfold set_heap in S. cbn [t_heap t_withdrawn t_nodes t_default fst snd] in S.
  eapply star_trans; [exact S|]. clear S.
  destruct o1 as [[k e]|]; [|injection E as <- <- <-; apply star_refl].
  specialize (L _ _ eq_refl). bd E. destruct a as [ev v']. rename Heqr5 into Ev.
  pose proof (deref_lookup _ _ _ L) as De.
  eapply star_step; [unfold gt; cbn [fst snd tstep t_heap]; rewrite De; cbn [bind]; reflexivity|].
  unfold eval_node_or_prefix_at in Ev. bd Ev. rename a into bp, Heqr5 into Bp.
  assert (Bf : into_bit_pos (fr_bs fr) = Ok bp) by exact Bp.
  destruct (negb (p_len p <=? se')) eqn:Last.
  - eapply star_step.
    { unfold gt. cbn [fst snd tstep t_heap]. rewrite De. cbn [bind]. rewrite Bf. cbn [bind].
      unfold fr at 1. cbn [fr_last]. rewrite Last. reflexivity. }
    destruct (N.land (as_stride_size (nv_ptr (e_val e))) bp =? 0) eqn:Z.
    + injection Ev as <- <-.
      eapply star_step.
      { unfold gt. cbn [fst snd tstep t_heap]. rewrite De. cbn [bind]. rewrite Bf. cbn [bind]. rewrite Z. reflexivity. }
      eapply star_step.
      { unfold gt. cbn [fst snd tstep t_heap]. rewrite De. cbn [bind]. rewrite Bf. cbn [bind].
        rewrite N.eqb_refl. unfold set_heap. cbn [t_heap t_withdrawn t_nodes t_default].
        rewrite (modify_lookup _ _ _ e L). reflexivity. }
      unfold set_arr. bd E. rename a into l. bd E. destruct a as [h3 o2].
      unfold store_node in Heqr6. bd Heqr6. rename a into b2.
      assert (Id : new_id f p fr = Ok (new_with_cleaned_id f (p_bits p) l)).
      { unfold new_id, fr. cbn [fr_start fr_bs]. rewrite Heqr5. reflexivity. }
      eapply star_step.
      { unfold gt. cbn [fst snd tstep t_heap t_withdrawn t_nodes t_default]. rewrite Id. cbn [bind].
        unfold walk_start. rewrite Heqr7. cbn [bind]. reflexivity. }
      destruct (store_alone _ _ _ _ _ _ _ _ _ _ _ Heqr6) as [S N0].
      match goal with |- star _ (Tree ?hh w (cnt + 1) d, _) _ =>
        apply (store_turn f ov p mui fr 0 _ (Tree hh w (cnt + 1) d) _ _ _ Id) in S end.
      unfold set_heap in S. cbn [t_heap t_withdrawn t_nodes t_default fst snd] in S.
      eapply star_trans; [exact S|]. clear S.
      destruct o2 as [[nid sr]|].
      * specialize (N0 _ _ eq_refl). subst sr. destruct (IH _ _ _ _ _ _ _ E) as (pc & A & B).
        unfold go_on, fr. cbn [fr_acc fr_end]. rewrite !add32_00. cbn [bind]. rewrite add32_00. cbn [bind].
        rewrite add32_00. cbn [bind]. rewrite A. exact B.
      * destruct (IH _ _ _ _ _ _ _ E) as (pc & A & B). unfold fr. cbn [fr_acc fr_end fr_cur]. rewrite A. exact B.
    + bd Ev. rename a into nid. injection Ev as <- <-.
      replace (set_val e (e_val e)) with e in E by (now destruct e).
      rewrite (update_lookup _ _ _ L) in E.
      destruct (IH _ _ _ _ _ _ _ E) as (pc & A & B).
      eapply star_step; [|exact B].
      unfold gt. cbn [fst snd tstep t_heap]. rewrite De. cbn [bind]. rewrite Bf. cbn [bind]. rewrite Z.
      unfold fr. cbn [fr_start]. rewrite Heqr5. cbn [bind]. unfold go_on. cbn [fr_acc fr_end].
      rewrite !add32_00. cbn [bind]. rewrite add32_00. cbn [bind]. rewrite add32_00. cbn [bind].
      rewrite A. reflexivity.
  - destruct (N.land (nv_pfx (e_val e)) bp =? 0) eqn:Z; injection Ev as <- <-; injection E as <- <- <-.
    + eapply star_step.
      { unfold gt. cbn [fst snd tstep t_heap]. rewrite De. cbn [bind]. rewrite Bf. cbn [bind].
        unfold fr at 1. cbn [fr_last]. rewrite Last, Z. reflexivity. }
      eapply star_one.
      unfold gt. cbn [fst snd tstep t_heap]. rewrite De. cbn [bind]. rewrite Bf. cbn [bind].
      rewrite N.eqb_refl. unfold set_heap. cbn [t_heap t_withdrawn t_nodes t_default].
      rewrite (modify_lookup _ _ _ e L). unfold finish, fr. cbn [fr_acc]. rewrite add32_00. reflexivity.
    + replace (set_val e (e_val e)) with e by (now destruct e).
      rewrite (update_lookup _ _ _ L). apply star_one.
      unfold gt. cbn [fst snd tstep t_heap]. rewrite De. cbn [bind]. rewrite Bf. cbn [bind].
      unfold fr. cbn [fr_last]. rewrite Last, Z. unfold finish. cbn [fr_acc]. rewrite add32_00. reflexivity.
Qed.

Lemma exists_alone f ov t p mui t' o : set_prefix_exists f t p mui = Ok (t', o) ->
  star (gt f ov p mui) (t, TStart) (t', TDone o).
Proof.
  unfold set_prefix_exists. destruct t as [h w cnt d]. cbn [t_heap t_withdrawn t_nodes t_default].
  destruct (p_len p =? 0) eqn:Z; intros E.
  - unfold update_default_route_prefix_meta in E. bd E. destruct a as [h1 ok]. injection E as <- <-.
    bd Heqr. destruct a as [h2 o2]. injection Heqr as <- <-. unfold retrieve_node_mut in Heqr0. bd Heqr0. rename a into b.
    eapply star_step.
    { unfold gt. cbn [fst snd tstep t_heap t_withdrawn t_nodes t_default]. rewrite Z. unfold walk_start.
      rewrite Heqr. cbn [bind]. reflexivity. }
    destruct (retrieve_alone _ _ _ _ _ _ _ _ _ _ _ Heqr0) as [S L].
    apply (retrieve_default f ov p mui d (Tree h w cnt true)) in S.
    unfold set_heap in S. cbn [t_heap t_withdrawn t_nodes t_default fst snd] in S. rewrite negb_involutive.
    destruct o2 as [[k e]|]; exact S.
  - bd E. destruct a as [[h1 c1] r]. injection E as <- <-.
    destruct (loop_alone f ov p mui w d _ _ _ _ _ _ _ _ Heqr) as (pc & A & B).
    eapply star_step; [|exact B].
    unfold gt. cbn [fst snd tstep]. rewrite Z, A. reflexivity.
Qed.

(* ---------- the table of prefixes ---------- *)

Definition gp (f : af) (id : pid) (x : heap pval * pout) : option (heap pval * pout) :=
  match snd x with
  | PMore q => match pstep f id (fst x) q with Ok y => Some y | _ => None end
  | _ => None
  end.

Lemma prefix_alone f id : forall fuel h b path slots level h' k e found,
  retrieve_prefix_mut_loop fuel f h id b path slots level = Ok (h', k, e, found) ->
  star (gp f id) (h, PMore (PGet (Walk b path slots level))) (h', PFound k found) /\
  lookup k h' = Some e /\ e_id e = id.
Proof.
  induction fuel as [|fuel IH]; intros h b path slots level h' k e found E; [discriminate|].
  cbn [retrieve_prefix_mut_loop] in E. bd E. rename a into index, Heqr into Hi.
  destruct (slot_get h b path slots index) as [e0|] eqn:Sg.
  - cbn [bind] in E. destruct (pid_eqb id (e_id e0)) eqn:Q.
    + injection E as <- <- <- <-. split.
      * apply star_one. unfold gp. cbn [fst snd pstep w_level w_b w_path w_slots]. rewrite Hi. cbn [bind]. rewrite Sg.
        unfold pcheck. rewrite Q. reflexivity.
      * apply pid_eqb_spec in Q. split; [|easy]. eapply slot_get_lookup; eauto.
    + bd E. rename a into level'. destruct (IH _ _ _ _ _ _ _ _ _ E) as [A B]. split; [|exact B].
      eapply star_step; [|exact A].
      unfold gp. cbn [fst snd pstep w_level w_b w_path w_slots]. rewrite Hi. cbn [bind]. rewrite Sg.
      unfold pcheck. rewrite Q. cbn [w_level w_b w_path]. rewrite Heqr. reflexivity.
  - bd E. destruct a as [[h1 e1] fo]. bd Heqr. bd Heqr. rename a0 into nl. bd Heqr.
    destruct a0 as [[h2 e2] u]. injection Heqr as -> -> <-.
    destruct (slot_init_vacant _ _ _ _ _ _ _ _ _ Sg Heqr2) as (-> & -> & ->).
    cbn [e_id e_val] in E. rewrite pid_eqb_refl in E. injection E as <- <- <- <-. split.
    + eapply star_step.
      { unfold gp. cbn [fst snd pstep w_level w_b w_path w_slots]. rewrite Hi. cbn [bind]. rewrite Sg. reflexivity. }
      eapply star_one.
      unfold gp. cbn [fst snd pstep w_level w_b w_path w_slots]. rewrite Hi. cbn [bind]. rewrite Heqr0. cbn [bind].
      rewrite Heqr1. cbn [bind]. rewrite Heqr2. cbn [bind]. unfold pcheck. cbn [e_id]. rewrite pid_eqb_refl. reflexivity.
    + split; [|easy]. apply lookup_update_same.
Qed.

(* ---------- insert ---------- *)

Definition gi (f : af) (ov : bool) (i : nat) (p : pid) (r : record) (ups : option tbi)
    (x : sstate * ipc) : option (sstate * ipc) := istep f ov i (fst x) p r ups (snd x).

Definition tdone (pc : tpc) : bool := match pc with TDone _ | TPanic => true | _ => false end.

Lemma gt_done f ov p mui t pc y : gt f ov p mui (t, pc) = Some y -> tdone pc = false.
Proof. unfold gt. cbn [snd]. destruct pc; easy. Qed.
Lemma star_done f ov p mui t pc x : tdone pc = true -> star (gt f ov p mui) (t, pc) x -> x = (t, pc).
Proof.
  intros D S. inversion S as [|? y ? G]; subst; [easy|]. destruct y. apply gt_done in G. congruence.
Qed.

Definition to_ins (f : af) (rb : rib) (p : pid) (pc : tpc) : ipc :=
  match pc with
  | TDone (ROk b) => or_ipanic (begin_upsert f rb p b)
  | TDone (RErr e) => IDone (RErr e)
  | TPanic => IPanic
  | _ => ITree pc
  end.

Lemma begin_tree f rb t p b : begin_upsert f (set_tree rb t) p b = begin_upsert f rb p b.
Proof. reflexivity. Qed.
Lemma set_tree_twice rb t t' : set_tree (set_tree rb t) t' = set_tree rb t'.
Proof. reflexivity. Qed.
Lemma to_ins_tree f rb t p pc : to_ins f (set_tree rb t) p pc = to_ins f rb p pc.
Proof. reflexivity. Qed.

Lemma tree_first f ov i p r ups x y : star (gt f ov p (r_mui r)) x y ->
  forall s, rb_tree (ss_rib s) = fst x -> tdone (snd x) = false ->
  exists s', ss_rib s' = set_tree (ss_rib s) (fst y) /\
    star (gi f ov i p r ups) (s, ITree (snd x)) (s', to_ins f (ss_rib s) p (snd y)).
Proof.
  induction 1 as [[t pc]|[t pc] [t1 pc1] [t2 pc2] G S IH]; intros s T D; cbn [fst snd] in *.
  - exists s. split; [destruct s as [[]]; cbn in *; now subst|].
    destruct pc; try discriminate D; apply star_refl.
  - destruct (gt_tnext _ _ _ _ _ _ _ _ G) as [Tn _].
    pose (s1 := SState (set_tree (ss_rib s) t1) (ss_ver s) (ss_log s)
                (note_made i pc pc1 (ss_made s)) (ss_counted s)).
    assert (St : gi f ov i p r ups (s, ITree pc) = Some (s1, to_ins f (ss_rib s) p pc1)).
    { unfold gi. cbn [fst snd istep]. rewrite T, Tn. reflexivity. }
    destruct (tdone pc1) eqn:D1.
    + apply (star_done _ _ _ _ _ _ _ D1) in S. injection S as -> ->.
      exists s1. split; [reflexivity|]. now apply star_one.
    + destruct (IH s1 eq_refl eq_refl) as (s' & A & B).
      exists s'. split; [rewrite A; reflexivity|]. eapply star_step; [exact St|].
      replace (to_ins f (ss_rib s) p pc1) with (ITree pc1) by (now destruct pc1). exact B.
Qed.

Definition to_ins2 (b : N * bool) (pc : tpc) : ipc :=
  match pc with
  | TDone (ROk b2) => IShort b b2
  | TDone (RErr e) => IDone (RErr e)
  | TPanic => IPanic
  | _ => ITree2 b pc
  end.

Lemma tree_second f ov i p r ups b x y : star (gt f ov p (r_mui r)) x y ->
  forall s, rb_tree (ss_rib s) = fst x -> tdone (snd x) = false ->
  star (gi f ov i p r ups) (s, ITree2 b (snd x)) (set_rib s (set_tree (ss_rib s) (fst y)), to_ins2 b (snd y)).
Proof.
  induction 1 as [[t pc]|[t pc] [t1 pc1] [t2 pc2] G S IH]; intros s T D; cbn [fst snd] in *.
  - replace (set_rib s (set_tree (ss_rib s) t)) with s by (destruct s as [[]]; cbn in *; now subst).
    destruct pc; try discriminate D; apply star_refl.
  - destruct (gt_tnext _ _ _ _ _ _ _ _ G) as [Tn _].
    assert (St : gi f ov i p r ups (s, ITree2 b pc) = Some (set_rib s (set_tree (ss_rib s) t1), to_ins2 b pc1)).
    { unfold gi. cbn [fst snd istep]. rewrite T, Tn. reflexivity. }
    eapply star_step; [exact St|].
    destruct (tdone pc1) eqn:D1.
    + apply (star_done _ _ _ _ _ _ _ D1) in S. injection S as -> ->. apply star_refl.
    + specialize (IH (set_rib s (set_tree (ss_rib s) t1)) eq_refl eq_refl).
      replace (to_ins2 b pc1) with (ITree2 b pc1) by (now destruct pc1). exact IH.
Qed.

Definition to_walk (b : N * bool) (o : pout) : ipc :=
  match o with PMore q => IWalk b q | PFound k true => IOutdate b k | PFound k false => IUpsert b k false end.

Lemma walk_ins f ov i p r ups b x y : star (gp f p) x y ->
  forall s q, pheap s = fst x -> snd x = PMore q ->
  star (gi f ov i p r ups) (s, IWalk b q) (set_rib s (set_pheap (ss_rib s) (fst y)), to_walk b (snd y)).
Proof.
  induction 1 as [[h o]|[h o] [h1 o1] [h2 o2] G S IH]; intros s q T D; cbn [fst snd] in *; subst o.
  - replace (set_rib s (set_pheap (ss_rib s) h)) with s; [apply star_refl|].
    destruct s as [[? ? [] ? ?]]. unfold pheap in T. cbn in T. now subst.
  - unfold gp in G. cbn [fst snd] in G. destruct (pstep f p h q) as [z| |] eqn:P; [|discriminate..].
    injection G as ->.
    assert (St : gi f ov i p r ups (s, IWalk b q) = Some (set_rib s (set_pheap (ss_rib s) h1), to_walk b o1)).
    { unfold gi. cbn [fst snd istep]. rewrite T, P. destruct o1 as [?|? []]; reflexivity. }
    eapply star_step; [exact St|]. destruct o1 as [q1|k fo].
    + exact (IH (set_rib s (set_pheap (ss_rib s) h1)) q1 eq_refl eq_refl).
    + inversion S as [|? y ? G]; subst; [apply star_refl|]. discriminate G.
Qed.

Definition after_old (st : strategy) (b : N * bool) (rep : report) (old : option mmval) : ipc :=
  match st, old with
  | PersistHistory, Some o => IHist b rep o
  | _, _ => after_upsert b rep
  end.

Lemma after_cht_old st b o x y :
  after_cht st b o x y =
  after_old st b (Report 0 x y (match o with Some (_, n) => n | None => 1 end)) (option_map fst o).
Proof. unfold after_cht, after_old. destruct st, o as [[]|]; reflexivity. Qed.

Section Steps.
Variables (f : af) (ov : bool) (i : nat) (p : pid) (r : record) (ups : option tbi) (rb : rib).
Notation at_ h c s := (ss_rib s = set_pcht rb (PCht h c)).

Lemma pheap_at h c s : at_ h c s -> pheap s = h.
Proof. intros E. unfold pheap. now rewrite E. Qed.

Lemma step_outdate b k h c s e : at_ h c s -> lookup k h = Some e ->
  exists s', at_ (update k (set_val e (set_ps_outdated (e_val e))) h) c s' /\
    gi f ov i p r ups (s, IOutdate b k) = Some (s', IUpsert b k true).
Proof.
  intros A L. pose proof (pheap_at _ _ _ A) as P. unfold gi. cbn [fst snd istep].
  rewrite P, (modify_lookup _ _ _ e L), A. eexists. split; [|reflexivity]. reflexivity.
Qed.

Lemma step_upsert b k found h c s e m o : at_ h c s -> lookup k h = Some e ->
  upsert_record (pv_recs (e_val e)) r = (m, o) ->
  exists s', at_ (update k (set_val e (set_recs (e_val e) m)) h) c s' /\
    gi f ov i p r ups (s, IUpsert b k found) = Some (s', match o, found with
            | None, _ => IRoute b k found
            | Some _, false => after_cht (rb_strat rb) b o false false
            | Some _, true => after_count (rb_strat rb) ups b k o
            end).
Proof.
  intros A L U. pose proof (pheap_at _ _ _ A) as P. unfold gi. cbn [fst snd istep].
  rewrite P, (deref_lookup _ _ _ L), U, A. eexists. split; [|reflexivity].
  cbn [ss_rib add_log set_rib]. now rewrite (modify_lookup _ _ _ e L).
Qed.

Lemma step_route b k found h c s : at_ h c s ->
  exists s', at_ h (inc_routes_count c) s' /\
    gi f ov i p r ups (s, IRoute b k found) =
      Some (s', if found then after_count (rb_strat rb) ups b k None else IPrefix b).
Proof.
  intros A. unfold gi. cbn [fst snd istep]. rewrite A. eexists. split; [|reflexivity]. reflexivity.
Qed.

Lemma step_prefix b h c s : at_ h c s ->
  exists s', at_ h (inc_prefixes_count c (p_len p)) s' /\
    gi f ov i p r ups (s, IPrefix b) = Some (s', after_cht (rb_strat rb) b None true true).
Proof.
  intros A. unfold gi. cbn [fst snd istep]. rewrite A. eexists. split; [|reflexivity]. reflexivity.
Qed.

Lemma steps_select b k o h c s e t : ups = Some t -> at_ h c s -> lookup k h = Some e ->
  exists s', at_ (update k (set_val e (fst (calculate_and_store_best_backup (e_val e) t))) h) c s' /\
    star (gi f ov i p r ups) (s, IBest b k o) (s', after_cht (rb_strat rb) b o false true).
Proof.
  intros U A L. pose proof (pheap_at _ _ _ A) as P. pose proof (deref_lookup _ _ _ L) as De.
  unfold calculate_and_store_best_backup, set_path_selections. cbn [fst].
  set (sel := best_backup (pv_recs (e_val e)) t).
  assert (S1 : gi f ov i p r ups (s, IBest b k o) = Some (s, ILoadSel b k o sel)).
  { unfold gi. cbn [fst snd istep]. now rewrite P, De, U. }
  destruct (sel_eqb (pv_sel (e_val e)) sel) eqn:Q.
  - exists s. replace (set_val e (e_val e)) with e by (now destruct e). rewrite (update_lookup _ _ _ L).
    split; [exact A|]. eapply star_step; [exact S1|]. apply star_one.
    unfold gi. cbn [fst snd istep]. now rewrite P, De, Q, A.
  - eexists. split; [|eapply star_step; [exact S1|]; eapply star_step;
      [unfold gi; cbn [fst snd istep]; rewrite P, De, Q; reflexivity|]; apply star_one;
       unfold gi; cbn [fst snd istep]; rewrite P, De; cbn [fst snd];
       rewrite N.eqb_refl, Bool.eqb_reflx; cbn [andb]; rewrite A; reflexivity].
    cbn [ss_rib]. now rewrite (modify_lookup _ _ _ e L).
Qed.
End Steps.

Lemma upsert_alone f ov i p r ups b s c rep old w : walk_start f PSTRIDE p = Ok w ->
  pc_upsert_prefix f (rb_pcht (ss_rib s)) p r ups = Ok (c, (rep, old)) ->
  exists s', ss_rib s' = set_pcht (ss_rib s) c /\
    star (gi f ov i p r ups) (s, IWalk b (PGet w)) (s', after_old (rb_strat (ss_rib s)) b rep old).
Proof.
  intros Hw E. unfold pc_upsert_prefix in E. bd E. destruct a as [[[h1 k] e] found].
  unfold retrieve_prefix_mut in Heqr0. unfold walk_start in Hw. bd Heqr0. cbn [bind] in Hw. injection Hw as <-.
  destruct (prefix_alone _ _ _ _ _ _ _ _ _ _ _ _ Heqr0) as (S & L & Id).
  apply (walk_ins f ov i p r ups b _ _) with (s := s) (q := PGet (Walk a [] root_slots 0)) in S; [|reflexivity..].
  cbn [fst snd] in S. clear Heqr0 Heqr1.
  set (rb := ss_rib s) in *. set (c0 := pc_cnt (rb_pcht rb)) in *.
  pose (s0 := set_rib s (set_pheap rb h1)).
  assert (A0 : ss_rib s0 = set_pcht rb (PCht h1 c0)) by reflexivity. fold s0 in S.
  destruct found; cbn [negb to_walk] in E, S.
  - destruct (upsert_record (pv_recs (set_ps_outdated (e_val e))) r) as [m' o] eqn:U.
    injection E as <- <- <-.
    destruct (step_outdate f ov i p r ups rb b k h1 c0 s0 e A0 L) as (s1 & A1 & T1).
    set (e1 := set_val e (set_ps_outdated (e_val e))) in *.
    destruct (step_upsert f ov i p r ups rb b k true _ _ s1 e1 m' o A1 (lookup_update_same _ _ _) U) as (s2 & A2 & T2).
    rewrite update_update in A2. set (e2 := set_val e1 (set_recs (e_val e1) m')) in *.
    assert (Mid : exists s3, ss_rib s3 = set_pcht rb (PCht (update k e2 h1)
        (match o with None => inc_routes_count c0 | Some _ => c0 end)) /\
      star (gi f ov i p r ups) (s, IWalk b (PGet (Walk a [] root_slots 0)))
        (s3, after_count (rb_strat rb) ups b k o)).
    { destruct o as [x|].
      - exists s2. split; [exact A2|]. eapply star_trans; [exact S|]. eapply star_step; [exact T1|]. now apply star_one.
      - destruct (step_route f ov i p r ups rb b k true _ _ s2 A2) as (s3 & A3 & T3). exists s3.
        split; [exact A3|]. eapply star_trans; [exact S|]. eapply star_step; [exact T1|].
        eapply star_step; [exact T2|]. now apply star_one. }
    destruct Mid as (s3 & A3 & S3). unfold after_count in S3. destruct ups as [t|] eqn:Ups.
    + destruct (steps_select f ov i p r ups rb b k o _ _ s3 e2 t Ups A3 (lookup_update_same _ _ _)) as (s4 & A4 & S4).
      rewrite update_update in A4. exists s4. split; [exact A4|]. subst ups.
      eapply star_trans; [exact S3|]. rewrite <- after_cht_old. exact S4.
    + exists s3. split; [exact A3|]. rewrite <- after_cht_old. exact S3.
  - destruct (upsert_record (pv_recs (e_val e)) r) as [m' o] eqn:U.
    destruct (step_upsert f ov i p r ups rb b k false _ _ s0 e m' o A0 L U) as (s2 & A2 & T2).
    destruct o as [x|].
    + injection E as <- <- <-. exists s2. split; [exact A2|].
      eapply star_trans; [exact S|]. apply star_one. rewrite T2, after_cht_old. reflexivity.
    + injection E as <- <- <-. destruct (step_route f ov i p r ups rb b k false _ _ s2 A2) as (s3 & A3 & T3).
      destruct (step_prefix f ov i p r ups rb b _ _ s3 A3) as (s4 & A4 & T4).
      exists s4. split; [rewrite Id; exact A4|]. eapply star_trans; [exact S|].
      eapply star_step; [exact T2|]. eapply star_step; [exact T3|]. apply star_one.
      rewrite T4, after_cht_old. reflexivity.
Qed.

Definition finished (rb : rib) (p : pid) (b : N * bool) (rep : report) : rib :=
  let c1 := if rp_mui_new rep then inc_routes_count (rb_cnt rb) else rb_cnt rb in
  set_cnt rb (if snd b then c1 else inc_prefixes_count c1 (p_len p)).
Definition reported (b : N * bool) (rep : report) : report :=
  Report (rp_cas rep + fst b) (if snd b then rp_prefix_new rep else true) (rp_mui_new rep) (rp_mui_count rep).

Lemma count_alone f ov i p r ups b rep s :
  exists s', ss_rib s' = finished (ss_rib s) p b rep /\
    star (gi f ov i p r ups) (s, after_upsert b rep) (s', IDone (ROk (reported b rep))).
Proof.
  unfold after_upsert, finished, reported. destruct b as [n ex]. cbn [fst snd].
  assert (R : forall s1, exists s', ss_rib s' = set_cnt (ss_rib s1)
      (if ex then rb_cnt (ss_rib s1) else inc_prefixes_count (rb_cnt (ss_rib s1)) (p_len p)) /\
    star (gi f ov i p r ups) (s1, after_route (n, ex) rep)
      (s', IDone (ROk (Report (rp_cas rep + n) (if ex then rp_prefix_new rep else true) (rp_mui_new rep) (rp_mui_count rep))))).
  { intros s1. unfold after_route. cbn [fst snd]. destruct ex.
    - exists s1. split; [now destruct s1 as [[]]|apply star_refl].
    - eexists. split; [|apply star_one; unfold gi; cbn [fst snd istep]; reflexivity]. reflexivity. }
  destruct (rp_mui_new rep); [|exact (R s)].
  destruct (R (set_rib s (set_cnt (ss_rib s) (inc_routes_count (rb_cnt (ss_rib s)))))) as (s' & A & B).
  exists s'. split; [exact A|]. eapply star_step; [|exact B]. reflexivity.
Qed.

Lemma insert_alone f ov i p r ups s rb' v : rib_insert f (ss_rib s) p r ups = Ok (rb', v) ->
  exists s', ss_rib s' = rb' /\ star (gi f ov i p r ups) (s, ITree TStart) (s', IDone v).
Proof.
  intros E. unfold rib_insert in E. bd E. destruct a as [t o].
  pose proof (exists_alone f ov _ _ _ _ _ Heqr0) as S.
  destruct (tree_first f ov i p r ups _ _ S s eq_refl eq_refl) as (s1 & A1 & S1). cbn [fst snd] in A1, S1.
  destruct o as [[rc ex]|e]; cbn [to_ins] in S1.
  2:{ injection E as <- <-. exists s1. split; [exact A1|exact S1]. }
  bd E. destruct a as [rb2 o2]. unfold rib_upsert_prefix in Heqr1. cbn [rb_strat set_tree rb_lsm] in Heqr1.
  assert (Fin : forall s2 rep, ss_rib s2 = rb2 -> o2 = ROk rep ->
      star (gi f ov i p r ups) (s, ITree TStart) (s2, after_upsert (rc, ex) rep) ->
      exists s', ss_rib s' = rb' /\ star (gi f ov i p r ups) (s, ITree TStart) (s', IDone v)).
  { intros s2 rep A2 -> S2. injection E as <- <-.
    destruct (count_alone f ov i p r ups (rc, ex) rep s2) as (s3 & A3 & S3). exists s3.
    split; [rewrite A3, A2; reflexivity|]. eapply star_trans; [exact S2|exact S3]. }
  unfold begin_upsert in S1. 
  assert (K : forall s2 w c rep old, star (gi f ov i p r ups) (s, ITree TStart) (s2, IWalk (rc, ex) (PGet w)) ->
     walk_start f PSTRIDE p = Ok w ->
     pc_upsert_prefix f (rb_pcht (ss_rib s2)) p r ups = Ok (c, (rep, old)) ->
     exists s3, ss_rib s3 = set_pcht (ss_rib s2) c /\
       star (gi f ov i p r ups) (s, ITree TStart) (s3, after_old (rb_strat (ss_rib s2)) (rc, ex) rep old)).
  { intros s2 w c rep old S2 W U. destruct (upsert_alone f ov i p r ups (rc, ex) s2 c rep old w W U) as (s3 & A3 & S3).
    exists s3. split; [exact A3|]. eapply star_trans; eauto. }
  assert (W : forall c q, pc_upsert_prefix f c p r ups = Ok q -> exists w, walk_start f PSTRIDE p = Ok w).
  { intros c q U. unfold pc_upsert_prefix, retrieve_prefix_mut in U. unfold walk_start.
    destruct (root_for_len f PSTRIDE (p_len p)) as [b| |]; [|discriminate U..]. eexists. reflexivity. }
  destruct (rb_strat (ss_rib s)) eqn:St.
  - destruct (rb_lsm (ss_rib s)) as [l|] eqn:Ls.
    2:{ injection Heqr1 as <- <-. injection E as <- <-. exists s1. split; [exact A1|exact S1]. }
    bd Heqr1. destruct a as [c [rep old]]. injection Heqr1 as <- <-.
    destruct (W _ _ Heqr2) as [w Hw]. cbn [or_ipanic] in S1.
    pose (s2 := set_rib s1 (set_lsm (ss_rib s1) (persist_record_w_long_key f l p r))).
    destruct (K s2 w c rep old) as (s3 & A3 & S3).
    + eapply star_trans; [exact S1|]. apply star_one. unfold gi. cbn [fst snd istep]. rewrite A1.
      cbn [rb_lsm set_tree]. rewrite Ls. unfold s2. rewrite A1, Hw. reflexivity.
    + exact Hw.
    + unfold s2. cbn [ss_rib set_rib]. rewrite A1. exact Heqr2.
    + apply (Fin s3 rep); [|reflexivity|].
      * rewrite A3. unfold s2. cbn [ss_rib set_rib]. now rewrite A1.
      * replace (rb_strat (ss_rib s2)) with WriteAhead in S3; [exact S3|].
        unfold s2. cbn [ss_rib set_rib]. rewrite A1. cbn. now rewrite St.
  - bd Heqr1. destruct a as [c [rep old]]. injection Heqr1 as <- <-.
    destruct (W _ _ Heqr2) as [w Hw]. rewrite Hw in S1. cbn [bind or_ipanic] in S1.
    destruct (K s1 w c rep old S1 Hw) as (s3 & A3 & S3); [rewrite A1; exact Heqr2|].
    replace (rb_strat (ss_rib s1)) with PersistHistory in S3 by (rewrite A1; cbn; now rewrite St).
    cbn [after_old] in S3. destruct old as [o|].
    + eapply Fin; [|reflexivity|eapply star_trans; [exact S3|]; apply star_one; unfold gi; cbn [fst snd istep]; reflexivity].
      rewrite A3, A1. cbn [rb_lsm set_pcht set_tree]. destruct (rb_lsm (ss_rib s)) as [l|]; [reflexivity|].
      rewrite A3, A1. reflexivity.
    + apply (Fin s3 rep); [|reflexivity|exact S3]. rewrite A3, A1. reflexivity.
  - bd Heqr1. destruct a as [c [rep old]]. injection Heqr1 as <- <-.
    destruct (W _ _ Heqr2) as [w Hw]. rewrite Hw in S1. cbn [bind or_ipanic] in S1.
    destruct (K s1 w c rep old S1 Hw) as (s3 & A3 & S3); [rewrite A1; exact Heqr2|].
    replace (rb_strat (ss_rib s1)) with MemoryOnly in S3 by (rewrite A1; cbn; now rewrite St).
    apply (Fin s3 rep); [|reflexivity|exact S3]. rewrite A3, A1. reflexivity.
  - destruct (rb_lsm (ss_rib s)) as [l|] eqn:Ls.
    2:{ injection Heqr1 as <- <-. injection E as <- <-. exists s1. split; [exact A1|exact S1]. }
    bd Heqr1. destruct a as [t2 o]. cbn [rb_tree set_tree] in Heqr2. cbn [or_ipanic] in S1.
    pose proof (exists_alone f ov _ _ _ _ _ Heqr2) as S2.
    apply (tree_second f ov i p r ups (rc, ex) _ _) with (s := s1) in S2; [|cbn [fst]; now rewrite A1|reflexivity].
    cbn [fst snd] in S2.
    destruct o as [[rc2 ex2]|e]; cbn [to_ins2] in S2.
    + injection Heqr1 as <- <-.
      pose (s3 := set_rib s1 (set_tree (ss_rib s1) t2)).
      pose (s4 := set_rib s3 (set_lsm (ss_rib s3) (persist_record_w_short_key f l p r))).
      apply (Fin s4 (Report rc2 ex2 true 0)); [|reflexivity|].
      * unfold s4, s3. cbn [ss_rib set_rib]. rewrite A1. reflexivity.
      * eapply star_trans; [exact S1|]. eapply star_trans; [exact S2|]. apply star_one.
        unfold gi. cbn [fst snd istep ss_rib set_rib]. rewrite A1. cbn [rb_lsm set_tree]. rewrite Ls.
        unfold s4, s3. cbn [ss_rib set_rib]. rewrite A1. reflexivity.
    + injection Heqr1 as <- <-. injection E as <- <-.
      exists (set_rib s1 (set_tree (ss_rib s1) t2)). split; [cbn [ss_rib set_rib]; rewrite A1; reflexivity|].
      eapply star_trans; [exact S1|exact S2].
Qed.

(* ---------- the marks of one prefix ---------- *)

Definition rib_mark (f : af) (rb : rib) (sm : status) (p : pid) (mui lt : N) : res (rib * result unit) :=
  match sm with
  | Withdrawn => rib_mark_mui_as_withdrawn_for_prefix f rb p mui lt
  | _ => rib_mark_mui_as_active_for_prefix f rb p mui lt
  end.

Definition gk (f : af) (i : nat) (sm : status) (p : pid) (mui lt : N) (x : sstate * kpc) : option (sstate * kpc) :=
  kstep f i (fst x) sm p mui lt (snd x).

Definition to_mark (st : strategy) (sm : status) (o : pout) : kpc :=
  match o with PMore q => KWalk q | PFound k true => KMark k
  | PFound _ false => KDone (RErr (no_entry st sm)) end.

Lemma walk_mark f i sm p mui lt x y : star (gp f p) x y ->
  forall s q, pheap s = fst x -> snd x = PMore q ->
  star (gk f i sm p mui lt) (s, KWalk q)
    (set_rib s (set_pheap (ss_rib s) (fst y)), to_mark (rb_strat (ss_rib s)) sm (snd y)).
Proof.
  induction 1 as [[h o]|[h o] [h1 o1] [h2 o2] G S IH]; intros s q T D; cbn [fst snd] in *; subst o.
  - replace (set_rib s (set_pheap (ss_rib s) h)) with s; [apply star_refl|].
    destruct s as [[? ? [] ? ?]]. unfold pheap in T. cbn in T. now subst.
  - unfold gp in G. cbn [fst snd] in G. destruct (pstep f p h q) as [z| |] eqn:P; [|discriminate..].
    injection G as ->.
    assert (St : gk f i sm p mui lt (s, KWalk q) =
      Some (set_rib s (set_pheap (ss_rib s) h1), to_mark (rb_strat (ss_rib s)) sm o1)).
    { unfold gk. cbn [fst snd kstep]. rewrite T, P. destruct o1 as [?|? []]; reflexivity. }
    eapply star_step; [exact St|]. destruct o1 as [q1|k fo].
    + exact (IH (set_rib s (set_pheap (ss_rib s) h1)) q1 eq_refl eq_refl).
    + inversion S as [|? y ? G]; subst; [apply star_refl|]. discriminate G.
Qed.

Lemma mark_memory_alone f i sm p mui lt s rb' o : rb_strat (ss_rib s) <> PersistOnly ->
  rib_mark_in_memory f (ss_rib s) p mui lt sm = Ok (rb', o) ->
  exists s' k, ss_rib s' = rb' /\
    (forall m, o = Some m -> exists v, deref k (pheap s') = Ok v /\ pv_recs v = m) /\
    star (gk f i sm p mui lt) (s, KStart) (s',
      match o with
      | None => KDone (RErr (no_entry (rb_strat (ss_rib s)) sm))
      | Some _ => match rb_strat (ss_rib s) with PersistHistory => KGet k | _ => KDone (ROk tt) end
      end).
Proof.
  intros NP E. unfold rib_mark_in_memory in E. bd E. destruct a as [[[h1 k] e] found].
  unfold retrieve_prefix_mut in Heqr. bd Heqr. rename a into b.
  destruct (prefix_alone _ _ _ _ _ _ _ _ _ _ _ _ Heqr) as (S & L & Id).
  apply (walk_mark f i sm p mui lt _ _) with (s := s) (q := PGet (Walk b [] root_slots 0)) in S; [|reflexivity..].
  cbn [fst snd] in S.
  assert (S0 : gk f i sm p mui lt (s, KStart) = Some (s, KWalk (PGet (Walk b [] root_slots 0)))).
  { unfold gk. cbn [fst snd kstep]. unfold walk_start. rewrite Heqr0. destruct (rb_strat (ss_rib s)); [reflexivity..|easy]. }
  destruct found; cbn [negb to_mark] in E, S.
  - injection E as <- <-.
    pose (s1 := set_rib s (set_pheap (ss_rib s) h1)).
    pose (g := fun v => set_recs v (mark_for_mui sm (pv_recs v) mui lt)).
    pose (s2 := add_log (set_rib s1 (set_pheap (ss_rib s1) (modify k g h1))) (i, p, OMark sm mui lt)).
    exists s2, k. split; [|split].
    + unfold s2, g. cbn [ss_rib add_log set_rib]. rewrite (modify_lookup _ _ _ e L). reflexivity.
    + intros m X. injection X as <-. unfold s2, pheap, add_log, set_rib, set_pheap, set_pcht.
      cbn [ss_rib rb_pcht pc_heap]. rewrite (modify_lookup _ _ _ e L).
      rewrite (deref_lookup _ _ _ (lookup_update_same _ _ _)). eexists; split; reflexivity.
    + eapply star_step; [exact S0|]. eapply star_trans; [exact S|]. apply star_one. reflexivity.
  - injection E as <- <-. exists (set_rib s (set_pheap (ss_rib s) h1)), k. split; [reflexivity|].
    split; [discriminate|]. eapply star_step; [exact S0|exact S].
Qed.

Lemma rewrite_alone f i sm p mui lt : forall recs s l l' ok, rb_lsm (ss_rib s) = Some l ->
  rewrite_headers f l lt sm recs = (l', ok) ->
  star (gk f i sm p mui lt) (s, KRewrite recs)
    (set_rib s (set_lsm (ss_rib s) l'), KDone (if ok then ROk tt else RErr (no_disk sm))).
Proof.
  induction recs as [|b recs IH]; intros s l l' ok Ls E; cbn [rewrite_headers] in E.
  - injection E as <- <-. replace (set_rib s (set_lsm (ss_rib s) l)) with s
      by (destruct s as [[]]; cbn in *; now subst). apply star_one. reflexivity.
  - destruct (rewrite_header_for_record f l lt sm b) as [l1|] eqn:R.
    + eapply star_step; [unfold gk; cbn [fst snd kstep]; rewrite Ls, R; reflexivity|].
      exact (IH (set_rib s (set_lsm (ss_rib s) l1)) l1 l' ok eq_refl E).
    + injection E as <- <-. replace (set_rib s (set_lsm (ss_rib s) l)) with s
        by (destruct s as [[]]; cbn in *; now subst). apply star_one.
      unfold gk; cbn [fst snd kstep]; rewrite Ls, R. reflexivity.
Qed.

Lemma history_alone f i sm p mui lt s k m v0 : rb_strat (ss_rib s) = PersistHistory ->
  deref k (pheap s) = Ok v0 -> pv_recs v0 = m ->
  exists s', ss_rib s' = match get_record_for_mui m mui true with
      | Some _ => match rb_lsm (ss_rib s) with
                  | Some l => set_lsm (ss_rib s) (insert_empty_record f l p mui lt)
                  | None => ss_rib s end
      | None => ss_rib s end /\
    star (gk f i sm p mui lt) (s, KGet k) (s', KDone
      match get_record_for_mui m mui true with
      | Some _ => match rb_lsm (ss_rib s) with Some _ => ROk tt | None => RErr (no_disk sm) end
      | None => ROk tt end).
Proof.
  intros St De <-.
  assert (S0 : gk f i sm p mui lt (s, KGet k) = Some (s, match get_record_for_mui (pv_recs v0) mui true with
                       | Some _ => KEmpty | None => KDone (ROk tt) end)).
  { unfold gk. cbn [fst snd kstep]. now rewrite De. }
  destruct (get_record_for_mui (pv_recs v0) mui true) as [x|].
  - destruct (rb_lsm (ss_rib s)) as [l|] eqn:Ls.
    + exists (set_rib s (set_lsm (ss_rib s) (insert_empty_record f l p mui lt))). split; [reflexivity|].
      eapply star_step; [exact S0|]. apply star_one. unfold gk. cbn [fst snd kstep]. now rewrite Ls.
    + exists s. split; [reflexivity|]. eapply star_step; [exact S0|]. apply star_one.
      unfold gk. cbn [fst snd kstep]. now rewrite Ls.
  - exists s. split; [reflexivity|]. apply star_one. exact S0.
Qed.

Lemma strat_mark f rb p mui lt sm rb' o : rib_mark_in_memory f rb p mui lt sm = Ok (rb', o) ->
  rb_strat rb' = rb_strat rb.
Proof.
  unfold rib_mark_in_memory. intros E. bd E. destruct a as [[[h1 k] e] found].
  destruct (negb found); injection E as <- <-; reflexivity.
Qed.

Lemma mark_alone f i sm p mui lt s rb' v : sm <> InActive -> rib_mark f (ss_rib s) sm p mui lt = Ok (rb', v) ->
  exists s', ss_rib s' = rb' /\ star (gk f i sm p mui lt) (s, KStart) (s', KDone v).
Proof.
  intros NI E. unfold rib_mark, rib_mark_mui_as_withdrawn_for_prefix, rib_mark_mui_as_active_for_prefix in E.
  destruct (rb_strat (ss_rib s)) eqn:St.
  - assert (M : exists rb1 o, rib_mark_in_memory f (ss_rib s) p mui lt sm = Ok (rb1, o) /\ rb' = rb1 /\
        v = match o with None => RErr (no_entry WriteAhead sm) | Some _ => ROk tt end).
    { destruct sm; [|easy|]; bd E; destruct a as [rb1 o]; injection E as <- <-; exists rb1, o; repeat split; now destruct o. }
    destruct M as (rb1 & o & M & -> & ->).
    destruct (mark_memory_alone f i sm p mui lt s rb1 o) as (s' & k & A & _ & S); [congruence|exact M|].
    exists s'. split; [exact A|]. rewrite St in S. destruct o; exact S.
  - assert (M : exists rb1 o, rib_mark_in_memory f (ss_rib s) p mui lt sm = Ok (rb1, o) /\
        (rb', v) = match o with
          | None => (rb1, RErr (no_entry PersistHistory sm))
          | Some m => match get_record_for_mui m mui true with
            | Some _ => match rb_lsm rb1 with
               | Some l => (set_lsm rb1 (insert_empty_record f l p mui lt), ROk tt)
               | None => (rb1, RErr (no_disk sm)) end
            | None => (rb1, ROk tt) end end).
    { destruct sm; [|easy|]; bd E; destruct a as [rb1 o]; exists rb1, o; (split; [reflexivity|]);
        (destruct o as [m|]; [destruct (get_record_for_mui m mui true); [destruct (rb_lsm rb1)|]|]);
        injection E as <- <-; reflexivity. }
    destruct M as (rb1 & o & M & X).
    destruct (mark_memory_alone f i sm p mui lt s rb1 o) as (s' & k & A & B & S); [congruence|exact M|].
    rewrite St in S. destruct o as [m|].
    + destruct (B m eq_refl) as (v0 & D & R).
      assert (St' : rb_strat (ss_rib s') = PersistHistory) by (rewrite A, (strat_mark _ _ _ _ _ _ _ _ M); exact St).
      destruct (history_alone f i sm p mui lt s' k m v0 St' D R) as (s2 & A2 & S2). rewrite A in A2, S2.
      exists s2. assert (Y : ss_rib s2 = rb' /\ v = match get_record_for_mui m mui true with
        | Some _ => match rb_lsm rb1 with Some _ => ROk tt | None => RErr (no_disk sm) end
        | None => ROk tt end).
      { rewrite A2. destruct (get_record_for_mui m mui true); [destruct (rb_lsm rb1)|]; injection X as -> ->; split; reflexivity. }
      destruct Y as [Y1 ->]. split; [exact Y1|]. eapply star_trans; [exact S|exact S2].
    + injection X as -> ->. exists s'. split; [exact A|exact S].
  - assert (M : exists rb1 o, rib_mark_in_memory f (ss_rib s) p mui lt sm = Ok (rb1, o) /\ rb' = rb1 /\
        v = match o with None => RErr (no_entry MemoryOnly sm) | Some _ => ROk tt end).
    { destruct sm; [|easy|]; bd E; destruct a as [rb1 o]; injection E as <- <-; exists rb1, o; repeat split; now destruct o. }
    destruct M as (rb1 & o & M & -> & ->).
    destruct (mark_memory_alone f i sm p mui lt s rb1 o) as (s' & k & A & _ & S); [congruence|exact M|].
    exists s'. split; [exact A|]. rewrite St in S. destruct o; exact S.
  - destruct (rb_lsm (ss_rib s)) as [l|] eqn:Ls.
    + pose (recs := match sm with
         | Active => match most_recent_record_for_prefix_mui f l p mui with Some b => [b] | None => [] end
         | _ => records_with_keys_for_prefix_mui f l p mui end).
      assert (S0 : gk f i sm p mui lt (s, KStart) = Some (s, KRewrite recs)).
      { unfold gk. cbn [fst snd kstep]. now rewrite St, Ls. }
      destruct (rewrite_headers f l lt sm recs) as [l' ok] eqn:R.
      exists (set_rib s (set_lsm (ss_rib s) l')).
      assert (Y : set_lsm (ss_rib s) l' = rb' /\ v = if ok then ROk tt else RErr (no_disk sm)).
      { assert (Same : set_lsm (ss_rib s) l = ss_rib s) by (destruct s as [[]]; cbn in *; now subst).
        destruct sm; [|easy|].
        - unfold recs in R. destruct (most_recent_record_for_prefix_mui f l p mui) as [b|].
          + cbn [rewrite_headers] in R. destruct (rewrite_header_for_record f l lt Active b) as [l1|];
              injection E as <- <-; injection R as <- <-; split; congruence || reflexivity.
          + cbn [rewrite_headers] in R. injection E as <- <-; injection R as <- <-; split; congruence || reflexivity.
        - unfold recs in R. rewrite R in E. injection E as <- <-. split; reflexivity. }
      destruct Y as [Y ->]. split; [exact Y|]. eapply star_step; [exact S0|].
      exact (rewrite_alone f i sm p mui lt recs s l l' ok Ls R).
    + assert (Y : rb' = ss_rib s /\ v = RErr (no_disk sm)).
      { destruct sm; [|easy|]; injection E as <- <-; split; reflexivity. }
      destruct Y as [-> ->]. exists s. split; [reflexivity|]. apply star_one.
      unfold gk. cbn [fst snd kstep]. now rewrite St, Ls.
Qed.

(* ---------- the readers ---------- *)

Definition gx (f : af) (p : pid) (h : heap nodeval) (pc : xpc) : option xpc :=
  match pc with
  | XDone _ | XPanic => None
  | _ => match xstep f p h pc with Ok pc' => Some pc' | _ => None end
  end.

Lemma contains_alone f t p b : prefix_exists f t p = Ok b -> star (gx f p (t_heap t)) XStart (XDone b).
Proof.
  unfold prefix_exists. intros E. bd E. destruct a as [id bs]. bd E. rename a into o, Heqr into Hn.
  unfold retrieve_node in Heqr0. bd Heqr0. rename a into rt.
  eapply star_step.
  { unfold gx, xstep. rewrite Hn. cbn [bind]. unfold walk_start. rewrite Heqr. cbn [bind]. reflexivity. }
  clear Heqr.
  assert (All : forall n path slots level rt, retrieve_node_loop n f (t_heap t) id rt path slots level = Ok o ->
    star (gx f p (t_heap t)) (XGet (Walk rt path slots level)) (XDone b)); [|exact (All _ _ _ _ _ Heqr0)].
  clear rt Heqr0. induction n as [|fuel IH]; intros path slots level rt R; [discriminate|]. cbn [retrieve_node_loop] in R.
  bd R. rename a into index, Heqr into Hi. destruct (slot_get (t_heap t) rt path slots index) as [e|] eqn:Sg.
  - destruct (pid_eqb id (e_id e)) eqn:Q.
    + injection R as <-. eapply star_step.
      { unfold gx, xstep. rewrite Hn. cbn [bind w_level w_b w_path w_slots]. rewrite Hi. cbn [bind].
        rewrite Sg, Q. reflexivity. }
      bd E. injection E as <-. apply star_one. unfold gx, xstep. rewrite Hn. cbn [bind].
      unfold wkey. cbn [w_b w_path]. rewrite (deref_lookup _ _ e) by (eapply slot_get_lookup; eauto).
      cbn [bind]. rewrite Heqr. reflexivity.
    + bd R. rename a into level'. bd R. rename a into size. destruct (0 <? size) eqn:Z.
      * eapply star_step; [|exact (IH _ _ _ _ R)].
        unfold gx, xstep. rewrite Hn. cbn [bind w_level w_b w_path w_slots]. rewrite Hi. cbn [bind].
        rewrite Sg, Q, Heqr. cbn [bind]. rewrite Heqr0. cbn [bind]. rewrite Z. reflexivity.
      * injection R as <-. injection E as <-. apply star_one.
        unfold gx, xstep. rewrite Hn. cbn [bind w_level w_b w_path w_slots]. rewrite Hi. cbn [bind].
        rewrite Sg, Q, Heqr. cbn [bind]. rewrite Heqr0. cbn [bind]. rewrite Z. reflexivity.
  - injection R as <-. injection E as <-. apply star_one.
    unfold gx, xstep. rewrite Hn. cbn [bind w_level w_b w_path w_slots]. rewrite Hi. cbn [bind].
    rewrite Sg. reflexivity.
Qed.

Definition gv (f : af) (p : pid) (mui : option N) (iw : bool) (x : sstate * gpc) : option (sstate * gpc) :=
  vstep f (fst x) p mui iw (snd x).

Lemma records_alone f s p mui iw o :
  get_records_for_prefix f (rb_pcht (ss_rib s)) p mui iw (t_withdrawn (rb_tree (ss_rib s))) = Ok o ->
  star (gv f p mui iw) (s, VStart) (s, VDone o).
Proof.
  unfold get_records_for_prefix. intros R. bd R. rename a into rt.
  eapply star_step.
  { unfold gv. cbn [fst snd vstep]. unfold walk_start. rewrite Heqr. reflexivity. }
  clear Heqr. change (pc_heap (rb_pcht (ss_rib s))) with (pheap s) in R.
  assert (All : forall n path slots level rt,
    get_records_loop n f (pheap s) p mui iw (t_withdrawn (rb_tree (ss_rib s))) rt path slots level = Ok o ->
    star (gv f p mui iw) (s, VGet (Walk rt path slots level)) (s, VDone o)); [|exact (All _ _ _ _ _ R)].
  clear rt R. induction n as [|fuel IH]; intros path slots level rt R; [discriminate|]. cbn [get_records_loop] in R.
  bd R. rename a into index, Heqr into Hi. destruct (slot_get (pheap s) rt path slots index) as [e|] eqn:Sg.
  - destruct (pid_eqb p (e_id e)) eqn:Q.
    + injection R as <-. eapply star_step.
      { unfold gv. cbn [fst snd vstep w_level w_b w_path w_slots]. rewrite Hi. cbn [bind]. rewrite Sg, Q. reflexivity. }
      apply star_one. unfold gv. cbn [fst snd vstep]. unfold wkey. cbn [w_b w_path].
      rewrite (deref_lookup _ _ e) by (eapply slot_get_lookup; eauto). reflexivity.
    + bd R. rename a into level'. eapply star_step; [|exact (IH _ _ _ _ R)].
      unfold gv. cbn [fst snd vstep w_level w_b w_path w_slots]. rewrite Hi. cbn [bind]. rewrite Sg, Q, Heqr. reflexivity.
  - injection R as <-. apply star_one.
    unfold gv. cbn [fst snd vstep w_level w_b w_path w_slots]. rewrite Hi. cbn [bind]. rewrite Sg. reflexivity.
Qed.
