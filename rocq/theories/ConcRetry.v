(* How many retries an insert reports: for prefixes of up to 108 bits the number
   does not wrap, and is bounded by the length of the prefix. *)
From Coq Require Import Arith NArith List Bool Lia.
From Verif Require Import Word Af BitSpan Maps ChtMath Cht Node Tree ChainProofs TreeProofs MultiMap PrefixCht Lsm
  Rib HistSpec Conc ConcMarks ConcTree ConcTreeProofs ConcTreeInv ConcTreeStep ConcTreeEnd ConcStore ConcSpec
  ConcStoreInv ConcStoreStep ConcInsert ConcCalls ConcFacts ConcCount ConcNodes.
Import ListNotations.
Local Open Scope N_scope.

(* the most that one set_prefix_exists reports *)
Definition most_retries (p : pid) : N := 16 * 2 ^ ((p_len p - 1) / 4) + 14.

Section S.
Variable f : af.
Variable ov : bool.
Variable p : pid.
Hypothesis Wp : wf_pid f p.
Hypothesis Short : p_len p <= 108.
Notation W := (BITS f).

Definition acc_ok (fr : frame) : Prop := fr_acc fr + 16 <= 16 * 2 ^ (fr_start fr / 4).

Definition accI (pc : tpc) : Prop :=
  match pc with
  | TStart | TDefault _ _ | TPanic | TDone (RErr _) => True
  | TNode fr _ | TLoadPtr fr _ | TLoadPfx fr _ _ | TTestPtr fr _ _ | TCasPtr fr _ _ _
  | TCasPfx fr _ _ _ | TCount fr _ | TStore fr _ _ _ => acc_ok fr
  | TDone (ROk (n, _)) => n <= most_retries p
  end.

Lemma add32_small a b c : a + b < 2 ^ 32 -> add32 ov a b = Ok c -> c = a + b.
Proof. intros L. unfold add32. apply N.ltb_lt in L. rewrite L. intros E. now injection E as <-. Qed.

Lemma acc_next se cur acc : acc + 16 <= 16 * 2 ^ (se / 4) -> accI (or_panic (next_turn f p se cur acc)).
Proof.
  intros A. unfold next_turn, STRIDE_SIZE.
  destruct (add8 se 4) as [se'| |] eqn:E1; cbn [bind or_panic]; try exact I.
  destruct (if p_len p <? se' then _ else _) as [nl| |]; cbn [bind or_panic]; try exact I.
  destruct (sub8 se' 4) as [ss| |] eqn:E2; cbn [bind or_panic]; try exact I.
  destruct (into_bit_span f (p_bits p) ss nl) as [bs| |]; cbn [bind or_panic]; try exact I.
  destruct (walk_start f NSTRIDE cur) as [w| |]; cbn [bind or_panic]; try exact I.
  assert (ss = se) as ->.
  { unfold add8 in E1. destruct (se + 4 <=? 255); [|discriminate]. injection E1 as <-.
    unfold sub8 in E2. destruct (4 <=? se + 4); [|discriminate]. injection E2 as <-. lia. }
  exact A.
Qed.

Lemma small_pow s : s < p_len p -> 2 ^ (s / 4) <= 2 ^ 26.
Proof. intros L. apply pow2_le. dlia. Qed.

Lemma acc_go_on s acc next rc : s mod 4 = 0 -> s < p_len p -> rc <= 16 ->
  acc + 16 <= 16 * 2 ^ (s / 4) ->
  accI (or_panic (go_on f ov p (mkframe f p s acc) next 0 rc)).
Proof.
  intros M L R A. pose proof (small_pow s L) as S.
  assert (B : acc + 16 <= 2 ^ 30) by (change (2 ^ 30) with (16 * 2 ^ 26); lia).
  assert (B32 : 2 ^ 32 = 4 * 2 ^ 30) by reflexivity.
  unfold go_on. cbn [fr_acc fr_end mkframe].
  destruct (add32 ov acc 0) as [a1| |] eqn:E1; cbn [bind or_panic]; try exact I.
  apply add32_small in E1; [|lia]. subst a1.
  destruct (add32 ov (acc + 0) rc) as [a2| |] eqn:E2; cbn [bind or_panic]; try exact I.
  apply add32_small in E2; [|lia]. subst a2.
  destruct (add32 ov acc (acc + 0 + rc)) as [a3| |] eqn:E3; cbn [bind or_panic]; try exact I.
  apply add32_small in E3; [|lia]. subst a3. apply acc_next.
  pose proof (acc_step s acc rc M A R). lia.
Qed.

Lemma acc_finish s acc rc e : s < p_len p -> rc <= 30 -> acc + 16 <= 16 * 2 ^ (s / 4) ->
  accI (or_panic (finish ov (mkframe f p s acc) rc e)).
Proof.
  intros L R A. pose proof (small_pow s L) as S.
  assert (B : acc + 16 <= 2 ^ 30) by (change (2 ^ 30) with (16 * 2 ^ 26); lia).
  assert (B32 : 2 ^ 32 = 4 * 2 ^ 30) by reflexivity.
  unfold finish. cbn [fr_acc mkframe].
  destruct (add32 ov acc rc) as [a1| |] eqn:E1; cbn [bind or_panic]; try exact I.
  apply add32_small in E1; [|lia]. subst a1. cbn [accI]. unfold most_retries.
  assert (2 ^ (s / 4) <= 2 ^ ((p_len p - 1) / 4)).
  { apply pow2_le. now apply turn_le. }
  lia.
Qed.

Lemma tnext_acc mui (C : pid -> Prop) t pc : (forall q, C q -> wf_pid f q) -> C p -> tG f C t -> tI f ov p t pc -> accI pc ->
  accI (snd (tnext f ov p mui t pc)).
Proof.
  intros Cwf Cp G T A. pose proof G as [GH GD]. pose proof (g_cht _ _ _ GH) as NI.
  unfold tnext. destruct pc as [|ex r|fr r|fr k|fr k ptr|fr k ptr|fr k cur rc|fr k cur rc|fr rc
    |fr rc nn s0|r|]; simpl in T; cbn [tstep accI] in *.
  - destruct (p_len p =? 0).
    + destruct (walk_start f NSTRIDE root_node_id); exact I.
    + assert (X : accI (or_panic (next_turn f p 0 root_node_id 0))).
      { apply acc_next. vm_compute. discriminate. }
      destruct (next_turn f p 0 root_node_id 0); cbn [bind]; exact X.
  - destruct (rstep f root_node_id mui (t_heap t) r) as [[h o]| |]; cbn [bind]; try exact I.
    destruct o; cbn; try exact I. apply N.le_0_l.
  - destruct (rstep f (fr_cur fr) mui (t_heap t) r) as [[h o]| |]; cbn [bind]; try exact I.
    destruct o; cbn; try exact I; exact A.
  - destruct (deref k (t_heap t)); cbn [bind]; try exact I. exact A.
  - destruct T as (FO & _). destruct FO as (s & acc & -> & M & Ls & _).
    destruct (deref k (t_heap t)); cbn [bind]; try exact I.
    destruct (into_bit_pos _); cbn [bind]; try exact I.
    destruct (negb _); [exact A|]. destruct (_ =? 0); [exact A|].
    pose proof (acc_finish s acc 0 true Ls ltac:(lia) A) as X.
    destruct (finish ov _ 0 true); cbn [bind]; exact X.
  - destruct T as (FO & _). destruct FO as (s & acc & -> & M & Ls & _).
    destruct (deref k (t_heap t)); cbn [bind]; try exact I.
    destruct (into_bit_pos _); cbn [bind]; try exact I.
    destruct (_ =? 0); [exact A|].
    destruct (add_to_len _ _); cbn [bind]; try exact I.
    pose proof (acc_go_on s acc (node_truncate_to_len f a1) 0 M Ls ltac:(lia) A) as X.
    destruct (go_on _ _ _ _ _ _ _); cbn [bind]; exact X.
  - destruct (deref k (t_heap t)); cbn [bind]; try exact I.
    destruct (into_bit_pos _); cbn [bind]; try exact I.
    destruct (_ =? cur); [exact A|]. destruct (add32 ov rc 1); cbn [bind]; try exact I. exact A.
  - destruct T as (FO & _ & _ & _ & _ & RC). destruct FO as (s & acc & -> & M & Ls & _).
    destruct (deref k (t_heap t)); cbn [bind]; try exact I.
    destruct (into_bit_pos _); cbn [bind]; try exact I.
    destruct (_ =? cur).
    + cbn [snd]. apply acc_finish; auto. lia.
    + destruct (add32 ov rc 1); cbn [bind]; try exact I. exact A.
  - destruct (new_id f p fr); cbn [bind]; try exact I.
    destruct (walk_start f NSTRIDE _); cbn [bind]; try exact I. exact A.
  - destruct T as (FO & P & NL & RC & -> & SI). pose proof FO as (s & acc & -> & M & Ls & _).
    simpl in P, NL, SI. apply N.leb_gt in NL.
    rewrite next_id_ok by auto. cbn [bind].
    pose proof (anc_dom f p (s + 4) Wp ltac:(dlia) ltac:(lia)) as D.
    destruct (sstep_ok f (t_heap t) (anc f p (s + 4)) mui s0 NI D SI) as (h' & o & E & NI' & H & Q & SO).
    rewrite E. cbn [bind snd]. destruct o as [s1|o]; [exact A|]. simpl in SO. subst o.
    now apply acc_go_on.
  - exact A.
  - exact I.
Qed.

End S.

(* ---------- the whole store ---------- *)

Section B.
Variable st : strategy.
Variable p : pid.

(* PersistOnly goes down the tree twice, and adds what both report *)
Definition again : N := match st with PersistOnly => most_retries p | _ => 0 end.

Definition bI (pc : ipc) : Prop :=
  match pc with
  | ITree t => accI p t
  | ITree2 b t => fst b <= most_retries p /\ accI p t
  | IShort b b2 => fst b <= most_retries p /\ fst b2 <= most_retries p
  | IHist b rep _ | IRibRoute b rep | IRibPrefix b rep =>
    fst b <= most_retries p /\ rp_cas rep <= again
  | IDone (ROk rep) => rp_cas rep <= most_retries p + again
  | IAhead b | IWalk b _ | IOutdate b _ | IUpsert b _ _ | IRoute b _ _ | IPrefix b
  | IBest b _ _ | ILoadSel b _ _ _ | ICasSel b _ _ _ _ => fst b <= most_retries p
  | IDone (RErr _) | IPanic => True
  end.

Lemma bI_route b rep : fst b <= most_retries p -> rp_cas rep <= again -> bI (after_route b rep).
Proof.
  intros A B. unfold after_route. destruct (snd b); cbn [bI rp_cas]; [lia|auto].
Qed.
Lemma bI_upsert b rep : fst b <= most_retries p -> rp_cas rep <= again -> bI (after_upsert b rep).
Proof. intros A B. unfold after_upsert. destruct (rp_mui_new rep); [cbn; auto|now apply bI_route]. Qed.
Lemma bI_cht st' b o pn mn : fst b <= most_retries p -> bI (after_cht st' b o pn mn).
Proof.
  intros A. unfold after_cht.
  assert (X : forall n, bI (after_upsert b (Report 0 pn mn n))).
  { intros n. apply bI_upsert; [easy|]. cbn [rp_cas]. apply N.le_0_l. }
  destruct st', o as [[? ?]|]; try apply X; cbn [bI rp_cas]; (split; [easy|apply N.le_0_l]).
Qed.
Lemma bI_count st' ups b k o : fst b <= most_retries p -> bI (after_count st' ups b k o).
Proof. intros A. unfold after_count. destruct ups; [exact A|now apply bI_cht]. Qed.
Lemma bI_begin f rb b : fst b <= most_retries p -> bI (or_ipanic (begin_upsert f rb p b)).
Proof.
  intros A. unfold begin_upsert.
  destruct (rb_strat rb); try destruct (walk_start f PSTRIDE p); destruct (rb_lsm rb); cbn; auto.
Qed.

End B.

Lemma istep_bI f ov st n s0 s cs i p r ups pc s' pc' : sG f st s0 s cs -> insp cs p -> p_len p <= 108 ->
  iI f ov st n s0 s i p r ups pc -> bI st p pc ->
  istep f ov i s p r ups pc = Some (s', pc') -> bI st p pc'.
Proof.
  intros Gs Cp Sh Is J E.
  assert (Cwf : forall q, insp cs q -> wf_pid f q).
  { intros q (j & r0 & u0 & Q). pose proof (g_legal _ _ _ _ _ Gs) as L. rewrite Forall_forall in L.
    apply nth_error_In in Q. specialize (L _ Q). simpl in L. tauto. }
  pose proof (g_tree _ _ _ _ _ Gs) as Gt. pose proof (Cwf p Cp) as Wp.
  unfold istep in E. destruct pc; cbv zeta in E; cbn [bI] in J; cbn [iI] in Is.
  - destruct Is as (I1 & _). pose proof (tnext_acc f ov p Wp Sh (r_mui r) _ _ t Cwf Cp Gt I1 J) as X.
    change (rb_tree (ss_rib s)) with (stree s) in E.
    destruct (tnext f ov p (r_mui r) (stree s) t) as [tr t']. injection E as _ <-. cbn [snd] in X.
    destruct t' as [| | | | | | | | | |[[m e]|e]|]; try exact X; try exact I. now apply bI_begin.
  - destruct (rb_lsm (ss_rib s)); injection E as _ <-; [|exact I].
    destruct (walk_start f PSTRIDE p); cbn; auto.
  - destruct (pstep f p (pheap s) p0) as [[h o]| |]; injection E as _ <-; [|exact I..].
    destruct o as [|? []]; exact J.
  - injection E as _ <-. exact J.
  - destruct (deref k (pheap s)) as [v| |]; [|injection E as _ <-; exact I..].
    destruct (upsert_record (pv_recs v) r) as [m o]. injection E as _ <-.
    destruct o, found; try exact J; [now apply bI_count|now apply bI_cht].
  - injection E as _ <-. destruct found; [now apply bI_count|exact J].
  - injection E as _ <-. now apply bI_cht.
  - destruct (deref k (pheap s)) as [v| |]; [destruct ups|..]; injection E as _ <-; first [exact J|exact I].
  - destruct (deref k (pheap s)) as [v| |]; injection E as _ <-; [|exact I..].
    destruct (sel_eqb (pv_sel v) sel); [now apply bI_cht|exact J].
  - destruct (deref k (pheap s)) as [v| |]; [|injection E as _ <-; exact I..].
    destruct (_ && _); injection E as _ <-; [now apply bI_cht|exact I].
  - injection E as _ <-. apply bI_upsert; apply J.
  - destruct Is as (_ & _ & I1 & _). destruct J as [J1 J].
    pose proof (tnext_acc f ov p Wp Sh (r_mui r) _ _ t Cwf Cp Gt I1 J) as X.
    change (rb_tree (ss_rib s)) with (stree s) in E.
    destruct (tnext f ov p (r_mui r) (stree s) t) as [tr t']. injection E as _ <-. cbn [snd] in X.
    destruct t' as [| | | | | | | | | |[[m e]|e]|]; try (split; [exact J1|exact X]); exact I.
  - destruct (rb_lsm (ss_rib s)); injection E as _ <-; [|exact I].
    apply bI_upsert; [apply J|]. cbn [rp_cas]. destruct Is as [-> _]. apply J.
  - injection E as _ <-. apply bI_route; apply J.
  - injection E as _ <-. cbn [bI rp_cas]. lia.
  - discriminate.
  - discriminate.
Qed.

Lemma retries_inv f ov st x : reach f ov st x -> forall i p r ups pc,
  nth_error (ths x) i = Some (CInsert p r ups, LIns pc) -> p_len p <= 108 -> bI st p pc.
Proof.
  revert x. apply (reach_ind f ov st (fun x => forall i p r ups pc,
    nth_error (ths x) i = Some (CInsert p r ups, LIns pc) -> p_len p <= 108 -> bI st p pc)).
  - intros rb _ [|i] p r ups pc E; discriminate E.
  - intros s ts c _ IH _ i p r ups pc E Sh. cbn [ths] in *.
    destruct (Nat.lt_ge_cases i (length ts)) as [H|H].
    + rewrite nth_error_app1 in E by easy. eauto.
    + rewrite nth_error_app2 in E by easy. destruct (i - length ts)%nat as [|n]; simpl in E; [|now destruct n].
      injection E as -> E. injection E as <-. exact I.
  - intros s ts i c l s' l' Rx IH E T j p r ups pc E0 Sh. cbn [ths] in *.
    rewrite nth_set_nth in E0 by (eapply nth_some_lt; eauto).
    destruct (Nat.eqb_spec i j) as [->|]; [|eauto]. injection E0 as -> ->.
    destruct (reach_sok _ _ _ _ Rx) as [Gs Is]. specialize (Is _ _ _ E). cbn [sh] in *.
    destruct (ststep_cases _ _ _ _ _ _ _ _ T) as
      [(p1 & r1 & ups1 & pc1 & pc' & X & -> & Y & W)|
       [(sm & p1 & mui & lt & pc1 & pc' & X & _)|[_ [(p1 & pc1 & pc' & X & _)|
        (p1 & m & iw & pc1 & pc' & X & _)]]]]; try discriminate X.
    injection X as <- <- <-. injection Y as <-.
    refine (istep_bI f ov st _ _ s _ j p r ups pc1 s' pc Gs _ Sh Is (IH _ _ _ _ _ E Sh) W).
    exists j, r, ups. exact (calls_nth (Conf s ts) _ _ _ E).
Qed.

Lemma conc_retries f ov st x i p r ups rep : reach f ov st x -> p_len p <= 108 ->
  returned x i (CInsert p r ups) (RetIns (ROk rep)) ->
  rp_cas rep <= match st with PersistOnly => 2 | _ => 1 end * most_retries p.
Proof.
  intros Rx Sh (l & E & R). destruct l as [pc| | |]; try (destruct pc; discriminate R).
  destruct pc; try discriminate R. injection R as ->.
  pose proof (retries_inv f ov st x Rx _ _ _ _ _ E Sh) as B. cbn [bI] in B. unfold again in B.
  destruct st; lia.
Qed.

Lemma conc_retries_short f ov st x i p r ups rep : reach f ov st x -> p_len p <= 36 ->
  returned x i (CInsert p r ups) (RetIns (ROk rep)) ->
  rp_cas rep <= N.of_nat (most_steps (CInsert p r ups)).
Proof.
  intros Rx Sh R. pose proof (conc_retries f ov st x i p r ups rep Rx ltac:(lia) R) as B.
  assert (M : most_retries p <= 16 * 2 ^ 8 + 14).
  { unfold most_retries. assert (2 ^ ((p_len p - 1) / 4) <= 2 ^ 8); [|lia]. apply pow2_le. dlia. }
  assert (L : 2 * (16 * 2 ^ 8 + 14) <= N.of_nat (most_steps (CInsert p r ups))) by (cbn [most_steps]; rewrite N2Nat.id; vm_compute; discriminate).
  destruct st; lia.
Qed.
