(* The lemmas behind the properties of the store, part 3: what is on disk,
   PersistOnly, and that every call returns. *)
From Coq Require Import Arith NArith List Bool Lia Permutation.
From Verif Require Import Word Af BitSpan Spec Maps ChtMath Cht Node Tree ChainProofs TreeProofs
  Iter IterProofs MultiMap PrefixCht PrefixChtProofs Lsm LsmProofs RecordSet Rib StarCast HistSpec
  Ask PropSpec RibProofs RibLsm RibOk Queries Queries2 Disk MuiWalk Facts1 Facts2.
Import ListNotations.
Local Open Scope N_scope.


(* ---------- what is on disk ---------- *)

Lemma status_eqb_spec a b : status_eqb a b = true <-> a = b.
Proof. destruct a, b; simpl; split; easy. Qed.

Lemma same_key_spec p m t s w : same_key p m t s w = true <->
  fst w = p /\ r_mui (snd w) = m /\ r_ltime (snd w) = t /\ r_status (snd w) = s.
Proof.
  unfold same_key. rewrite !andb_true_iff, prefix_eqb_spec, !N.eqb_eq, status_eqb_spec.
  intuition auto.
Qed.

(* no two entries on disk have the same key, and every entry can be decoded *)
Lemma disk_decodes s h st f : after s h st ->
  exists d, disk st f = List.map Some d /\ NoDup d /\ forall p r, In (p, r) d -> fst p = f.
Proof.
  intros A. destruct (after_rib _ _ _ f A) as [Wh R].
  pose proof (ro_lsm _ _ _ _ R) as L. unfold disk. destruct s; simpl in L.
  - destruct (rb_lsm (rib_of st f)) as [l|]; [|easy].
    destruct (disk_long f _ l L) as (d & E & N & I). exists d. split; [exact E|]. split; auto.
    intros p r X. now apply I in X.
  - destruct (rb_lsm (rib_of st f)) as [l|]; [|easy].
    destruct (disk_long f _ l L) as (d & E & N & I). exists d. split; [exact E|]. split; auto.
    intros p r X. now apply I in X.
  - rewrite L. exists []. split; auto. split; [constructor|easy].
  - destruct (rb_lsm (rib_of st f)) as [l|]; [|easy].
    destruct (disk_short f h l Wh L) as (d & E & N & I). exists d. split; [exact E|]. split; auto.
    intros p r X. now apply I in X.
Qed.


Lemma disk_latest s h st p r : keeps_long s -> after s h st ->
  (on_disk st p r <-> wf_prefix p /\ wf_record r /\
     latest (writes s h) p (r_mui r) (r_ltime r) (r_status r) = Some (r_meta r)).
Proof.
  intros S A. destruct (after_rib _ _ _ (fst p) A) as [Wh R].
  pose proof (ro_lsm _ _ _ _ R) as L. unfold on_disk, disk.
  destruct (rb_lsm (rib_of st (fst p))) as [l|].
  - assert (L' : long_rel (fst p) (writes s h) l) by (destruct S; subst s; exact L).
    destruct (disk_long (fst p) _ l L') as (d & E & N & I). unfold rdisk in E. rewrite E.
    rewrite in_some, I. tauto.
  - destruct S; subst s; easy.
Qed.

(* every record on disk was written by some call, so its parts are in range *)
Lemma writes_wf s h p r : wf_history h -> In (p, r) (writes s h) -> wf_prefix p /\ wf_record r.
Proof.
  intros W. induction h as [|o h IH]; [now destruct s|].
  inversion W as [|o' h' Wo Wh]; subst. specialize (IH Wh).
  assert (L : forall q m r0, last_rec h q m = Some r0 -> wf_record r0).
  { clear -Wh. intros q m. induction h as [|o h IH]; intros r0 E; [discriminate|].
    inversion Wh as [|o' h' Wo Wh']; subst. specialize (IH Wh').
    destruct o as [p r u|p n t|p n t|g n|n|g n|p t]; cbn [last_rec] in E; auto.
    - destruct (prefix_eqb q p && (m =? r_mui r)); auto. inversion E; subst. apply Wo.
    - destruct (prefix_eqb q p && (m =? n)); auto. destruct (last_rec h q m) as [r1|]; [|discriminate].
      inversion E; subst. destruct (IH r1 eq_refl). destruct Wo as (_ & _ & ?). split; auto.
    - destruct (prefix_eqb q p && (m =? n)); auto. destruct (last_rec h q m) as [r1|]; [|discriminate].
      inversion E; subst. destruct (IH r1 eq_refl). destruct Wo as (_ & _ & ?). split; auto. }
  destruct s; cbn [writes]; try (destruct o; auto; fail).
  - destruct o as [q r' u|q n t|q n t|g n|n|g n|q t]; auto.
    intros [E|I]; auto. inversion E; subst. apply Wo.
  - destruct o as [q r' u|q n t|q n t|g n|n|g n|q t]; auto.
    + destruct (last_rec h q (r_mui r')) as [r0|] eqn:E0; auto. intros [E|I]; auto.
      inversion E; subst. split; [apply Wo|]. apply (L _ _ _ E0).
    + destruct (last_rec h q n) as [r0|] eqn:E0; auto. intros [E|I]; auto.
      inversion E; subst. destruct Wo as (? & ? & ?). split; [assumption|now split].
    + destruct (last_rec h q n) as [r0|] eqn:E0; auto. intros [E|I]; auto.
      inversion E; subst. destruct Wo as (? & ? & ?). split; [assumption|now split].
Qed.

Lemma latest_In W p r : latest W p (r_mui r) (r_ltime r) (r_status r) = Some (r_meta r) ->
  In (p, r) W.
Proof.
  unfold latest. destruct (List.find _ W) as [[q w]|] eqn:F; [|discriminate].
  apply List.find_some in F. destruct F as [I K]. apply same_key_spec in K. cbn [fst snd] in K.
  simpl. intros M. injection M as M. destruct K as (-> & ? & ? & ?).
  destruct r, w; simpl in *. subst. exact I.
Qed.

Lemma disk_latest' s h st p r : keeps_long s -> after s h st ->
  (on_disk st p r <-> latest (writes s h) p (r_mui r) (r_ltime r) (r_status r) = Some (r_meta r)).
Proof.
  intros S A. rewrite (disk_latest s h) by auto. split; [easy|]. intros L. split; [|split; auto].
  - apply latest_In in L. now apply (writes_wf s h) in L; [|apply A].
  - apply latest_In in L. now apply (writes_wf s h) in L; [|apply A].
Qed.


Lemma latest_cons w W p r : latest (w :: W) p (r_mui r) (r_ltime r) (r_status r) = Some (r_meta r) <->
  (p, r) = w \/ (~ (fst w = p /\ key_of (snd w) = key_of r) /\
                 latest W p (r_mui r) (r_ltime r) (r_status r) = Some (r_meta r)).
Proof.
  unfold latest at 1. cbn [List.find]. destruct (same_key p (r_mui r) (r_ltime r) (r_status r) w) eqn:K.
  - apply same_key_spec in K. destruct w as [q w]. cbn [fst snd option_map] in *.
    destruct K as (-> & K1 & K2 & K3). split.
    + intros M. injection M as M. left. destruct r, w; simpl in *; congruence.
    + intros [E|[N _]].
      * inversion E; subst. easy.
      * elim N. split; auto. unfold key_of. congruence.
  - fold (latest W p (r_mui r) (r_ltime r) (r_status r)). split.
    + intros M. right. split; auto. intros [E1 E2]. unfold key_of in E2. injection E2 as E2 E3 E4.
      assert (same_key p (r_mui r) (r_ltime r) (r_status r) w = true)
        by (apply same_key_spec; auto). congruence.
    + intros [E|[_ M]]; auto. subst w. exfalso.
      assert (same_key p (r_mui r) (r_ltime r) (r_status r) (p, r) = true)
        by (apply same_key_spec; auto). congruence.
Qed.

Lemma write_ahead_disk h st p r : after WriteAhead h st ->
  (on_disk st p r <-> exists h1 u h2, h = h1 ++ Insert p r u :: h2 /\
     forall r' u', In (Insert p r' u') h1 -> key_of r' <> key_of r).
Proof.
  intros A. rewrite (disk_latest' WriteAhead h) by (auto; now left). clear A.
  induction h as [|o h IH].
  - cbn. split; [discriminate|]. intros (h1 & u & h2 & E & _). now destruct h1.
  - assert (Skip : (forall r' u', o = Insert p r' u' -> key_of r' <> key_of r) ->
      (exists h1 u h2, h = h1 ++ Insert p r u :: h2 /\
         forall r' u', In (Insert p r' u') h1 -> key_of r' <> key_of r) <->
      (exists h1 u h2, o :: h = h1 ++ Insert p r u :: h2 /\
         forall r' u', In (Insert p r' u') h1 -> key_of r' <> key_of r)).
    { intros No. split.
      - intros (h1 & u & h2 & -> & N). exists (o :: h1), u, h2. split; auto.
        intros r' u' [E|I]; eauto.
      - intros (h1 & u & h2 & E & N). destruct h1 as [|o1 h1]; simpl in E; inversion E; subst.
        + elim (No r u); auto.
        + exists h1, u, h2. split; auto. intros r' u' I. apply (N r' u'). now right. }
    destruct o as [q r0 u0|q n t|q n t|g n|n|g n|q t];
      try (cbn [writes]; rewrite IH; apply Skip; congruence).
    cbn [writes]. rewrite latest_cons, IH. cbn [fst snd]. split.
    + intros [E|[N X]].
      * inversion E; subst. exists [], u0, h. split; auto.
      * apply Skip; auto. intros r' u' E Kk. inversion E; subst. now apply N.
    + intros X.
      destruct (prefix_eqb q p && status_eqb (r_status r0) (r_status r) && (r_mui r0 =? r_mui r)
                && (r_ltime r0 =? r_ltime r)) eqn:Q.
      * left. rewrite !andb_true_iff, prefix_eqb_spec, status_eqb_spec, !N.eqb_eq in Q.
        destruct Q as [[[-> Q1] Q2] Q3].
        destruct X as (h1 & u & h2 & E & N). destruct h1 as [|o1 h1]; simpl in E; inversion E; subst; auto.
        elim (N r0 u0); [now left|]. unfold key_of. congruence.
      * right.
        assert (D : ~ (q = p /\ key_of r0 = key_of r)).
        { intros [-> K]. unfold key_of in K. injection K as K1 K2 K3. rewrite K1, K2, K3 in Q.
          rewrite prefix_eqb_refl, !N.eqb_refl in Q. destruct (r_status r); discriminate. }
        split; auto. apply Skip; auto. intros r' u' E K. inversion E; subst. now apply D.
Qed.


Lemma history_step h st o st' x p r : after PersistHistory h st -> wf_op o ->
  exec st o = Ok (st', x) ->
  (on_disk st' p r <->
   match superseded h o with
   | Some w => (p, r) = w \/ (~ (fst w = p /\ key_of (snd w) = key_of r) /\ on_disk st p r)
   | None => on_disk st p r
   end).
Proof.
  intros A Wo E. pose proof (exec_after _ _ _ _ _ _ A Wo E) as A'.
  rewrite (disk_latest' PersistHistory (o :: h) st') by (auto; now right).
  assert (D : on_disk st p r <->
    latest (writes PersistHistory h) p (r_mui r) (r_ltime r) (r_status r) = Some (r_meta r))
    by (apply disk_latest'; auto; now right).
  destruct o as [q r0 u0|q n t|q n t|g n|n|g n|q t]; cbn [writes superseded]; try (now rewrite D).
  - destruct (last_rec h q (r_mui r0)) as [old|]; cbn [option_map]; rewrite D; [apply latest_cons|easy].
  - destruct (last_rec h q n) as [old|]; cbn [option_map]; rewrite D; [apply latest_cons|easy].
  - destruct (last_rec h q n) as [old|]; cbn [option_map]; rewrite D; [apply latest_cons|easy].
Qed.

Lemma memory_no_disk h st p r : after MemoryOnly h st -> ~ on_disk st p r.
Proof.
  intros A. destruct (after_rib _ _ _ (fst p) A) as [Wh R].
  pose proof (ro_lsm _ _ _ _ R) as L. simpl in L. unfold on_disk, disk. rewrite L. easy.
Qed.

Lemma persist_only_disk h st p r : after PersistOnly h st ->
  (on_disk st p r <-> po_rec h p (r_mui r) = Some r).
Proof.
  intros A. destruct (after_rib _ _ _ (fst p) A) as [Wh R].
  pose proof (ro_lsm _ _ _ _ R) as L. unfold on_disk, disk.
  destruct (rb_lsm (rib_of st (fst p))) as [l|]; [|easy].
  destruct (disk_short (fst p) h l Wh L) as (d & E & N & I). unfold rdisk in E. rewrite E.
  rewrite in_some, I. split; [easy|]. intros P. split; auto. split; auto.
  apply (hist_inserted_wf h); auto. destruct (inserted h p) eqn:X; auto. exfalso.
  assert (G : forall m, po_rec h p m = None).
  { clear -X. intros m. induction h as [|o h IH]; auto. simpl in X. apply orb_false_iff in X.
    destruct X as [X1 X2]. specialize (IH X2).
    destruct o as [q r0 u0|q n t|q n t|g n|n|g n|q t]; cbn [po_rec]; auto.
    - now rewrite X1.
    - rewrite IH. now destruct (prefix_eqb p q && (m =? n)).
    - rewrite IH. now destruct (prefix_eqb p q && (m =? n)). }
  congruence.
Qed.

(* ---------- persist_prefixes_iter ---------- *)

Lemma persist_iter_no_meta s h st f : keeps_long s -> after s h st ->
  (forall p r, fst p = f -> on_disk st p r -> r_meta r = []) ->
  exists G, persist_prefixes_iter_af st f = Ok (List.map ROk G) /\
    NoDup (List.map (@fst prefix (list record)) G) /\
    (forall p rs, In (p, rs) G -> rs <> [] /\ fst p = f) /\
    (forall p r, (exists rs, In (p, rs) G /\ In r rs) <-> fst p = f /\ on_disk st p r).
Proof.
  intros S A M. destruct (after_rib _ _ _ f A) as [Wh R].
  destruct (disk_decodes s h st f A) as (d & E & N & Fd).
  pose proof (ro_lsm _ _ _ _ R) as L. unfold disk in E.
  unfold persist_prefixes_iter_af, rib_persist_prefixes_iter.
  assert (Od : forall p r, fst p = f /\ on_disk st p r <-> In (p, r) d).
  { intros p r. unfold on_disk. split.
    - intros [<- I]. unfold disk in I. rewrite E in I. rewrite in_some in I; exact I.
    - intros I. pose proof (Fd _ _ I). subst f. split; auto. unfold disk. rewrite E. rewrite in_some; exact I. }
  destruct (rb_lsm (rib_of st f)) as [l|]; [|destruct S; subst s; easy].
  assert (L' : long_rel f (writes s h) l) by (destruct S; subst s; exact L).
  destruct (persist_iter_bare f _ l d L' E) as (G & EG & NG & Ne & Fl).
  - intros p r I. apply Od in I. destruct I. now apply (M p r).
  - exists G. split; [exact EG|]. split; auto. subst d.
    assert (X : forall p r, (exists rs, In (p, rs) G /\ In r rs) <->
      In (p, r) (flat_map (fun g : prefixrecord => List.map (pair (fst g)) (snd g)) G)).
    { intros p r. rewrite in_flat_map. split.
      - intros (rs & I & I'). exists (p, rs). split; auto. simpl. now apply in_map.
      - intros ([q rs] & I & I'). simpl in I'. apply in_map_iff in I'. destruct I' as (r' & E' & I').
        inversion E'; subst. eauto. }
    split.
    + intros p rs I. pose proof (Ne p rs I) as Nn. split; auto.
      destruct rs as [|r rs]; [easy|]. apply (Fd p r), X. exists (r :: rs). split; auto. now left.
    + intros p r. rewrite X. symmetry. apply Od.
Qed.

Lemma persist_iter_all_errors s h st f : s <> MemoryOnly -> after s h st ->
  (forall p r, fst p = f -> on_disk st p r -> r_meta r <> []) ->
  persist_prefixes_iter_af st f = Ok (repeat (RErr FatalErr) (length (disk st f))).
Proof.
  intros S A M. destruct (after_rib _ _ _ f A) as [Wh R].
  destruct (disk_decodes s h st f A) as (d & E & N & Fd).
  unfold persist_prefixes_iter_af, rib_persist_prefixes_iter. unfold on_disk, disk in *.
  destruct (rb_lsm (rib_of st f)) as [l|] eqn:El.
  - rewrite map_length. rewrite persist_iter_meta; auto.
    intros k v I.
    assert (Z : In (option_map (fun x => (f, fst x, snd x)) (zc_record f (k ++ v))) (List.map Some d)).
    { rewrite <- E. apply in_map_iff. exists (k, v). auto. }
    apply in_map_iff in Z. destruct Z as ([p r] & Ez & Id).
    pose proof (Fd _ _ Id) as Fp.
    assert (Mr : r_meta r <> []).
    { apply (M p r); auto. rewrite Fp, El, E. now apply in_some. }
    unfold zc_record in Ez. destruct (Nat.ltb (length (k ++ v)) (KEY_SIZE f)) eqn:Lt; [discriminate|].
    apply Nat.ltb_ge in Lt. destruct (status_of_byte _) as [sb|]; [|discriminate].
    simpl in Ez. inversion Ez; subst. simpl in Mr.
    destruct (Nat.eq_dec (length (k ++ v)) (KEY_SIZE (fst p))) as [Q|Q]; [|simpl; lia].
    exfalso. apply Mr. apply length_zero_iff_nil. rewrite skipn_length. simpl in Q. lia.
  - reflexivity.
Qed.

(* ---------- PersistOnly ---------- *)


Lemma po_no_marks h p m : existsb local_mark h = false -> po_rec h p m = last_rec h p m.
Proof.
  induction h as [|o h IH]; auto. cbn [existsb]. intros E. apply orb_false_iff in E.
  destruct E as [E1 E2]. destruct o; try discriminate; cbn [po_rec last_rec]; now rewrite IH.
Qed.


Lemma persist_only_map h st p mui iw : after PersistOnly h st -> existsb local_mark h = false ->
  wf_prefix p -> wf_mui mui ->
  exists o, get_records_for_prefix st p mui iw = Ok (ROk o) /\ answers (view_map h p mui iw) o.
Proof.
  intros A L W Wm. destruct (get_records PersistOnly h st p mui iw A W Wm) as [o [E V]].
  exists o. split; auto.
  assert (X : forall m, view PersistOnly h p mui iw m = view_map h p mui iw m).
  { intros m. simpl. unfold view_persist, view_map. rewrite po_no_marks by auto.
    destruct (named mui m); simpl; destruct (last_rec h p m); auto. }
  destruct o as [l|]; simpl in *.
  - destruct V as [Ne [ND I]]. split; auto. split; auto. intros r. now rewrite <- X.
  - intros m. now rewrite <- X.
Qed.


Lemma all_active_last h p m r : all_active h -> last_rec h p m = Some r -> r_status r = Active.
Proof.
  intros [L S]. revert L S. induction h as [|o h IH]; intros L S E; [discriminate|].
  cbn [existsb] in L. apply orb_false_iff in L. destruct L as [L1 L2].
  assert (S' : forall p r u, In (Insert p r u) h -> r_status r = Active)
    by (intros q r' u I; apply (S q r' u); now right).
  destruct o as [q r0 u0|q n t|q n t|g n|n|g n|q t]; try discriminate; cbn [last_rec] in E; auto.
  destruct (prefix_eqb p q && (m =? r_mui r0)); auto. inversion E; subst.
  apply (S q r u0). now left.
Qed.


Lemma view_persist_memory h p mui iw m : all_active h -> not_hidden h (fst p) mui iw ->
  view_persist h p mui iw m = view_memory h p mui iw m.
Proof.
  intros A H. unfold view_persist, view_memory. rewrite po_no_marks by apply A.
  destruct (named mui m) eqn:Nm; auto.
  unfold view_all, view_active, view_local.
  destruct (last_rec h p m) as [r|] eqn:E.
  - pose proof (all_active_last _ _ _ _ A E) as Ac. rewrite Ac. simpl.
    destruct iw; auto. destruct H as [H|H]; [discriminate|].
    destruct mui as [n|]; simpl in Nm.
    + apply N.eqb_eq in Nm. subst n. now rewrite H.
    + now destruct (g_withdrawn h (fst p) m).
  - destruct iw; auto. now destruct mui.
Qed.

Lemma persist_only_alike s h st1 st2 p mui iw : in_memory s -> after s h st1 ->
  after PersistOnly h st2 -> all_active h -> not_hidden h (fst p) mui iw -> wf_prefix p ->
  wf_mui mui ->
  exists a b, get_records_for_prefix st1 p mui iw = Ok (ROk a) /\
    get_records_for_prefix st2 p mui iw = Ok (ROk b) /\ same_records a b.
Proof.
  intros S A1 A2 Ac H W Wm.
  destruct (get_records s h st1 p mui iw A1 W Wm) as [a [Ea Va]].
  destruct (get_records PersistOnly h st2 p mui iw A2 W Wm) as [b [Eb Vb]].
  exists a, b. split; auto. split; auto. refine (answers_same _ _ _ _ _ _ Va Vb).
  - intros m. rewrite view_in_memory by auto. symmetry. now apply view_persist_memory.
  - intros m r. apply view_mui.
Qed.

(* a local mark with PersistOnly, as far as it works *)
Lemma persist_only_mark_withdrawn h st st' x p m t r : after PersistOnly h st -> wf_prefix p ->
  m < 2 ^ 32 -> t < 2 ^ 64 -> on_disk st p r -> r_mui r = m ->
  exec st (MarkWithdrawn p m t) = Ok (st', x) ->
  x = OUnit (ROk tt) /\ on_disk st' p (Rec m t Withdrawn []).
Proof.
  intros A W Wm Wt D M E.
  assert (Wo : wf_op (MarkWithdrawn p m t)) by (simpl; auto).
  pose proof (exec_after _ _ _ _ _ _ A Wo E) as A'.
  destruct (exec_total _ h st _ A Wo) as (st2 & x2 & E2 & _ & X).
  rewrite E2 in E. inversion E; subst st2 x2. simpl in X. split; auto.
  apply (persist_only_disk h) in D; auto.
  apply (persist_only_disk (MarkWithdrawn p m t :: h)); auto. cbn [po_rec r_mui].
  rewrite prefix_eqb_refl, N.eqb_refl. rewrite M in D. rewrite D. simpl. now rewrite M.
Qed.

Lemma persist_only_mark_active h st st' x p m t r : after PersistOnly h st -> wf_prefix p ->
  m < 2 ^ 32 -> t < 2 ^ 64 -> on_disk st p r -> r_mui r = m ->
  exec st (MarkActive p m t) = Ok (st', x) ->
  x = OUnit (ROk tt) /\
  on_disk st' p (match r_meta r with [] => Rec m t Active [] | _ => r end).
Proof.
  intros A W Wm Wt D M E.
  assert (Wo : wf_op (MarkActive p m t)) by (simpl; auto).
  pose proof (exec_after _ _ _ _ _ _ A Wo E) as A'.
  destruct (exec_total _ h st _ A Wo) as (st2 & x2 & E2 & _ & X).
  rewrite E2 in E. inversion E; subst st2 x2. simpl in X. split; auto.
  apply (persist_only_disk h) in D; auto.
  apply (persist_only_disk (MarkActive p m t :: h)); auto. cbn [po_rec].
  assert (Q : r_mui (match r_meta r with [] => Rec m t Active [] | _ => r end) = m)
    by (now destruct (r_meta r)).
  rewrite Q, prefix_eqb_refl, N.eqb_refl. rewrite M in D. rewrite D. simpl.
  rewrite M. now destruct (r_meta r).
Qed.

(* ---------- every call returns ---------- *)

Lemma pp_take_shorter f outer : forall l rr x cur l', pp_take f outer rr l = (x, cur, l') ->
  (length l' + (match cur with Some _ => 1 | None => 0 end) <= length l)%nat.
Proof.
  induction l as [|[k v] l IH]; intros rr x cur l' E; simpl in E.
  - inversion E; subst. simpl. lia.
  - destruct (key_header f k) as [[id r]|].
    + destruct (pid_eqb id outer).
      * apply IH in E. simpl. lia.
      * inversion E; subst. simpl. lia.
    + apply IH in E. simpl. lia.
Qed.

Lemma pp_collect_total f : forall fuel st,
  (length (snd st) + (match fst st with Some _ => 1 | None => 0 end) < fuel)%nat ->
  exists x, pp_collect fuel f st = Ok x.
Proof.
  induction fuel as [|fuel IH]; intros [cur l] H; [lia|]. cbn [pp_collect fst snd] in *.
  assert (G : forall rr l2, (length l2 < fuel)%nat -> forall o,
    (match rr with
     | Some b :: _ =>
       match key_header f b with
       | Some (outer, _) =>
         let '(r_rec', cur, l') := pp_take f outer rr l2 in Some (r_rec', (cur, l'))
       | None => Some ([None], (None, l2))
       end
     | _ => Some ([None], (None, l2))
     end) = o ->
    exists x, match o with
              | None => Ok []
              | Some (x, st') => do xs <- pp_collect fuel f st'; Ok (x :: xs)
              end = Ok x).
  { intros rr l2 Hl o <-.
    assert (Z : forall y, exists x, (do xs <- pp_collect fuel f (None, l2); Ok (y :: xs)) = Ok x).
    { intros y. destruct (IH (None, l2)) as [x ->]; [simpl; lia|]. simpl. eauto. }
    destruct rr as [|[b|] rr]; auto.
    destruct (key_header f b) as [[outer r]|]; auto.
    destruct (pp_take f outer (Some b :: rr) l2) as [[x c'] l'] eqn:T.
    apply pp_take_shorter in T.
    destruct (IH (c', l')) as [y ->]; [simpl; lia|]. simpl. eauto. }
  unfold pp_next. cbn [fst snd]. destruct cur as [rr|].
  - apply (G rr l); [lia|reflexivity].
  - destruct l as [|[k v] l]; [eauto|]. apply (G [Some (k ++ v)] l); [simpl in H; lia|reflexivity].
Qed.

Lemma persist_iter_total st f : exists l, persist_prefixes_iter_af st f = Ok l.
Proof.
  unfold persist_prefixes_iter_af, rib_persist_prefixes_iter.
  destruct (rb_lsm (rib_of st f)) as [l|]; [|eauto].
  destruct (pp_collect_total f (S (length l)) (None, l)) as [x E]; [simpl; lia|].
  unfold persisted_prefixes_iter. rewrite E. simpl. eauto.
Qed.

Lemma contains_total s h st p mui : after s h st -> wf_prefix p ->
  exists b, contains st p mui = Ok b.
Proof.
  destruct p as [f id]. intros A W. destruct (after_rib _ _ _ f A) as [Wh R].
  unfold contains. cbn [fst snd]. destruct mui as [m|].
  - destruct (rib_contains_mui_ok s f h _ (rib_ok_ans _ _ _ _ R) id m W) as (b & E & _). eauto.
  - rewrite (rib_contains_ok s f h _ (rib_ok_ans _ _ _ _ R) id W). eauto.
Qed.

Lemma collect_pairs f v L :
  collect_ro (List.map (fun p => of_prefix f p (ROk (Some v))) L) =
  ROk (Some (List.map (fun p => ((f, p), v)) L)).
Proof. induction L as [|p L IH]; cbn [List.map collect_ro]; [easy|]. rewrite IH. reflexivity. Qed.

(* more_specifics_from: the records are those of the search prefix, the prefix
   is there when it is not stored *)
Lemma more_from_exact s h st p mui iw : after s h st -> wf_prefix p -> wf_mui mui ->
  exists c o L q,
    contains st p mui = Ok c /\ get_records_for_prefix st p mui iw = Ok (ROk o) /\
    more_specifics_from st p mui iw = Ok (ROk q) /\
    NoDup L /\ (forall q, In q L <-> listed h q /\ pcovers p q /\ p_len (snd p) < BITS (fst p)) /\
    qr_type q = EmptyMatch /\ qr_prefix q = (if c then None else Some p) /\
    qr_records q = opt_default o /\ qr_less q = None /\
    match o, L with
    | None, _ :: _ => qr_more q = None
    | _, _ => exists rs, qr_more q = Some rs /\
                rs_items rs = Ok (List.map (fun q => (q, opt_default o)) L)
    end.
Proof.
  destruct p as [f id]. intros A W Wm. destruct (after_rib _ _ _ f A) as [Wh R].
  destruct (contains_total s h st (f, id) mui A W) as [c C].
  destruct (get_records s h st (f, id) mui iw A W Wm) as [o [G _]].
  destruct (rib_more_ok s f h _ Wh (rib_ok_ans _ _ _ _ R) id W) as (L & M & ND & I).
  unfold more_specifics_from, rib_more_specifics_from, contains, StarCast.get_records_for_prefix in *.
  cbn [fst snd] in *. rewrite C, G, M. cbn [bind].
  rewrite (map_res_ok _ (fun p => of_prefix f p (ROk o))) by auto. cbn [bind].
  assert (NDL : NoDup (List.map (pair f) L)).
  { apply FinFun.Injective_map_NoDup; auto. intros a b X. now inversion X. }
  assert (IL : forall q, In q (List.map (pair f) L) <->
     listed h q /\ pcovers (f, id) q /\ p_len id < BITS f).
  { intros [g q]. rewrite in_map_iff. split.
    - intros (q' & X & Y). inversion X; subst. apply I in Y. unfold pcovers. simpl. tauto.
    - intros (Y1 & [Y2 Y3] & Y4). simpl in Y2. subst g. exists q. split; auto. apply I. auto. }
  assert (Items : forall v, rs_items (rs_from_iter (List.map (fun p => ((f, p), v)) L)) =
            Ok (List.map (fun q => (q, v)) (List.map (pair f) L))).
  { intros v. rewrite rs_items_family with (f := f).
    - now rewrite map_map.
    - intros x X. apply in_map_iff in X. destruct X as (y & <- & _). reflexivity. }
  destruct o as [v|].
  - rewrite collect_pairs. cbn [option_map].
    eexists c, (Some v), (List.map (pair f) L), _. do 3 (split; [reflexivity|]). split; auto. split; auto.
    cbn [qr_type qr_prefix qr_records qr_less qr_more opt_default].
    split; auto. split; [now destruct c|]. split; auto. split; auto.
    destruct (List.map (pair f) L) eqn:EL; eexists; (split; [reflexivity|apply Items]).
  - destruct L as [|q0 L].
    + eexists c, None, [], _. do 3 (split; [reflexivity|]). split; [constructor|]. split; [exact IL|].
      cbn. split; auto. split; [now destruct c|]. split; auto. split; auto.
      eexists. split; [reflexivity|]. reflexivity.
    + eexists c, None, (List.map (pair f) (q0 :: L)), _. do 3 (split; [reflexivity|]). split; auto. split; auto.
      cbn. split; auto. split; [now destruct c|]. auto.
Qed.

Lemma less_from_exact s h st p mui iw : after s h st -> wf_prefix p -> wf_mui mui ->
  exists c o L q,
    contains st p mui = Ok c /\ get_records_for_prefix st p mui iw = Ok (ROk o) /\
    less_specifics_from st p mui iw = Ok (ROk q) /\
    NoDup L /\ (forall q, In q L <-> listed h q /\ pless q p) /\
    qr_type q = EmptyMatch /\ qr_prefix q = (if c then None else Some p) /\
    qr_records q = opt_default o /\ qr_more q = None /\
    match o, L with
    | None, _ :: _ => qr_less q = None
    | _, _ => exists rs, qr_less q = Some rs /\
                rs_items rs = Ok (List.map (fun q => (q, opt_default o)) L)
    end.
Proof.
  destruct p as [f id]. intros A W Wm. destruct (after_rib _ _ _ f A) as [Wh R].
  destruct (contains_total s h st (f, id) mui A W) as [c C].
  destruct (get_records s h st (f, id) mui iw A W Wm) as [o [G _]].
  destruct (rib_less_ok s f h _ Wh (rib_ok_ans _ _ _ _ R) id W) as (L & M & LD & I).
  pose proof (len_desc_NoDup _ LD) as ND.
  unfold less_specifics_from, rib_less_specifics_from, contains, StarCast.get_records_for_prefix in *.
  cbn [fst snd] in *. rewrite C, G, M. cbn [bind].
  rewrite (map_res_ok _ (fun p => of_prefix f p (ROk o))) by auto. cbn [bind].
  assert (NDL : NoDup (List.map (pair f) L)).
  { apply FinFun.Injective_map_NoDup; auto. intros a b X. now inversion X. }
  assert (IL : forall q, In q (List.map (pair f) L) <-> listed h q /\ pless q (f, id)).
  { intros [g q]. rewrite in_map_iff. split.
    - intros (q' & X & Y). inversion X; subst. apply I in Y. unfold pless, pcovers, less_specific in *.
      simpl. tauto.
    - intros (Y1 & [Y2 Y3] & Y4). simpl in Y2. subst g. exists q. split; auto. apply I.
      unfold less_specific. auto. }
  assert (Items : forall v, rs_items (rs_from_iter (List.map (fun p => ((f, p), v)) L)) =
            Ok (List.map (fun q => (q, v)) (List.map (pair f) L))).
  { intros v. rewrite rs_items_family with (f := f).
    - now rewrite map_map.
    - intros x X. apply in_map_iff in X. destruct X as (y & <- & _). reflexivity. }
  destruct o as [v|].
  - rewrite collect_pairs. cbn [option_map].
    eexists c, (Some v), (List.map (pair f) L), _. do 3 (split; [reflexivity|]). split; auto. split; auto.
    cbn [qr_type qr_prefix qr_records qr_less qr_more opt_default].
    split; auto. split; [now destruct c|]. split; auto. split; auto.
    destruct (List.map (pair f) L) eqn:EL; eexists; (split; [reflexivity|apply Items]).
  - destruct L as [|q0 L].
    + eexists c, None, [], _. do 3 (split; [reflexivity|]). split; [constructor|]. split; [exact IL|].
      cbn. split; auto. split; [now destruct c|]. split; auto. split; auto.
      eexists. split; [reflexivity|]. reflexivity.
    + eexists c, None, (List.map (pair f) (q0 :: L)), _. do 3 (split; [reflexivity|]). split; auto. split; auto.
      cbn. split; auto. split; [now destruct c|]. auto.
Qed.

Lemma ask_total s h st q : after s h st -> wf_query q -> exists a, ask st q = Ok a.
Proof.
  intros A W.
  assert (X : forall B (g : B -> answer) r, (exists x, r = Ok x) -> exists a, lift g r = Ok a).
  { intros B g r [x ->]. simpl. eauto. }
  assert (P : forall f, exists l, prefixes_iter_af st f = Ok l).
  { intros f. destruct (prefixes_all s h st f A) as (l & E & _). eauto. }
  destruct q as [p o|p mui|p|p|p mui iw|p mui iw|p mui iw|p mui iw|p mui iw|f m iw|f|f|f m|f m
    |f|f len|f|f|f|f| | |m| | | |]; cbn [ask]; cbn [wf_query] in W; try (apply X); eauto.
  - destruct W as [W Wm]. destruct (match_sets s h st p o A W Wm) as (x & E & _). eauto.
  - apply (contains_total s h); auto; apply W.
  - destruct p as [f id]. destruct (after_rib _ _ _ f A) as [Wh R].
    destruct (rib_best_path_ok s f h _ R id W) as (x & E & _). exists x. exact E.
  - destruct p as [f id]. destruct (after_rib _ _ _ f A) as [Wh R].
    destruct (rib_is_ps_outdated_ok s f h _ R id W) as (x & E & _). exists x. exact E.
  - destruct W as [W Wm].
    destruct (more_from_exact s h st p mui iw A W Wm) as (c & o & L & x & _ & _ & E & _). eauto.
  - destruct W as [W Wm].
    destruct (less_from_exact s h st p mui iw A W Wm) as (c & o & L & x & _ & _ & E & _). eauto.
  - destruct W as [W Wm]. destruct (more_iter s h st p mui iw A W Wm) as (l & E & _). eauto.
  - destruct W as [W Wm]. destruct (less_iter s h st p mui iw A W Wm) as (l & E & _). eauto.
  - destruct W as [W Wm]. destruct (get_records s h st p mui iw A W Wm) as (l & E & _). eauto.
  - unfold iter_records_for_mui. destruct (rib_mui_is_withdrawn _ _ && _); [eauto|].
    assert (W0 : wf_prefix (f, (0, 0))).
    { repeat split; try apply N.le_0_l. simpl. apply N.neq_0_lt_0, N.pow_nonzero. lia. }
    destruct (more_iter s h st (f, (0, 0)) (Some m) iw A W0 W) as (l & E & _).
    exists (List.map ROk l). exact E.
  - apply persist_iter_total.
  - destruct (prefix_counts s h st f A) as (_ & _ & E). rewrite E. eauto.
  - unfold prefixes_iter. destruct (P IPv4) as [a ->], (P IPv6) as [b ->]. simpl. eauto.
  - unfold persist_prefixes_iter.
    destruct (persist_iter_total st IPv4) as [a ->], (persist_iter_total st IPv6) as [b ->].
    simpl. eauto.
Qed.

(* ---------- flush and statistics ---------- *)

Lemma flush_ok s h st : after s h st ->
  flush_to_disk st = match s with MemoryOnly => RErr PersistFailed | _ => ROk tt end.
Proof.
  intros A. destruct (after_rib _ _ _ IPv4 A) as [_ R4]. destruct (after_rib _ _ _ IPv6 A) as [_ R6].
  pose proof (ro_lsm _ _ _ _ R4) as L4. pose proof (ro_lsm _ _ _ _ R6) as L6.
  unfold flush_to_disk, rib_flush_to_disk. cbn [rib_of] in *.
  destruct s; simpl in *; destruct (rb_lsm (st_v4 st)), (rb_lsm (st_v6 st)); easy.
Qed.

Lemma combine_seq_nth (l : list N) : forall b n x,
  In (n, x) (combine (List.map N.of_nat (seq b (length l))) l) <->
  exists i, (i < length l)%nat /\ n = N.of_nat (b + i) /\ x = nth i l 0.
Proof.
  induction l as [|y l IH]; intros b n x; simpl.
  - split; [easy|]. intros (i & H & _). lia.
  - rewrite IH. split.
    + intros [E|(i & H & -> & ->)].
      * inversion E; subst. exists 0%nat. repeat split; try lia.
      * exists (S i). repeat split; try lia.
    + intros ([|i] & H & -> & ->).
      * left. f_equal. f_equal. lia.
      * right. exists i. repeat split; try lia.
Qed.

Lemma stats_ok s h st f l n : after s h st ->
  (In (l, n) (stats st f) <-> l <= 128 /\ n = n_prefixes_len f h l /\ n <> 0).
Proof.
  intros A. destruct (after_rib _ _ _ f A) as [_ R].
  pose proof (ro_cnt _ _ _ _ R) as [Cl Cn _ _]. unfold stats, rib_stats.
  rewrite filter_In. cbn [snd]. rewrite negb_true_iff, N.eqb_neq.
  rewrite <- Cl. rewrite combine_seq_nth. split.
  - intros [(i & H & E1 & E2) Nz]. subst l n. rewrite Cl in H. split; [lia|]. split; auto.
    rewrite <- Cn. now rewrite Nat2N.id.
  - intros (H & E & Nz). split; auto. exists (N.to_nat l). rewrite Cl. split; [lia|]. split; [lia|].
    now rewrite Cn.
Qed.

Lemma more_stats_sorted s h st f : after s h st ->
  NoDup (List.map fst (stats st f)).
Proof.
  intros A. destruct (after_rib _ _ _ f A) as [_ R].
  pose proof (ro_cnt _ _ _ _ R) as [Cl Cn _ _]. unfold stats, rib_stats.
  apply NoDup_map_filter. rewrite <- Cl.
  assert (X : forall (l : list N) b, List.map fst (combine (List.map N.of_nat (seq b (length l))) l) =
                             List.map N.of_nat (seq b (length l))).
  { induction l as [|y l IH]; intros b; simpl; [easy|]. now rewrite IH. }
  rewrite X. apply FinFun.Injective_map_NoDup; [|apply seq_NoDup].
  intros a b. apply Nat2N.inj.
Qed.
