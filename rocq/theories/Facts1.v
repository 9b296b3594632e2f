(* The lemmas behind the properties of the store, part 1: contains, records of a
   prefix, matching and iteration.  Each is about the store left by any history. *)
From Coq Require Import Arith NArith List Bool Lia Permutation.
From Verif Require Import Word Af BitSpan Spec Maps ChtMath Cht Node Tree ChainProofs TreeProofs
  Iter IterProofs MultiMap PrefixCht PrefixChtProofs Lsm LsmProofs RecordSet Rib StarCast HistSpec
  Ask PropSpec RibProofs RibLsm RibOk Queries Queries2 Disk MuiWalk.
Import ListNotations.
Local Open Scope N_scope.

Lemma after_rib s h st f : after s h st -> wf_history h /\ rib_ok s f h (rib_of st f).
Proof. intros [W E]. split; auto. apply so_rib. now apply run_inv. Qed.

Lemma inserted_iff h p : inserted h p = true <-> exists r u, In (Insert p r u) h.
Proof.
  unfold inserted. rewrite existsb_exists. split.
  - intros [o [I E]]. destruct o as [q r u| | | | | |]; try discriminate.
    apply prefix_eqb_spec in E. subst. eauto.
  - intros (r & u & I). exists (Insert p r u). split; auto. apply prefix_eqb_refl.
Qed.

(* ---------- contains ---------- *)

Lemma contains_exact s h st p : after s h st -> wf_prefix p -> 0 < p_len (snd p) ->
  exists b, contains st p None = Ok b /\ (b = true <-> exists r u, In (Insert p r u) h).
Proof.
  destruct p as [f id]. intros A W L. destruct (after_rib _ _ _ f A) as [Wh R].
  unfold contains. cbn [fst snd] in *. rewrite (rib_contains_ok s f h _ (rib_ok_ans _ _ _ _ R)) by auto.
  eexists. split; [reflexivity|]. rewrite <- inserted_iff.
  destruct (N.eqb_spec (p_len id) 0); [lia|]. rewrite andb_true_r. easy.
Qed.

Lemma contains_default s h st f : after s h st -> contains st (f, (0, 0)) None = Ok false.
Proof.
  intros A. destruct (after_rib _ _ _ f A) as [Wh R].
  unfold contains. cbn [fst snd]. rewrite (rib_contains_ok s f h _ (rib_ok_ans _ _ _ _ R)).
  - now rewrite andb_false_r.
  - repeat split; try apply N.le_0_l. simpl. apply N.neq_0_lt_0, N.pow_nonzero. lia.
Qed.


Lemma block_node f id : block (f, id) = (f, node_of f id).
Proof. reflexivity. Qed.

Lemma on_path_covers f p id : wf_pid f p -> on_path f p id = true -> covers f id p.
Proof.
  intros W O. destruct (on_path_inv f p id O) as (M & L & E).
  pose proof W as [Wl [Wb Wc]].
  apply covers_trunc; auto.
  - rewrite E. apply wf_trunc; [easy|]. lia.
  - split; [lia|exact E].
Qed.

Lemma covers_00 f p : wf_pid f p -> covers f (0, 0) p.
Proof.
  intros W. apply covers_trunc; auto.
  - repeat split; try apply N.le_0_l. simpl. apply N.neq_0_lt_0, N.pow_nonzero. lia.
  - split; [apply N.le_0_l|]. rewrite trunc_0; [easy|]. apply W.
Qed.

Lemma through_covers f p id : wf_pid f p -> through f p id = true ->
  covers f id p /\ (p_len id < p_len p \/ p_len id = 0).
Proof.
  intros W T. unfold through in T. apply orb_true_iff in T. destruct T as [T|T].
  - split; [now apply on_path_covers|]. left. now apply on_path_inv in T.
  - apply andb_true_iff in T. destruct T as [_ T]. apply pid_eqb_spec in T. subst id.
    split; [now apply covers_00|now right].
Qed.

Lemma through_own f p : wf_pid f p -> through f p (node_of f p) = true.
Proof.
  intros W. unfold through. apply orb_true_iff.
  destruct (N.eq_dec (p_len p) 0) as [Z|Z].
  - right. rewrite Z. simpl. pose proof (wf_len0 f p W Z) as ->.
    unfold node_of. simpl. rewrite trunc_0 by (simpl; apply N.neq_0_lt_0, N.pow_nonzero; lia). easy.
  - left. apply on_path_at; pose proof (nlen_spec (p_len p)); try easy. apply H. lia.
Qed.

Lemma hist_insert_wf h p r u : wf_history h -> In (Insert p r u) h -> wf_prefix p.
Proof. intros W I. unfold wf_history in W. rewrite Forall_forall in W. apply (W _ I). Qed.

(* at level 0 the hash of a node other than the root is the first four bits *)
Lemma hidx0 f x l : x < 2 ^ BITS f -> 4 <= l -> l <= BITS f ->
  trunc (BITS f) x 4 = hidx f (trunc (BITS f) x l, l) 0 * 2 ^ (BITS f - 4).
Proof.
  intros X L B. unfold hidx, lvl_size. cbn [p_bits p_len fst snd].
  replace (4 * 0) with 0 by lia. replace (N.min 4 (l - 0)) with 4 by lia.
  rewrite slice_trunc by lia. unfold trunc, slice. f_equal.
  replace (BITS f - 0 - 4) with (BITS f - 4) by lia.
  symmetry. apply N.mod_small. replace 4 with (BITS f - (BITS f - 4)) at 2 by lia.
  apply div_lt_pow2; auto. lia.
Qed.

Lemma contains_mui s h st p m : after s h st -> wf_prefix p -> m < 2 ^ 32 ->
  exists b, contains st p (Some m) = Ok b /\
    (b = true -> listed h p /\
       ((exists q r u, In (Insert q r u) h /\ r_mui r = m /\ pcovers (block p) q) \/
        (m = 0 /\ p_len (snd p) <= 4))) /\
    (b = false -> forall r u, In (Insert p r u) h -> r_mui r = m -> 0 < p_len (snd p) ->
       exists q r' u', In (Insert q r' u') h /\ fst q = fst p /\ ~ pcovers (block p) q /\
         p_len (snd (block p)) < p_len (snd q) /\
         trunc (BITS (fst p)) (p_bits (snd q)) 4 = trunc (BITS (fst p)) (p_bits (snd p)) 4 /\
         (forall r'' u'', In (Insert q r'' u'') h -> r_mui r'' <> m)).
Proof.
  destruct p as [f id]. intros A W Hm. destruct (after_rib _ _ _ f A) as [Wh R].
  unfold contains. cbn [fst snd] in *.
  destruct (rib_contains_mui_ok s f h _ (rib_ok_ans _ _ _ _ R) id m W) as (b & E & T & F).
  exists b. split; auto. split.
  - intros B. destruct (T B) as [L V]. split; auto. rewrite block_node. unfold via in V.
    apply orb_true_iff in V. destruct V as [V|V].
    + left. apply existsb_exists in V. destruct V as [o [I V]].
      destruct o as [q r u| | | | | |]; try discriminate.
      apply andb_true_iff in V. destruct V as [V1 V]. apply andb_true_iff in V1.
      destruct V1 as [V1 V2]. apply af_eqb_spec in V1. apply N.eqb_eq in V2.
      exists q, r, u. split; auto. split; auto. pose proof (hist_insert_wf _ _ _ _ Wh I) as Wq.
      destruct q as [g q]. cbn [fst snd] in *. subst g. split; auto. simpl.
      now apply through_covers in V.
    + right. apply andb_true_iff in V. destruct V as [V1 V2]. apply pid_eqb_spec in V1.
      apply N.eqb_eq in V2. split; auto. unfold node_of in V1. inversion V1.
      unfold nlen in *. simpl. dlia.
  - intros B r u I Er L.
    assert (Li : listed h (f, id)) by (split; auto; apply inserted_iff; eauto).
    assert (V : via h f (node_of f id) m = true).
    { unfold via. apply orb_true_iff. left. apply existsb_exists. eexists. split; [exact I|].
      cbn [fst snd]. rewrite af_eqb_refl, Er, N.eqb_refl, through_own; auto. }
    destruct (F B Li V) as (id' & Ne & Len & Hx & Vi & Vn).
    change (wf_pid f id) in W. pose proof W as [Wl [Wb Wc]].
    assert (N0 : id' <> (0, 0)).
    { intros ->. apply Ne. simpl in Len. unfold node_of in *. simpl in *. rewrite <- Len.
      now rewrite trunc_0. }
    assert (X : exists q r' u', In (Insert (f, q) r' u') h /\ on_path f q id' = true).
    { unfold visited in Vi. apply orb_true_iff in Vi. destruct Vi as [Vi|Vi].
      - apply existsb_exists in Vi. destruct Vi as [o [Io Vi]].
        destruct o as [[g q] r' u'| | | | | |]; try discriminate. apply andb_true_iff in Vi.
        destruct Vi as [V1 Vi]. apply af_eqb_spec in V1. cbn [fst snd] in *. subst g.
        unfold through in Vi. apply orb_true_iff in Vi. destruct Vi as [Vi|Vi]; [eauto|].
        apply andb_true_iff in Vi. destruct Vi as [_ Vi]. now apply pid_eqb_spec in Vi.
      - now apply pid_eqb_spec in Vi. }
    destruct X as (q & r' & u' & Iq & Oq).
    pose proof (hist_insert_wf _ _ _ _ Wh Iq) as Wq. change (wf_pid f q) in Wq.
    destruct (on_path_inv f q id' Oq) as (M4 & Lq & Eq). pose proof Wq as [Wql [Wqb Wqc]].
    assert (4 <= p_len id').
    { destruct (N.eq_dec (p_len id') 0) as [Z|Z]; [|dlia].
      elim N0. rewrite Eq, Z. now rewrite trunc_0. }
    exists (f, q), r', u'. rewrite block_node. cbn [fst snd]. split; auto. split; auto.
    split; [|split; [|split]].
    + intros [_ C]. cbn [fst snd] in C. apply Ne.
      apply covers_trunc in C; auto; [|apply node_of_dom, W].
      rewrite Eq, Len. symmetry. apply C.
    + now rewrite <- Len.
    + rewrite (hidx0 f (p_bits q) (p_len id')); try easy; [|lia].
      rewrite (hidx0 f (p_bits id) (nlen (p_len id))).
      * rewrite <- Eq. fold (node_of f id). now rewrite Hx.
      * easy.
      * unfold node_of in Len. simpl in Len. lia.
      * pose proof (nlen_spec (p_len id)). lia.
    + intros r2 u2 I2 E2. enough (via h f id' m = true) by congruence.
      unfold via. apply orb_true_iff. left. apply existsb_exists. eexists. split; [exact I2|].
      cbn [fst snd]. rewrite af_eqb_refl, E2, N.eqb_refl. unfold through. now rewrite Oq.
Qed.

(* ---------- the records of a prefix ---------- *)

Lemma get_records s h st p mui iw : after s h st -> wf_prefix p -> wf_mui mui ->
  exists o, get_records_for_prefix st p mui iw = Ok (ROk o) /\ answers (view s h p mui iw) o.
Proof.
  destruct p as [f id]. intros A W Wm. destruct (after_rib _ _ _ f A) as [Wh R].
  apply (rib_value_ok s f h _ Wh (rib_ok_ans _ _ _ _ R)); auto.
Qed.


Lemma view_in_memory s h : in_memory s -> view s h = view_memory h.
Proof. unfold in_memory. destruct s; easy. Qed.

Lemma get_one s h st p m : in_memory s -> after s h st -> wf_prefix p -> m < 2 ^ 32 ->
  get_records_for_prefix st p (Some m) true =
  Ok (ROk (option_map (fun r => [r]) (view_all h p m))).
Proof.
  intros S A W Wm. destruct (get_records s h st p (Some m) true A W Wm) as [o [E V]].
  rewrite view_in_memory in V by auto.
  rewrite E. do 2 f_equal.
  assert (Vm : forall n, view_memory h p (Some m) true n = if m =? n then view_all h p n else None)
    by reflexivity.
  destruct o as [l|]; simpl in V.
  - destruct V as [Ne [ND I]].
    assert (Own : forall r, In r l -> r_mui r = m /\ view_all h p m = Some r).
    { intros r Ir. apply I in Ir. rewrite Vm in Ir. destruct (N.eqb_spec m (r_mui r)); [|easy].
      subst m. auto. }
    destruct l as [|r l]; [easy|]. destruct (Own r) as [Er Vr]; [now left|]. rewrite Vr. simpl.
    destruct l as [|r' l]; [easy|]. exfalso. destruct (Own r') as [Er' _]; [right; now left|].
    simpl in ND. apply NoDup_cons_iff in ND. apply ND. left. now rewrite Er, Er'.
  - specialize (V m). rewrite Vm, N.eqb_refl in V. now rewrite V.
Qed.

Lemma lists_perm V l l' : lists V l -> lists V l' -> Permutation l l'.
Proof.
  intros [N I] [N' I']. apply NoDup_Permutation.
  - now apply NoDup_map_inv in N.
  - now apply NoDup_map_inv in N'.
  - intros r. now rewrite I, I'.
Qed.


Lemma answers_same V V' a b : (forall m, V m = V' m) -> (forall m r, V m = Some r -> r_mui r = m) ->
  answers V a -> answers V' b -> same_records a b.
Proof.
  intros E M A B.
  assert (C : forall l W, (forall m, V m = W m) -> l <> [] -> lists W l -> exists m, V m <> None).
  { intros [|r l] W EW Ne [_ I]; [easy|]. exists (r_mui r). rewrite EW.
    rewrite (proj1 (I r)); [easy|now left]. }
  destruct a as [l|], b as [l'|]; simpl in *; auto.
  - destruct A as [Na A], B as [Nb [B1 B2]]. apply (lists_perm V); auto. split; auto.
    intros r. now rewrite E.
  - destruct A as [Na A]. destruct (C l V) as [m X]; auto. elim X. now rewrite E.
  - destruct B as [Nb B]. destruct (C l' V') as [m X]; auto.
Qed.

Lemma view_mui s h p mui iw m r : view s h p mui iw m = Some r -> r_mui r = m.
Proof.
  destruct s; simpl; try apply view_memory_mui.
  unfold view_persist. destruct (named mui m); [|discriminate].
  destruct (po_rec h p m) as [r0|] eqn:E; [|discriminate].
  pose proof (po_rec_mui _ _ _ _ E). destruct iw.
  - destruct (g_withdrawn h (fst p) m); intros X; inversion X; subst; easy.
  - destruct (status_eqb (r_status r0) Withdrawn || g_withdrawn h (fst p) m); [easy|].
    intros X; inversion X; now subst.
Qed.


Lemma sets_last h p m o : sets p m o = false -> last_rec (o :: h) p m = last_rec h p m.
Proof. destruct o; simpl; auto; intros ->; easy. Qed.
Lemma sets_po h p m o : sets p m o = false -> po_rec (o :: h) p m = po_rec h p m.
Proof. destruct o; simpl; auto; intros ->; easy. Qed.
Lemma sets_gw h f m o : sets_global f m o = false -> g_withdrawn (o :: h) f m = g_withdrawn h f m.
Proof. destruct o; simpl; auto; intros ->; easy. Qed.

Lemma view_frame s h p mui iw m o : sets p m o = false -> sets_global (fst p) m o = false ->
  view s (o :: h) p mui iw m = view s h p mui iw m.
Proof.
  intros A B.
  pose proof (sets_last h _ _ _ A) as C. pose proof (sets_po h _ _ _ A) as D.
  pose proof (sets_gw h _ _ _ B) as E.
  destruct s; unfold view, view_memory, view_persist, view_all, view_active, view_local;
    now rewrite ?C, ?D, ?E.
Qed.

Lemma exec_after s h st o st' x : after s h st -> wf_op o -> exec st o = Ok (st', x) ->
  after s (o :: h) st'.
Proof.
  intros [W E] Wo X. split; [now constructor|]. cbn [run]. rewrite E. cbn [bind].
  rewrite X. reflexivity.
Qed.

Lemma exec_total s h st o : after s h st -> wf_op o ->
  exists st' x, exec st o = Ok (st', x) /\ after s (o :: h) st' /\ outcome_spec s h o x.
Proof.
  intros A Wo. pose proof A as [W E].
  destruct (exec_ok s h st o W Wo (run_inv _ _ _ W E)) as (st' & x & Ex & _ & X).
  exists st', x. split; auto. split; auto. now apply (exec_after s h st o st' x).
Qed.

(* a call changes the answers for the pairs it is for only *)
Lemma get_frame s h st o st' x p m iw : after s h st -> wf_op o -> exec st o = Ok (st', x) ->
  wf_prefix p -> m < 2 ^ 32 -> sets p m o = false -> sets_global (fst p) m o = false ->
  exists a b, get_records_for_prefix st p (Some m) iw = Ok (ROk a) /\
    get_records_for_prefix st' p (Some m) iw = Ok (ROk b) /\ same_records a b.
Proof.
  intros A Wo E W Wm S G. pose proof (exec_after _ _ _ _ _ _ A Wo E) as A'.
  destruct (get_records s h st p (Some m) iw A W Wm) as [a [Ea Va]].
  destruct (get_records s (o :: h) st' p (Some m) iw A' W Wm) as [b [Eb Vb]].
  exists a, b. split; auto. split; auto.
  refine (answers_same _ _ _ _ _ _ Va Vb).
  - intros n. destruct (N.eq_dec m n) as [<-|Ne].
    + symmetry. now apply view_frame.
    + destruct s; unfold view, view_memory, view_persist, named;
        (destruct (N.eqb_spec m n); [easy|reflexivity]).
  - intros n r. apply view_mui.
Qed.

(* ---------- global marks ---------- *)


Lemma without_last m h p n : last_rec (without_global m h) p n = last_rec h p n.
Proof.
  induction h as [|o h IH]; auto.
  cbn [without_global filter]. fold (without_global m h).
  destruct o as [q r u|q k t|q k t|g k|k|g k|q t]; cbn [global_of negb last_rec];
    rewrite ?IH; auto; destruct (k =? m); simpl; auto.
Qed.
Lemma without_po m h p n : po_rec (without_global m h) p n = po_rec h p n.
Proof.
  induction h as [|o h IH]; auto.
  cbn [without_global filter]. fold (without_global m h).
  destruct o as [q r u|q k t|q k t|g k|k|g k|q t]; cbn [global_of negb po_rec];
    rewrite ?IH; auto; destruct (k =? m); simpl; auto.
Qed.
Lemma without_gw m h f n : g_withdrawn (without_global m h) f n =
  if n =? m then false else g_withdrawn h f n.
Proof.
  induction h as [|o h IH]; [now destruct (n =? m)|].
  cbn [without_global filter]. fold (without_global m h).
  destruct o as [q r u|q k t|q k t|g k|k|g k|q t]; cbn [global_of negb g_withdrawn]; auto;
    destruct (N.eqb_spec k m) as [Ek|Ek]; cbn [g_withdrawn negb]; rewrite IH;
    rewrite ?Ek; destruct (N.eqb_spec n m) as [En|En]; rewrite ?andb_false_r; auto;
    destruct (N.eqb_spec n k); try congruence; now rewrite ?andb_false_r.
Qed.

Lemma without_view s m h p mui iw n : (n = m -> g_withdrawn h (fst p) m = false) ->
  view s (without_global m h) p mui iw n = view s h p mui iw n.
Proof.
  intros G.
  assert (Gn : g_withdrawn (without_global m h) (fst p) n = g_withdrawn h (fst p) n).
  { rewrite without_gw. destruct (N.eqb_spec n m) as [->|]; auto. now rewrite G. }
  destruct s; unfold view, view_memory, view_persist, view_all, view_active, view_local;
    now rewrite ?without_last, ?without_po, ?Gn.
Qed.

Lemma global_reversible s m h st st' p mui iw : after s h st -> after s (without_global m h) st' ->
  g_withdrawn h (fst p) m = false -> wf_prefix p -> wf_mui mui ->
  exists a b, get_records_for_prefix st p mui iw = Ok (ROk a) /\
    get_records_for_prefix st' p mui iw = Ok (ROk b) /\ same_records a b.
Proof.
  intros A A' G W Wm.
  destruct (get_records s h st p mui iw A W Wm) as [a [Ea Va]].
  destruct (get_records s _ st' p mui iw A' W Wm) as [b [Eb Vb]].
  exists a, b. split; auto. split; auto.
  refine (answers_same _ _ _ _ _ _ Va Vb).
  - intros n. symmetry. apply without_view. now intros ->.
  - intros n r. apply view_mui.
Qed.


Lemma answers_holds V o r : answers V o -> (holds o r <-> V (r_mui r) = Some r).
Proof.
  destruct o as [l|]; simpl.
  - intros [_ [_ I]]. apply I.
  - intros N. rewrite N. easy.
Qed.

Lemma global_others s m h st st' p mui iw : after s h st -> after s (without_global m h) st' ->
  wf_prefix p -> wf_mui mui ->
  exists a b, get_records_for_prefix st p mui iw = Ok (ROk a) /\
    get_records_for_prefix st' p mui iw = Ok (ROk b) /\
    forall r, r_mui r <> m -> (holds a r <-> holds b r).
Proof.
  intros A A' W Wm.
  destruct (get_records s h st p mui iw A W Wm) as [a [Ea Va]].
  destruct (get_records s _ st' p mui iw A' W Wm) as [b [Eb Vb]].
  exists a, b. split; auto. split; auto. intros r N.
  rewrite (answers_holds _ _ _ Va), (answers_holds _ _ _ Vb), without_view; easy.
Qed.

(* ---------- matching ---------- *)

Lemma match_exact s h st p o : after s h st -> wf_prefix p -> wf_mui (mo_mui o) ->
  mo_type o = ExactMatch ->
  exists q, match_prefix st p o = Ok (ROk q) /\
    ((listed h p /\ qr_type q = ExactMatch /\ qr_prefix q = Some p /\
      answers (view s h p (mo_mui o) (mo_withdrawn o)) (Some (qr_records q))) \/
     ((~ listed h p \/ forall m, view s h p (mo_mui o) (mo_withdrawn o) m = None) /\
      qr_type q = EmptyMatch /\ qr_prefix q = None /\ qr_records q = [])).
Proof.
  destruct p as [f id]. intros A W Wm T. destruct (after_rib _ _ _ f A) as [Wh R].
  destruct (rib_match_ok s f h _ Wh (rib_ok_ans _ _ _ _ R) id o W Wm) as (q & E & (c & C & X) & _).
  exists q. split; [exact E|]. rewrite T in *. destruct c as [c|].
  - destruct C as [-> L]. destruct X as (a & V & X). destruct a as [rs|].
    + left. destruct X as (X1 & X2 & X3). subst rs. auto.
    + right. auto.
  - right. auto.
Qed.

Lemma match_longest s h st p o : after s h st -> wf_prefix p -> wf_mui (mo_mui o) ->
  mo_type o <> ExactMatch ->
  exists q c, match_prefix st p o = Ok (ROk q) /\ longest_match h p c /\
    match c with
    | Some c =>
      (qr_type q = LongestMatch /\ qr_prefix q = Some c /\
       answers (view s h c (mo_mui o) (mo_withdrawn o)) (Some (qr_records q))) \/
      ((forall m, view s h c (mo_mui o) (mo_withdrawn o) m = None) /\
       qr_type q = EmptyMatch /\ qr_prefix q = None /\ qr_records q = [])
    | None => qr_type q = EmptyMatch /\ qr_prefix q = None /\ qr_records q = []
    end.
Proof.
  destruct p as [f id]. intros A W Wm T. destruct (after_rib _ _ _ f A) as [Wh R].
  destruct (rib_match_ok s f h _ Wh (rib_ok_ans _ _ _ _ R) id o W Wm) as (q & E & (c & C & X) & _).
  exists q, c. split; [exact E|]. split; [destruct (mo_type o); easy|].
  destruct c as [c|]; auto. destruct X as (a & V & X). destruct a as [rs|].
  - left. destruct X as (X1 & X2 & X3). subst rs. destruct (mo_type o); easy.
  - right. auto.
Qed.

Lemma match_sets s h st p o : after s h st -> wf_prefix p -> wf_mui (mo_mui o) ->
  exists q, match_prefix st p o = Ok (ROk q) /\
    (if mo_less o then
       exists rs l, qr_less q = Some rs /\ rs_items rs = Ok l /\
         gives (fun q => listed h q /\ pless q p)
           (fun q => view s h q (mo_mui o) (mo_withdrawn o)) l
     else qr_less q = None) /\
    (if mo_more o then
       exists rs l, qr_more q = Some rs /\ rs_items rs = Ok l /\
         gives (fun q => listed h q /\ pcovers p q /\ q <> p)
           (fun q => view s h q (mo_mui o) (mo_withdrawn o)) l
     else qr_more q = None).
Proof.
  destruct p as [f id]. intros A W Wm. destruct (after_rib _ _ _ f A) as [Wh R].
  destruct (rib_match_ok s f h _ Wh (rib_ok_ans _ _ _ _ R) id o W Wm) as (q & E & _ & X). exists q. auto.
Qed.

(* ---------- iteration ---------- *)

Lemma inserted_view s h p : inserted h p = true -> exists m, view s h p None true m <> None.
Proof.
  intros I. destruct (inserted_last_rec h p I) as [m L]. exists m.
  destruct (match s with PersistOnly => true | _ => false end) eqn:S.
  - assert (s = PersistOnly) as -> by (destruct s; easy). simpl. unfold view_persist. simpl.
    destruct (po_rec h p m) eqn:P; [easy|]. apply po_none_last in P. congruence.
  - rewrite view_in_memory by (intros ->; easy). unfold view_memory, view_all. simpl.
    now destruct (last_rec h p m).
Qed.

(* with everything included, every prefix of D is given *)
Lemma gives_all s h (D : prefix -> Prop) l : (forall q, D q -> listed h q) ->
  gives D (fun q => view s h q None true) l ->
  forall q, In q (List.map (@fst prefix (list record)) l) <-> D q.
Proof.
  intros DL (_ & B & C) q. rewrite in_map_iff. split.
  - intros [[p rs] [E I]]. simpl in E. subst p. apply (B _ _ I).
  - intros Dq. destruct (inserted_view s h q) as [m V]; [apply DL, Dq|].
    destruct (C q m Dq V) as [rs I]. exists (q, rs). auto.
Qed.

Lemma less_iter s h st p mui iw : after s h st -> wf_prefix p -> wf_mui mui ->
  exists l, less_specifics_iter_from st p mui iw = Ok (List.map ROk l) /\
    gives (fun q => listed h q /\ pless q p) (fun q => view s h q mui iw) l /\
    len_desc (List.map (fun x => snd (fst x)) l).
Proof.
  destruct p as [f id]. intros A W Wm. destruct (after_rib _ _ _ f A) as [Wh R].
  apply (rib_less_iter_ok s f h _ Wh (rib_ok_ans _ _ _ _ R) id mui iw W Wm).
Qed.

Lemma less_iter_all s h st p : after s h st -> wf_prefix p ->
  exists l, less_specifics_iter_from st p None true = Ok (List.map ROk l) /\
    (forall q, In q (List.map (@fst prefix (list record)) l) <-> listed h q /\ pless q p) /\
    NoDup (List.map (@fst prefix (list record)) l) /\
    len_desc (List.map (fun x => snd (fst x)) l).
Proof.
  intros A W. destruct (less_iter s h st p None true A W I) as (l & E & G & D).
  exists l. split; auto. split; [|split; auto; apply G].
  apply (gives_all s h _ l); auto. easy.
Qed.

Lemma more_iter s h st p mui iw : after s h st -> wf_prefix p -> wf_mui mui ->
  exists l, more_specifics_iter_from st p mui iw = Ok (List.map ROk l) /\
    gives (fun q => listed h q /\ pcovers p q /\ p_len (snd p) < BITS (fst p))
      (fun q m => if negb iw && match mui with Some n => g_withdrawn h (fst p) n | None => false end
                  then None else view s h q mui iw m) l.
Proof.
  destruct p as [f id]. intros A W Wm. destruct (after_rib _ _ _ f A) as [Wh R].
  apply (rib_more_iter_ok s f h _ Wh (rib_ok_ans _ _ _ _ R) id mui iw W Wm).
Qed.

Lemma more_iter_all s h st p : after s h st -> wf_prefix p -> p_len (snd p) < BITS (fst p) ->
  exists l, more_specifics_iter_from st p None true = Ok (List.map ROk l) /\
    (forall q, In q (List.map (@fst prefix (list record)) l) <-> listed h q /\ pcovers p q) /\
    NoDup (List.map (@fst prefix (list record)) l).
Proof.
  intros A W B. destruct (more_iter s h st p None true A W I) as (l & E & G).
  exists l. split; auto. split; [|apply G].
  intros q. rewrite (gives_all s h _ l (fun q H => proj1 H) G). tauto.
Qed.

Lemma prefixes_all s h st f : after s h st ->
  exists l, prefixes_iter_af st f = Ok (List.map ROk l) /\
    NoDup (List.map (@fst prefix (list record)) l) /\
    (forall q, In q (List.map (@fst prefix (list record)) l) <-> listed h q /\ fst q = f) /\
    (forall q rs, In (q, rs) l -> answers (view s h q None true) (Some rs)).
Proof.
  intros A. destruct (after_rib _ _ _ f A) as [Wh R].
  destruct (rib_prefixes_iter_ok s f h _ Wh (rib_ok_ans _ _ _ _ R)) as (l & E & G & All).
  exists l. split; auto. split; [apply G|]. split.
  - apply (gives_all s h _ l); auto. easy.
  - intros q rs I. now apply G in I.
Qed.

Lemma mui_iter s h st f m iw : in_memory s -> after s h st -> m < 2 ^ 32 ->
  exists l, iter_records_for_mui st f m iw = Ok (List.map ROk l) /\
    gives (fun q => listed h q /\ fst q = f) (fun q => view_ideal h q (Some m) iw) l.
Proof.
  intros S A Wm. destruct (after_rib _ _ _ f A) as [Wh R].
  unfold iter_records_for_mui.
  assert (Gw : rib_mui_is_withdrawn (rib_of st f) m = g_withdrawn h f m)
    by (apply (tl_gw _ _ _ (ro_tree _ _ _ _ R))).
  rewrite Gw.
  assert (Vi : forall q n, fst q = f -> negb iw && g_withdrawn h f m = false ->
    view s h q (Some m) iw n = view_ideal h q (Some m) iw n).
  { intros q n Eq B. rewrite view_in_memory by auto. unfold view_memory, view_ideal, named.
    destruct (N.eqb_spec m n) as [<-|]; auto. destruct iw; auto. simpl in B.
    unfold view_active, view_local. rewrite Eq, B. simpl.
    destruct (last_rec h q m); auto. now rewrite andb_true_r. }
  destruct (g_withdrawn h f m && negb iw) eqn:G.
  - exists []. split; auto. split; [constructor|]. split; [easy|].
    intros q n [_ Eq] V. exfalso. apply V. unfold view_ideal, named.
    destruct (N.eqb_spec m n) as [<-|]; auto. apply andb_true_iff in G. destruct G as [G I].
    destruct iw; [discriminate|]. unfold view_active. rewrite Eq, G.
    destruct (last_rec h q m); auto. now rewrite andb_false_r.
  - assert (W0 : wf_pid f (0, 0)).
    { repeat split; try apply N.le_0_l. simpl. apply N.neq_0_lt_0, N.pow_nonzero. lia. }
    destruct (rib_more_iter_ok s f h _ Wh (rib_ok_ans _ _ _ _ R) (0, 0) (Some m) iw W0 Wm) as (l & E & G1 & G2 & G3).
    exists l. split; [exact E|]. rewrite andb_comm in G.
    split; [exact G1|]. split.
    + intros q rs I. destruct (G2 _ _ I) as [(L & C & _) V].
      assert (Eq : fst q = f) by (symmetry; apply C). split; auto.
      rewrite G in V. destruct V as [Ne [ND V]]. split; auto. split; auto.
      intros r. rewrite V. now rewrite Vi.
    + intros q n [L Eq] V. apply (G3 q n).
      * split; auto. split; [|simpl; apply BITS_pos].
        split; [now symmetry|]. simpl. rewrite <- Eq. apply covers_00.
        destruct q as [g q]. simpl in *. subst g. now apply (listed_wf f h Wh).
      * rewrite G. now rewrite Vi.
Qed.
