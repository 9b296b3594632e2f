(* What is allocated is freed once. *)
From Coq Require Import Arith NArith List Bool Lia Permutation.
From Verif Require Import Conc WeakOnce WeakRace WeakOnceInv WeakOnceFacts WeakDrop.
Import ListNotations.

Record dmem (x : wconf) : Prop := {
  dm_arrs : NoDup (w_freed_arrs (k_mem x));
  dm_vals : NoDup (w_freed_vals (k_mem x));
  dm_arr : forall b, b < w_arrs (k_mem x) -> In b (w_freed_arrs (k_mem x)) \/ pub (k_mem x) LArr = Some b \/
    exists i t, nth_error (k_ths x) i = Some t /\ own_arr t = Some b;
  dm_val : forall v, v < w_vals (k_mem x) -> In v (w_freed_vals (k_mem x)) \/ (exists b i, pub (k_mem x) (LCell b i) = Some v) \/
    exists i t, nth_error (k_ths x) i = Some t /\ own_val t = Some v;
  dm_known : forall l, vals (k_mem x) l = [] \/ (l = LArr /\ vals (k_mem x) l = [Null]) \/
    exists i t, nth_error (k_ths x) i = Some t /\ length (vals (k_mem x) l) <= t_cur t l
}.

(* one step, for the arrays and for the values *)
Record dstep (w w' : wmem) (t t' : thread) : Prop := {
  ds_arrs : w_freed_arrs w' = w_freed_arrs w \/ exists b, own_arr t = Some b /\ w_freed_arrs w' = b :: w_freed_arrs w;
  ds_vals : w_freed_vals w' = w_freed_vals w \/ exists v, own_val t = Some v /\ w_freed_vals w' = v :: w_freed_vals w;
  ds_arr : forall b, b < w_arrs w' -> b < w_arrs w \/ own_arr t' = Some b;
  ds_val : forall v, v < w_vals w' -> v < w_vals w \/ own_val t' = Some v;
  ds_own_arr : forall b, own_arr t = Some b -> In b (w_freed_arrs w') \/ pub w' LArr = Some b;
  ds_own_val : forall v, own_val t = Some v -> In v (w_freed_vals w') \/ exists b i, pub w' (LCell b i) = Some v;
  ds_cur : vle (t_cur t) (t_cur t');
  ds_known : forall l, vals w' l = vals w l \/ length (vals w' l) <= t_cur t' l
}.

Lemma dstep_same w t t' : own_arr t = None -> own_val t = None -> vle (t_cur t) (t_cur t') -> dstep w w t t'.
Proof. intros A V G. constructor; auto; rewrite ?A, ?V; discriminate. Qed.
Lemma dstep_begin o w t t' : own_arr t = None -> own_val t = None -> vle (t_cur (snd (begin o w t))) (t_cur t') ->
  dstep w (fst (begin o w t)) t t'.
Proof.
  intros A V G. assert (B := begin_ge o w t). unfold begin, fence in *. destruct (pinned o); cbn [fst snd] in *.
  - constructor; auto; rewrite ?A, ?V; try discriminate. eapply vle_trans; eauto.
  - apply dstep_same; auto.
Qed.

Lemma step_dstep o w t w' t' : tstep o w t w' t' -> smem w -> sthread w t -> dstep w w' t t'.
Proof.
  intros H M T. destruct T as [P _ _ _ _]. unfold spc in P.
  destruct H; match goal with [ E : t_pc t = _ |- _ ] => rewrite E in P end.
  all: try (now apply dstep_same; [unfold own_arr|unfold own_val|]; try (match goal with [ E : t_pc _ = _ |- _ ] => rewrite E end); auto;
    first [apply vle_refl|apply loaded_ge]).
  - change (fence w t) with (begin (Ords true true true true true) w t).
    apply dstep_begin; [unfold own_arr|unfold own_val|apply vle_refl]; now rewrite H.
  - apply dstep_begin; [unfold own_arr|unfold own_val|apply vle_refl]; now rewrite H.
  - apply dstep_begin; [unfold own_arr|unfold own_val|apply vle_refl]; now rewrite H.
  - (* a new array *) unfold own_arr, own_val. constructor; unfold own_arr, own_val; rewrite ?H; cbn [t_pc with_cur]; auto; try discriminate.
    + intros b. cbn. intros B. destruct (Nat.eq_dec b (w_arrs w)) as [->|]; [now right|left; lia].
    + eapply vle_trans; [apply (loaded_ge (load_acq o) t LArr n g Idle)|]. intros k. apply know_arr_ge.
    + intros l. destruct l as [|b i|v]; [now left| |now left]. unfold vals, new_arr. cbn [w_msgs].
      destruct (Nat.eqb_spec b (w_arrs w)) as [->|]; cbn [andb]; [|now left].
      destruct (N.ltb_spec i (w_size w)); [|now left]. right. cbn [map length with_cur t_cur]. now apply know_arr_at.
  - (* published *) destruct (pub_last w LArr g l (sm_arr w M) H0 H1) as (E & N0 & L).
    cbn [swapped fst]. match goal with |- context [put w LArr (_ ++ [Msg _ ?v])] =>
      assert (Q := pub_pub w LArr b v E); assert (V := vals_pub w LArr b v E) end.
    unfold own_arr, own_val. constructor; unfold own_arr, own_val; rewrite ?H; cbn [t_pc with_cur]; auto; try discriminate.
    + intros b0 K. injection K as <-. right. now rewrite Q.
    + apply (swapped_ge o w t LArr g b (I2 idx x b)).
    + intros k. rewrite V. destruct (loc_eqb k LArr) eqn:D; [|now left]. apply loc_eqb_eq in D. subst. right.
      assert (Z := swapped_at o w t LArr g b (I2 idx x b)). rewrite L in Z. exact Z.
  - (* freed *) constructor; unfold own_arr, own_val; rewrite ?H; cbn [t_pc loaded]; auto; try discriminate.
    + right. now exists b.
    + intros b0 K. injection K as <-. left. now left.
    + apply loaded_ge.
  - constructor; unfold own_arr, own_val; rewrite ?H; cbn [t_pc with_cur]; auto; try discriminate.
    + intros v. cbn. intros B. destruct (Nat.eq_dec v (w_vals w)) as [->|]; [now right|left; lia].
    + eapply vle_trans; [apply (loaded_ge (load_acq o) t (LCell b idx) n g Idle)|]. intros k. apply know_ge.
    + intros l. destruct l as [|b0 i|v]; [now left|now left|]. unfold vals, new_val. cbn [w_msgs].
      destruct (Nat.eqb_spec v (w_vals w)) as [->|]; [|now left]. right. cbn [map length with_cur t_cur]. apply know_at.
  - destruct P as (P1 & P2 & P3 & P4 & P5 & P6 & P7 & P8). assert (B := proj1 (sm_arr_ok w M b P3)).
    destruct (pub_last w (LCell b idx) g l (sm_cell w M b idx B P1) H0 H1) as (E & N0 & L).
    cbn [swapped fst]. match goal with |- context [put w (LCell b idx) (_ ++ [Msg _ ?y])] =>
      assert (Q := pub_pub w (LCell b idx) v y E); assert (V := vals_pub w (LCell b idx) v y E) end.
    constructor; unfold own_arr, own_val; rewrite ?H; cbn [t_pc with_cur win]; auto; try discriminate.
    + intros v0 K. injection K as <-. right. exists b, idx. rewrite Q, loc_eqb_refl. reflexivity.
    + apply (swapped_ge o w t (LCell b idx) g v (Back idx (Some (v, true)))).
    + intros k. rewrite V. destruct (loc_eqb k (LCell b idx)) eqn:D; [|now left]. apply loc_eqb_eq in D. subst. right.
      assert (Z := swapped_at o w t (LCell b idx) g v (Back idx (Some (v, true)))). rewrite L in Z. exact Z.
  - constructor; unfold own_arr, own_val; rewrite ?H; cbn [t_pc loaded]; auto; try discriminate.
    + right. now exists v.
    + intros b0 K. injection K as <-. left. now left.
    + apply loaded_ge.
Qed.

Lemma dmem_tstep o w ts i t w' t' : nth_error ts i = Some t -> tstep o w t w' t' ->
  winv (WConf w ts) -> dmem (WConf w ts) -> dmem (WConf w' (set_nth i t' ts)).
Proof.
  intros E H I D. assert (L : i < length ts) by (apply nth_error_Some; congruence).
  assert (T := wi_thread _ I i t E). assert (M := wi_mem _ I). cbn in T, M.
  assert (K := sp_keeps _ _ _ _ (step_inv o w t w' t' H M (wi_sc _ I) T)).
  destruct (step_dstep o w t w' t' H M T) as [A1 V1 A2 V2 A3 V3 G N0]. destruct D as [DA DV EA EV EN]. cbn in *.
  destruct T as [P _ _ _ _]. unfold spc in P.
  assert (Z : nth_error (set_nth i t' ts) i = Some t') by now rewrite nth_set_nth, Nat.eqb_refl by exact L.
  assert (ZO : forall j, i <> j -> nth_error (set_nth i t' ts) j = nth_error ts j).
  { intros j J. rewrite nth_set_nth by exact L. apply Nat.eqb_neq in J. now rewrite J. }
  constructor; cbn.
  - destruct A1 as [->|(b & Ob & ->)]; [exact DA|]. constructor; [|exact DA]. unfold own_arr in Ob.
    destruct (t_pc t); try discriminate. injection Ob as <-. tauto.
  - destruct V1 as [->|(b & Ob & ->)]; [exact DV|]. constructor; [|exact DV]. unfold own_val in Ob.
    destruct (t_pc t); try discriminate. injection Ob as <-. tauto.
  - intros b B. destruct (A2 b B) as [B0|Ob]; [|right; right; now exists i, t'].
    destruct (EA b B0) as [F|[F|(j & tj & Ej & Oj)]].
    + left. destruct A1 as [->|(b0 & _ & ->)]; [exact F|now right].
    + right. left. eapply kp_arr; eauto.
    + destruct (Nat.eq_dec i j) as [<-|J].
      * assert (tj = t) by congruence. subst. destruct (A3 b Oj); auto.
      * right. right. exists j, tj. rewrite ZO by exact J. auto.
  - intros v B. destruct (V2 v B) as [B0|Ob]; [|right; right; now exists i, t'].
    destruct (EV v B0) as [F|[(b & k & F)|(j & tj & Ej & Oj)]].
    + left. destruct V1 as [->|(b0 & _ & ->)]; [exact F|now right].
    + right. left. exists b, k. eapply kp_cell; eauto.
    + destruct (Nat.eq_dec i j) as [<-|J].
      * assert (tj = t) by congruence. subst. destruct (V3 v Oj); auto.
      * right. right. exists j, tj. rewrite ZO by exact J. auto.
  - intros l. destruct (N0 l) as [->|B].
    + destruct (EN l) as [X|[X|(j & tj & Ej & Oj)]]; auto. right. right. destruct (Nat.eq_dec i j) as [<-|J].
      * exists i, t'. assert (tj = t) by congruence. subst. specialize (G l). split; [exact Z|lia].
      * exists j, tj. rewrite ZO by exact J. auto.
    + right. right. exists i, t'. auto.
Qed.

Lemma dmem_reach o size x : wkreach o size x -> dmem x.
Proof.
  intros R. induction R as [|x y R IH H].
  - constructor; cbn; try apply NoDup_nil; try (intros; lia). intros [|b i|v]; [right; left|left|left]; auto.
  - assert (I := winv_reach o size x R). destruct H as [w ts|w ts i t w' t' E H|w ts i j ti tj Ei Ej Pi Pj].
    + assert (Z : forall i t, nth_error ts i = Some t -> nth_error (ts ++ [thread0]) i = Some t).
      { intros i t E. rewrite nth_error_app1; [exact E|]. apply nth_error_Some. congruence. }
      destruct IH as [DA DV EA EV EN]. cbn in *. constructor; cbn; auto.
      * intros b B. destruct (EA b B) as [F|[F|(i & t & E & F)]]; auto. right. right. exists i, t. auto.
      * intros b B. destruct (EV b B) as [F|[F|(i & t & E & F)]]; auto. right. right. exists i, t. auto.
      * intros l. destruct (EN l) as [F|[F|(i & t & E & F)]]; auto. right. right. exists i, t. auto.
    + eapply dmem_tstep; eauto.
    + assert (L : j < length ts) by (apply nth_error_Some; congruence).
      destruct IH as [DA DV EA EV EN]. cbn in *.
      assert (Z : forall (Q : thread -> Prop), (Q tj -> Q (synced ti tj)) -> (exists i t, nth_error ts i = Some t /\ Q t) ->
        exists i t, nth_error (set_nth j (synced ti tj) ts) i = Some t /\ Q t).
      { intros Q HQ (k & t & E & F). destruct (Nat.eq_dec j k) as [<-|J].
        - exists j, (synced ti tj). rewrite nth_set_nth, Nat.eqb_refl by exact L. split; [reflexivity|]. apply HQ. congruence.
        - exists k, t. rewrite nth_set_nth by exact L. apply Nat.eqb_neq in J. rewrite J. auto. }
      constructor; cbn; auto.
      * intros b B. destruct (EA b B) as [F|[F|F]]; auto. right. right. apply (Z (fun t => own_arr t = Some b)); [|exact F].
        unfold own_arr. now rewrite Pj.
      * intros b B. destruct (EV b B) as [F|[F|F]]; auto. right. right. apply (Z (fun t => own_val t = Some b)); [|exact F].
        unfold own_val. now rewrite Pj.
      * intros l. destruct (EN l) as [F|[F|F]]; auto. right. right. apply (Z (fun t => length (vals w l) <= t_cur t l)); [|exact F].
        cbn. unfold join. lia.
Qed.

(* ---------- the drop ---------- *)

Lemma took_pub w l : vals w l = [] \/ vals w l = [Null] \/ (exists b, vals w l = [Null; Ptr b]) -> took w l = pub w l.
Proof.
  unfold took, pub, vals. intros S. destruct (w_msgs w l) as [|g1 [|g2 [|g3 ms]]]; cbn in S |- *; auto.
  - destruct S as [S|[S|[b S]]]; try discriminate. injection S as ->. reflexivity.
  - destruct S as [S|[S|[b S]]]; discriminate.
Qed.
Lemma cell_vals w b i : smem w -> vals w (LCell b i) = [] \/ vals w (LCell b i) = [Null] \/ (exists v, vals w (LCell b i) = [Null; Ptr v]).
Proof.
  intros M. destruct (Nat.lt_ge_cases b (w_arrs w)) as [B|B]; [|left; now apply sm_cell_out].
  destruct (N.lt_ge_cases i (w_size w)) as [I|I]; [|left; now apply sm_cell_big]. right. now apply sm_cell.
Qed.
Lemma took_arr w : smem w -> took w LArr = pub w LArr.
Proof. intros M. apply took_pub. right. now apply sm_arr. Qed.
Lemma took_cell w b i : smem w -> took w (LCell b i) = pub w (LCell b i).
Proof. intros M. apply took_pub. now apply cell_vals. Qed.

Lemma in_indices size i : In i (indices size) <-> (i < size)%N.
Proof.
  unfold indices. rewrite in_map_iff. split.
  - intros (n & <- & I). apply in_seq in I. lia.
  - intros L. exists (N.to_nat i). split; [apply N2Nat.id|]. apply in_seq. lia.
Qed.
Lemma nodup_indices size : NoDup (indices size).
Proof.
  unfold indices. apply FinFun.Injective_map_NoDup; [|apply seq_NoDup]. intros a b E. lia.
Qed.
Lemma in_values w b v : smem w -> (In v (values w b) <-> exists i, pub w (LCell b i) = Some v).
Proof.
  intros M. unfold values. rewrite in_flat_map. split.
  - intros (i & _ & I). rewrite took_cell in I by exact M. exists i. destruct (pub w (LCell b i)) as [u|]; [|contradiction].
    destruct I as [<-|[]]. reflexivity.
  - intros (i & E). exists i. split.
    + apply in_indices. destruct (N.lt_ge_cases i (w_size w)) as [I|I]; [exact I|]. unfold pub in E.
      rewrite (sm_cell_big w M) in E by exact I. discriminate.
    + rewrite took_cell, E by exact M. now left.
Qed.
Lemma nodup_values w b : smem w -> NoDup (values w b).
Proof.
  intros M. unfold values. assert (D := nodup_indices (w_size w)). induction D as [|i l N0 D IH]; cbn; [constructor|].
  rewrite took_cell by exact M. destruct (pub w (LCell b i)) as [v|] eqn:E; [|exact IH]. cbn. constructor; [|exact IH].
  rewrite in_flat_map. intros (j & J & I). rewrite took_cell in I by exact M.
  destruct (pub w (LCell b j)) as [u|] eqn:F; [|contradiction]. destruct I as [->|[]].
  assert (j = i) by (eapply sm_inj; eauto). now subst.
Qed.

Lemma nodup_app (l l' : list nat) : NoDup l -> NoDup l' -> (forall k, In k l -> In k l' -> False) -> NoDup (l ++ l').
Proof.
  induction l as [|a l IH]; intros N0 N1 D; cbn; [easy|].
  inversion N0 as [|? ? NI N2]; subst. constructor.
  - rewrite in_app_iff. intros [H|H]; [easy|]. apply (D a); [now left|easy].
  - apply IH; auto. intros k K. apply D. now right.
Qed.
Lemma perm_seq l n : NoDup l -> (forall k, In k l <-> k < n) -> Permutation l (seq 0 n).
Proof. intros D H. apply NoDup_Permutation; [exact D|apply seq_NoDup|]. intros k. rewrite H, in_seq. lia. Qed.

(* all that was allocated is freed once *)
Lemma drop_all o size x : wkreach o size x -> (forall i t, nth_error (k_ths x) i = Some t -> t_pc t = Idle) ->
  Permutation (w_freed_arrs (dropped (k_mem x))) (seq 0 (w_arrs (k_mem x))) /\
  Permutation (w_freed_vals (dropped (k_mem x))) (seq 0 (w_vals (k_mem x))).
Proof.
  intros R Q. assert (I := winv_reach o size x R). assert (D := dmem_reach o size x R). destruct x as [w ts]. cbn in *.
  assert (M := wi_mem _ I). destruct D as [DA DV EA EV EN]. cbn in *.
  assert (OA : forall i t b, nth_error ts i = Some t -> own_arr t <> Some b).
  { intros i t b E. unfold own_arr. rewrite (Q i t E). discriminate. }
  assert (OV : forall i t b, nth_error ts i = Some t -> own_val t <> Some b).
  { intros i t b E. unfold own_val. rewrite (Q i t E). discriminate. }
  unfold dropped. rewrite took_arr by exact M. destruct (pub w LArr) as [b|] eqn:E; cbn.
  - split; apply perm_seq.
    + constructor; [now apply (sm_arr_ok w M)|exact DA].
    + intros k. split.
      * intros [<-|F]; [now apply (sm_arr_ok w M)|now apply (sm_freed_arrs w M)].
      * intros F. destruct (EA k F) as [A|[A|(i & t & A & B)]]; [now right|left; congruence|]. now destruct (OA i t k A B).
    + apply nodup_app; [now apply nodup_values|exact DV|]. intros v A B. apply in_values in A; [|exact M]. destruct A as [i A].
      apply (sm_cell_ok w M) in A. tauto.
    + intros v. rewrite in_app_iff, in_values by exact M. split.
      * intros [[i F]|F]; [now apply (sm_cell_ok w M) in F|now apply (sm_freed_vals w M)].
      * intros F. destruct (EV v F) as [A|[(b0 & i & A)|(i & t & A & B)]]; [now right| |now destruct (OV i t v A B)].
        left. exists i. assert (B := proj1 (sm_cell_ok w M _ _ _ A)). assert (b0 = b) by congruence. now subst.
  - split; apply perm_seq; auto.
    + intros k. split; [apply (sm_freed_arrs w M)|].
      intros F. destruct (EA k F) as [A|[A|(i & t & A & B)]]; [exact A|discriminate|now destruct (OA i t k A B)].
    + intros v. split; [apply (sm_freed_vals w M)|].
      intros F. destruct (EV v F) as [A|[(b0 & i & A)|(i & t & A & B)]]; [exact A| |now destruct (OV i t v A B)].
      rewrite (no_cells w M E) in A. discriminate.
Qed.

(* and the one that drops it has to wait for no one: it knows of all of it *)
Lemma drop_no_race o size x i t : wkreach o size x -> nth_error (k_ths x) i = Some t -> may_drop x i ->
  drop_safe (k_mem x) (t_cur t) = true.
Proof.
  intros R E0 (t0 & E & H). assert (t0 = t) by congruence. subst t0. assert (I := winv_reach o size x R). assert (D := dmem_reach o size x R).
  destruct x as [w ts]. cbn in *. assert (M := wi_mem _ I). destruct D as [_ _ _ _ EN]. cbn in *.
  assert (K : forall l, l <> LArr -> vals w l <> [] -> seen (t_cur t) l = true).
  { intros l A B. apply seen_iff. destruct (EN l) as [F|[[F _]|(j & tj & F & G)]]; try contradiction.
    destruct (H j tj F) as [_ N0]. specialize (N0 l). destruct (vals w l) as [|g ms]; [contradiction|]. cbn in G. lia. }
  unfold drop_safe. rewrite took_arr by exact M. destruct (pub w LArr) as [b|] eqn:P; [|reflexivity].
  assert (B := proj1 (sm_arr_ok w M b P)).
  apply andb_true_iff. split; apply forallb_forall.
  - intros k A. apply in_indices in A. apply K; [discriminate|]. destruct (sm_cell w M b k B A) as [->|[v ->]]; discriminate.
  - intros v A. apply in_values in A; [|exact M]. destruct A as [k A]. apply (sm_cell_ok w M) in A. destruct A as (_ & A & _).
    apply K; [discriminate|]. destruct (sm_val w M v A) as [y ->]. discriminate.
Qed.

(* ---------- before that ---------- *)

Definition opts {A} (l : list (option A)) : list A := flat_map (fun o => match o with Some a => [a] | None => [] end) l.
Lemma in_opts {A B} (f : B -> option A) l a : In a (opts (map f l)) <-> exists i b, nth_error l i = Some b /\ f b = Some a.
Proof.
  unfold opts. rewrite in_flat_map. split.
  - intros (o & I & J). apply in_map_iff in I. destruct I as (b & <- & I). apply In_nth_error in I. destruct I as [i I].
    exists i, b. split; [exact I|]. destruct (f b); [|contradiction]. destruct J as [->|[]]. reflexivity.
  - intros (i & b & E & F). exists (Some a). split; [|now left]. apply in_map_iff. exists b. split; [exact F|]. eapply nth_error_In; eauto.
Qed.
Lemma len_opts {A B} (f : B -> option A) (g : B -> bool) l : (forall b, g b = match f b with Some _ => true | None => false end) ->
  length (opts (map f l)) = length (filter g l).
Proof.
  intros H. induction l as [|b l IH]; [reflexivity|]. cbn. rewrite H. destruct (f b); cbn; [f_equal|]; exact IH.
Qed.
Lemma nodup_bound (l : list nat) n : NoDup l -> (forall k, In k l -> k < n) -> length l <= n.
Proof.
  intros D H. rewrite <- (seq_length n 0). apply NoDup_incl_length; [exact D|]. intros k I. apply in_seq. apply H in I. lia.
Qed.
Lemma values_len w b : length (values w b) <= N.to_nat (w_size w).
Proof.
  unfold values. transitivity (length (indices (w_size w))).
  - induction (indices (w_size w)) as [|i l IH]; cbn; [lia|]. rewrite app_length. destruct (took w (LCell b i)); cbn; lia.
  - unfold indices. now rewrite map_length, seq_length.
Qed.

(* not more than one array and one value to each index, and one each to a thread that is making one *)
Lemma held_at_most o size x : wkreach o size x ->
  w_arrs (k_mem x) <= length (w_freed_arrs (k_mem x)) + 1 + length (filter making_arr (k_ths x)) /\
  w_vals (k_mem x) <= length (w_freed_vals (k_mem x)) + N.to_nat (w_size (k_mem x)) + length (filter making_val (k_ths x)).
Proof.
  intros R. assert (I := winv_reach o size x R). assert (D := dmem_reach o size x R). destruct x as [w ts]. cbn in *.
  assert (M := wi_mem _ I). destruct D as [DA DV EA EV EN]. cbn in *.
  rewrite <- (len_opts own_arr making_arr ts), <- (len_opts own_val making_val ts).
  2, 3: intros [? ? ? []]; reflexivity.
  split.
  - rewrite <- (seq_length (w_arrs w) 0). set (p := match pub w LArr with Some b => [b] | None => [] end).
    assert (P : length p <= 1) by (unfold p; destruct (pub w LArr); cbn; lia).
    transitivity (length (w_freed_arrs w ++ p ++ opts (map own_arr ts))).
    2: rewrite !app_length; lia.
    apply NoDup_incl_length; [apply seq_NoDup|]. intros b B. apply in_seq in B. rewrite !in_app_iff.
    destruct (EA b) as [F|[F|F]]; [lia|auto| |].
    + right. left. unfold p. rewrite F. now left.
    + right. right. now apply in_opts.
  - rewrite <- (seq_length (w_vals w) 0).
    set (p := match pub w LArr with Some b => values w b | None => [] end).
    assert (P : length p <= N.to_nat (w_size w)) by (unfold p; destruct (pub w LArr); [apply values_len|cbn; lia]).
    transitivity (length (w_freed_vals w ++ p ++ opts (map own_val ts))).
    2: rewrite !app_length; lia.
    apply NoDup_incl_length; [apply seq_NoDup|]. intros v B. apply in_seq in B. rewrite !in_app_iff.
    destruct (EV v) as [F|[(b & i & F)|F]]; [lia|auto| |].
    + right. left. unfold p. rewrite (proj1 (sm_cell_ok w M _ _ _ F)). apply in_values; [exact M|]. now exists i.
    + right. right. now apply in_opts.
Qed.
