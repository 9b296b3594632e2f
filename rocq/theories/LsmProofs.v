(* The persisted store: ordering, key codec, scans. *)
From Coq Require Import Arith NArith List Bool Lia Sorted.
From Verif Require Import Word Af Maps Tree MultiMap Lsm.
Import ListNotations.
Local Open Scope N_scope.

(* ---------- the order on byte strings ---------- *)

Lemma bcmp_eq a : forall b, bcmp a b = Eq <-> a = b.
Proof.
  induction a as [|x a IH]; intros [|y b]; simpl; split; intros E; try easy.
  - destruct (N.compare_spec x y); try discriminate. apply IH in E. now subst.
  - inversion E; subst. rewrite N.compare_refl. now apply IH.
Qed.

Lemma bcmp_refl a : bcmp a a = Eq.
Proof. now apply bcmp_eq. Qed.

Lemma bcmp_antisym a : forall b, bcmp a b = CompOpp (bcmp b a).
Proof.
  induction a as [|x a IH]; intros [|y b]; simpl; try easy.
  rewrite (N.compare_antisym x y), IH. destruct (x ?= y); simpl; try easy.
Qed.

Definition blt (a b : bytes) : Prop := bcmp a b = Lt.

Lemma blt_trans a : forall b c, blt a b -> blt b c -> blt a c.
Proof.
  unfold blt. induction a as [|x a IH]; intros [|y b] [|z c]; simpl; intros H1 H2; try easy.
  destruct (N.compare_spec x y), (N.compare_spec y z); try discriminate; subst.
  - rewrite N.compare_refl. eauto.
  - destruct (N.compare_spec y z); try lia; easy.
  - destruct (N.compare_spec x z); try lia; easy.
  - destruct (N.compare_spec x z); try lia; easy.
Qed.

Lemma blt_irrefl a : ~ blt a a.
Proof. unfold blt. now rewrite bcmp_refl. Qed.

Definition klt (x y : bytes * bytes) : Prop := blt (fst x) (fst y).
(* what an lsm tree always satisfies *)
Definition kv_ok (l : lsm) : Prop := StronglySorted klt l.

Lemma kv_insert_In k v l : kv_ok l -> forall k' v',
  In (k', v') (kv_insert k v l) <-> (k' = k /\ v' = v) \/ (k' <> k /\ In (k', v') l).
Proof.
  induction l as [|[k0 v0] l IH]; intros O k' v'; simpl.
  - split; [intros [E|[]]; inversion E; auto|intros [[-> ->]|[_ []]]; auto].
  - inversion O as [|? ? O' F]; subst. rewrite Forall_forall in F.
    assert (N : forall x, In (k', x) l -> blt k0 k') by (intros x Hx; apply (F _ Hx)).
    destruct (bcmp k k0) eqn:C.
    + apply bcmp_eq in C. subst k0. simpl. split.
      * intros [E|I]; [inversion E; auto|]. right. split; [|auto].
        intros ->. apply N in I. now apply blt_irrefl in I.
      * intros [[-> ->]|[NE [E|I]]]; auto. inversion E; subst. easy.
    + simpl. split.
      * intros [E|I]; [inversion E; auto|]. right. split; [|auto].
        intros ->. destruct I as [E|I].
        -- inversion E; subst. now apply blt_irrefl in C.
        -- apply N in I. apply (blt_irrefl k). now apply blt_trans with k0.
      * intros [[-> ->]|[NE I]]; auto.
    + simpl. rewrite IH by auto. split.
      * intros [E|[[-> ->]|[NE I]]]; auto. inversion E; subst. right. split; [|auto].
        intros ->. rewrite bcmp_refl in C. discriminate.
      * intros [[-> ->]|[NE [E|I]]]; auto.
Qed.

Lemma kv_insert_ok k v l : kv_ok l -> kv_ok (kv_insert k v l).
Proof.
  induction l as [|[k0 v0] l IH]; intros O; simpl.
  - repeat constructor.
  - inversion O as [|? ? O' F]; subst. rewrite Forall_forall in F.
    destruct (bcmp k k0) eqn:C.
    + apply bcmp_eq in C. subst. constructor; auto. rewrite Forall_forall. intros x Hx.
      exact (F x Hx).
    + constructor; auto. rewrite Forall_forall. intros [k1 v1] [E|I].
      * inversion E; subst. exact C.
      * apply blt_trans with k0; [exact C|exact (F _ I)].
    + constructor; [now apply IH|]. rewrite Forall_forall. intros [k1 v1] I.
      apply kv_insert_In in I; auto. destruct I as [[-> ->]|[_ I]].
      * unfold klt, blt. simpl. rewrite bcmp_antisym, C. easy.
      * exact (F _ I).
Qed.

Lemma kv_ok_fun l k v v' : kv_ok l -> In (k, v) l -> In (k, v') l -> v = v'.
Proof.
  induction l as [|[k0 v0] l IH]; intros O A B; [easy|].
  inversion O as [|? ? O' F]; subst. rewrite Forall_forall in F.
  destruct A as [A|A], B as [B|B].
  - congruence.
  - inversion A; subst. apply F in B. now apply blt_irrefl in B.
  - inversion B; subst. apply F in A. now apply blt_irrefl in A.
  - auto.
Qed.

Lemma kv_ok_NoDup l : kv_ok l -> NoDup (List.map fst l).
Proof.
  induction l as [|[k0 v0] l IH]; intros O; simpl; [constructor|].
  inversion O as [|? ? O' F]; subst. rewrite Forall_forall in F.
  constructor; auto. rewrite in_map_iff. intros [[k1 v1] [E I]]. simpl in E. subst.
  apply F in I. now apply blt_irrefl in I.
Qed.

Lemma In_kv_prefix p l k v : In (k, v) (kv_prefix p l) <-> In (k, v) l /\ is_prefix p k = true.
Proof. unfold kv_prefix. rewrite filter_In. easy. Qed.

(* ---------- byte codecs ---------- *)

Lemma le_bytes_length n : forall x, length (le_bytes n x) = n.
Proof. induction n; intros; simpl; auto. Qed.

Lemma le_val_bytes n : forall x, x < 2 ^ (8 * N.of_nat n) -> le_val (le_bytes n x) = x.
Proof.
  induction n as [|n IH]; intros x Hx.
  - simpl in *. lia.
  - simpl le_bytes. simpl le_val. rewrite IH.
    + pose proof (N.div_mod x 256). lia.
    + apply N.div_lt_upper_bound; [easy|].
      replace (8 * N.of_nat (S n)) with (8 + 8 * N.of_nat n) in Hx by lia.
      rewrite N.pow_add_r in Hx. exact Hx.
Qed.

Lemma le_bytes_inj n x y : x < 2 ^ (8 * N.of_nat n) -> y < 2 ^ (8 * N.of_nat n) ->
  le_bytes n x = le_bytes n y -> x = y.
Proof. intros Hx Hy E. rewrite <- (le_val_bytes n x), <- (le_val_bytes n y), E; auto. Qed.

Lemma AFB_bits f : 8 * N.of_nat (AFB f) = BITS f.
Proof. destruct f; reflexivity. Qed.

Lemma pid_bytes_length f id : length (pid_bytes f id) = S (AFB f).
Proof. unfold pid_bytes. simpl. now rewrite rev_length, le_bytes_length. Qed.

Lemma pid_bytes_inj f p q : wf_pid f p -> wf_pid f q -> pid_bytes f p = pid_bytes f q -> p = q.
Proof.
  intros [_ [Bp _]] [_ [Bq _]] E. unfold pid_bytes in E. inversion E as [[E1 E2]].
  apply (f_equal (@rev _)) in E2. rewrite !rev_involutive in E2.
  apply le_bytes_inj in E2; rewrite ?AFB_bits; auto.
  destruct p, q; simpl in *; congruence.
Qed.

Lemma app_inj_len {A} (a a' b b' : list A) : length a = length a' -> a ++ b = a' ++ b' ->
  a = a' /\ b = b'.
Proof.
  revert a'. induction a as [|x a IH]; intros [|x' a'] L E; simpl in *; try easy.
  inversion E; subst. destruct (IH a') as [-> ->]; auto.
Qed.

Lemma short_key_length f id m : length (short_key f id m) = (AFB f + 5)%nat.
Proof. unfold short_key. rewrite app_length, pid_bytes_length, le_bytes_length. lia. Qed.

Lemma short_key_inj f p q m n : wf_pid f p -> wf_pid f q -> m < 2 ^ 32 -> n < 2 ^ 32 ->
  short_key f p m = short_key f q n -> p = q /\ m = n.
Proof.
  intros Wp Wq Hm Hn E. apply app_inj_len in E; [|now rewrite !pid_bytes_length].
  destruct E as [E1 E2]. apply pid_bytes_inj in E1; auto.
  apply le_bytes_inj in E2; auto.
Qed.

Lemma value_header_length t s : length (value_header t s) = 9%nat.
Proof. unfold value_header. rewrite app_length, le_bytes_length. reflexivity. Qed.

Lemma status_byte_inj a b : status_byte a = status_byte b -> a = b.
Proof. destruct a, b; simpl; easy. Qed.

Lemma status_of_byte_ok s : status_of_byte (status_byte s) = Some s.
Proof. destruct s; reflexivity. Qed.

Lemma long_key_length f id m t s : length (long_key f id m t s) = KEY_SIZE f.
Proof.
  unfold long_key. rewrite app_length, short_key_length, value_header_length.
  destruct f; reflexivity.
Qed.

Lemma long_key_inj f p q m n t u s s' : wf_pid f p -> wf_pid f q -> m < 2 ^ 32 -> n < 2 ^ 32 ->
  t < 2 ^ 64 -> u < 2 ^ 64 -> long_key f p m t s = long_key f q n u s' ->
  p = q /\ m = n /\ t = u /\ s = s'.
Proof.
  intros Wp Wq Hm Hn Ht Hu E. apply app_inj_len in E; [|now rewrite !short_key_length].
  destruct E as [E1 E2]. apply short_key_inj in E1; auto. destruct E1.
  apply app_inj_len in E2; [|now rewrite !le_bytes_length]. destruct E2 as [E2 E3].
  apply le_bytes_inj in E2; auto. inversion E3 as [E4]. apply status_byte_inj in E4. auto.
Qed.

Lemma firstn_len_app {A} n (a b : list A) : length a = n -> firstn n (a ++ b) = a.
Proof. intros <-. rewrite firstn_app, Nat.sub_diag, firstn_all. simpl. apply app_nil_r. Qed.
Lemma skipn_len_app {A} n (a b : list A) : length a = n -> skipn n (a ++ b) = b.
Proof. intros <-. rewrite skipn_app, Nat.sub_diag, skipn_all. reflexivity. Qed.

Lemma sub_bytes_mid a n (x y z : bytes) : length x = a -> length y = n ->
  sub_bytes a n (x ++ y ++ z) = y.
Proof. intros A B. unfold sub_bytes. rewrite skipn_len_app by auto. now apply firstn_len_app. Qed.

(* a persisted record reads back as it was written *)
Lemma zc_record_ok f id m t s x : wf_pid f id -> m < 2 ^ 32 -> t < 2 ^ 64 ->
  zc_record f (long_key f id m t s ++ x) = Some (id, Rec m t s x).
Proof.
  intros W Hm Ht. unfold zc_record.
  rewrite app_length, long_key_length.
  destruct (Nat.ltb_spec (KEY_SIZE f + length x) (KEY_SIZE f)); [lia|].
  assert (E : long_key f id m t s ++ x =
    [p_len id] ++ rev (le_bytes (AFB f) (p_bits id)) ++ le_bytes 4 m ++ le_bytes 8 t ++
    [status_byte s] ++ x).
  { unfold long_key, short_key, pid_bytes, value_header. rewrite <- !app_assoc. reflexivity. }
  assert (S1 : nth (KEY_SIZE f - 1) (long_key f id m t s ++ x) 0 = status_byte s).
  { rewrite E. rewrite !app_assoc. rewrite <- (app_assoc _ [_] x).
    rewrite app_nth2; rewrite !app_length, rev_length, !le_bytes_length.
    - simpl length. replace (_ - _)%nat with 0%nat by (destruct f; reflexivity). reflexivity.
    - destruct f; simpl; lia. }
  rewrite S1, status_of_byte_ok.
  assert (S2 : sub_bytes 1 (AFB f) (long_key f id m t s ++ x) = rev (le_bytes (AFB f) (p_bits id))).
  { rewrite E. apply sub_bytes_mid; [easy|]. now rewrite rev_length, le_bytes_length. }
  assert (S3 : sub_bytes (1 + AFB f) 4 (long_key f id m t s ++ x) = le_bytes 4 m).
  { rewrite E. rewrite (app_assoc [p_len id]). apply sub_bytes_mid; [|apply le_bytes_length].
    now rewrite app_length, rev_length, le_bytes_length. }
  assert (S4 : sub_bytes (5 + AFB f) 8 (long_key f id m t s ++ x) = le_bytes 8 t).
  { rewrite E. rewrite (app_assoc [p_len id]), (app_assoc _ (le_bytes 4 m)).
    apply sub_bytes_mid; [|apply le_bytes_length].
    rewrite !app_length, rev_length, !le_bytes_length. simpl. lia. }
  rewrite S2, S3, S4, rev_involutive.
  rewrite skipn_len_app by apply long_key_length.
  rewrite !le_val_bytes; auto.
  - rewrite E. simpl. destruct id; reflexivity.
  - rewrite AFB_bits. apply W.
Qed.

Lemma key_header_ok f id m t s : wf_pid f id -> m < 2 ^ 32 -> t < 2 ^ 64 ->
  key_header f (long_key f id m t s) = Some (id, Rec m t s []).
Proof.
  intros. unfold key_header. rewrite long_key_length, Nat.eqb_refl.
  rewrite <- (app_nil_r (long_key f id m t s)). now apply zc_record_ok.
Qed.

Lemma key_header_long f b : length b <> KEY_SIZE f -> key_header f b = None.
Proof. intros H. unfold key_header. apply Nat.eqb_neq in H. now rewrite H. Qed.

(* ---------- scans ---------- *)

Lemma is_prefix_app p k : is_prefix p (p ++ k) = true.
Proof. induction p; simpl; auto. now rewrite N.eqb_refl. Qed.

Lemma is_prefix_spec p k : is_prefix p k = true <-> exists r, k = p ++ r.
Proof.
  split.
  - revert k. induction p as [|x p IH]; intros k E; simpl in *; [eauto|].
    destruct k as [|y k]; [discriminate|]. apply andb_true_iff in E. destruct E as [E1 E2].
    apply N.eqb_eq in E1. subst. destruct (IH _ E2) as [r ->]. now exists r.
  - intros [r ->]. apply is_prefix_app.
Qed.

Lemma pid_prefix f p q r : wf_pid f p -> wf_pid f q ->
  is_prefix (pid_bytes f p) (pid_bytes f q ++ r) = true <-> p = q.
Proof.
  intros Wp Wq. rewrite is_prefix_spec. split.
  - intros [r' E]. apply app_inj_len in E; [|now rewrite !pid_bytes_length].
    destruct E as [E _]. symmetry. now apply (pid_bytes_inj f).
  - intros ->. eauto.
Qed.

Lemma short_prefix f p m q n r : wf_pid f p -> wf_pid f q -> m < 2 ^ 32 -> n < 2 ^ 32 ->
  is_prefix (short_key f p m) (short_key f q n ++ r) = true <-> p = q /\ m = n.
Proof.
  intros Wp Wq Hm Hn. rewrite is_prefix_spec. split.
  - intros [r' E]. apply app_inj_len in E; [|now rewrite !short_key_length].
    destruct E as [E _]. symmetry in E. now apply short_key_inj in E.
  - intros [-> ->]. eauto.
Qed.

Lemma map_res_ok {A B} (g : A -> res B) (g' : A -> B) l :
  (forall x, In x l -> g x = Ok (g' x)) -> map_res g l = Ok (List.map g' l).
Proof.
  induction l as [|x l IH]; intros H; [reflexivity|]. cbn [map_res List.map].
  rewrite (H x) by (now left). cbn [bind]. rewrite IH; [reflexivity|].
  intros; apply H; now right.
Qed.

Lemma In_cat_opts {A} (l : list (option A)) x : In x (cat_opts l) <-> In (Some x) l.
Proof.
  unfold cat_opts. rewrite in_flat_map. split.
  - intros [[y|] [I E]]; simpl in E; [destruct E as [->|[]]; easy|easy].
  - intros I. exists (Some x). simpl. auto.
Qed.

(* ---------- the record that an entry stands for ---------- *)

(* an entry of the store: the concatenation of key and value is a long key
   followed by the meta data; every entry the code writes is of this form *)
Record entry_is (f : af) (kv : bytes * bytes) (id : pid) (r : record) : Prop := {
  ei_bytes : fst kv ++ snd kv = long_key f id (r_mui r) (r_ltime r) (r_status r) ++ r_meta r;
  ei_wf : wf_pid f id;
  ei_mui : r_mui r < 2 ^ 32;
  ei_ltime : r_ltime r < 2 ^ 64;
  ei_key : exists rest, fst kv = short_key f id (r_mui r) ++ rest
}.

Lemma entry_zc f kv id r : entry_is f kv id r -> zc_record f (fst kv ++ snd kv) = Some (id, r).
Proof. intros []. rewrite ei_bytes0, zc_record_ok by auto. now destruct r. Qed.

Lemma entry_slice f kv id r : entry_is f kv id r ->
  slice_to (KEY_SIZE f) (fst kv ++ snd kv) =
    Ok (long_key f id (r_mui r) (r_ltime r) (r_status r)).
Proof.
  intros []. rewrite ei_bytes0. unfold slice_to.
  rewrite app_length, long_key_length.
  destruct (Nat.ltb_spec (KEY_SIZE f + length (r_meta r)) (KEY_SIZE f)); [lia|].
  now rewrite firstn_len_app by apply long_key_length.
Qed.

Lemma set_withdrawn_ok f id m t s x :
  set_withdrawn f (long_key f id m t s ++ x) = long_key f id m t Withdrawn ++ x.
Proof.
  unfold set_withdrawn. rewrite skipn_len_app by apply long_key_length.
  unfold long_key, value_header. rewrite !app_assoc, <- (app_assoc _ [status_byte s] x).
  rewrite firstn_len_app.
  - now rewrite <- !app_assoc.
  - rewrite app_length, short_key_length, le_bytes_length. destruct f; reflexivity.
Qed.

(* a record as it is read when withdrawn ones are included *)
Definition gw_record (bmin : nset) (r : record) : record :=
  if mem (r_mui r) bmin then Rec (r_mui r) (r_ltime r) Withdrawn (r_meta r) else r.

Lemma rec_included_ok f bmin kv id r : entry_is f kv id r ->
  exists b, rec_included f bmin kv = Ok (Some b) /\ zc_record f b = Some (id, gw_record bmin r).
Proof.
  intros E. unfold rec_included. rewrite (entry_slice _ _ _ _ E). cbn [bind].
  rewrite key_header_ok by apply E. cbn [r_mui].
  eexists. split; [reflexivity|]. unfold gw_record.
  destruct (mem (r_mui r) bmin).
  - rewrite (ei_bytes _ _ _ _ E), set_withdrawn_ok. apply zc_record_ok; apply E.
  - now apply entry_zc.
Qed.

Lemma rec_excluded_ok f bmin kv id r : entry_is f kv id r ->
  rec_excluded f bmin kv =
    Ok (if status_eqb (r_status r) Withdrawn || mem (r_mui r) bmin then None
        else Some (Some (fst kv ++ snd kv))).
Proof.
  intros E. unfold rec_excluded. rewrite (entry_slice _ _ _ _ E). cbn [bind].
  rewrite key_header_ok by apply E. cbn [r_mui r_status]. reflexivity.
Qed.

(* Get/set view of the store *)
Definition kv_get (k : bytes) (l : lsm) : option bytes :=
  option_map snd (find (fun kv => match bcmp k (fst kv) with Eq => true | _ => false end) l).

Lemma kv_get_In l k v : kv_ok l -> kv_get k l = Some v <-> In (k, v) l.
Proof.
  intros O. unfold kv_get. split.
  - destruct (find _ l) as [[k' v']|] eqn:F; simpl; intros E; [|discriminate].
    apply find_some in F. destruct F as [I Q]. simpl in Q.
    destruct (bcmp k k') eqn:C; try discriminate. apply bcmp_eq in C. inversion E; subst. easy.
  - intros I. destruct (find _ l) as [[k' v']|] eqn:F; simpl.
    + apply find_some in F. destruct F as [I' Q]. simpl in Q.
      destruct (bcmp k k') eqn:C; try discriminate. apply bcmp_eq in C. subst.
      f_equal. now apply (kv_ok_fun l k').
    + pose proof (find_none _ _ F _ I) as Q. simpl in Q. now rewrite bcmp_refl in Q.
Qed.

Lemma kv_get_insert l k v k' : kv_ok l ->
  kv_get k' (kv_insert k v l) = if list_eq_dec N.eq_dec k' k then Some v else kv_get k' l.
Proof.
  intros O. pose proof (kv_insert_ok k v l O) as O'.
  destruct (list_eq_dec N.eq_dec k' k) as [->|NE].
  - apply kv_get_In; auto. apply kv_insert_In; auto.
  - destruct (kv_get k' l) as [v'|] eqn:G.
    + apply kv_get_In; auto. apply kv_insert_In; auto. right. split; auto.
      now apply kv_get_In.
    + destruct (kv_get k' (kv_insert k v l)) as [v'|] eqn:G'; [|easy].
      apply kv_get_In in G'; auto. apply kv_insert_In in G'; auto.
      destruct G' as [[-> _]|[_ I]]; [easy|]. apply kv_get_In in I; auto. congruence.
Qed.
