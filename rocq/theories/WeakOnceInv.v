(* What holds of every state of WeakOnce.v, whatever the orderings. *)
From Coq Require Import Arith NArith List Bool Lia.
From Verif Require Import Conc WeakOnce WeakRace.
Import ListNotations.

Definition vals (w : wmem) (l : loc) : list mval := map m_val (w_msgs w l).
(* the pointer in l, as the last message has it *)
Definition pub (w : wmem) (l : loc) : option nat := match vals w l with [_; Ptr n] => Some n | _ => None end.
Definition filled (w : wmem) (idx : N) : Prop := exists b v, pub w LArr = Some b /\ pub w (LCell b idx) = Some v.

Record smem (w : wmem) : Prop := {
  sm_arr : vals w LArr = [Null] \/ exists b, vals w LArr = [Null; Ptr b];
  sm_arr_ok : forall b, pub w LArr = Some b -> b < w_arrs w /\ ~ In b (w_freed_arrs w);
  sm_cell : forall b i, b < w_arrs w -> (i < w_size w)%N ->
    vals w (LCell b i) = [Null] \/ exists v, vals w (LCell b i) = [Null; Ptr v];
  sm_cell_out : forall b i, w_arrs w <= b -> vals w (LCell b i) = [];
  sm_cell_big : forall b i, (w_size w <= i)%N -> vals w (LCell b i) = [];
  sm_cell_ok : forall b i v, pub w (LCell b i) = Some v -> pub w LArr = Some b /\ v < w_vals w /\ ~ In v (w_freed_vals w);
  sm_inj : forall b i b' i' v, pub w (LCell b i) = Some v -> pub w (LCell b' i') = Some v -> i = i';
  sm_val : forall v, v < w_vals w -> exists x, vals w (LVal v) = [Bytes x];
  sm_val_out : forall v, w_vals w <= v -> vals w (LVal v) = [];
  sm_freed_arrs : forall b, In b (w_freed_arrs w) -> b < w_arrs w;
  sm_freed_vals : forall v, In v (w_freed_vals w) -> v < w_vals w
}.

Definition past_ok (w : wmem) (a : view) (l : list got) : Prop := forall idx v us x, In (Got idx v us x) l ->
  (idx < w_size w)%N /\ vals w (LVal v) = [Bytes x] /\ 1 <= a (LVal v) /\
  exists b, pub w LArr = Some b /\ pub w (LCell b idx) = Some v /\ 2 <= a LArr /\ 2 <= a (LCell b idx).
Definition no_past (t : thread) (idx : N) : Prop := forall v us x, ~ In (Got idx v us x) (t_past t).

Definition spc (w : wmem) (t : thread) : Prop :=
  match t_pc t with
  | Idle | G0 _ => True
  | G1 idx b => pub w LArr = Some b /\ 2 <= t_cur t LArr
  | I0 idx x => (idx < w_size w)%N /\ In (idx, x) (t_calls t)
  | I1 idx x b => (idx < w_size w)%N /\ In (idx, x) (t_calls t) /\ b < w_arrs w /\ ~ In b (w_freed_arrs w) /\ pub w LArr <> Some b
  | I2 idx x b => (idx < w_size w)%N /\ In (idx, x) (t_calls t) /\ pub w LArr = Some b /\ 2 <= t_cur t LArr
  | I3 idx x b v => (idx < w_size w)%N /\ In (idx, x) (t_calls t) /\ pub w LArr = Some b /\ 2 <= t_cur t LArr /\
      v < w_vals w /\ ~ In v (w_freed_vals w) /\ (forall b' i, pub w (LCell b' i) <> Some v) /\ vals w (LVal v) = [Bytes x]
  | Back idx (Some (v, us)) => (idx < w_size w)%N /\
      exists b, pub w LArr = Some b /\ pub w (LCell b idx) = Some v /\ 2 <= t_cur t LArr /\ 2 <= t_cur t (LCell b idx)
  | Back idx None | Raced idx => no_past t idx
  | Dangling _ => False
  end.
Record sthread (w : wmem) (t : thread) : Prop := {
  st_pc : spc w t;
  st_past : past_ok w (t_cur t) (t_past t);
  st_arr : 1 <= t_cur t LArr;
  st_wins : forall idx, In idx (t_wins t) -> filled w idx;
  st_once : NoDup (t_wins t)
}.

Definition own_arr (t : thread) : option nat := match t_pc t with I1 _ _ b => Some b | _ => None end.
Definition own_val (t : thread) : option nat := match t_pc t with I3 _ _ _ v => Some v | _ => None end.

(* a step of a thread that owns the array pa and the value pv *)
Record keeps (w w' : wmem) (pa pv : option nat) : Prop := {
  kp_size : w_size w' = w_size w;
  kp_arrs : w_arrs w <= w_arrs w';
  kp_vals : w_vals w <= w_vals w';
  kp_arr : forall b, pub w LArr = Some b -> pub w' LArr = Some b;
  kp_cell : forall b i v, pub w (LCell b i) = Some v -> pub w' (LCell b i) = Some v;
  kp_val : forall v x, vals w (LVal v) = [Bytes x] -> vals w' (LVal v) = [Bytes x];
  kp_freed : forall b, pa <> Some b -> ~ In b (w_freed_arrs w) -> ~ In b (w_freed_arrs w');
  kp_dropped : forall v, pv <> Some v -> ~ In v (w_freed_vals w) -> ~ In v (w_freed_vals w');
  kp_arr_back : forall b, pa <> Some b -> pub w' LArr = Some b -> pub w LArr = Some b;
  kp_cell_back : forall b i v, pv <> Some v -> pub w' (LCell b i) = Some v -> pub w (LCell b i) = Some v
}.

Lemma keeps_past w w' pa pv a l : keeps w w' pa pv -> past_ok w a l -> past_ok w' a l.
Proof.
  intros K H idx v us x I. destruct (H _ _ _ _ I) as (A & B & C & b & D & E & F & G).
  rewrite (kp_size _ _ _ _ K). repeat split; auto.
  - eapply kp_val; eauto.
  - exists b. repeat split; auto; [eapply kp_arr|eapply kp_cell]; eauto.
Qed.
Lemma past_ge w a a' l : vle a a' -> past_ok w a l -> past_ok w a' l.
Proof.
  intros K H idx v us x I. destruct (H _ _ _ _ I) as (A & B & C & b & D & E & F & G).
  repeat split; auto.
  - specialize (K (LVal v)). lia.
  - exists b. pose proof (K LArr). pose proof (K (LCell b idx)). repeat split; auto; lia.
Qed.
Lemma keeps_filled w w' pa pv idx : keeps w w' pa pv -> filled w idx -> filled w' idx.
Proof. intros K (b & v & A & B). exists b, v. split; [eapply kp_arr|eapply kp_cell]; eauto. Qed.

Lemma keeps_other w w' pa pv t : keeps w w' pa pv -> sthread w t ->
  (forall b, own_arr t = Some b -> pa <> Some b) -> (forall v, own_val t = Some v -> pv <> Some v) -> sthread w' t.
Proof.
  intros K [P A B C D] OA OV. constructor; auto.
  2: { eapply keeps_past; eauto. }
  2: { intros idx I. eapply keeps_filled; eauto. }
  unfold spc, own_arr, own_val in *. destruct (t_pc t) as [|idx|idx b|idx x|idx x b|idx x b|idx x b v|idx [[v us]|]|idx|idx];
    rewrite ?(kp_size _ _ _ _ K); auto.
  - destruct P. split; auto. eapply kp_arr; eauto.
  - destruct P as (P1 & P2 & P3 & P4 & P5). repeat split; auto.
    + pose proof (kp_arrs _ _ _ _ K). lia.
    + eapply kp_freed; eauto.
    + intros E. apply P5. eapply kp_arr_back; eauto.
  - destruct P as (P1 & P2 & P3 & P4). repeat split; auto. eapply kp_arr; eauto.
  - destruct P as (P1 & P2 & P3 & P4 & P5 & P6 & P7 & P8). repeat split; auto.
    + eapply kp_arr; eauto.
    + pose proof (kp_vals _ _ _ _ K). lia.
    + eapply kp_dropped; eauto.
    + intros b' i E. apply (P7 b' i). eapply kp_cell_back; eauto.
    + eapply kp_val; eauto.
  - destruct P as (P1 & b & P2 & P3 & P4 & P5). split; auto. exists b. repeat split; auto; [eapply kp_arr|eapply kp_cell]; eauto.
Qed.

Lemma keeps_same w w' pa pv : (forall l, vals w' l = vals w l) -> w_size w' = w_size w -> w_arrs w' = w_arrs w ->
  w_vals w' = w_vals w -> w_freed_arrs w' = w_freed_arrs w -> w_freed_vals w' = w_freed_vals w -> keeps w w' pa pv.
Proof. intros H. intros. unfold pub. constructor; unfold pub; intros; rewrite ?H in *; try congruence; lia. Qed.
Lemma smem_same w w' : (forall l, vals w' l = vals w l) -> w_size w' = w_size w -> w_arrs w' = w_arrs w ->
  w_vals w' = w_vals w -> w_freed_arrs w' = w_freed_arrs w -> w_freed_vals w' = w_freed_vals w -> smem w -> smem w'.
Proof.
  intros H E1 E2 E3 E4 E5 S. destruct S.
  constructor; unfold pub in *; intros; rewrite ?H, ?E1, ?E2, ?E3, ?E4, ?E5 in *; eauto.
Qed.

(* ---------- what a load can read ---------- *)

Lemma reads_val w a l n g : reads w a l n g -> vals w l = [Null] \/ (exists b, vals w l = [Null; Ptr b]) ->
  (n = 1 /\ m_val g = Null /\ a l <= 1) \/ (exists b, n = 2 /\ m_val g = Ptr b /\ pub w l = Some b).
Proof.
  intros (A & B & E) S. unfold pub, vals in *.
  destruct (w_msgs w l) as [|g1 [|g2 [|g3 ms]]] eqn:M; cbn in S;
    try (destruct S as [S|[b S]]; discriminate).
  - destruct n as [|[|[|n]]]; cbn in E; try discriminate; try lia. injection E as <-. left.
    destruct S as [S|[b S]]; [|discriminate]. injection S as S. repeat split; auto.
  - destruct n as [|[|[|[|n]]]]; cbn in E; try discriminate; try lia; injection E as <-.
    + left. destruct S as [S|[b S]]; [discriminate|]. injection S as S _. repeat split; auto.
    + right. destruct S as [S|[b S]]; [discriminate|]. injection S as _ S. exists b. cbn. rewrite S. repeat split; auto.
Qed.
Lemma pub_last w l g ms : vals w l = [Null] \/ (exists b, vals w l = [Null; Ptr b]) ->
  w_msgs w l = ms ++ [g] -> m_val g = Null -> vals w l = [Null] /\ pub w l = None /\ length (w_msgs w l) = 1.
Proof.
  intros S E V. unfold pub, vals in *. destruct S as [S|[b S]]; rewrite S.
  - repeat split. rewrite <- (map_length m_val), S. reflexivity.
  - exfalso. rewrite E, map_app in S. cbn in S. change [Null; Ptr b] with ([Null] ++ [Ptr b]) in S.
    apply app_inj_tail in S. destruct S. congruence.
Qed.

Lemma vals_put w l ms k : vals (put w l ms) k = if loc_eqb k l then map m_val ms else vals w k.
Proof. unfold vals, put. cbn. destruct (loc_eqb k l); reflexivity. Qed.

(* publishing an array *)
Lemma vals_pub w l q v : vals w l = [Null] -> forall k, vals (put w l (w_msgs w l ++ [Msg (Ptr q) v])) k =
  if loc_eqb k l then [Null; Ptr q] else vals w k.
Proof. intros E k. rewrite vals_put. destruct (loc_eqb k l); [|reflexivity]. rewrite map_app. fold (vals w l). now rewrite E. Qed.
Lemma pub_pub w l q v : vals w l = [Null] -> forall k, pub (put w l (w_msgs w l ++ [Msg (Ptr q) v])) k =
  if loc_eqb k l then Some q else pub w k.
Proof. intros E k. unfold pub. rewrite vals_pub by exact E. now destruct (loc_eqb k l). Qed.

Lemma no_cells w : smem w -> pub w LArr = None -> forall b i, pub w (LCell b i) = None.
Proof.
  intros S E b i. destruct (pub w (LCell b i)) as [v|] eqn:P; [|reflexivity].
  destruct (sm_cell_ok w S b i v P) as (A & _). congruence.
Qed.

Lemma pub_arr w b v : smem w -> vals w LArr = [Null] -> b < w_arrs w -> ~ In b (w_freed_arrs w) ->
  let w' := put w LArr (w_msgs w LArr ++ [Msg (Ptr b) v]) in smem w' /\ keeps w w' (Some b) None.
Proof.
  intros S E B F w'. assert (V := vals_pub w LArr b v E). assert (Q := pub_pub w LArr b v E). fold w' in V, Q.
  assert (N0 : pub w LArr = None) by (unfold pub; now rewrite E).
  assert (NC := no_cells w S N0).
  split.
  - destruct S. constructor; try (intros; rewrite ?Q in *; rewrite ?V in *; cbn in *; eauto; fail).
    + intros b0. rewrite Q. cbn. intros K. injection K as <-. auto.
    + intros b0 i v0. rewrite (Q (LCell b0 i)). cbn. rewrite NC. discriminate.
  - constructor; cbn; auto.
    + intros b0 K. congruence.
    + intros b0 K. rewrite Q. cbn. congruence.
Qed.
Lemma pub_cell w b i q v : smem w -> pub w LArr = Some b -> vals w (LCell b i) = [Null] -> q < w_vals w -> ~ In q (w_freed_vals w) ->
  (forall b' i', pub w (LCell b' i') <> Some q) ->
  let w' := put w (LCell b i) (w_msgs w (LCell b i) ++ [Msg (Ptr q) v]) in smem w' /\ keeps w w' None (Some q).
Proof.
  intros S A E B F U w'. assert (V := vals_pub w (LCell b i) q v E). assert (Q := pub_pub w (LCell b i) q v E). fold w' in V, Q.
  assert (N0 : pub w (LCell b i) = None) by (unfold pub; now rewrite E).
  split.
  - destruct S. constructor; try (intros; rewrite ?Q in *; rewrite ?V in *; cbn in *; eauto; fail).
    + intros b0 i0 B0 I0. rewrite V. destruct (loc_eqb (LCell b0 i0) (LCell b i)); [right; now exists q|auto].
    + intros b0 i0 B0. rewrite V. destruct (loc_eqb (LCell b0 i0) (LCell b i)) eqn:L; [|auto].
      apply loc_eqb_eq in L. injection L as -> ->. rewrite sm_cell_out0 in E by exact B0. discriminate.
    + intros b0 i0 B0. rewrite V. destruct (loc_eqb (LCell b0 i0) (LCell b i)) eqn:L; [|auto].
      apply loc_eqb_eq in L. injection L as -> ->. rewrite sm_cell_big0 in E by exact B0. discriminate.
    + intros b0 i0 v0. rewrite (Q (LCell b0 i0)), (Q LArr). cbn [loc_eqb].
      destruct (Nat.eqb b0 b && N.eqb i0 i) eqn:L; [|eauto].
      intros K. injection K as <-. apply andb_true_iff in L. destruct L as [L _]. apply Nat.eqb_eq in L. subst. auto.
    + intros b0 i0 b1 i1 v0. rewrite !Q.
      destruct (loc_eqb (LCell b0 i0) (LCell b i)) eqn:L0; destruct (loc_eqb (LCell b1 i1) (LCell b i)) eqn:L1.
      * apply loc_eqb_eq in L0, L1. injection L0 as _ ->. injection L1 as _ ->. auto.
      * intros K. injection K as <-. intros K. now apply U in K.
      * intros K K1. injection K1 as <-. now apply U in K.
      * eauto.
  - constructor; cbn; auto.
    + intros b0 i0 v0 K. rewrite Q. destruct (loc_eqb (LCell b0 i0) (LCell b i)) eqn:L; [|exact K].
      apply loc_eqb_eq in L. injection L as -> ->. congruence.
    + intros b0 i0 v0 K. rewrite Q. destruct (loc_eqb (LCell b0 i0) (LCell b i)); [congruence|auto].
Qed.

Lemma new_arr_ok w pa pv : smem w -> smem (new_arr w) /\ keeps w (new_arr w) pa pv.
Proof.
  intros S.
  assert (V : forall l, vals (new_arr w) l = match l with
    | LCell b i => if Nat.eqb b (w_arrs w) && N.ltb i (w_size w) then [Null] else vals w l | _ => vals w l end).
  { intros l. unfold vals, new_arr. cbn. destruct l; auto. destruct (_ && _); reflexivity. }
  assert (Q : forall l, pub (new_arr w) l = pub w l).
  { intros l. unfold pub. rewrite V. destruct l; auto.
    destruct (Nat.eqb_spec b (w_arrs w)); cbn; [|reflexivity]. destruct (N.ltb i (w_size w)); [|reflexivity].
    rewrite (sm_cell_out w S) by lia. reflexivity. }
  split.
  - destruct S. constructor; try (intros; rewrite ?Q in *; rewrite ?V in *; cbn in *; eauto; fail).
    + intros b. rewrite Q. intros K. apply sm_arr_ok0 in K. cbn. split; [lia|tauto].
    + intros b i. cbn [new_arr w_arrs w_size]. intros B I. rewrite V. destruct (Nat.eqb_spec b (w_arrs w)); cbn.
      * apply N.ltb_lt in I. rewrite I. auto.
      * apply sm_cell0; [lia|exact I].
    + intros b i. cbn [new_arr w_arrs w_size]. intros B. rewrite V. destruct (Nat.eqb_spec b (w_arrs w)); cbn; [lia|].
      apply sm_cell_out0. lia.
    + intros b i. cbn [new_arr w_arrs w_size]. intros B. rewrite V.
      destruct (Nat.eqb b (w_arrs w)); cbn; [|now apply sm_cell_big0].
      assert (L : N.ltb i (w_size w) = false) by (apply N.ltb_ge; exact B). rewrite L. now apply sm_cell_big0.
    + intros b. cbn. intros K. apply sm_freed_arrs0 in K. lia.
  - constructor; cbn; auto; intros; try (rewrite ?Q in *; rewrite ?V in *; auto; fail).
Qed.
Lemma new_val_ok w x pa pv : smem w -> smem (new_val w x) /\ keeps w (new_val w x) pa pv /\ vals (new_val w x) (LVal (w_vals w)) = [Bytes x].
Proof.
  intros S.
  assert (V : forall l, vals (new_val w x) l = match l with
    | LVal v => if Nat.eqb v (w_vals w) then [Bytes x] else vals w l | _ => vals w l end).
  { intros l. unfold vals, new_val. cbn. destruct l; auto. destruct (Nat.eqb _ _); reflexivity. }
  assert (Q : forall b i, pub (new_val w x) (LCell b i) = pub w (LCell b i)). { intros. unfold pub. now rewrite V. }
  assert (QA : pub (new_val w x) LArr = pub w LArr). { intros. unfold pub. now rewrite V. }
  split; [|split].
  - destruct S. constructor; try (intros; rewrite ?Q, ?QA in *; rewrite ?V in *; cbn in *; eauto; fail).
    + intros b i v. rewrite Q, QA. intros K. apply sm_cell_ok0 in K. cbn. repeat split; try tauto. lia.
    + intros v. cbn [new_val w_vals]. intros B. rewrite V. destruct (Nat.eqb_spec v (w_vals w)); [eauto|]. apply sm_val0. lia.
    + intros v. cbn [new_val w_vals]. intros B. rewrite V. destruct (Nat.eqb_spec v (w_vals w)); [lia|]. apply sm_val_out0. lia.
    + intros b. cbn. intros K. apply sm_freed_vals0 in K. lia.
  - constructor; intros; try (rewrite ?Q, ?QA in *; cbn; auto; fail).
    rewrite V. destruct (Nat.eqb_spec v (w_vals w)) as [->|]; [|auto].
    rewrite (sm_val_out w S) in H by lia. discriminate.
  - rewrite V. now rewrite Nat.eqb_refl.
Qed.
Lemma free_arr_ok w b pv : smem w -> b < w_arrs w -> pub w LArr <> Some b -> smem (free_arr w b) /\ keeps w (free_arr w b) (Some b) pv.
Proof.
  intros S B P. split.
  - destruct S. constructor; cbn; auto.
    + intros b0 K. change (pub (free_arr w b) LArr) with (pub w LArr) in K. split; [now apply sm_arr_ok0|].
      intros [<-|I]; [auto|]. now apply sm_arr_ok0 in K.
    + intros b0 [<-|I]; auto.
  - constructor; cbn; auto. intros b0 K N0 [<-|I]; auto.
Qed.
Lemma free_val_ok w v pa : smem w -> v < w_vals w -> (forall b i, pub w (LCell b i) <> Some v) ->
  smem (free_val w v) /\ keeps w (free_val w v) pa (Some v).
Proof.
  intros S B P. split.
  - destruct S. constructor; cbn; auto.
    + intros b0 i v0 K. change (pub (free_val w v) (LCell b0 i)) with (pub w (LCell b0 i)) in K.
      destruct (sm_cell_ok0 b0 i v0 K) as (A1 & A2 & A3). repeat split; auto.
      intros [<-|I]; [eapply P; eauto|auto].
    + intros b0 [<-|I]; auto.
  - constructor; cbn; auto. intros b0 K N0 [<-|I]; auto.
Qed.
Lemma fence_ok w t pa pv : smem w -> smem (fst (fence w t)) /\ keeps w (fst (fence w t)) pa pv.
Proof. intros S. split; [apply (smem_same w)|apply keeps_same]; auto. Qed.

(* ---------- one step ---------- *)

Definition news (w w' : wmem) (t t' : thread) : Prop :=
  (t_wins t' = t_wins t /\
   forall b i v, pub w' LArr = Some b -> pub w' (LCell b i) = Some v -> pub w LArr = Some b /\ pub w (LCell b i) = Some v) \/
  exists idx x b q, t_wins t' = idx :: t_wins t /\ ~ filled w idx /\ In (idx, x) (t_calls t') /\
    pub w LArr = Some b /\ pub w' LArr = Some b /\ pub w' (LCell b idx) = Some q /\ vals w' (LVal q) = [Bytes x] /\
    forall i v, i <> idx -> pub w' (LCell b i) = Some v -> pub w (LCell b i) = Some v.
Record stepped (w w' : wmem) (t t' : thread) : Prop := {
  sp_mem : smem w';
  sp_thread : sthread w' t';
  sp_keeps : keeps w w' (own_arr t) (own_val t);
  sp_sc : past_ok w' (w_sc w') (w_past w');
  sp_own_arr : forall b, own_arr t' = Some b -> w_arrs w <= b;
  sp_own_val : forall v, own_val t' = Some v -> w_vals w <= v;
  sp_news : news w w' t t';
  sp_calls : incl (t_calls t) (t_calls t')
}.

Lemma news_same w t t' : t_wins t' = t_wins t -> news w w t t'.
Proof. intros E. left. split; auto. Qed.

(* no change of memory *)
Lemma stepped_same w t t' : smem w -> past_ok w (w_sc w) (w_past w) -> sthread w t -> vle (t_cur t) (t_cur t') ->
  t_wins t' = t_wins t -> t_calls t' = t_calls t -> t_past t' = t_past t ->
  own_arr t' = None -> own_val t' = None -> spc w t' -> stepped w w t t'.
Proof.
  intros S C T G W K P A V H. destruct T. constructor; auto.
  - constructor; auto.
    + rewrite P. eapply past_ge; eauto.
    + specialize (G LArr). lia.
    + now rewrite W.
    + now rewrite W.
  - apply keeps_same; auto.
  - now rewrite A.
  - now rewrite V.
  - now apply news_same.
  - rewrite K. apply incl_refl.
Qed.

Lemma begin_stepped o w t : smem w -> past_ok w (w_sc w) (w_past w) -> sthread w t -> t_pc t = Idle ->
  stepped w (fst (begin o w t)) t (snd (begin o w t)).
Proof.
  intros S C T P. unfold begin. destruct (pinned o).
  2: { apply stepped_same; auto; unfold own_arr, own_val, spc; cbn [snd]; try rewrite P; auto. apply vle_refl. }
  destruct (fence_ok w t (own_arr t) (own_val t) S) as [S' K]. assert (G := fence_ge w t). destruct T.
  assert (H : past_ok (fst (fence w t)) (t_cur (snd (fence w t))) (t_past (snd (fence w t)))).
  { cbn [fence snd t_past t_cur]. intros idx v us x [I|I]%in_app_or.
    - eapply keeps_past; [exact K|eapply past_ge; [|exact C]|exact I]. intros k. apply join_r.
    - eapply keeps_past; [exact K|eapply past_ge; [exact G|exact st_past0]|exact I]. }
  constructor; auto.
  - constructor; auto.
    + unfold spc. cbn. now rewrite P.
    + specialize (G LArr). lia.
  - cbn. unfold own_arr. cbn. now rewrite P.
  - cbn. unfold own_val. cbn. now rewrite P.
  - left. split; auto.
  - apply incl_refl.
Qed.

Lemma stepped_then w w' t t1 t2 : stepped w w' t t1 -> t_cur t2 = t_cur t1 -> t_wins t2 = t_wins t1 -> t_past t2 = t_past t1 ->
  incl (t_calls t1) (t_calls t2) -> own_arr t2 = None -> own_val t2 = None -> spc w' t2 -> stepped w w' t t2.
Proof.
  intros [M T K C A V N0 I] E1 E2 E3 E4 E5 E6 H. destruct T. constructor; auto.
  - constructor; rewrite ?E1, ?E2, ?E3; auto.
  - now rewrite E5.
  - now rewrite E6.
  - destruct N0 as [[N1 N2]|(idx & x & b & q & N1 & N2 & N3 & N4)].
    + left. split; [congruence|auto].
    + right. exists idx, x, b, q. split; [congruence|]. split; [exact N2|]. split; [|exact N4]. now apply E4.
  - eapply incl_tran; eauto.
Qed.

Lemma swapped_at o w t l g q p : S (length (w_msgs w l)) <= t_cur (snd (swapped o w t l g q p)) l.
Proof. cbn [swapped snd with_cur t_cur]. apply know_at. Qed.

Lemma step_inv o w t w' t' : tstep o w t w' t' -> smem w -> past_ok w (w_sc w) (w_past w) -> sthread w t -> stepped w w' t t'.
Proof.
  intros H S C T. assert (T0 := T). destruct T0 as [P PA A W O]. unfold spc in P.
  assert (RA : forall a n g, reads w a LArr n g -> (n = 1 /\ m_val g = Null /\ a LArr <= 1) \/
    (exists b, n = 2 /\ m_val g = Ptr b /\ pub w LArr = Some b)).
  { intros a n g R. exact (reads_val w a LArr n g R (sm_arr w S)). }
  assert (RC : forall a b i n g, reads w a (LCell b i) n g -> pub w LArr = Some b -> (i < w_size w)%N ->
    (n = 1 /\ m_val g = Null /\ a (LCell b i) <= 1) \/ (exists v, n = 2 /\ m_val g = Ptr v /\ pub w (LCell b i) = Some v)).
  { intros a b i n g R B I. apply (reads_val w a _ n g R). apply sm_cell; auto. now apply sm_arr_ok. }
  destruct H; match goal with [ E : t_pc t = _ |- _ ] => rewrite E in P end.
  - change (fence w t) with (begin (Ords true true true true true) w t). now apply begin_stepped.
  - eapply stepped_then; [now apply begin_stepped|..]; auto; try apply incl_refl.
  - eapply stepped_then; [now apply begin_stepped|..]; auto.
    + cbn. apply incl_tl, incl_refl.
    + unfold spc. cbn. split; [|now left]. unfold begin, fence. destruct (pinned o); exact H0.
  - destruct (RA _ _ _ H0) as [(-> & V & L)|(b & -> & V & Q)]; rewrite V;
      (apply stepped_same; auto; [apply loaded_ge|]); unfold spc; cbn [t_pc loaded].
    + intros v us x I. cbn in I. destruct (PA _ _ _ _ I) as (_ & _ & _ & b & _ & _ & K & _). lia.
    + split; [exact Q|]. apply (loaded_at _ t LArr 2 g).
  - apply stepped_same; auto; [apply vle_refl|]. unfold spc. cbn. intros v us x I. destruct (PA _ _ _ _ I) as (K & _). lia.
  - destruct P as [P1 P2]. apply (sm_arr_ok w S) in P1. tauto.
  - destruct P as [P1 P2]. apply stepped_same; auto; [apply vle_refl|]. unfold spc. cbn. intros v us x I.
    destruct (PA _ _ _ _ I) as (_ & _ & _ & b0 & E & _ & _ & K). assert (b0 = b) by congruence. subst.
    assert (L : seen (t_cur t) (LCell b idx) = true) by (apply seen_iff; lia). congruence.
  - destruct P as [P1 P2]. destruct (RC _ _ _ _ _ H3 P1 H0) as [(-> & V & L)|(v & -> & V & Q)]; rewrite V;
      (apply stepped_same; auto; [apply loaded_ge|]); unfold spc; cbn [t_pc loaded].
    + intros v us x I. cbn in I. destruct (PA _ _ _ _ I) as (_ & _ & _ & b0 & E & _ & _ & K).
      assert (b0 = b) by congruence. subst. lia.
    + split; [exact H0|]. exists b. repeat split; auto.
      * pose proof (loaded_ge (load_acq o) t (LCell b idx) 2 g Idle LArr) as G. cbn in G |- *. lia.
      * apply (loaded_at _ t (LCell b idx) 2 g).
  - destruct P as [P1 P2]. destruct (RA _ _ _ H0) as [(-> & V & L)|(b0 & -> & V & Q)]; [congruence|].
    assert (b0 = b) by congruence. subst. apply stepped_same; auto; [apply loaded_ge|]. unfold spc; cbn [t_pc loaded t_calls].
    repeat split; auto. apply (loaded_at _ t LArr 2 g).
  - destruct P as [P1 P2]. destruct (new_arr_ok w (own_arr t) (own_val t) S) as [S' K].
    assert (G : vle (t_cur t) (t_cur (with_cur (loaded (load_acq o) t LArr n g Idle) (know_arr (w_size w) (w_arrs w)) (I1 idx x (w_arrs w))))).
    { eapply vle_trans; [apply (loaded_ge (load_acq o) t LArr n g Idle)|]. intros k. apply know_arr_ge. }
    assert (Q : forall l, pub (new_arr w) l = pub w l).
    { intros l. unfold pub, vals, new_arr. cbn. destruct l; auto.
      destruct (Nat.eqb_spec b (w_arrs w)); cbn; [|reflexivity]. destruct (N.ltb i (w_size w)); [|reflexivity].
      fold (vals w (LCell b i)). rewrite (sm_cell_out w S) by lia. reflexivity. }
    constructor; auto.
    + constructor; auto.
      * unfold spc. cbn [t_pc with_cur t_calls loaded new_arr w_arrs w_freed_arrs w_size]. repeat split; auto.
        -- intros I. apply (sm_freed_arrs w S) in I. lia.
        -- change (pub (new_arr w) LArr <> Some (w_arrs w)). rewrite Q. intros E. apply (sm_arr_ok w S) in E. lia.
      * eapply keeps_past; [exact K|]. eapply past_ge; [exact G|exact PA].
      * specialize (G LArr). lia.
      * intros j I. eapply keeps_filled; [exact K|]. now apply W.
    + eapply keeps_past; [exact K|exact C].
    + intros b E. cbn in E. injection E as <-. lia.
    + discriminate.
    + left. split; auto. intros b i v. rewrite !Q. auto.
    + apply incl_refl.
  - destruct P as (P1 & P2 & P3 & P4 & P5). destruct (pub_last w LArr g l (sm_arr w S) H0 H1) as (E & N0 & L).
    cbn [swapped fst]. match goal with |- context [put w LArr (_ ++ [Msg _ ?v])] =>
      destruct (pub_arr w b v S E P3 P4) as [S' K]; assert (Q := pub_pub w LArr b v E) end.
    assert (G := swapped_ge o w t LArr g b (I2 idx x b)). assert (M := swapped_at o w t LArr g b (I2 idx x b)). rewrite L in M.
    constructor; auto.
    + constructor.
      * unfold spc. cbn [t_pc swapped snd with_cur t_calls loaded]. repeat split; auto. rewrite Q. reflexivity.
      * eapply keeps_past; [exact K|]. eapply past_ge; [exact G|exact PA].
      * specialize (G LArr). lia.
      * intros j I. eapply keeps_filled; [exact K|]. now apply W.
      * exact O.
    + unfold own_arr, own_val. rewrite H. exact K.
    + eapply keeps_past; [exact K|exact C].
    + discriminate.
    + discriminate.
    + left. split; auto. intros b0 i v. rewrite (Q (LCell b0 i)). cbn. rewrite (no_cells w S N0). discriminate.
    + apply incl_refl.
  - destruct P as (P1 & P2 & P3 & P4 & P5). destruct (RA _ _ _ H0) as [(-> & V & L)|(b0 & -> & V & Q)]; [congruence|].
    assert (b0 = b') by congruence. subst. destruct (free_arr_ok w b (own_val t) S P3 P5) as [S' K].
    assert (G := loaded_ge (fail_acq o) t LArr 2 g (I2 idx x b')).
    constructor; auto.
    + constructor.
      * unfold spc. cbn [t_pc loaded t_calls]. repeat split; auto. apply (loaded_at _ t LArr 2 g).
      * eapply keeps_past; [exact K|]. eapply past_ge; [exact G|exact PA].
      * specialize (G LArr). lia.
      * intros j I. eapply keeps_filled; [exact K|]. now apply W.
      * exact O.
    + unfold own_arr, own_val in *. rewrite H in *. exact K.
    + discriminate.
    + discriminate.
    + left. split; auto.
    + apply incl_refl.
  - destruct P as (P1 & P2 & P3 & P4). apply (sm_arr_ok w S) in P3. tauto.
  - destruct P as (P1 & P2 & P3 & P4). apply stepped_same; auto; [apply vle_refl|]. unfold spc. cbn. intros v us y I.
    destruct (PA _ _ _ _ I) as (_ & _ & _ & b0 & E & _ & _ & K). assert (b0 = b) by congruence. subst.
    assert (L : seen (t_cur t) (LCell b idx) = true) by (apply seen_iff; lia). congruence.
  - destruct P as (P1 & P2 & P3 & P4). destruct (RC _ _ _ _ _ H2 P3 P1) as [(-> & V & L)|(v0 & -> & V & Q)]; [congruence|].
    assert (v0 = v) by congruence. subst. apply stepped_same; auto; [apply loaded_ge|]. unfold spc; cbn [t_pc loaded].
    split; [exact P1|]. exists b. repeat split; auto.
    + pose proof (loaded_ge (load_acq o) t (LCell b idx) 2 g Idle LArr) as G. cbn in G |- *. lia.
    + apply (loaded_at _ t (LCell b idx) 2 g).
  - destruct P as (P1 & P2 & P3 & P4). destruct (new_val_ok w x (own_arr t) (own_val t) S) as (S' & K & VX).
    assert (G : vle (t_cur t) (t_cur (with_cur (loaded (load_acq o) t (LCell b idx) n g Idle) (fun a => know a (LVal (w_vals w)) 1) (I3 idx x b (w_vals w))))).
    { eapply vle_trans; [apply (loaded_ge (load_acq o) t (LCell b idx) n g Idle)|]. intros k. apply know_ge. }
    constructor; auto.
    + constructor; auto.
      * unfold spc. cbn [t_pc with_cur t_calls loaded]. repeat split; auto.
        -- specialize (G LArr). lia.
        -- cbn. intros I. apply (sm_freed_vals w S) in I. lia.
        -- intros b' i E. change (pub w (LCell b' i) = Some (w_vals w)) in E. apply (sm_cell_ok w S) in E. lia.
      * eapply keeps_past; [exact K|]. eapply past_ge; [exact G|exact PA].
      * specialize (G LArr). lia.
    + eapply keeps_past; [exact K|exact C].
    + discriminate.
    + intros v E. cbn in E. injection E as <-. lia.
    + left. split; auto.
    + apply incl_refl.
  - destruct P as (P1 & P2 & P3 & P4 & P5 & P6 & P7 & P8). assert (B := proj1 (sm_arr_ok w S b P3)).
    destruct (pub_last w (LCell b idx) g l (sm_cell w S b idx B P1) H0 H1) as (E & N0 & L).
    cbn [swapped fst]. match goal with |- context [put w (LCell b idx) (_ ++ [Msg _ ?y])] =>
      destruct (pub_cell w b idx v y S P3 E P5 P6 P7) as [S' K]; assert (Q := pub_pub w (LCell b idx) v y E) end.
    assert (G := swapped_ge o w t (LCell b idx) g v (Back idx (Some (v, true)))).
    assert (M := swapped_at o w t (LCell b idx) g v (Back idx (Some (v, true)))). rewrite L in M.
    assert (NF : ~ filled w idx).
    { intros (b0 & v0 & E1 & E2). assert (b0 = b) by congruence. subst. congruence. }
    constructor; auto.
    + constructor.
      * unfold spc. cbn [t_pc win swapped snd with_cur t_calls loaded t_cur]. split; [exact P1|]. exists b.
        rewrite !Q. cbn [loc_eqb]. rewrite Nat.eqb_refl, N.eqb_refl. cbn [andb]. repeat split; auto.
        apply Nat.le_trans with (t_cur t LArr); [exact P4|exact (G LArr)].
      * eapply keeps_past; [exact K|]. eapply past_ge; [exact G|exact PA].
      * specialize (G LArr). cbn [win t_cur]. lia.
      * cbn [win t_wins]. intros j [<-|I].
        -- exists b, v. rewrite !Q. cbn [loc_eqb]. rewrite Nat.eqb_refl, N.eqb_refl. split; auto.
        -- eapply keeps_filled; [exact K|]. now apply W.
      * cbn [win t_wins]. constructor; [|exact O]. intros I. now apply NF, W.
    + unfold own_arr, own_val. rewrite H. exact K.
    + eapply keeps_past; [exact K|exact C].
    + discriminate.
    + discriminate.
    + right. exists idx, x, b, v. split; [reflexivity|]. split; [exact NF|]. split; [exact P2|]. split; [exact P3|].
      rewrite (Q LArr), (Q (LCell b idx)), loc_eqb_refl. cbn [loc_eqb]. split; [exact P3|]. split; [reflexivity|].
      split; [exact P8|]. intros i v0 NI. rewrite (Q (LCell b i)). cbn [loc_eqb].
      destruct (N.eqb_spec i idx); [contradiction|]. now rewrite andb_false_r.
    + apply incl_refl.
  - destruct P as (P1 & P2 & P3 & P4 & P5 & P6 & P7 & P8).
    destruct (RC _ _ _ _ _ H0 P3 P1) as [(-> & V & L)|(v0 & -> & V & Q)]; [congruence|].
    assert (v0 = v') by congruence. subst. destruct (free_val_ok w v (own_arr t) S P5 P7) as [S' K].
    assert (G := loaded_ge (fail_acq o) t (LCell b idx) 2 g (Back idx (Some (v', false)))).
    constructor; auto.
    + constructor.
      * unfold spc. cbn [t_pc loaded t_calls]. split; [exact P1|]. exists b. repeat split; auto.
        -- specialize (G LArr). lia.
        -- apply (loaded_at _ t (LCell b idx) 2 g).
      * eapply keeps_past; [exact K|]. eapply past_ge; [exact G|exact PA].
      * specialize (G LArr). lia.
      * intros j I. eapply keeps_filled; [exact K|]. now apply W.
      * exact O.
    + unfold own_arr, own_val in *. rewrite H in *. exact K.
    + discriminate.
    + discriminate.
    + left. split; auto.
    + apply incl_refl.
  - apply stepped_same; auto; [apply vle_refl|exact I].
  - destruct P as (P1 & b & P2 & P3 & P4 & P5). apply (sm_cell_ok w S) in P3. tauto.
  - destruct P as (P1 & b & P2 & P3 & P4 & P5). apply stepped_same; auto; [apply vle_refl|]. unfold spc. cbn. intros v0 us0 y I.
    destruct (PA _ _ _ _ I) as (_ & _ & L & b0 & E & E2 & _ & K). assert (b0 = b) by congruence. subst.
    assert (v0 = v) by congruence. subst. apply seen_iff in L. congruence.
  - destruct P as (P1 & b & P2 & P3 & P4 & P5). constructor; auto.
    + constructor; auto; [exact I|]. cbn. intros i0 v0 u0 x0 [E|I]; [|eapply PA; eauto].
      injection E as <- <- <- <-. split; [exact P1|]. split; [|split; [now apply seen_iff|]].
      * destruct (sm_cell_ok w S _ _ _ P3) as (_ & B & _). destruct (sm_val w S v B) as [y E].
        destruct H2 as (_ & _ & R). unfold vals in *. destruct (w_msgs w (LVal v)) as [|m [|m2 ms]]; try discriminate.
        cbn in E. destruct n as [|[|[|n]]]; cbn in R; try discriminate; injection R as ->; cbn; now rewrite H3.
      * exists b. auto.
    + apply keeps_same; auto.
    + discriminate.
    + discriminate.
    + now apply news_same.
    + apply incl_refl.
Qed.
