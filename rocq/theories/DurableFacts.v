(* What survives a crash. *)
From Coq Require Import Arith NArith List Bool Lia.
From Verif Require Import Word Af Maps Tree MultiMap PrefixCht Lsm LsmProofs RecordSet Rib StarCast HistSpec PropSpec
  RibOk Facts1 Facts2 Facts3 Durable DurableSpec Examples.
Import ListNotations.
Local Open Scope N_scope.

Definition stable (d : dstate) (f : af) : lsm := match f with IPv4 => d_v4 d | IPv6 => d_v6 d end.

Lemma lives_after s es d : lives s es d -> after s (calls_in es) (d_st d).
Proof.
  induction 1 as [st E|es d o st' x L [W IH] Wo E|es d io4 io6 L IH O4 O6].
  - split; [constructor|exact E].
  - split; [now constructor|]. cbn [calls_in flat_map app run]. unfold calls_in in IH. rewrite IH.
    cbn [bind]. rewrite E. reflexivity.
  - cbn [calls_in flat_map app]. replace (d_st (fst (flush io4 io6 d))) with (d_st d); [exact IH|].
    unfold flush. now destruct (snd (rib_flush io4 _ _)).
Qed.

Lemma on_disk_records st p r l : rb_lsm (rib_of st (fst p)) = Some l ->
  (on_disk st p r <-> In (Some (p, r)) (records_in (fst p) l)).
Proof. intros E. unfold on_disk, disk. now rewrite E. Qed.

Lemma got_lsm s h st f : after s h st -> s <> MemoryOnly -> exists l, rb_lsm (rib_of st f) = Some l.
Proof.
  intros A N. pose proof (proj2 (after_rib _ _ _ f A)) as R.
  pose proof (ro_lsm _ _ _ _ R) as L. destruct s; try easy; simpl in L;
    destruct (rb_lsm (rib_of st f)) as [l|]; try easy; eauto.
Qed.

(* ---------- flush ---------- *)

Lemma flush_written s es d io4 io6 : lives s es d -> s <> MemoryOnly ->
  io_ok io4 (st_v4 (d_st d)) (d_v4 d) -> io_ok io6 (st_v6 (d_st d)) (d_v6 d) ->
  io4 <> FErr -> io6 <> FErr -> snd (flush io4 io6 d) = ROk tt ->
  forall f, rb_lsm (rib_of (d_st d) f) = Some (stable (fst (flush io4 io6 d)) f).
Proof.
  intros L NM O4 O6 N4 N6 E. pose proof (lives_after _ _ _ L) as A.
  destruct (got_lsm _ _ _ IPv4 A NM) as [l4 L4]. destruct (got_lsm _ _ _ IPv6 A NM) as [l6 L6].
  cbn [rib_of] in L4, L6. unfold io_ok in O4, O6. rewrite L4 in O4. rewrite L6 in O6.
  revert E. unfold flush, rib_flush. rewrite L4, L6.
  destruct io4 as [| |[] []]; [easy| | | | |]; destruct io6 as [| |[] []]; try easy; cbn; intros E f;
    try discriminate E; destruct f; cbn; congruence.
Qed.

Lemma flush_durable s es d io4 io6 : lives s es d ->
  io_ok io4 (st_v4 (d_st d)) (d_v4 d) -> io_ok io6 (st_v6 (d_st d)) (d_v6 d) ->
  io4 <> FErr -> io6 <> FErr -> snd (flush io4 io6 d) = ROk tt ->
  forall p r, survives (fst (flush io4 io6 d)) p r <-> on_disk (d_st d) p r.
Proof.
  intros L O4 O6 N4 N6 E p r.
  assert (NM : s <> MemoryOnly).
  { intros ->. pose proof (lives_after _ _ _ L) as A.
    pose proof (ro_lsm _ _ _ _ (proj2 (after_rib _ _ _ IPv4 A))) as Q. simpl in Q. cbn [rib_of] in Q.
    revert E. unfold flush, rib_flush. rewrite Q. discriminate. }
  pose proof (flush_written s es d io4 io6 L NM O4 O6 N4 N6 E (fst p)) as F.
  rewrite (on_disk_records _ _ _ _ F). reflexivity.
Qed.

Lemma flush_answer s es d io4 io6 : lives s es d -> written io4 -> written io6 ->
  snd (flush io4 io6 d) = flush_to_disk (d_st d).
Proof.
  intros L W4 W6. pose proof (lives_after _ _ _ L) as A.
  unfold flush, rib_flush, flush_to_disk, rib_flush_to_disk.
  destruct (rb_lsm (st_v4 (d_st d))); [|easy].
  destruct W4 as [->| ->]; cbn; destruct (rb_lsm (st_v6 (d_st d))); try easy;
    destruct W6 as [->| ->]; easy.
Qed.

(* a segment that was registered stays, also if flush_to_disk then reports an error *)
Lemma flush_registered s es d io4 io6 c : lives s es d ->
  (io4 = FSome true c -> forall p r, fst p = IPv4 -> on_disk (d_st d) p r ->
     survives (fst (flush io4 io6 d)) p r) /\
  (written io4 -> io6 = FSome true c -> forall p r, fst p = IPv6 -> on_disk (d_st d) p r ->
     survives (fst (flush io4 io6 d)) p r).
Proof.
  intros L. pose proof (lives_after _ _ _ L) as A.
  assert (NM : forall p r, on_disk (d_st d) p r -> s <> MemoryOnly).
  { intros p r D ->. pose proof (ro_lsm _ _ _ _ (proj2 (after_rib _ _ _ (fst p) A))) as Q. simpl in Q.
    unfold on_disk, disk in D. rewrite Q in D. destruct D. }
  split.
  - intros -> p r Fp D. destruct (got_lsm _ _ _ IPv4 A (NM _ _ D)) as [l4 L4]. cbn [rib_of] in L4.
    rewrite (on_disk_records _ _ _ l4) in D by now rewrite Fp.
    unfold survives. rewrite Fp in *. unfold flush, rib_flush. rewrite L4. destruct c; cbn; [|exact D].
    exact D.
  - intros W -> p r Fp D. destruct (got_lsm _ _ _ IPv4 A (NM _ _ D)) as [l4 L4].
    destruct (got_lsm _ _ _ IPv6 A (NM _ _ D)) as [l6 L6]. cbn [rib_of] in L4, L6.
    rewrite (on_disk_records _ _ _ l6) in D by now rewrite Fp.
    unfold survives. rewrite Fp in *. unfold flush, rib_flush. rewrite L4, L6.
    destruct W as [->| ->]; cbn; exact D.
Qed.

(* whatever the crate does, a flush brings nothing that is not in the store *)
Lemma flush_nothing_new s es d io4 io6 p r : lives s es d -> survives (fst (flush io4 io6 d)) p r ->
  survives d p r \/ on_disk (d_st d) p r.
Proof.
  intros L. unfold flush, rib_flush.
  assert (On : forall l, rb_lsm (rib_of (d_st d) (fst p)) = Some l -> In (Some (p, r)) (records_in (fst p) l) ->
    on_disk (d_st d) p r) by (intros l E I; now apply (on_disk_records _ _ _ l)).
  unfold survives. destruct (fst p); cbn [rib_of] in On;
    destruct (rb_lsm (st_v4 (d_st d))) as [l4|]; destruct (rb_lsm (st_v6 (d_st d))) as [l6|];
    try (destruct io4 as [| |[] []]); try (destruct io6 as [| |[] []]); cbn; eauto.
Qed.

(* an error that flush_to_disk reports: something was not registered or not
   compacted, or there is no disk *)
Lemma flush_error s es d io4 io6 e : lives s es d -> s <> MemoryOnly ->
  snd (flush io4 io6 d) = RErr e ->
  e = PersistFailed /\ exists reg comp, (io4 = FSome reg comp \/ io6 = FSome reg comp) /\ reg && comp = false.
Proof.
  intros L NM. pose proof (lives_after _ _ _ L) as A.
  destruct (got_lsm _ _ _ IPv4 A NM) as [l4 L4]. destruct (got_lsm _ _ _ IPv6 A NM) as [l6 L6].
  cbn [rib_of] in L4, L6. unfold flush, rib_flush. rewrite L4, L6.
  destruct io4 as [| |[] []]; destruct io6 as [| |[] []]; cbn; intros E; try discriminate E;
    injection E as <-; (split; [easy|]); eauto 6.
Qed.

(* ---------- a crash ---------- *)

(* the stable contents are those of the tree at the time of an earlier flush *)
Lemma stable_past s f es1 : forall es2 d, lives s (es2 ++ es1) d -> exists d1, lives s es1 d1 /\
  (stable d f = stable d1 f \/
   exists es3 io4 io6 es4 d4, es2 = es3 ++ DFlush io4 io6 :: es4 /\ lives s (es4 ++ es1) d4 /\
     rb_lsm (rib_of (d_st d4) f) = Some (stable d f)).
Proof.
  induction es2 as [|e es2 IH]; intros d L; [exists d; split; [easy|now left]|].
  cbn [app] in L. inversion L as [|es d0 o st' x L0 Wo E|es d0 io4 io6 L0 O4 O6]; subst.
  - destruct (IH _ L0) as (d1 & L1 & C). exists d1. split; [easy|].
    change (stable (D st' (d_v4 d0) (d_v6 d0)) f) with (stable d0 f).
    destruct C as [C|(es3 & i4 & i6 & es4 & d4 & -> & C)]; [now left|right].
    exists (DCall o :: es3), i4, i6, es4, d4. easy.
  - destruct (IH _ L0) as (d1 & L1 & C). exists d1. split; [easy|].
    assert (X : stable (fst (flush io4 io6 d0)) f = stable d0 f \/
                rb_lsm (rib_of (d_st d0) f) = Some (stable (fst (flush io4 io6 d0)) f)).
    { unfold flush, rib_flush. destruct f; cbn [rib_of].
      - destruct (rb_lsm (st_v4 (d_st d0))) as [l|]; cbn; [|now left].
        destruct io4 as [| |[] []]; cbn; auto.
      - destruct (rb_lsm (st_v4 (d_st d0))) as [l|]; cbn; [|now left].
        destruct io4 as [| |[] []]; cbn; auto; destruct (rb_lsm (st_v6 (d_st d0))) as [l'|]; cbn; auto;
          destruct io6 as [| |[] []]; cbn; auto. }
    destruct X as [X|X].
    + rewrite X. destruct C as [C|(es3 & i4 & i6 & es4 & d4 & -> & C)]; [now left|right].
      exists (DFlush io4 io6 :: es3), i4, i6, es4, d4. easy.
    + right. exists [], io4, io6, es2, d0. easy.
Qed.

Lemma calls_app a b : calls_in (a ++ b) = calls_in a ++ calls_in b.
Proof. apply flat_map_app. Qed.

Lemma written_flush s es io4 io6 d : lives s (DFlush io4 io6 :: es) d -> s <> MemoryOnly ->
  written io4 -> written io6 ->
  forall f, exists d0, lives s es d0 /\ rb_lsm (rib_of (d_st d0) f) = Some (stable d f).
Proof.
  intros L NM W4 W6 f. inversion L as [| |es' d0 i4 i6 L0 O4 O6]; subst. exists d0. split; [easy|].
  apply (flush_written s es); auto.
  - destruct W4 as [->| ->]; discriminate.
  - destruct W6 as [->| ->]; discriminate.
  - rewrite (flush_answer s es) by auto. rewrite (flush_ok s (calls_in es)); [|now apply lives_after].
    now destruct s.
Qed.

Lemma write_ahead_survives es2 io4 io6 es1 d p r u h1 h2 :
  lives WriteAhead (es2 ++ DFlush io4 io6 :: es1) d -> written io4 -> written io6 ->
  calls_in es1 = h1 ++ Insert p r u :: h2 ->
  (forall r' u', In (Insert p r' u') (calls_in es2 ++ h1) -> key_of r' <> key_of r) ->
  survives d p r.
Proof.
  intros L W4 W6 E K.
  assert (Past : forall es d0, lives WriteAhead es d0 -> rb_lsm (rib_of (d_st d0) (fst p)) = Some (stable d (fst p)) ->
    (exists k, calls_in es = k ++ h1 ++ Insert p r u :: h2 /\ incl k (calls_in es2)) -> survives d p r).
  { intros es d0 L0 S (k & Ek & Ik). unfold survives.
    change (In (Some (p, r)) (records_in (fst p) (stable d (fst p)))).
    rewrite <- (on_disk_records _ _ _ _ S).
    apply (write_ahead_disk (calls_in es)); [now apply lives_after|].
    exists (k ++ h1), u, h2. rewrite Ek, app_assoc. split; [easy|].
    intros r' u' I. apply (K r' u'). apply in_app_or in I. apply in_or_app. destruct I; auto. }
  destruct (stable_past WriteAhead (fst p) _ _ _ L) as (d1 & L1 & [C|C]).
  - destruct (written_flush _ _ _ _ _ L1) with (f := fst p) as (d0 & L0 & S); auto; [discriminate|].
    rewrite <- C in S. apply (Past es1 d0 L0 S). exists []. split; [easy|]. intros o [].
  - destruct C as (es3 & i4 & i6 & es4 & d4 & -> & L4 & S). apply (Past _ _ L4 S).
    exists (calls_in es4). rewrite calls_app. cbn [calls_in flat_map app]. fold (calls_in es1). rewrite E.
    split; [easy|]. rewrite calls_app. intros o I. apply in_or_app. right. cbn. exact I.
Qed.

(* nothing is there that was not inserted *)
Lemma write_ahead_survivors es d p r : lives WriteAhead es d -> survives d p r ->
  exists u, In (Insert p r u) (calls_in es).
Proof.
  intros L S. rewrite <- (app_nil_r es) in L.
  destruct (stable_past WriteAhead (fst p) [] es d L) as (d1 & L1 & [C|C]).
  - inversion L1; subst. unfold survives in S.
    change (In (Some (p, r)) (records_in (fst p) (stable d (fst p)))) in S. rewrite C in S.
    destruct (fst p); destruct S.
  - destruct C as (es3 & i4 & i6 & es4 & d4 & -> & L4 & Q).
    unfold survives in S. change (In (Some (p, r)) (records_in (fst p) (stable d (fst p)))) in S.
    rewrite <- (on_disk_records _ _ _ _ Q) in S.
    apply (write_ahead_disk (calls_in (es4 ++ []))) in S; [|now apply lives_after].
    destruct S as (h1 & u & h2 & E & _). exists u. rewrite app_nil_r in E.
    rewrite calls_app. apply in_or_app. right. cbn. fold (calls_in es4). rewrite E.
    apply in_or_app. right. now left.
Qed.

(* ---------- the next process ---------- *)

Lemma open_fresh s fs uuid : (forall f, dir fs (uuid, f) = []) -> open s fs uuid = new_with_config s.
Proof. intros E. unfold open. now rewrite !E. Qed.

(* two stores that draw the same characters share the directories *)
Lemma open_same s fs uuid st p r : open s fs uuid = Ok st -> s <> MemoryOnly ->
  (on_disk st p r <-> In (Some (p, r)) (records_in (fst p) (dir fs (uuid, fst p)))).
Proof.
  intros E NM. unfold open, rib_open in E. destruct (tree_new IPv4) as [t4| |]; try discriminate E.
  destruct (tree_new IPv6) as [t6| |]; try discriminate E. injection E as <-.
  apply on_disk_records. destruct (fst p), s; easy.
Qed.

Lemma open_stale s fs uuid st p r : open s fs uuid = Ok st -> (forall f, dir fs (uuid, f) = []) ->
  ~ on_disk st p r.
Proof.
  intros E F. rewrite (open_fresh s fs uuid F) in E. unfold new_with_config, rib_init in E.
  unfold on_disk, disk. destruct (tree_new IPv4) as [t4| |]; try discriminate E.
  destruct (tree_new IPv6) as [t6| |]; try discriminate E. injection E as <-.
  destruct (fst p), s; cbn; tauto.
Qed.

(* ---------- the latest of several records ---------- *)

Lemma most_recent_loop_ok f kvs : forall r0,
  (forall k v, In (k, v) kvs -> key_header f (k ++ v) <> None) ->
  (forall b, r0 = Some b -> key_header f b <> None) ->
  match most_recent_loop f kvs r0 with
  | None => kvs = [] /\ r0 = None
  | Some b => (r0 = Some b \/ exists k v, In (k, v) kvs /\ b = k ++ v) /\
      exists i h, key_header f b = Some (i, h) /\
        (forall b0 i0 h0, r0 = Some b0 -> key_header f b0 = Some (i0, h0) -> r_ltime h0 <= r_ltime h) /\
        (forall k v i' h', In (k, v) kvs -> key_header f (k ++ v) = Some (i', h') -> r_ltime h' <= r_ltime h)
  end.
Proof.
  induction kvs as [|[k v] kvs IH]; intros r0 A B; cbn [most_recent_loop].
  - destruct r0 as [b|]; [|easy]. split; [now left|]. specialize (B b eq_refl).
    destruct (key_header f b) as [[i h]|] eqn:E; [|easy]. exists i, h. split; [easy|]. split.
    + intros b0 i0 h0 Q. injection Q as <-. rewrite E. intros Q. injection Q as <- <-. lia.
    + intros k v i' h' [].
  - pose proof (A k v (or_introl eq_refl)) as Ak. destruct (key_header f (k ++ v)) as [[i1 h1]|] eqn:E1; [|easy].
    assert (A' : forall k v, In (k, v) kvs -> key_header f (k ++ v) <> None).
    { intros k' v' I. apply A. now right. }
    destruct r0 as [b0|].
    + specialize (B b0 eq_refl). destruct (key_header f b0) as [[i0 h0]|] eqn:E0; [|easy].
      destruct (N.ltb_spec (r_ltime h0) (r_ltime h1)) as [Lt|Ge].
      * specialize (IH (Some (k ++ v)) A'). destruct (most_recent_loop f kvs (Some (k ++ v))) as [b|].
        -- destruct IH as (S & i & h & E & M1 & M2); [intros b' Q; injection Q as <-; now rewrite E1|].
           split.
           { right. destruct S as [S|(k' & v' & I & ->)]; [|exists k', v'; split; [now right|easy]].
             injection S as <-. exists k, v. split; [now left|easy]. }
           exists i, h. split; [easy|]. split.
           { intros b1 i1' h1' Q. injection Q as <-. rewrite E0. intros Q. injection Q as <- <-.
             specialize (M1 _ _ _ eq_refl E1). lia. }
           intros k' v' i' h' [Q|I] Eh; [|eauto]. injection Q as <- <-. rewrite E1 in Eh.
           injection Eh as <- <-. exact (M1 _ _ _ eq_refl E1).
        -- destruct IH as [_ Q]; [intros b Q; injection Q as <-; now rewrite E1|discriminate].
      * specialize (IH (Some b0) A'). destruct (most_recent_loop f kvs (Some b0)) as [b|].
        -- destruct IH as (S & i & h & E & M1 & M2); [intros b' Q; injection Q as <-; now rewrite E0|].
           split.
           { destruct S as [S|(k' & v' & I & ->)]; [now left|right; exists k', v'; split; [now right|easy]]. }
           exists i, h. split; [easy|]. split; [easy|].
           intros k' v' i' h' [Q|I] Eh; [|eauto]. injection Q as <- <-. rewrite E1 in Eh.
           injection Eh as <- <-. specialize (M1 _ _ _ eq_refl E0). lia.
        -- destruct IH as [_ Q]; [intros b' Q; injection Q as <-; now rewrite E0|discriminate].
    + specialize (IH (Some (k ++ v)) A'). destruct (most_recent_loop f kvs (Some (k ++ v))) as [b|].
      -- destruct IH as (S & i & h & E & M1 & M2); [intros b' Q; injection Q as <-; now rewrite E1|].
         split.
         { right. destruct S as [S|(k' & v' & I & ->)]; [|exists k', v'; split; [now right|easy]].
           injection S as <-. exists k, v. split; [now left|easy]. }
         exists i, h. split; [easy|]. split; [intros ? ? ? Q; discriminate Q|].
         intros k' v' i' h' [Q|I] Eh; [|eauto]. injection Q as <- <-. rewrite E1 in Eh.
         injection Eh as <- <-. exact (M1 _ _ _ eq_refl E1).
      -- destruct IH as [_ Q]; [intros b' Q; injection Q as <-; now rewrite E1|discriminate].
Qed.

(* the records are those whose key begins with the prefix and the mui; all of
   them without meta data *)
Lemma most_recent_ok f l id mui :
  (forall k v, In (k, v) l -> is_prefix (short_key f id mui) k = true -> key_header f (k ++ v) <> None) ->
  match most_recent_record_for_prefix_mui f l id mui with
  | None => forall k v, In (k, v) l -> is_prefix (short_key f id mui) k = false
  | Some b => exists k v h i, In (k, v) l /\ is_prefix (short_key f id mui) k = true /\ b = k ++ v /\
      zc_record f b = Some (i, h) /\
      forall k' v' i' h', In (k', v') l -> is_prefix (short_key f id mui) k' = true ->
        zc_record f (k' ++ v') = Some (i', h') -> r_ltime h' <= r_ltime h
  end.
Proof.
  intros A. unfold most_recent_record_for_prefix_mui.
  pose proof (most_recent_loop_ok f (kv_prefix (short_key f id mui) l) None) as M.
  assert (IN : forall k v, In (k, v) (kv_prefix (short_key f id mui) l) <->
    In (k, v) l /\ is_prefix (short_key f id mui) k = true).
  { intros k v. unfold kv_prefix. rewrite filter_In. reflexivity. }
  assert (ZC : forall b x, key_header f b = Some x -> zc_record f b = Some x).
  { intros b x. unfold key_header. destruct (Nat.eqb _ _); [auto|discriminate]. }
  destruct (most_recent_loop f (kv_prefix (short_key f id mui) l) None) as [b|].
  - destruct M as (S & i & h & E & _ & M); [|easy|].
    { intros k v I. apply IN in I. destruct I as [I P]. eauto. }
    destruct S as [S|(k & v & I & ->)]; [discriminate|]. apply IN in I. destruct I as [I P].
    exists k, v, h, i. split; [easy|]. split; [easy|]. split; [easy|]. split; [now apply ZC|].
    intros k' v' i' h' I' P' Z. pose proof (A k' v' I' P') as N.
    destruct (key_header f (k' ++ v')) as [x|] eqn:E'; [|easy]. apply (M k' v' i' h'); [now apply IN|].
    rewrite E'. apply ZC in E'. congruence.
  - destruct M as [M _]; [|easy|].
    { intros k v I. apply IN in I. destruct I as [I P]. eauto. }
    intros k v I. destruct (is_prefix (short_key f id mui) k) eqn:P; [|easy]. exfalso.
    pose proof (proj2 (IN k v) (conj I P)) as I'. rewrite M in I'. exact I'.
Qed.
