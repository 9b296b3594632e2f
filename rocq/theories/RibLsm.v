(* The store of one address family against the history of calls, part 2: the
   persisted records. *)
From Coq Require Import Arith NArith List Bool Lia Permutation.
From Verif Require Import Word Af BitSpan Spec Maps Tree MultiMap Lsm LsmProofs RecordSet Rib
  StarCast HistSpec.
Import ListNotations.
Local Open Scope N_scope.

Definition wf_hist_last h p m r : wf_history h -> last_rec h p m = Some r -> wf_record r.
Proof.
  intros W. revert r. induction W as [|o h Wo W IH]; intros r E; simpl in E; [discriminate|].
  destruct o as [q r' u|q n t|q n t|g n|n|g n|q t]; simpl in Wo; auto.
  - destruct (prefix_eqb p q && (m =? r_mui r')); auto. inversion E; subst. apply Wo.
  - destruct (prefix_eqb p q && (m =? n)); auto.
    destruct (last_rec h p m) as [r1|]; [|discriminate]. inversion E; subst.
    split; simpl; [now apply IH|apply Wo].
  - destruct (prefix_eqb p q && (m =? n)); auto.
    destruct (last_rec h p m) as [r1|]; [|discriminate]. inversion E; subst.
    split; simpl; [now apply IH|apply Wo].
Qed.

Lemma wf_hist_po h p m r : wf_history h -> po_rec h p m = Some r -> wf_record r.
Proof.
  intros W. revert r. induction W as [|o h Wo W IH]; intros r E; simpl in E; [discriminate|].
  destruct o as [q r' u|q n t|q n t|g n|n|g n|q t]; simpl in Wo; auto.
  - destruct (prefix_eqb p q && (m =? r_mui r')); auto. inversion E; subst. apply Wo.
  - destruct (prefix_eqb p q && (m =? n)); auto.
    destruct (po_rec h p m) as [r1|]; [|discriminate]. inversion E; subst.
    split; simpl; [now apply IH|apply Wo].
  - destruct (prefix_eqb p q && (m =? n)); auto.
    destruct (po_rec h p m) as [r1|] eqn:Q; [|discriminate]. inversion E; subst.
    destruct (r_meta r1); [|now apply IH].
    split; simpl; [now apply IH|apply Wo].
Qed.

(* ---------- long keys ---------- *)

Definition rkey (f : af) (id : pid) (r : record) : bytes :=
  long_key f id (r_mui r) (r_ltime r) (r_status r).

Record long_rel (f : af) (W : list (prefix * record)) (l : lsm) : Prop := {
  lr_ok : kv_ok l;
  lr_keys : forall k v, In (k, v) l -> exists id r, wf_pid f id /\ wf_record r /\
              k = rkey f id r /\ v = r_meta r;
  lr_get : forall id m t s, wf_pid f id -> m < 2 ^ 32 -> t < 2 ^ 64 ->
             kv_get (long_key f id m t s) l = latest W (f, id) m t s
}.

Lemma kv_ok_nil : kv_ok [].
Proof. constructor. Qed.

Lemma long_rel_init f : long_rel f [] [].
Proof. split; [apply kv_ok_nil|easy|easy]. Qed.

Lemma status_eqb_refl s : status_eqb s s = true.
Proof. now destruct s. Qed.

Lemma long_rel_insert f W l id r : long_rel f W l -> wf_pid f id -> wf_record r ->
  long_rel f (((f, id), r) :: W) (persist_record_w_long_key f l id r).
Proof.
  intros [O K G] Wi Wr. unfold persist_record_w_long_key. split.
  - now apply kv_insert_ok.
  - intros k v I. apply kv_insert_In in I; auto. destruct I as [[-> ->]|[_ I]]; [|auto].
    exists id, r. auto.
  - intros id' m t s Wi' Hm Ht. rewrite kv_get_insert by auto. unfold latest. cbn [find].
    unfold same_key at 1. cbn [fst snd]. rewrite prefix_eqb_af.
    destruct (list_eq_dec _ _ _) as [E|N].
    + apply long_key_inj in E; auto; try apply Wr. destruct E as [-> [-> [-> ->]]].
      now rewrite pid_eqb_refl, !N.eqb_refl, status_eqb_refl.
    + destruct (pid_eqb id' id && (m =? r_mui r) && (t =? r_ltime r) &&
                status_eqb s (r_status r)) eqn:B; [|now apply G].
      exfalso. apply N. apply andb_true_iff in B. destruct B as [B B4].
      apply andb_true_iff in B. destruct B as [B B3]. apply andb_true_iff in B.
      destruct B as [B1 B2]. apply pid_eqb_spec in B1. apply N.eqb_eq in B2, B3.
      apply status_eqb_spec in B4. now subst.
Qed.

Lemma long_rel_other f W l w : long_rel f W l -> f <> fst (fst w) -> long_rel f (w :: W) l.
Proof.
  intros [O K G] N. split; auto. intros id m t s Wi Hm Ht. rewrite G by auto.
  unfold latest. cbn [find]. unfold same_key at 2. rewrite prefix_eqb_other by auto. reflexivity.
Qed.

(* ---------- short keys ---------- *)

Definition sval (r : record) : bytes := value_header (r_ltime r) (r_status r) ++ r_meta r.

Record short_rel (f : af) (h : list op) (l : lsm) : Prop := {
  sr_ok : kv_ok l;
  sr_keys : forall k v, In (k, v) l -> exists id m, wf_pid f id /\ m < 2 ^ 32 /\
              k = short_key f id m;
  sr_get : forall id m, wf_pid f id -> m < 2 ^ 32 ->
             kv_get (short_key f id m) l = option_map sval (po_rec h (f, id) m)
}.

Lemma short_rel_init f : short_rel f [] [].
Proof. split; [apply kv_ok_nil|easy|easy]. Qed.

Lemma short_rel_ext f h h' l : (forall p m, po_rec h (f, p) m = po_rec h' (f, p) m) ->
  short_rel f h l -> short_rel f h' l.
Proof. intros E [O K G]. split; auto. intros. rewrite G by auto. now rewrite E. Qed.

(* one key is written *)
Lemma short_rel_write f h h' l id m r : short_rel f h l -> wf_pid f id -> m < 2 ^ 32 ->
  (forall p n, po_rec h' (f, p) n = if pid_eqb p id && (n =? m) then Some r
                                    else po_rec h (f, p) n) ->
  short_rel f h' (kv_insert (short_key f id m) (sval r) l).
Proof.
  intros [O K G] W Hm E. split.
  - now apply kv_insert_ok.
  - intros k v I. apply kv_insert_In in I; auto. destruct I as [[-> _]|[_ I]]; eauto.
  - intros p n Wp Hn. rewrite kv_get_insert by auto. rewrite E.
    destruct (list_eq_dec _ _ _) as [Q|N].
    + apply short_key_inj in Q; auto. destruct Q as [-> ->].
      now rewrite pid_eqb_refl, N.eqb_refl.
    + destruct (pid_eqb p id && (n =? m)) eqn:B; [|now apply G].
      exfalso. apply N. apply andb_true_iff in B. destruct B as [B1 B2].
      apply pid_eqb_spec in B1. apply N.eqb_eq in B2. now subst.
Qed.

Lemma singleton {A} (l : list A) a : NoDup l -> (forall x, In x l <-> x = a) -> l = [a].
Proof.
  intros ND H. destruct l as [|x l].
  - exfalso. apply (H a). reflexivity.
  - assert (x = a) as -> by (apply H; now left).
    inversion ND as [|? ? NI _]; subst. destruct l as [|y l]; [easy|].
    exfalso. apply NI. assert (y = a) as -> by (apply H; right; now left). now left.
Qed.

Lemma kv_NoDup l : kv_ok l -> NoDup l.
Proof. intros O. apply kv_ok_NoDup in O. now apply NoDup_map_inv in O. Qed.

Lemma kv_prefix_short f h l id m : short_rel f h l -> wf_pid f id -> m < 2 ^ 32 ->
  kv_prefix (short_key f id m) l =
    match po_rec h (f, id) m with Some r => [(short_key f id m, sval r)] | None => [] end.
Proof.
  intros [O K G] W Hm.
  assert (I : forall k v, In (k, v) (kv_prefix (short_key f id m) l) <->
            k = short_key f id m /\ option_map sval (po_rec h (f, id) m) = Some v).
  { intros k v. rewrite In_kv_prefix, <- G, kv_get_In by auto. split.
    - intros [I P]. destruct (K k v I) as [id' [m' [W' [Hm' ->]]]].
      rewrite <- (app_nil_r (short_key f id' m')) in P. apply short_prefix in P; auto.
      destruct P as [-> ->]. auto.
    - intros [-> I]. split; auto. rewrite <- (app_nil_r (short_key f id m)) at 2.
      apply is_prefix_app. }
  destruct (po_rec h (f, id) m) as [r|].
  - apply singleton.
    + apply NoDup_filter. now apply kv_NoDup.
    + intros [k v]. rewrite I. simpl. split; [intros [-> E]|intros E]; inversion E; subst; auto.
  - destruct (kv_prefix (short_key f id m) l) as [|[k v] L]; [easy|].
    exfalso. destruct (proj1 (I k v)) as [_ E]; [now left|discriminate].
Qed.

Lemma sval_zc f id r : wf_pid f id -> wf_record r ->
  zc_record f (short_key f id (r_mui r) ++ sval r) = Some (id, r).
Proof.
  intros W [A B]. unfold sval. rewrite app_assoc. change (short_key f id (r_mui r) ++ _) with (rkey f id r).
  unfold rkey. rewrite zc_record_ok by auto. now destruct r.
Qed.

Lemma short_entry f id r : wf_pid f id -> wf_record r ->
  entry_is f (short_key f id (r_mui r), sval r) id r.
Proof.
  intros W [A B]. split; auto; cbn [fst snd].
  - unfold sval. now rewrite app_assoc.
  - exists []. now rewrite app_nil_r.
Qed.

(* ---------- reading a prefix ---------- *)

(* the record of an entry *)
Definition ent (f : af) (kv : bytes * bytes) : record :=
  match zc_record f (fst kv ++ snd kv) with Some (_, r) => r | None => Rec 0 0 Active [] end.

Lemma entry_ent f kv id r : entry_is f kv id r -> ent f kv = r.
Proof. intros E. unfold ent. now rewrite (entry_zc _ _ _ _ E). Qed.

Lemma included_decode f bmin id L : (forall kv, In kv L -> entry_is f kv id (ent f kv)) ->
  exists bs, map_res (rec_included f bmin) L = Ok bs /\ length bs = length L /\
    decode_all f bs = ROk (List.map (fun kv => gw_record bmin (ent f kv)) L).
Proof.
  induction L as [|kv L IH]; intros H; [exists []; auto|].
  destruct (rec_included_ok f bmin kv id (ent f kv)) as [b [E Z]]; [apply H; now left|].
  destruct IH as [bs [E2 [Ln D]]]; [intros; apply H; now right|].
  exists (Some b :: bs). cbn [map_res]. rewrite E. cbn [bind]. rewrite E2. cbn [bind].
  split; [reflexivity|]. split; [simpl; now rewrite Ln|].
  cbn [decode_all]. rewrite Z, D. reflexivity.
Qed.

Definition kept (bmin : nset) (r : record) : bool :=
  negb (status_eqb (r_status r) Withdrawn || mem (r_mui r) bmin).

Lemma excluded_decode f bmin id L : (forall kv, In kv L -> entry_is f kv id (ent f kv)) ->
  exists bs, map_res (rec_excluded f bmin) L = Ok bs /\
    length (cat_opts bs) = length (filter (kept bmin) (List.map (ent f) L)) /\
    decode_all f (cat_opts bs) = ROk (filter (kept bmin) (List.map (ent f) L)).
Proof.
  induction L as [|kv L IH]; intros H; [exists []; auto|].
  assert (E0 : entry_is f kv id (ent f kv)) by (apply H; now left).
  pose proof (rec_excluded_ok f bmin kv id (ent f kv) E0) as E.
  destruct IH as [bs [E2 [Ln D]]]; [intros; apply H; now right|].
  eexists. cbn [map_res]. rewrite E. cbn [bind]. rewrite E2. cbn [bind].
  split; [reflexivity|]. cbn [List.map filter].
  change (kept bmin (ent f kv)) with
    (negb (status_eqb (r_status (ent f kv)) Withdrawn || mem (r_mui (ent f kv)) bmin)).
  destruct (status_eqb (r_status (ent f kv)) Withdrawn || mem (r_mui (ent f kv)) bmin).
  - cbn [negb]. unfold cat_opts in *. cbn [flat_map app]. auto.
  - cbn [negb]. unfold cat_opts in *. cbn [flat_map app length]. split; [now rewrite Ln|].
    cbn [decode_all]. rewrite (entry_zc _ _ _ _ E0), D. reflexivity.
Qed.

Lemma NoDup_via {A B C} (g : A -> B) (e : A -> C) (k : C -> B) L :
  NoDup (List.map g L) -> (forall x, In x L -> g x = k (e x)) -> NoDup (List.map e L).
Proof.
  intros ND H. apply (NoDup_map_inv k). rewrite map_map.
  rewrite (map_ext_in _ g); auto. intros x I. symmetry. auto.
Qed.

(* get_value's part that decodes the persisted records *)
Definition po_value (f : af) (l : lsm) (id : pid) (mui : option N) (iw : bool) (bmin : nset)
    : res (result (option (list record))) :=
  do o <- records_for_prefix f l id mui iw bmin;
  Ok (match o with
      | None => ROk None
      | Some bs => match decode_all f bs with ROk rs => ROk (Some rs) | RErr e => RErr e end
      end).

Lemma none_if_empty_len {A B} (l : list A) (m : list B) : length l = length m ->
  (l = [] /\ m = []) \/ (none_if_empty l = Some l /\ m <> []).
Proof. destruct l, m; simpl; intros; try discriminate; auto. right. split; easy. Qed.

Lemma po_value_ok f h l bmin id mui iw : wf_history h -> short_rel f h l ->
  (forall m, mem m bmin = g_withdrawn h f m) -> wf_pid f id ->
  (forall m, mui = Some m -> m < 2 ^ 32) ->
  exists o, po_value f l id mui iw bmin = Ok (ROk o) /\ answers (view_persist h (f, id) mui iw) o.
Proof.
  intros Wh R G W Hm. unfold po_value, records_for_prefix.
  set (p := match mui with Some m => short_key f id m | None => pid_bytes f id end).
  set (L := kv_prefix p l).
  assert (E : forall kv, In kv L <-> exists r, po_rec h (f, id) (r_mui r) = Some r /\
                named mui (r_mui r) = true /\ kv = (short_key f id (r_mui r), sval r)).
  { assert (E0 : forall k v, In (k, v) l /\ (exists m, m < 2^32 /\ k = short_key f id m) <->
       exists r, po_rec h (f, id) (r_mui r) = Some r /\ (k, v) = (short_key f id (r_mui r), sval r)).
    { intros k v. split.
      - intros [I [m [Bm ->]]]. apply (kv_get_In l _ _ (sr_ok _ _ _ R)) in I.
        rewrite (sr_get _ _ _ R) in I by auto.
        destruct (po_rec h (f, id) m) as [r|] eqn:P; [|discriminate]. simpl in I. inversion I; subst.
        pose proof (po_rec_mui _ _ _ _ P) as <-. eauto.
      - intros [r [P Q]]. inversion Q; subst. pose proof (wf_hist_po _ _ _ _ Wh P) as [B _].
        split; [|eauto]. apply kv_get_In; [apply R|]. rewrite (sr_get _ _ _ R) by auto. now rewrite P. }
    intros [k v]. unfold L. rewrite In_kv_prefix. split.
    - intros [I P]. destruct (sr_keys _ _ _ R k v I) as [id' [m' [W' [Hm' Ek]]]].
      assert (id = id' /\ named mui m' = true) as [-> Na].
      { unfold p in P. destruct mui as [m|]; subst k.
        - rewrite <- (app_nil_r (short_key f id' m')) in P. apply short_prefix in P; auto.
          destruct P as [-> ->]. split; auto. simpl. apply N.eqb_refl.
        - unfold short_key in P. apply pid_prefix in P; auto. }
      destruct (proj1 (E0 k v)) as [r [Pr Q]]; [split; eauto|].
      exists r. split; auto. split; auto. inversion Q; subst k.
      match goal with H : short_key _ _ _ = short_key _ _ _ |- _ =>
        apply short_key_inj in H; auto; [destruct H as [_ ->]|] end; auto.
      apply (wf_hist_po _ _ _ _ Wh Pr).
    - intros [r [Pr [Na Q]]]. destruct (proj2 (E0 k v)) as [I _]; [eauto|]. split; auto.
      inversion Q; subst k v. unfold p. destruct mui as [m|].
      + simpl in Na. apply N.eqb_eq in Na. subst m.
        rewrite <- (app_nil_r (short_key f id (r_mui r))) at 2. apply is_prefix_app.
      + apply is_prefix_app. }
  assert (Ent : forall kv, In kv L -> entry_is f kv id (ent f kv) /\
                po_rec h (f, id) (r_mui (ent f kv)) = Some (ent f kv) /\
                named mui (r_mui (ent f kv)) = true /\
                fst kv = short_key f id (r_mui (ent f kv))).
  { intros kv I. apply E in I. destruct I as [r [Pr [Na ->]]].
    assert (entry_is f (short_key f id (r_mui r), sval r) id r) as X.
    { apply short_entry; auto. apply (wf_hist_po _ _ _ _ Wh Pr). }
    rewrite (entry_ent _ _ _ _ X). auto. }
  assert (Ent' : forall r, po_rec h (f, id) (r_mui r) = Some r -> named mui (r_mui r) = true ->
                 In r (List.map (ent f) L)).
  { intros r Pr Na. apply in_map_iff. exists (short_key f id (r_mui r), sval r). split.
    - apply (entry_ent f _ id). apply short_entry; auto. apply (wf_hist_po _ _ _ _ Wh Pr).
    - apply E. eauto. }
  assert (ND : NoDup (List.map r_mui (List.map (ent f) L))).
  { rewrite map_map. apply (NoDup_via fst _ (short_key f id)).
    - apply NoDup_map_filter. apply kv_ok_NoDup. apply R.
    - intros kv I. apply (Ent kv I). }
  destruct iw.
  - destruct (included_decode f bmin id L) as [bs [E1 [Ln D]]]; [intros kv I; apply (Ent kv I)|].
    rewrite E1. cbn [bind].
    set (rs := List.map (fun kv => gw_record bmin (ent f kv)) L) in *.
    assert (Ans : lists (view_persist h (f, id) mui true) rs).
    { split.
      - unfold rs. rewrite map_map. rewrite map_map in ND.
        rewrite (map_ext _ (fun x => r_mui (ent f x))); auto.
        intros x. unfold gw_record. now destruct (mem (r_mui (ent f x)) bmin).
      - intros r. unfold rs. rewrite in_map_iff. unfold view_persist. cbn [fst]. split.
        + intros [kv [Q I]]. destruct (Ent kv I) as [_ [Pr [Na _]]].
          assert (Mu : r_mui r = r_mui (ent f kv))
            by (subst r; unfold gw_record; now destruct (mem (r_mui (ent f kv)) bmin)).
          rewrite Mu, Na, Pr, <- G. subst r. unfold gw_record.
          now destruct (mem (r_mui (ent f kv)) bmin).
        + intros Q. destruct (named mui (r_mui r)) eqn:Na; [|discriminate].
          destruct (po_rec h (f, id) (r_mui r)) as [r0|] eqn:Pr; [|discriminate].
          pose proof (po_rec_mui _ _ _ _ Pr) as Mu. rewrite <- Mu in Pr, Na.
          specialize (Ent' r0 Pr Na). apply in_map_iff in Ent'. destruct Ent' as [kv [Q1 I]].
          exists kv. split; auto. rewrite Q1. unfold gw_record. rewrite G, Mu.
          rewrite <- Mu. rewrite <- Mu in Q.
          destruct (g_withdrawn h f (r_mui r0)); now inversion Q. }
    assert (Ln' : length bs = length rs) by (unfold rs; now rewrite map_length).
    destruct (none_if_empty_len bs rs Ln') as [[-> Er]|[-> Nr]].
    + exists None. split; [reflexivity|]. intros m. destruct Ans as [_ A].
      destruct (view_persist h (f, id) mui true m) as [r|] eqn:V; [|easy].
      assert (r_mui r = m) as Mu.
      { unfold view_persist in V. destruct (named mui m); [|discriminate].
        destruct (po_rec h (f, id) m) as [r0|] eqn:Pr; [|discriminate].
        apply po_rec_mui in Pr. destruct (g_withdrawn h (fst (f, id)) m); inversion V; subst; auto. }
      subst m. apply A in V. rewrite Er in V. easy.
    + rewrite D. exists (Some rs). split; [reflexivity|]. split; auto.
  - destruct (excluded_decode f bmin id L) as [bs [E1 [Ln D]]]; [intros kv I; apply (Ent kv I)|].
    rewrite E1. cbn [bind].
    set (rs := filter (kept bmin) (List.map (ent f) L)) in *.
    assert (Ans : lists (view_persist h (f, id) mui false) rs).
    { split.
      - unfold rs. now apply NoDup_map_filter.
      - intros r. unfold rs. rewrite filter_In. unfold view_persist. cbn [fst]. split.
        + intros [I K]. apply in_map_iff in I. destruct I as [kv [<- I]].
          destruct (Ent kv I) as [_ [Pr [Na _]]]. rewrite Na, Pr.
          unfold kept in K. rewrite G in K. apply negb_true_iff in K. now rewrite K.
        + intros Q. destruct (named mui (r_mui r)) eqn:Na; [|discriminate].
          destruct (po_rec h (f, id) (r_mui r)) as [r0|] eqn:Pr; [|discriminate].
          destruct (status_eqb (r_status r0) Withdrawn || g_withdrawn h f (r_mui r)) eqn:K;
            [discriminate|]. inversion Q; subst r0. split; [now apply Ent'|].
          unfold kept. rewrite G, K. reflexivity. }
    destruct (none_if_empty_len (cat_opts bs) rs Ln) as [[-> Er]|[-> Nr]].
    + exists None. split; [reflexivity|]. intros m. destruct Ans as [_ A].
      destruct (view_persist h (f, id) mui false m) as [r|] eqn:V; [|easy].
      assert (r_mui r = m) as Mu.
      { unfold view_persist in V. destruct (named mui m); [|discriminate].
        destruct (po_rec h (f, id) m) as [r0|] eqn:Pr; [|discriminate].
        apply po_rec_mui in Pr. destruct (_ || _); inversion V; subst; auto. }
      subst m. apply A in V. rewrite Er in V. easy.
    + rewrite D. exists (Some rs). split; [reflexivity|]. split; auto.
Qed.
