(* The records on disk against the history, and the iterator over them. *)
From Coq Require Import Arith NArith List Bool Lia Sorted.
From Verif Require Import Word Af BitSpan Spec Maps Tree MultiMap
  PrefixCht Lsm LsmProofs RecordSet Rib StarCast HistSpec Ask PropSpec RibProofs RibLsm RibOk Queries.
Import ListNotations.
Local Open Scope N_scope.

Definition rdisk (f : af) (l : lsm) : list (option (prefix * record)) :=
  List.map (fun kv => option_map (fun x => ((f, fst x), snd x)) (zc_record f (fst kv ++ snd kv))) l.

Lemma rkey_zc f id r : wf_pid f id -> wf_record r -> zc_record f (rkey f id r ++ r_meta r) = Some (id, r).
Proof. intros W [A B]. unfold rkey. rewrite zc_record_ok by auto. now destruct r. Qed.

Lemma decoded {A} (k : A -> option (prefix * record)) l : (forall x, In x l -> k x <> None) ->
  exists l', List.map k l = List.map Some l'.
Proof.
  induction l as [|x l IH]; intros H; [now exists []|].
  destruct IH as [l' E]; [intros; apply H; now right|].
  destruct (k x) as [y|] eqn:K; [|elim (H x); auto; now left].
  exists (y :: l'). simpl. now rewrite K, E.
Qed.

Lemma in_some {A} (l : list A) x : In (Some x) (List.map Some l) <-> In x l.
Proof. rewrite in_map_iff. split; [intros [y [E I]]; inversion E; now subst|eauto]. Qed.

Lemma disk_long f W l : long_rel f W l ->
  exists d, rdisk f l = List.map Some d /\ NoDup d /\
    forall p r, In (p, r) d <-> fst p = f /\ wf_prefix p /\ wf_record r /\
      latest W p (r_mui r) (r_ltime r) (r_status r) = Some (r_meta r).
Proof.
  intros [O K G].
  assert (D : forall k v, In (k, v) l -> exists id r, wf_pid f id /\ wf_record r /\
    k = rkey f id r /\ v = r_meta r /\ zc_record f (k ++ v) = Some (id, r)).
  { intros k v I. destruct (K k v I) as [id [r [A [B [-> ->]]]]]. exists id, r.
    repeat split; try apply B; try apply A. now apply rkey_zc. }
  destruct (decoded (fun kv => option_map (fun x => ((f, fst x), snd x)) (zc_record f (fst kv ++ snd kv))) l)
    as [d E].
  { intros [k v] I. destruct (D k v I) as (id & r & _ & _ & _ & _ & Z). cbn [fst snd]. now rewrite Z. }
  exists d. split; [exact E|].
  assert (M : forall p r, In (p, r) d <-> exists k v, In (k, v) l /\ fst p = f /\
             zc_record f (k ++ v) = Some (snd p, r)).
  { intros p r. rewrite <- in_some, <- E, in_map_iff. split.
    - intros [[k v] [Q I]]. simpl in Q. destruct (zc_record f (k ++ v)) as [[id r']|] eqn:Z; [|discriminate].
      simpl in Q. inversion Q; subst. exists k, v. auto.
    - intros [k [v [I [Fp Z]]]]. exists (k, v). simpl. rewrite Z. simpl. split; auto.
      destruct p; simpl in *. now subst. }
  split.
  - assert (ND : NoDup (List.map (@Some (prefix * record)) d)).
    { rewrite <- E.
      apply (NoDup_via fst _ (fun o => match o with
                                       | Some pr => rkey f (snd (fst pr)) (snd pr) | None => [] end)).
      - now apply kv_ok_NoDup.
      - intros [k v] I. destruct (D k v I) as (id & r & A & B & -> & -> & Z). cbn [fst snd]. now rewrite Z. }
    now apply NoDup_map_inv in ND.
  - intros [g id] r. rewrite M. simpl. split.
    + intros [k [v [I [-> Z]]]]. destruct (D k v I) as (id' & r' & A & B & -> & -> & Z').
      rewrite Z in Z'. inversion Z'; subst id' r'. split; auto. split; auto. split; auto.
      rewrite <- G by (auto; apply B). apply kv_get_In; auto.
    + intros [-> [Wp [Wr La]]]. exists (rkey f id r), (r_meta r).
      unfold wf_prefix in Wp. simpl in Wp.
      split; [|split; [auto|now apply rkey_zc]].
      apply kv_get_In; auto. unfold rkey. rewrite G by (auto; apply Wr). exact La.
Qed.

Lemma disk_short f h l : wf_history h -> short_rel f h l ->
  exists d, rdisk f l = List.map Some d /\ NoDup d /\
    forall p r, In (p, r) d <-> fst p = f /\ wf_prefix p /\ po_rec h p (r_mui r) = Some r.
Proof.
  intros Wh [O K G].
  assert (D : forall k v, In (k, v) l -> exists id r, wf_pid f id /\ wf_record r /\
    k = short_key f id (r_mui r) /\ v = sval r /\ po_rec h (f, id) (r_mui r) = Some r /\
    zc_record f (k ++ v) = Some (id, r)).
  { intros k v I. destruct (K k v I) as [id [m [A [B ->]]]].
    apply kv_get_In in I; auto. rewrite G in I by auto.
    destruct (po_rec h (f, id) m) as [r|] eqn:P; [|discriminate]. simpl in I. inversion I; subst v.
    pose proof (po_rec_mui _ _ _ _ P) as Mu. pose proof (wf_hist_po _ _ _ _ Wh P) as Wr.
    subst m. exists id, r. repeat split; try apply Wr; try apply A; auto. now apply sval_zc. }
  destruct (decoded (fun kv => option_map (fun x => ((f, fst x), snd x)) (zc_record f (fst kv ++ snd kv))) l)
    as [d E].
  { intros [k v] I. destruct (D k v I) as (id & r & _ & _ & _ & _ & _ & Z). cbn [fst snd]. now rewrite Z. }
  exists d. split; [exact E|].
  assert (M : forall p r, In (p, r) d <-> exists k v, In (k, v) l /\ fst p = f /\
             zc_record f (k ++ v) = Some (snd p, r)).
  { intros p r. rewrite <- in_some, <- E, in_map_iff. split.
    - intros [[k v] [Q I]]. simpl in Q. destruct (zc_record f (k ++ v)) as [[id r']|] eqn:Z; [|discriminate].
      simpl in Q. inversion Q; subst. exists k, v. auto.
    - intros [k [v [I [Fp Z]]]]. exists (k, v). simpl. rewrite Z. simpl. split; auto.
      destruct p; simpl in *. now subst. }
  split.
  - assert (ND : NoDup (List.map (@Some (prefix * record)) d)).
    { rewrite <- E.
      apply (NoDup_via fst _ (fun o => match o with
                                       | Some pr => short_key f (snd (fst pr)) (r_mui (snd pr))
                                       | None => [] end)).
      - now apply kv_ok_NoDup.
      - intros [k v] I. destruct (D k v I) as (id & r & A & B & -> & -> & _ & Z). cbn [fst snd]. now rewrite Z. }
    now apply NoDup_map_inv in ND.
  - intros [g id] r. rewrite M. simpl. split.
    + intros [k [v [I [-> Z]]]]. destruct (D k v I) as (id' & r' & A & B & -> & -> & P & Z').
      rewrite Z in Z'. inversion Z'; subst id' r'. auto.
    + intros [-> [Wp P]]. exists (short_key f id (r_mui r)), (sval r).
      unfold wf_prefix in Wp. simpl in Wp. pose proof (wf_hist_po _ _ _ _ Wh P) as Wr.
      split; [|split; [auto|now apply sval_zc]].
      apply kv_get_In; auto. rewrite G by (auto; apply Wr). now rewrite P.
Qed.

(* ---------- persist_prefixes_iter ---------- *)

(* an entry under a long key without meta data *)
Definition bare (f : af) (kv : bytes * bytes) (x : pid * record) : Prop :=
  wf_pid f (fst x) /\ wf_record (snd x) /\ r_meta (snd x) = [] /\
  fst kv = rkey f (fst x) (snd x) /\ snd kv = [].

Lemma bare_header f kv x : bare f kv x -> key_header f (fst kv ++ snd kv) = Some (fst x, snd x).
Proof.
  intros (W & [A B] & M & -> & ->). rewrite app_nil_r. unfold rkey.
  rewrite key_header_ok by auto. destruct (snd x); simpl in *. now subst.
Qed.
Lemma bare_zc f kv x : bare f kv x -> zc_record f (fst kv ++ snd kv) = Some (fst x, snd x).
Proof.
  intros (W & Wr & M & -> & ->). rewrite <- M. now rewrite rkey_zc.
Qed.

(* a key between two keys of one prefix is a key of that prefix *)
Lemma between_prefix P : forall x y b, bcmp (P ++ x) b = Lt -> bcmp b (P ++ y) = Lt ->
  is_prefix P b = true.
Proof.
  induction P as [|a P IH]; intros x y b A B; [reflexivity|].
  destruct b as [|c b]; [discriminate|]. simpl in *.
  destruct (N.compare_spec a c) as [->|L|L]; try discriminate.
  - rewrite N.compare_refl in B. rewrite N.eqb_refl. simpl. eauto.
  - destruct (N.compare_spec c a); try discriminate; lia.
Qed.

Lemma contiguous f kv1 kv2 kv3 x1 x2 x3 : bare f kv1 x1 -> bare f kv2 x2 -> bare f kv3 x3 ->
  klt kv1 kv2 -> klt kv2 kv3 -> fst x1 = fst x3 -> fst x2 = fst x1.
Proof.
  intros (W1 & _ & _ & E1 & _) (W2 & _ & _ & E2 & _) (W3 & _ & _ & E3 & _) L1 L2 Q.
  unfold klt, blt, rkey, long_key, short_key in *. rewrite E1, E2 in L1. rewrite E2, E3 in L2.
  rewrite Q in L1. rewrite <- !app_assoc in L1, L2.
  pose proof (between_prefix _ _ _ _ L1 L2) as P. apply pid_prefix in P; auto. congruence.
Qed.

Fixpoint take_same (id : pid) (E : list (pid * record)) : list record * list (pid * record) :=
  match E with
  | [] => ([], [])
  | x :: E' => if pid_eqb (fst x) id
               then let '(a, b) := take_same id E' in (snd x :: a, b) else ([], E)
  end.

Definition item (f : af) (id : pid) (r : record) : option bytes := Some (rkey f id r ++ []).

Definition represents (st : option (list (option bytes)) * lsm) (S : lsm) : Prop :=
  st = (None, S) \/ exists kv S', S = kv :: S' /\ st = (Some [Some (fst kv ++ snd kv)], S').

Lemma pp_take_ok f id rr S E : Forall2 (bare f) S E -> exists cur l S',
  pp_take f id rr S = (rr ++ List.map (item f id) (fst (take_same id E)), cur, l) /\
  represents (cur, l) S' /\ Forall2 (bare f) S' (snd (take_same id E)) /\
  exists S0, S = S0 ++ S'.
Proof.
  intros F. revert rr. induction F as [|[k v] x S E B F IH]; intros rr; simpl.
  - exists None, [], []. rewrite app_nil_r. split; auto. split; [now left|]. split; auto.
    now exists [].
  - pose proof (bare_header _ _ _ B) as H. pose proof B as (W & Wr & M & Ek & Ev). simpl in *. subst v.
    rewrite !(app_nil_r k) in *. rewrite H. destruct (pid_eqb (fst x) id) eqn:Q.
    + destruct (IH (rr ++ [Some k])) as (cur & l & S' & A & C & D & S0 & G).
      destruct (take_same id E) as [a b]. simpl in *. exists cur, l, S'.
      apply pid_eqb_spec in Q. subst id. split.
      { etransitivity; [exact A|]. rewrite <- app_assoc. cbn [app]. unfold item at 2.
        rewrite app_nil_r, <- Ek. reflexivity. }
      split; auto. split; auto.
      exists ((k, []) :: S0). now rewrite G.
    + exists (Some [Some k]), S, ((k, []) :: S). rewrite app_nil_r. split; auto. split.
      * right. exists (k, []), S. simpl. now rewrite app_nil_r.
      * split; [constructor; auto|]. now exists [].
Qed.

Definition bytes_of (f : af) (g : pid * list record) : list (option bytes) :=
  List.map (item f (fst g)) (snd g).
Definition flat (G : list (pid * list record)) : list (pid * record) :=
  flat_map (fun g => List.map (pair (fst g)) (snd g)) G.

Lemma take_same_flat id E : List.map (pair id) (fst (take_same id E)) ++ snd (take_same id E) = E.
Proof.
  induction E as [|x E IH]; simpl; auto. destruct (pid_eqb (fst x) id) eqn:Q; auto.
  apply pid_eqb_spec in Q. destruct (take_same id E) as [a b]. simpl in *. subst id.
  rewrite IH. now destruct x.
Qed.

Lemma Forall2_In_r {A B} (P : A -> B -> Prop) l l' y : Forall2 P l l' -> In y l' ->
  exists x, In x l /\ P x y.
Proof. induction 1; simpl; [easy|]. intros [->|I]; eauto. destruct IHForall2 as [z [? ?]]; eauto. Qed.

(* after the records of the first prefix, that prefix does not come back *)
Lemma take_same_gone f S E kv x : kv_ok (kv :: S) -> bare f kv x -> Forall2 (bare f) S E ->
  forall y, In y (snd (take_same (fst x) E)) -> fst y <> fst x.
Proof.
  intros O B F. revert kv x B O. induction F as [|kv1 x1 S E B1 F IH]; intros kv x B O y I;
    simpl in I; [easy|].
  inversion O as [|? ? O1 L]; subst. inversion O1 as [|? ? O2 L1]; subst.
  rewrite Forall_forall in L, L1.
  destruct (pid_eqb (fst x1) (fst x)) eqn:Q.
  - apply pid_eqb_spec in Q. rewrite <- Q in I |- *.
    destruct (take_same (fst x1) E) as [a b] eqn:T. simpl in I.
    apply (IH kv1 x1 B1 O1). now rewrite T.
  - simpl in I. intros Eq. destruct I as [->|I]; [rewrite Eq, pid_eqb_refl in Q; discriminate|].
    destruct (Forall2_In_r _ _ _ _ F I) as [kv2 [I2 B2]].
    assert (fst x1 = fst x) as C.
    { apply (contiguous f kv kv1 kv2 x x1 y); auto. apply L. now left. }
    rewrite C, pid_eqb_refl in Q. discriminate.
Qed.

Lemma kv_ok_suffix S0 S : kv_ok (S0 ++ S) -> kv_ok S.
Proof. induction S0; simpl; auto. intros O. inversion O; auto. Qed.

Lemma pp_collect_ok f : forall n S E st fuel, length S = n -> (n < fuel)%nat ->
  kv_ok S -> Forall2 (bare f) S E -> represents st S ->
  exists G, pp_collect fuel f st = Ok (List.map (bytes_of f) G) /\ flat G = E /\
    NoDup (List.map fst G) /\ (forall g, In g G -> snd g <> []).
Proof.
  induction n as [n IH] using lt_wf_ind. intros S E st fuel Ln Lf O F Re.
  destruct fuel as [|fuel]; [lia|]. cbn [pp_collect].
  destruct F as [|kv x S E B F].
  - destruct Re as [->|[kv [S' [Q _]]]]; [|discriminate]. simpl.
    exists []. repeat split; auto. constructor.
  - assert (N : pp_next f st = Some (
       let '(r, cur, l') := pp_take f (fst x) [item f (fst x) (snd x)] S in (r, (cur, l')))).
    { pose proof (bare_header _ _ _ B) as Hd.
      assert (It : Some (fst kv ++ snd kv) = item f (fst x) (snd x)).
      { destruct B as (_ & _ & _ & -> & ->). reflexivity. }
      destruct Re as [->|[kv' [S' [Q ->]]]].
      - unfold pp_next. cbn [fst snd]. destruct kv as [k v]. cbn [fst snd] in *.
        rewrite Hd, It. now destruct (pp_take f (fst x) _ S) as [[? ?] ?].
      - inversion Q; subst kv' S'. unfold pp_next. cbn [fst snd].
        rewrite Hd, It. now destruct (pp_take f (fst x) _ S) as [[? ?] ?]. }
    rewrite N. destruct (pp_take_ok f (fst x) [item f (fst x) (snd x)] S E F)
      as (cur & l & S' & T & Re' & F' & S0 & ES). rewrite T.
    pose proof (take_same_gone f S E kv x O B F) as Gone.
    pose proof (take_same_flat (fst x) E) as Fl.
    destruct (take_same (fst x) E) as [a b]. cbn [fst snd] in *.
    inversion O as [|? ? O' L]; subst.
    destruct (IH (length S')) with (S := S') (E := b) (st := (cur, l)) (fuel := fuel)
      as (G & A & C & D & Ne); auto.
    { simpl. rewrite app_length. lia. }
    { simpl in Lf. rewrite app_length in Lf. lia. }
    { now apply kv_ok_suffix in O'. }
    rewrite A. cbn [bind]. exists ((fst x, snd x :: a) :: G). split; [|split; [|split]].
    + reflexivity.
    + unfold flat in *. simpl. rewrite C. now destruct x.
    + simpl. constructor; auto. intros I. apply in_map_iff in I. destruct I as [[id rs] [Q I]].
      simpl in Q. subst id. specialize (Ne _ I). simpl in Ne. destruct rs as [|r rs]; [easy|].
      apply (Gone (fst x, r)); auto. rewrite <- C. unfold flat. apply in_flat_map.
      exists (fst x, r :: rs). split; auto. now left.
    + intros g [<-|I]; [easy|auto].
Qed.

Lemma persisted_item_ok f g : wf_pid f (fst g) -> snd g <> [] ->
  (forall r, In r (snd g) -> wf_record r /\ r_meta r = []) ->
  persisted_item f (bytes_of f g) = ROk ((f, fst g), snd g).
Proof.
  destruct g as [id rs]. cbn [fst snd]. intros W Ne H.
  assert (Z : forall r, In r rs -> zc_record f (rkey f id r ++ []) = Some (id, r)).
  { intros r I. destruct (H r I) as [Wr M]. rewrite <- M. now apply rkey_zc. }
  assert (P : forall rs', (forall r, In r rs' -> In r rs) ->
    persisted_records f (List.map (item f id) rs') = ROk rs').
  { induction rs' as [|r rs' IH]; intros I; [reflexivity|]. cbn [List.map persisted_records].
    unfold item at 1. rewrite IH by (intros; apply I; now right). rewrite Z by (apply I; now left).
    reflexivity. }
  destruct rs as [|r rs]; [easy|]. unfold bytes_of, persisted_item. cbn [fst snd List.map].
  change (item f id r :: List.map (item f id) rs) with (List.map (item f id) (r :: rs)).
  rewrite P by auto. cbn [List.map]. unfold item at 1. rewrite Z by now left. reflexivity.
Qed.

(* long keys and no meta data: every prefix once, with all its records *)
Lemma persist_iter_bare f W l d : long_rel f W l -> rdisk f l = List.map Some d ->
  (forall p r, In (p, r) d -> r_meta r = []) ->
  exists G, (do items <- persisted_prefixes_iter f l; Ok (List.map (persisted_item f) items)) =
      Ok (List.map ROk G) /\
    NoDup (List.map (@fst prefix (list record)) G) /\ (forall p rs, In (p, rs) G -> rs <> []) /\
    flat_map (fun g : prefixrecord => List.map (pair (fst g)) (snd g)) G = d.
Proof.
  intros [O K G] E M.
  assert (X : forall l d, (forall k v, In (k, v) l -> exists id r, wf_pid f id /\ wf_record r /\
              k = rkey f id r /\ v = r_meta r) -> rdisk f l = List.map Some d ->
     (forall p r, In (p, r) d -> r_meta r = []) ->
     Forall2 (bare f) l (List.map (fun x => (snd (fst x), snd x)) d) /\
     forall x, In x d -> fst (fst x) = f).
  { clear. induction l as [|[k v] l IH]; intros d K E M; destruct d as [|y d]; try discriminate.
    - split; [constructor|easy].
    - unfold rdisk in E. cbn [List.map] in E.
      destruct (K k v) as (id & r & Wi & Wr & -> & ->); [now left|].
      cbn [fst snd] in E. rewrite rkey_zc in E by auto. cbn [option_map fst snd] in E.
      inversion E as [[E1 E2]]. subst y.
      destruct (IH d) as [A B]; auto.
      + intros; apply K; now right.
      + intros; apply (M p); now right.
      + assert (r_meta r = []) as Mr by (apply (M (f, id)); now left).
        split; [|intros x [<-|I]; auto]. cbn [List.map]. constructor; [|exact A].
        cbn [fst snd]. repeat split; auto; apply Wr || apply Wi. }
  destruct (X l d K E M) as [F Ff].
  unfold persisted_prefixes_iter.
  destruct (pp_collect_ok f (length l) l (List.map (fun x => (snd (fst x), snd x)) d) (None, l) (S (length l)) eq_refl) as (Gs & A & B & C & D);
    [lia|auto|exact F|now left|].
  rewrite A. cbn [bind].
  assert (Hg : forall g, In g Gs -> wf_pid f (fst g) /\
             forall r, In r (snd g) -> wf_record r /\ r_meta r = []).
  { intros g I. assert (J : forall r, In r (snd g) -> wf_pid f (fst g) /\ wf_record r /\ r_meta r = []).
    { intros r J. assert (In (fst g, r) (List.map (fun x => (snd (fst x), snd x)) d)) as Q.
      { rewrite <- B. unfold flat. apply in_flat_map. exists g. split; auto. now apply in_map. }
      destruct (Forall2_In_r _ _ _ _ F Q) as [kv [_ (b1 & b2 & b3 & _)]]. auto. }
    split; [|intros r Ir; apply J, Ir].
    pose proof (D g I) as Ne. destruct (snd g) as [|r rs]; [easy|]. apply (J r). now left. }
  exists (List.map (fun g => ((f, fst g), snd g)) Gs). split; [|split; [|split]].
  - f_equal. rewrite !map_map. apply map_ext_in. intros g I. apply persisted_item_ok; [| |now apply Hg].
    + now apply Hg.
    + now apply D.
  - apply (NoDup_map_inv snd). rewrite !map_map. exact C.
  - intros p rs I. apply in_map_iff in I. destruct I as [g [Q I]]. inversion Q; subst. now apply D.
  - rewrite flat_map_concat_map, map_map. cbn [fst snd].
    assert (Y : forall Gs, concat (List.map (fun g : pid * list record =>
        List.map (pair (f, fst g)) (snd g)) Gs) = List.map (fun x => ((f, fst x), snd x)) (flat Gs)).
    { clear. induction Gs as [|g Gs IH]; [reflexivity|]. unfold flat in *. cbn [List.map concat flat_map].
      rewrite map_app, IH. f_equal. rewrite map_map. reflexivity. }
    rewrite Y, B, map_map. cbn [fst snd]. rewrite <- (map_id d) at 2. apply map_ext_in.
    intros [[g p] r] I. cbn [fst snd]. now rewrite <- (Ff _ I).
Qed.

(* with meta data the iterator returns errors only, whatever the keys *)
Lemma persist_iter_meta f l : (forall k v, In (k, v) l -> (KEY_SIZE f < length (k ++ v))%nat) ->
  (do items <- persisted_prefixes_iter f l; Ok (List.map (persisted_item f) items)) =
  Ok (repeat (RErr FatalErr) (length l)).
Proof.
  intros H. unfold persisted_prefixes_iter.
  assert (X : forall l fuel, (forall k v, In (k, v) l -> (KEY_SIZE f < length (k ++ v))%nat) ->
    (length l < fuel)%nat -> pp_collect fuel f (None, l) = Ok (repeat [None] (length l))).
  { clear. induction l as [|[k v] l IH]; intros fuel H L; (destruct fuel as [|fuel]; [simpl in L; lia|]);
      cbn [pp_collect].
    - reflexivity.
    - unfold pp_next. cbn [fst snd]. rewrite key_header_long.
      + rewrite IH; [reflexivity| |simpl in L; lia]. intros; apply H; now right.
      + specialize (H k v (or_introl eq_refl)). lia. }
  rewrite X by auto. cbn [bind]. f_equal.
  clear. induction (length l); simpl; auto. now rewrite IHn.
Qed.
