(* The conversions between Prefix and PrefixId are inverse, and no unwrap of a conversion panics. *)
From Coq Require Import Arith NArith List Bool Lia.
From Verif Require Import Word Af Spec Maps Tree Iter MultiMap Lsm LsmProofs RecordSet Rib StarCast HistSpec Ask
  PropSpec Disk RibOk Queries Facts1 Facts2 Facts3 Facts4 Facts5 Facts6 Public.
Import ListNotations.
Local Open Scope N_scope.

(* ---------- bytes and bits ---------- *)

Definition byte (o : N) : Prop := o < 256.

Lemma le_val_bit l : Forall byte l -> forall k,
  N.testbit (le_val l) k = N.testbit (nth (N.to_nat (k / 8)) l 0) (k mod 8).
Proof.
  induction 1 as [|x l Hx Hl IH]; intros k.
  - cbn [le_val]. rewrite N.bits_0. destruct (N.to_nat (k / 8)); cbn [nth]; now rewrite N.bits_0.
  - cbn [le_val]. destruct (N.lt_ge_cases k 8) as [L|L].
    + rewrite (N.div_small k 8), (N.mod_small k 8) by exact L. cbn [N.to_nat nth].
      rewrite <- (N.mod_pow2_bits_low (x + 256 * le_val l) 8) by exact L. f_equal.
      change (2 ^ 8) with 256. rewrite (N.mul_comm 256), N.mod_add by discriminate.
      apply N.mod_small. exact Hx.
    + replace k with ((k - 8) + 8) at 1 by lia. rewrite <- N.div_pow2_bits.
      change (2 ^ 8) with 256. rewrite (N.mul_comm 256), N.div_add by discriminate.
      rewrite (N.div_small x 256) by exact Hx. rewrite N.add_0_l, IH.
      assert (E : k / 8 = N.succ ((k - 8) / 8)).
      { replace k with ((k - 8) + 1 * 8) at 1 by lia. rewrite N.div_add by discriminate. lia. }
      assert (M : k mod 8 = (k - 8) mod 8).
      { replace k with ((k - 8) + 1 * 8) at 1 by lia. now rewrite N.mod_add by discriminate. }
      rewrite E, M, N2Nat.inj_succ. reflexivity.
Qed.

Lemma le_val_bound l : Forall byte l -> le_val l < 2 ^ (8 * N.of_nat (length l)).
Proof.
  induction 1 as [|x l Hx Hl IH]; [reflexivity|]. cbn [le_val length].
  replace (8 * N.of_nat (S (length l))) with (8 + 8 * N.of_nat (length l)) by lia.
  rewrite N.pow_add_r. change (2 ^ 8) with 256. unfold byte in Hx. nia.
Qed.

Lemma le_bytes_byte n : forall x, Forall byte (le_bytes n x).
Proof. induction n; intros x; cbn; constructor; auto. apply N.mod_lt. discriminate. Qed.

Lemma le_bytes_val l : Forall byte l -> le_bytes (length l) (le_val l) = l.
Proof.
  induction 1 as [|x l Hx Hl IH]; [reflexivity|]. cbn [le_val length le_bytes]. unfold byte in Hx.
  rewrite (N.mul_comm 256), N.mod_add, N.div_add by discriminate.
  rewrite (N.mod_small x), (N.div_small x) by exact Hx. now rewrite N.add_0_l, IH.
Qed.

Lemma bits_afb f : BITS f = 8 * N.of_nat (AFB f).
Proof. destruct f; reflexivity. Qed.

Lemma addr_bit_val a i : valid_addr a -> i < BITS (family a) ->
  N.testbit (le_val (rev (octets a))) (BITS (family a) - 1 - i) = addr_bit a i.
Proof.
  intros [L F] H. rewrite le_val_bit by now apply Forall_rev.
  assert (Q : (BITS (family a) - 1 - i) / 8 = N.of_nat (AFB (family a)) - 1 - i / 8 /\
              (BITS (family a) - 1 - i) mod 8 = 7 - i mod 8 /\ i / 8 < N.of_nat (AFB (family a))).
  { rewrite bits_afb in *. set (n := N.of_nat (AFB (family a))) in *.
    pose proof (N.div_mod i 8 ltac:(discriminate)) as D. pose proof (N.mod_lt i 8 ltac:(discriminate)) as M.
    set (d := i / 8) in *. set (m := i mod 8) in *.
    assert (X : d < n) by nia.
    assert (E : 8 * n - 1 - i = 8 * (n - 1 - d) + (7 - m)) by nia.
    split; [|split; [|exact X]]; rewrite E.
    - symmetry. apply (N.div_unique _ 8 _ (7 - m)); lia.
    - symmetry. apply (N.mod_unique _ 8 (n - 1 - d) (7 - m)); lia. }
  destruct Q as (Q1 & Q2 & Q3). rewrite Q1, Q2. unfold addr_bit. f_equal.
  rewrite rev_nth; rewrite L; clear - Q3; set (d := i / 8) in *; clearbody d; [f_equal; lia|lia].
Qed.

Lemma low_zero x n : x mod 2 ^ n = 0 <-> forall k, k < n -> N.testbit x k = false.
Proof.
  split.
  - intros E k L. rewrite <- (N.mod_pow2_bits_low x n k L), E. apply N.bits_0.
  - intros H. apply N.bits_inj. intros k. rewrite N.bits_0.
    destruct (N.lt_ge_cases k n) as [L|L].
    + rewrite N.mod_pow2_bits_low by exact L. now apply H.
    + now apply N.mod_pow2_bits_high.
Qed.

(* ---------- Prefix::new accepts what the store calls a prefix ---------- *)

Lemma prefix_new_ok a len : valid_addr a ->
  (prefix_new a len = Some (a, len) <-> wf_pid (family a) (le_val (rev (octets a)), len)).
Proof.
  intros V. unfold prefix_new, wf_pid. cbn [p_bits p_len fst snd].
  assert (B : le_val (rev (octets a)) < 2 ^ BITS (family a)).
  { destruct V as [L F]. rewrite bits_afb, <- L, <- rev_length. now apply le_val_bound, Forall_rev. }
  assert (Z : len <= BITS (family a) ->
    (forallb (fun i => negb (addr_bit a (N.of_nat i)))
       (seq (N.to_nat len) (N.to_nat (BITS (family a) - len))) = true <->
     le_val (rev (octets a)) mod 2 ^ (BITS (family a) - len) = 0)).
  { intros Ln. rewrite forallb_forall, low_zero. split.
    - intros H k K. replace k with (BITS (family a) - 1 - (BITS (family a) - 1 - k)) by lia.
      rewrite addr_bit_val by (auto; lia).
      specialize (H (N.to_nat (BITS (family a) - 1 - k))). rewrite N2Nat.id in H.
      apply negb_true_iff, H, in_seq. lia.
    - intros H i I. apply in_seq in I. apply negb_true_iff.
      rewrite <- addr_bit_val by (auto; lia). apply H. lia. }
  destruct (N.leb_spec len (BITS (family a))) as [Ln|Ln]; cbn [andb].
  - specialize (Z Ln). destruct (forallb _ _).
    + split; auto. intros _. split; [exact Ln|]. split; [exact B|]. now apply Z.
    + split; [discriminate|]. intros (_ & _ & X). apply Z in X. discriminate.
  - split; [discriminate|]. intros (X & _). lia.
Qed.

Lemma into_family f b : family (into_ipaddr f b) = f.
Proof. now destruct f. Qed.
Lemma into_octets f b : octets (into_ipaddr f b) = rev (le_bytes (AFB f) b).
Proof. now destruct f. Qed.
Lemma into_valid f b : valid_addr (into_ipaddr f b).
Proof.
  split; rewrite into_octets, ?into_family.
  - now rewrite rev_length, le_bytes_length.
  - apply Forall_rev, le_bytes_byte.
Qed.
Lemma into_val f b : b < 2 ^ BITS f -> le_val (rev (octets (into_ipaddr f b))) = b.
Proof. intros B. rewrite into_octets, rev_involutive. apply le_val_bytes. now rewrite <- bits_afb. Qed.
Lemma into_of a : valid_addr a -> into_ipaddr (family a) (le_val (rev (octets a))) = a.
Proof.
  intros [L F]. unfold into_ipaddr.
  rewrite <- L, <- rev_length, le_bytes_val by now apply Forall_rev.
  rewrite rev_involutive. destruct a; reflexivity.
Qed.

Lemma id_of_own x : valid_addr (fst x) ->
  id_of_prefix (family (fst x)) x = Ok (le_val (rev (octets (fst x))), snd x).
Proof. intros [L _]. unfold id_of_prefix, af_from_bytes. now rewrite L, Nat.eqb_refl. Qed.

(* ---------- the statements ---------- *)

Lemma public_in x : public x ->
  exists p, id_of_prefix (family (fst x)) x = Ok p /\ wf_prefix (family (fst x), p) /\ p_len p = snd x /\
    (forall i, i < BITS (family (fst x)) ->
       N.testbit (p_bits p) (BITS (family (fst x)) - 1 - i) = addr_bit (fst x) i) /\
    prefix_of_id (family (fst x)) p = Ok x.
Proof.
  destruct x as [a len]. intros [V P]. cbn [fst snd] in *.
  exists (le_val (rev (octets a)), len). split; [exact (id_of_own (a, len) V)|].
  split; [exact (proj1 (prefix_new_ok a len V) P)|]. split; [reflexivity|]. split.
  - intros i I. exact (addr_bit_val a i V I).
  - unfold prefix_of_id. cbn [p_bits p_len fst snd]. now rewrite into_of, P.
Qed.

Lemma public_out f p : wf_prefix (f, p) ->
  exists x, prefix_of_id f p = Ok x /\ public x /\ family (fst x) = f /\ id_of_prefix f x = Ok p.
Proof.
  destruct p as [b len]. intros W. unfold wf_prefix in W. cbn [fst snd] in W.
  pose proof (into_valid f b) as V. pose proof (into_family f b) as Fm.
  assert (B : b < 2 ^ BITS f) by apply W.
  exists (into_ipaddr f b, len). cbn [fst snd].
  assert (P : prefix_new (into_ipaddr f b) len = Some (into_ipaddr f b, len)).
  { apply prefix_new_ok; auto. now rewrite Fm, into_val. }
  split; [unfold prefix_of_id; cbn [p_bits p_len fst snd]; now rewrite P|].
  split; [split; auto|]. split; [exact Fm|].
  pose proof (id_of_own (into_ipaddr f b, len) V) as E. cbn [fst snd] in E. rewrite Fm, into_val in E; auto.
Qed.

Lemma public_panics f p : p_bits p < 2 ^ BITS f ->
  (prefix_of_id f p = Panic <-> ~ wf_prefix (f, p)).
Proof.
  destruct p as [b len]. unfold wf_prefix, prefix_of_id. cbn [p_bits p_len fst snd]. intros B.
  pose proof (prefix_new_ok (into_ipaddr f b) len (into_valid f b)) as P.
  rewrite into_family, into_val in P by exact B.
  assert (X : prefix_new (into_ipaddr f b) len = Some (into_ipaddr f b, len) \/
              prefix_new (into_ipaddr f b) len = None)
    by (unfold prefix_new; destruct (_ && _); auto).
  destruct X as [X|X]; rewrite X in *.
  - split; [discriminate|]. intros N. exfalso. apply N, P. reflexivity.
  - split; auto. intros _ W. apply P in W. discriminate.
Qed.

Lemma public_other f x : public x -> f <> family (fst x) -> id_of_prefix f x = Panic.
Proof.
  intros [[L _] _] D. unfold id_of_prefix, af_from_bytes. rewrite L.
  destruct f, (family (fst x)); try congruence; reflexivity.
Qed.

Lemma bytes_in f p : p_bits p < 2 ^ BITS f -> id_of_bytes f (pid_bytes f p) = Ok p.
Proof.
  destruct p as [b len]. cbn [p_bits fst]. intros B. unfold id_of_bytes, pid_bytes, af_from_bytes.
  cbn [p_bits p_len fst snd skipn]. rewrite rev_length, le_bytes_length, Nat.eqb_refl. cbn [bind].
  rewrite rev_involutive, le_val_bytes by now rewrite <- bits_afb. reflexivity.
Qed.

Lemma bytes_panics f b : id_of_bytes f b = Panic <-> length b <> S (AFB f).
Proof.
  unfold id_of_bytes, af_from_bytes. destruct b as [|len b]; cbn [skipn length].
  - destruct f; cbn; split; easy.
  - destruct (Nat.eqb_spec (length b) (AFB f)) as [E|E]; cbn [bind]; split; try easy; congruence.
Qed.

(* ---------- all prefixes in answers ---------- *)

Lemma po_none h p : inserted h p = false -> forall m, po_rec h p m = None.
Proof.
  intros X m. induction h as [|o h IH]; auto. simpl in X. apply orb_false_iff in X.
  destruct X as [X1 X2]. specialize (IH X2).
  destruct o as [q r0 u0|q n t|q n t|g n|n|g n|q t]; cbn [po_rec]; auto.
  - now rewrite X1.
  - rewrite IH. now destruct (prefix_eqb p q && (m =? n)).
  - rewrite IH. now destruct (prefix_eqb p q && (m =? n)).
Qed.

Lemma on_disk_wf s h st p r : after s h st -> on_disk st p r -> wf_prefix p.
Proof.
  intros A D. destruct s.
  - apply (disk_latest WriteAhead h) in D; [apply D|now left|exact A].
  - apply (disk_latest PersistHistory h) in D; [apply D|now right|exact A].
  - destruct (memory_no_disk _ _ _ _ A D).
  - apply (persist_only_disk h) in D; [|exact A].
    apply (hist_inserted_wf h); [apply A|]. destruct (inserted h p) eqn:X; auto.
    rewrite (po_none h p X) in D. discriminate.
Qed.

Lemma disk_wf s h st f p r : after s h st -> In (Some (p, r)) (disk st f) -> wf_prefix p.
Proof.
  intros A I. destruct (disk_decodes s h st f A) as (d & E & _ & Fd).
  apply (on_disk_wf s h st p r A). unfold on_disk. replace (fst p) with f; auto.
  rewrite E in I. apply in_map_iff in I. destruct I as (x & X & I). injection X as ->. symmetry.
  exact (Fd _ _ I).
Qed.

(* the raw records that the iterator over the disk hands out are pairs on disk *)
Definition from (l : lsm) (x : option bytes) : Prop :=
  match x with Some b => exists k v, In (k, v) l /\ b = k ++ v | None => True end.

Lemma pp_take_from f l0 outer : forall l acc x c l',
  (forall k v, In (k, v) l -> In (k, v) l0) -> Forall (from l0) acc ->
  pp_take f outer acc l = (x, c, l') ->
  Forall (from l0) x /\ (forall y, c = Some y -> Forall (from l0) y) /\
  (forall k v, In (k, v) l' -> In (k, v) l0).
Proof.
  induction l as [|[k v] l IH]; intros acc x c l' Hl Ha; cbn [pp_take].
  - intros [= <- <- <-]. split; auto. split; [discriminate|easy].
  - assert (K : from l0 (Some (k ++ v))) by (exists k, v; split; auto; apply Hl; now left).
    assert (Hl2 : forall a b, In (a, b) l -> In (a, b) l0) by (intros; apply Hl; now right).
    destruct (key_header f k) as [[i r]|].
    + destruct (pid_eqb i outer).
      * apply IH; auto. apply Forall_app. split; auto.
      * intros [= <- <- <-]. split; auto. split; auto. intros y [= <-]. auto.
    + apply IH; auto. apply Forall_app. split; auto. constructor; simpl; auto.
Qed.

Lemma pp_collect_from f l0 : forall fuel cur l xs,
  (forall k v, In (k, v) l -> In (k, v) l0) -> (forall y, cur = Some y -> Forall (from l0) y) ->
  pp_collect fuel f (cur, l) = Ok xs -> Forall (Forall (from l0)) xs.
Proof.
  induction fuel as [|fuel IH]; intros cur l xs Hl Hc; [discriminate|]. cbn [pp_collect].
  assert (G : forall rr l2, Forall (from l0) rr -> (forall k v, In (k, v) l2 -> In (k, v) l0) ->
    match
      match rr with
      | Some b :: _ =>
        match key_header f b with
        | Some (outer, _) =>
          let '(r_rec', c, l') := pp_take f outer rr l2 in Some (r_rec', (c, l'))
        | None => Some ([None], (None, l2))
        end
      | _ => Some ([None], (None, l2))
      end
    with
    | None => Ok []
    | Some (x, st') => do ys <- pp_collect fuel f st'; Ok (x :: ys)
    end = Ok xs -> Forall (Forall (from l0)) xs).
  { intros rr l2 Hr H2.
    assert (Z : (do ys <- pp_collect fuel f (None, l2); Ok ([None] :: ys)) = Ok xs ->
      Forall (Forall (from l0)) xs).
    { destruct (pp_collect fuel f (None, l2)) as [ys| |] eqn:E; try discriminate. intros [= <-].
      constructor; [repeat constructor|]. apply (IH None l2 ys); auto. discriminate. }
    destruct rr as [|[b|] rr]; auto. destruct (key_header f b) as [[outer r]|]; auto.
    destruct (pp_take f outer (Some b :: rr) l2) as [[x c'] l'] eqn:T.
    destruct (pp_take_from f l0 outer _ _ _ _ _ H2 Hr T) as (X & C & L').
    destruct (pp_collect fuel f (c', l')) as [ys| |] eqn:E; try discriminate. intros [= <-].
    constructor; auto. apply (IH c' l' ys); auto. }
  unfold pp_next. cbn [fst snd]. destruct cur as [rr|].
  - apply G; auto.
  - destruct l as [|[k v] l]; [intros [= <-]; constructor|]. apply (G [Some (k ++ v)] l).
    + constructor; [|constructor]. exists k, v. split; auto. apply Hl. now left.
    + intros a b I. apply Hl. now right.
Qed.

Lemma persisted_wf s h st f l p rs : after s h st ->
  persist_prefixes_iter_af st f = Ok l -> In (ROk (p, rs)) l -> wf_prefix p.
Proof.
  intros A E I. unfold persist_prefixes_iter_af, rib_persist_prefixes_iter in E.
  pose proof (disk_wf s h st f) as W. unfold disk in W.
  destruct (rb_lsm (rib_of st f)) as [d|]; [|injection E as <-; easy].
  unfold persisted_prefixes_iter in E.
  destruct (pp_collect (S (length d)) f (None, d)) as [xs| |] eqn:C; try discriminate.
  injection E as <-. apply in_map_iff in I. destruct I as (x & X & Ix).
  assert (F : Forall (from d) x).
  { assert (F : Forall (Forall (from d)) xs).
    { apply (pp_collect_from f d _ _ _ _ (fun _ _ H => H)) in C; [exact C|]. intros y Y. discriminate Y. }
    rewrite Forall_forall in F. now apply F. }
  unfold persisted_item in X. destruct x as [|[b|] x]; try discriminate.
  destruct (zc_record f b) as [[q r]|] eqn:Z; try discriminate.
  destruct (persisted_records f (Some b :: x)) as [rs'|]; try discriminate. injection X as <- <-.
  apply Forall_inv in F. destruct F as (k & v & Ik & ->). apply (W _ r A). apply in_map_iff. exists (k, v). split; auto.
  cbn [fst snd]. rewrite Z. reflexivity.
Qed.

Lemma items_wf l l' : l = List.map (@ROk prefixrecord) l' ->
  (forall p rs, In (p, rs) l' -> wf_prefix p) -> forall p rs, In (ROk (p, rs)) l -> wf_prefix p.
Proof.
  intros -> H p rs I. apply in_map_iff in I. destruct I as (x & [= ->] & I). exact (H p rs I).
Qed.

Lemma listed_ok s h st p : after s h st -> listed h p -> wf_prefix p.
Proof. intros A [I _]. apply (hist_inserted_wf h); [apply A|exact I]. Qed.

Lemma of_set_in s l p : rs_items s = Ok l -> In p (of_set (Some s)) -> exists rs, In (p, rs) l.
Proof.
  rewrite rs_items_ok. intros [= <-] I. cbn [of_set] in I. apply in_map_iff in I.
  destruct I as ([q rs] & <- & I). now exists rs.
Qed.

Lemma shown_wf s h st q a p : after s h st -> wf_query q -> ask st q = Ok a ->
  In p (shown_by a) -> wf_prefix p.
Proof.
  intros A Q E I.
  assert (It : forall l, a = AItems l -> (forall c rs, In (ROk (c, rs)) l -> wf_prefix c) -> wf_prefix p).
  { intros l -> H. cbn [shown_by] in I. apply in_flat_map in I. destruct I as ([[c rs]|e] & Il & Ip); [|easy].
    destruct Ip as [<-|[]]. exact (H _ _ Il). }
  assert (Sh : forall A0 (g : A0 -> answer) (r : res A0) x, lift g r = Ok a -> r = Ok x -> a = g x).
  { intros A0 g r x L ->. cbn in L. congruence. }
  destruct q; cbn [ask wf_query] in *;
    try (injection E as <-; destruct I; fail).
  - (* match_prefix *)
    destruct Q as [Wp Wm].
    destruct (match_sets s h st p0 o A Wp Wm) as (x & X & Ls & Ms).
    pose proof (Sh _ _ _ _ E X) as ->. cbn [shown_by] in I. apply in_app_iff in I. destruct I as [I|I].
    + destruct (qr_prefix x) as [c|] eqn:Pc; [|easy]. destruct I as [->|[]].
      assert (T : mo_type o = ExactMatch \/ mo_type o <> ExactMatch)
        by (destruct (mo_type o); auto; right; discriminate).
      destruct T as [T|T].
      * destruct (match_exact s h st p0 o A Wp Wm T) as (y & Y & D). rewrite X in Y. injection Y as <-.
        rewrite Pc in D. destruct D as [(_ & _ & D & _)|(_ & _ & D & _)]; [|discriminate].
        injection D as ->. exact Wp.
      * destruct (match_longest s h st p0 o A Wp Wm T) as (y & c & Y & Lm & D). rewrite X in Y. injection Y as <-.
        rewrite Pc in D. destruct c as [c|]; [|destruct D as (_ & D & _); discriminate].
        destruct D as [(_ & D & _)|(_ & _ & D & _)]; [|discriminate]. injection D as ->.
        apply (listed_ok s h st); auto. apply Lm.
    + apply in_app_iff in I. destruct I as [I|I].
      * destruct (mo_less o); [|rewrite Ls in I; destruct I].
        destruct Ls as (rs & l & R & Il & _ & G & _). rewrite R in I.
        destruct (of_set_in rs l p Il I) as (r & Ir). apply (listed_ok s h st); auto. apply (G _ _ Ir).
      * destruct (mo_more o); [|rewrite Ms in I; destruct I].
        destruct Ms as (rs & l & R & Il & _ & G & _). rewrite R in I.
        destruct (of_set_in rs l p Il I) as (r & Ir). apply (listed_ok s h st); auto. apply (G _ _ Ir).
  - destruct (contains st p0 mui); try discriminate. injection E as <-. destruct I.
  - destruct (best_path st p0); try discriminate. injection E as <-. destruct I.
  - destruct (is_ps_outdated st p0); try discriminate. injection E as <-. destruct I.
  - destruct Q as [Wp Wm].
    destruct (more_from_exact s h st p0 mui iw A Wp Wm) as (c & o & L & x & _ & _ & X & _ & HL & _ & Pc & _ & Ls & Ms).
    pose proof (Sh _ _ _ _ E X) as ->. cbn [shown_by] in I. rewrite Pc, Ls in I.
    apply in_app_iff in I. destruct I as [I|I]; [destruct c; [easy|destruct I as [->|[]]; exact Wp]|].
    cbn [of_set app] in I.
    assert (H : qr_more x = None \/ exists rs, qr_more x = Some rs /\
      rs_items rs = Ok (List.map (fun q => (q, opt_default o)) L)).
    { destruct o; [right; exact Ms|]. destruct L; [right; exact Ms|left; exact Ms]. }
    destruct H as [H|(rs & H & Il)]; rewrite H in I; [destruct I|].
    destruct (of_set_in rs _ p Il I) as (r & Ir). apply in_map_iff in Ir. destruct Ir as (y & [= -> _] & Iy).
    apply (listed_ok s h st); auto. apply HL. exact Iy.
  - destruct Q as [Wp Wm].
    destruct (less_from_exact s h st p0 mui iw A Wp Wm) as (c & o & L & x & _ & _ & X & _ & HL & _ & Pc & _ & Ls & Ms).
    pose proof (Sh _ _ _ _ E X) as ->. cbn [shown_by] in I. rewrite Pc, Ls in I.
    apply in_app_iff in I. destruct I as [I|I]; [destruct c; [easy|destruct I as [->|[]]; exact Wp]|].
    cbn [of_set] in I. rewrite app_nil_r in I.
    assert (H : qr_less x = None \/ exists rs, qr_less x = Some rs /\
      rs_items rs = Ok (List.map (fun q => (q, opt_default o)) L)).
    { destruct o; [right; exact Ms|]. destruct L; [right; exact Ms|left; exact Ms]. }
    destruct H as [H|(rs & H & Il)]; rewrite H in I; [destruct I|].
    destruct (of_set_in rs _ p Il I) as (r & Ir). apply in_map_iff in Ir. destruct Ir as (y & [= -> _] & Iy).
    apply (listed_ok s h st); auto. apply HL. exact Iy.
  - destruct Q as [Wp Wm]. destruct (more_iter s h st p0 mui iw A Wp Wm) as (l & X & _ & G & _).
    apply (It _ (Sh _ _ _ _ E X)). apply (items_wf _ l eq_refl). intros c rs Ic.
    apply (listed_ok s h st); auto. apply (G _ _ Ic).
  - destruct Q as [Wp Wm]. destruct (less_iter s h st p0 mui iw A Wp Wm) as (l & X & (_ & G & _) & _).
    apply (It _ (Sh _ _ _ _ E X)). apply (items_wf _ l eq_refl). intros c rs Ic.
    apply (listed_ok s h st); auto. apply (G _ _ Ic).
  - destruct (get_records_for_prefix st p0 mui iw); try discriminate. injection E as <-. destruct I.
  - unfold iter_records_for_mui in E. destruct (rib_mui_is_withdrawn (rib_of st f) mui && negb iw).
    + injection E as <-. destruct I.
    + assert (W0 : wf_prefix (f, (0, 0))) by (destruct f; apply wf_pidb_spec; reflexivity).
      destruct (more_iter s h st (f, (0, 0)) (Some mui) iw A W0 Q) as (l & X & _ & G & _).
      apply (It _ (Sh _ _ _ _ E X)). apply (items_wf _ l eq_refl). intros c rs Ic.
      apply (listed_ok s h st); auto. apply (G _ _ Ic).
  - destruct (prefixes_all s h st f A) as (l & X & _ & G & _).
    apply (It _ (Sh _ _ _ _ E X)). apply (items_wf _ l eq_refl). intros c rs Ic.
    apply (listed_ok s h st); auto. apply (G c). apply in_map_iff. exists (c, rs). auto.
  - destruct (persist_prefixes_iter_af st f) as [l| |] eqn:X; try discriminate.
    apply (It _ (Sh _ _ _ _ E eq_refl)). intros c rs Ic. exact (persisted_wf s h st f l c rs A X Ic).
  - destruct (prefixes_count_for_len st f len); try discriminate. injection E as <-. destruct I.
  - injection E as <-. cbn [shown_by] in I. apply in_flat_map in I. destruct I as ([[c r]|] & Ic & Ip); [|easy].
    destruct Ip as [<-|[]]. exact (disk_wf s h st f c r A Ic).
  - destruct (prefixes_both s h st A) as (l & X & _ & G & _).
    apply (It _ (Sh _ _ _ _ E X)). apply (items_wf _ l eq_refl). intros c rs Ic.
    apply (listed_ok s h st); auto. apply (G c). apply in_map_iff. exists (c, rs). auto.
  - unfold persist_prefixes_iter in E.
    destruct (persist_prefixes_iter_af st IPv4) as [l4| |] eqn:X4; try discriminate.
    destruct (persist_prefixes_iter_af st IPv6) as [l6| |] eqn:X6; try discriminate.
    apply (It _ (Sh _ _ _ _ E eq_refl)). intros c rs Ic. apply in_app_iff in Ic.
    destruct Ic as [Ic|Ic]; [exact (persisted_wf s h st IPv4 l4 c rs A X4 Ic)|exact (persisted_wf s h st IPv6 l6 c rs A X6 Ic)].
Qed.

Lemma shown_public s h st q a p : after s h st -> wf_query q -> ask st q = Ok a ->
  In p (shown_by a) ->
  exists x, prefix_of_id (fst p) (snd p) = Ok x /\ public x /\ family (fst x) = fst p /\
    id_of_prefix (fst p) x = Ok (snd p).
Proof.
  intros A Q E I. apply public_out. destruct p. exact (shown_wf s h st q a _ A Q E I).
Qed.

Lemma bytes_too_few : ~ (forall f b, (1 < length b)%nat -> id_of_bytes f b <> Panic).
Proof. intros H. apply (H IPv4 [17; 10]); [cbn; lia|reflexivity]. Qed.
