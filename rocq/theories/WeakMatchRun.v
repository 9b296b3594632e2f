(* Queries on a weak memory, computed; and what they can miss. *)
From Coq Require Import Arith NArith List Bool Lia.
From Verif Require Import Word Af BitSpan Spec Maps ChtMath Cht Node Tree TreeProofs Iter MultiMap RecordSet PrefixCht Lsm Rib StarCast HistSpec
  Conc ConcTree ConcTreeProofs ConcStore ConcTable ConcMarks ConcSpec ConcScan ConcScanSpec ConcWhole ConcQuery QuerySpec
  ConcQueryDemo WeakTree WeakTreeRun WeakTable WeakTableFacts WeakTableRun WeakScanRun WeakStore WeakStoreInv WeakStoreFacts WeakStoreRun WeakMatch WeakMatchInv.
Import ListNotations.
Local Open Scope N_scope.

(* calls of the threads; n steps of the query, or as many as it can make; the look-up
   that the query waits for, from its beginning to its return, in at most n steps *)
Inductive qev : Type := QCalls (es : list vev) | QOwn (n : nat) | QLook (n : nat).

(* no mui is globally withdrawn *)
Definition no_marks (b : nset) : Prop := b = [].
Definition mui_eqb (a b : option N) : bool :=
  match a, b with Some m, Some n => m =? n | None, None => true | _, _ => false end.
Lemma mui_eqb_ok a b : mui_eqb a b = true -> a = b.
Proof. destruct a, b; cbn; try easy. intros H. apply N.eqb_eq in H. now subst. Qed.

Definition marks_eqb (a b : nset) : bool := if list_eq_dec N.eq_dec a b then true else false.
Lemma marks_eqb_ok a b : marks_eqb a b = true -> a = b.
Proof. unfold marks_eqb. destruct (list_eq_dec N.eq_dec a b); [auto|discriminate]. Qed.

(* bm: the globally withdrawn muis *)
Section P.
Context {Q : Type}.
Variables (f : af) (ov : bool) (mui : option N) (iw : bool).
Variables (over : Q -> bool) (waits : Q -> option pid) (next : wstate -> Q -> Q) (gets : option (list record) -> Q -> Q).
Variables (bm : nset) (i : nat).

Fixpoint qown (n : nat) (v : tree) (c : nat) (q : Q) : nat * Q :=
  match n with
  | O => (c, q)
  | Datatypes.S k =>
    if over q then (c, q)
    else match waits q with Some _ => (c, q) | None => qown k v (Datatypes.S c) (next (seeing v bm) q) end
  end.
Definition qplay1 (z : nat * sconf * Q) (e : qev) : option (nat * sconf * Q) :=
  let '(c, x, q) := z in
  match e with
  | QCalls es => match vplay f ov (ustart f) x es with Some y => Some (c, y, q) | None => None end
  | QOwn n =>
    match nth_error (sc_sts x) i, nth_error (wc_ths (sc_tree x)) i with
    | Some (SThread SIdle _), Some t => let '(c', q') := qown n (wt_view t) c q in Some (c', x, q')
    | _, _ => None
    end
  | QLook n =>
    match waits q with
    | Some p =>
      match vplay f ov (ustart f) x (VOne i p (ARead mui iw bm) :: vsteps i n) with
      | Some y =>
        match nth_error (sc_sts y) i with
        | Some (SThread (SRet p' (ARead mui' iw' bm') (RRead v)) _) =>
          if pid_eqb p' p && mui_eqb mui' mui && Bool.eqb iw' iw && marks_eqb bm' bm then
            match vplay f ov (ustart f) y [VRet i] with
            | Some z => Some (Datatypes.S c, z, gets v q)
            | None => None
            end
          else None
        | _ => None
        end
      | None => None
      end
    | None => None
    end
  end.
Fixpoint qplay (z : nat * sconf * Q) (es : list qev) : option (nat * sconf * Q) :=
  match es with
  | [] => Some z
  | e :: es' => match qplay1 z e with Some z' => qplay z' es' | None => None end
  end.

Notation asks := (asking f ov (fun b => b = bm) mui iw over waits next gets i).

Lemma qown_ok x0 q0 x past t n : nth_error (sc_sts x) i = Some (SThread SIdle past) -> nth_error (wc_ths (sc_tree x)) i = Some t ->
  forall c q c' q', asks x0 q0 c x q -> qown n (wt_view t) c q = (c', q') -> asks x0 q0 c' x q'.
Proof.
  intros N Nt. induction n as [|n IH]; simpl; intros c q c' q' A E.
  - injection E as <- <-. easy.
  - destruct (over q) eqn:O; [injection E as <- <-; easy|]. destruct (waits q) eqn:W; [injection E as <- <-; easy|].
    eapply IH; [|exact E]. eapply ak_own; eauto.
Qed.
Lemma asks_on x0 q0 n x q y : asks x0 q0 n x q -> store_exec f ov x y -> asks x0 q0 n y q.
Proof. intros A E. induction E; [easy|]. eapply ak_call; eauto. Qed.
Lemma qplay1_ok x0 q0 c x q e c' y q' : store_reach f ov x0 -> asks x0 q0 c x q -> qplay1 (c, x, q) e = Some (c', y, q') ->
  asks x0 q0 c' y q'.
Proof.
  intros R A H. pose proof (store_exec_reach _ _ _ _ R (asking_exec _ _ _ _ _ _ _ _ _ _ _ _ _ _ _ A)) as Rx.
  destruct e as [es|n|n]; cbn [qplay1] in H.
  - destruct (vplay f ov (ustart f) x es) as [z|] eqn:U; [|discriminate H]. injection H as <- <- <-.
    eapply asks_on; [exact A|]. eapply vplay_ok; [apply ustart_ok|exact Rx|exact U].
  - destruct (nth_error (sc_sts x) i) as [[s past]|] eqn:N; [|discriminate H]. destruct s; try discriminate H.
    destruct (nth_error (wc_ths (sc_tree x)) i) as [t|] eqn:Nt; [|discriminate H].
    destruct (qown n (wt_view t) c q) as [c1 q1] eqn:O. injection H as <- <- <-. eapply qown_ok; eauto.
  - destruct (waits q) as [p|] eqn:W; [|discriminate H].
    remember (VOne i p (ARead mui iw bm) :: vsteps i n) as es eqn:Ees. clear Ees.
    destruct (vplay f ov (ustart f) x es) as [z|] eqn:U; [|discriminate H].
    pose proof (vplay_ok f ov (ustart f) (ustart_ok f) _ _ _ Rx U) as E1. pose proof (store_exec_reach _ _ _ _ Rx E1) as Rz.
    destruct (nth_error (sc_sts z) i) as [[s past]|] eqn:N; [|discriminate H]. destruct s as [| | | | | |p' c0 a]; try discriminate H.
    destruct c0 as [|sx m1 l1|mui' iw' bm']; try discriminate H. destruct a as [| |v]; try discriminate H.
    destruct (pid_eqb p' p && mui_eqb mui' mui && Bool.eqb iw' iw && marks_eqb bm' bm) eqn:B; [|discriminate H].
    apply andb_prop in B. destruct B as [B B4]. apply marks_eqb_ok in B4. subst bm'. apply andb_prop in B. destruct B as [B B3]. apply andb_prop in B. destruct B as [B1 B2].
    apply pid_eqb_spec in B1. apply mui_eqb_ok in B2. apply Bool.eqb_prop in B3. subst p' mui' iw'.
    remember [VRet i] as es' eqn:Ees. clear Ees.
    destruct (vplay f ov (ustart f) z es') as [w|] eqn:U'; [|discriminate H]. injection H as <- <- <-.
    pose proof (vplay_ok f ov (ustart f) (ustart_ok f) _ _ _ Rz U') as E2.
    apply (asks_on x0 q0 (Datatypes.S c) z (gets v q) w); [|exact E2]. eapply ak_gets; [eapply asks_on; [exact A|exact E1]|exact W|exact N|reflexivity].
Qed.
Lemma qplay_ok x0 q0 es : store_reach f ov x0 -> forall c x q c' y q', asks x0 q0 c x q ->
  qplay (c, x, q) es = Some (c', y, q') -> asks x0 q0 c' y q'.
Proof.
  intros R. induction es as [|e es IH]; intros c x q c' y q' A H; cbn [qplay] in H.
  - injection H as <- <- <-. easy.
  - destruct (qplay1 (c, x, q) e) as [[[c1 x1] q1]|] eqn:P; [|discriminate H].
    eapply IH; [|exact H]. eapply qplay1_ok; eauto.
Qed.
End P.

(* first the calls es, then thread i begins the query *)
Definition match_marked (bm : nset) (p : pid) (o : matchopts) (i : nat) (es : list vev) (qs : list qev) : option (nat * sconf * atpc) :=
  qplay IPv4 true (mo_mui o) (mo_withdrawn o) match_over match_waits (match_next IPv4 p o) match_got bm i (O, vend es, match_start p) qs.
Definition each_marked (bm : nset) (k : each) (i : nat) (es : list vev) (qs : list qev) : option (nat * sconf * itpc) :=
  qplay IPv4 true (each_mui k) (each_iw k) each_over each_waits (each_next IPv4 k) each_got bm i (O, vend es, each_start k) qs.
Definition match_run := match_marked [].
Definition each_run := each_marked [].
Definition idle_at (x : sconf) (i : nat) : bool :=
  match nth_error (sc_sts x) i with Some (SThread SIdle _) => true | _ => false end.

Lemma match_marked_ok bm p o i es qs n x q : has_some (vrun IPv4 true es) = true -> idle_at (vend es) i = true ->
  match_marked bm p o i es qs = Some (n, x, q) ->
  store_reach IPv4 true (vend es) /\ smatching IPv4 true (fun b => b = bm) p o i (vend es) n x q.
Proof.
  intros H I M. pose proof (vend_ok es H) as R. split; [exact R|]. unfold idle_at in I.
  destruct (nth_error (sc_sts (vend es)) i) as [[s past]|] eqn:N; [|discriminate I]. destruct s; try discriminate I.
  eapply qplay_ok; [exact R|eapply ak_start; exact N|exact M].
Qed.
Lemma each_marked_ok bm k i es qs n x q : has_some (vrun IPv4 true es) = true -> idle_at (vend es) i = true ->
  each_marked bm k i es qs = Some (n, x, q) ->
  store_reach IPv4 true (vend es) /\ siterating IPv4 true (fun b => b = bm) k i (vend es) n x q.
Proof.
  intros H I M. pose proof (vend_ok es H) as R. split; [exact R|]. unfold idle_at in I.
  destruct (nth_error (sc_sts (vend es)) i) as [[s past]|] eqn:N; [|discriminate I]. destruct s; try discriminate I.
  eapply qplay_ok; [exact R|eapply ak_start; exact N|exact M].
Qed.
Lemma match_run_ok p o i es qs n x q : has_some (vrun IPv4 true es) = true -> idle_at (vend es) i = true ->
  match_run p o i es qs = Some (n, x, q) ->
  store_reach IPv4 true (vend es) /\ smatching IPv4 true no_marks p o i (vend es) n x q.
Proof. exact (match_marked_ok [] p o i es qs n x q). Qed.
Lemma each_run_ok k i es qs n x q : has_some (vrun IPv4 true es) = true -> idle_at (vend es) i = true ->
  each_run k i es qs = Some (n, x, q) ->
  store_reach IPv4 true (vend es) /\ siterating IPv4 true no_marks k i (vend es) n x q.
Proof. exact (each_marked_ok [] k i es qs n x q). Qed.

(* ---------- what a query can miss ---------- *)

(* no insert, mark or look-up is under way *)
Definition at_rest (x : sconf) : Prop := forall s, In s (sc_sts x) -> st_pc s = SIdle \/ exists p, st_pc s = SLock p.
(* all that was ever done to the records is inserts of active ones *)
Definition all_active (x : sconf) : Prop := forall e, In e (slog x) -> exists r, snd e = OUp r /\ r_status r = Active.
Definition at_restb (x : sconf) : bool := forallb (fun s => match st_pc s with SIdle | SLock _ => true | _ => false end) (sc_sts x).
Definition all_activeb (x : sconf) : bool :=
  forallb (fun e => match snd e with OUp r => match r_status r with Active => true | _ => false end | _ => false end) (slog x).
Lemma at_restb_ok x : at_restb x = true -> at_rest x.
Proof.
  intros H s I. unfold at_restb in H. rewrite forallb_forall in H. specialize (H s I). destruct (st_pc s); try discriminate H; eauto.
Qed.
Lemma all_activeb_ok x : all_activeb x = true -> all_active x.
Proof.
  intros H e I. unfold all_activeb in H. rewrite forallb_forall in H. specialize (H e I).
  destruct (snd e) as [r|]; [|discriminate H]. destruct (r_status r) eqn:S; try discriminate H. eauto.
Qed.

Definition p8 : pid := (134217728, 6).   (* 8.0.0.0/6 *)
Definition longest_of : matchopts := MatchOpts LongestMatch true false false None false.
Definition more_of : matchopts := MatchOpts ExactMatch true false true None false.
(* thread 0 inserts 8.0.0.0/6 and tells thread 1; it inserts 10.0.0.0/8 and returns; then thread 1 loads the node that
   has the bits of both *)
Definition bit_only : list vev :=
  [VSpawn; VSpawn; VLock p8; VLock p10] ++ vinsert 0 p8 reca ++ [VTold 0 1] ++ vinsert 0 p10 recb ++ [VTree 1 (1, [0])].
Definition asks_once : list qev := [QOwn 200; QLook 90; QOwn 200].
(* the same with 20.0.0.0/8 and 10.0.0.0/8; thread 1 loads the root again *)
Definition half_seen : list vev :=
  [VSpawn; VSpawn; VLock cut_a; VLock cut_b] ++ vinsert 0 cut_a reca ++ [VTold 0 1] ++ vinsert 0 cut_b recb ++ [VTree 1 (0, [0])].

(* the longest match gives nothing, though a prefix that covers p is known with its active records, no call is under
   way and none that changes something is begun: it finds a longer one in the tree, and not its records *)
Lemma wlongest_empty_refuted :
  ~ (forall f ov p o i x0 past0 n x r, store_reach f ov x0 -> at_rest x0 -> all_active x0 -> wf_pid f p ->
    nth_error (sc_sts x0) i = Some (SThread SIdle past0) -> smatching f ov no_marks p o i x0 n x (AtEnd (ROk r)) ->
    wc_called (sc_tree x) = wc_called (sc_tree x0) -> slog x = slog x0 ->
    mo_type o = LongestMatch -> mo_mui o = None ->
    forall q rq, In (q, rq) past0 -> 0 < p_len q -> covers f q p -> qr_prefix r <> None).
Proof.
  intros H.
  destruct (match_run p10 longest_of 1 bit_only asks_once) as [[[n x] q]|] eqn:E.
  2:{ vm_compute in E. discriminate E. }
  assert (F : match match_run p10 longest_of 1 bit_only asks_once with
    | Some (_, x, q) => q = AtEnd (ROk (QueryResult EmptyMatch None [] None None)) /\
        wc_called (sc_tree x) = [p8; p10] /\ slog x = [(0%nat, p8, OUp reca); (0%nat, p10, OUp recb)]
    | None => False end) by (vm_compute; auto).
  rewrite E in F. destruct F as (-> & F2 & F3).
  apply match_run_ok in E; [|vm_compute; reflexivity|vm_compute; reflexivity]. destruct E as (R & M).
  assert (C : wc_called (sc_tree (vend bit_only)) = [p8; p10]) by (vm_compute; reflexivity).
  assert (L : slog (vend bit_only) = [(0%nat, p8, OUp reca); (0%nat, p10, OUp recb)]) by (vm_compute; reflexivity).
  assert (N : nth_error (sc_sts (vend bit_only)) 1 = Some (SThread SIdle [(p8, reca)])) by (vm_compute; reflexivity).
  assert (A1 : at_restb (vend bit_only) = true) by (vm_compute; reflexivity).
  assert (A2 : all_activeb (vend bit_only) = true) by (vm_compute; reflexivity).
  refine (H IPv4 true p10 longest_of 1%nat (vend bit_only) [(p8, reca)] n x _ R _ _ _ N M _ _ eq_refl eq_refl p8 reca _ _ _ eq_refl).
  - now apply at_restb_ok.
  - now apply all_activeb_ok.
  - apply wf_pidb_spec. vm_compute. reflexivity.
  - now rewrite F2, C.
  - now rewrite F3, L.
  - now left.
  - reflexivity.
  - apply coversb_ok. vm_compute. reflexivity.
Qed.

(* the more specifics miss one that is known with its active records, in the same situation *)
Lemma wmore_missing_refuted :
  ~ (forall f ov p o i x0 past0 n x r, store_reach f ov x0 -> at_rest x0 -> all_active x0 -> wf_pid f p ->
    nth_error (sc_sts x0) i = Some (SThread SIdle past0) -> smatching f ov no_marks p o i x0 n x (AtEnd (ROk r)) ->
    wc_called (sc_tree x) = wc_called (sc_tree x0) -> slog x = slog x0 ->
    mo_more o = true -> mo_mui o = None ->
    forall c rc, In (c, rc) past0 -> 0 < p_len c -> p_len p < p_len c -> covers f p c ->
    exists l, in_set (qr_more r) ((f, c), l)).
Proof.
  intros H.
  destruct (match_run cut_top more_of 1 half_seen [QOwn 200]) as [[[n x] q]|] eqn:E.
  2:{ vm_compute in E. discriminate E. }
  assert (F : match match_run cut_top more_of 1 half_seen [QOwn 200] with
    | Some (_, x, q) => q = AtEnd (ROk (QueryResult EmptyMatch None [] None (Some (RecordSet [] [])))) /\
        wc_called (sc_tree x) = [cut_a; cut_b] /\ slog x = [(0%nat, cut_a, OUp reca); (0%nat, cut_b, OUp recb)]
    | None => False end) by (vm_compute; auto).
  rewrite E in F. destruct F as (-> & F2 & F3).
  apply match_run_ok in E; [|vm_compute; reflexivity|vm_compute; reflexivity]. destruct E as (R & M).
  assert (C : wc_called (sc_tree (vend half_seen)) = [cut_a; cut_b]) by (vm_compute; reflexivity).
  assert (L : slog (vend half_seen) = [(0%nat, cut_a, OUp reca); (0%nat, cut_b, OUp recb)]) by (vm_compute; reflexivity).
  assert (N : nth_error (sc_sts (vend half_seen)) 1 = Some (SThread SIdle [(cut_a, reca)])) by (vm_compute; reflexivity).
  assert (A1 : at_restb (vend half_seen) = true) by (vm_compute; reflexivity).
  assert (A2 : all_activeb (vend half_seen) = true) by (vm_compute; reflexivity).
  assert (Z : exists l, in_set (Some (RecordSet [] [])) ((IPv4, cut_a), l)).
  { refine (H IPv4 true cut_top more_of 1%nat (vend half_seen) [(cut_a, reca)] n x _ R _ _ _ N M _ _ eq_refl eq_refl cut_a reca _ _ _ _).
    - now apply at_restb_ok.
    - now apply all_activeb_ok.
    - apply wf_pidb_spec. vm_compute. reflexivity.
    - now rewrite F2, C.
    - now rewrite F3, L.
    - now left.
    - reflexivity.
    - reflexivity.
    - apply coversb_ok. vm_compute. reflexivity. }
  destruct Z as (l & rs & l' & Z1 & Z2 & Z3). injection Z1 as <-. injection Z2 as <-. destruct Z3.
Qed.

(* and so does the iterator over all prefixes *)
Lemma weach_missing_refuted :
  ~ (forall f ov i x0 past0 n x g, store_reach f ov x0 -> at_rest x0 -> all_active x0 ->
    nth_error (sc_sts x0) i = Some (SThread SIdle past0) -> siterating f ov no_marks EachPrefix i x0 n x (ItEnd g) ->
    wc_called (sc_tree x) = wc_called (sc_tree x0) -> slog x = slog x0 ->
    forall c rc, In (c, rc) past0 -> 0 < p_len c -> exists l, In (ROk ((f, c), l)) g).
Proof.
  intros H.
  destruct (each_run EachPrefix 1 half_seen [QOwn 200]) as [[[n x] q]|] eqn:E.
  2:{ vm_compute in E. discriminate E. }
  assert (F : match each_run EachPrefix 1 half_seen [QOwn 200] with
    | Some (_, x, q) => q = ItEnd [] /\
        wc_called (sc_tree x) = [cut_a; cut_b] /\ slog x = [(0%nat, cut_a, OUp reca); (0%nat, cut_b, OUp recb)]
    | None => False end) by (vm_compute; auto).
  rewrite E in F. destruct F as (-> & F2 & F3).
  apply each_run_ok in E; [|vm_compute; reflexivity|vm_compute; reflexivity]. destruct E as (R & M).
  assert (C : wc_called (sc_tree (vend half_seen)) = [cut_a; cut_b]) by (vm_compute; reflexivity).
  assert (L : slog (vend half_seen) = [(0%nat, cut_a, OUp reca); (0%nat, cut_b, OUp recb)]) by (vm_compute; reflexivity).
  assert (N : nth_error (sc_sts (vend half_seen)) 1 = Some (SThread SIdle [(cut_a, reca)])) by (vm_compute; reflexivity).
  assert (A1 : at_restb (vend half_seen) = true) by (vm_compute; reflexivity).
  assert (A2 : all_activeb (vend half_seen) = true) by (vm_compute; reflexivity).
  destruct (H IPv4 true 1%nat (vend half_seen) [(cut_a, reca)] n x [] R (at_restb_ok _ A1) (all_activeb_ok _ A2) N M
    (eq_trans F2 (eq_sym C)) (eq_trans F3 (eq_sym L)) cut_a reca (or_introl eq_refl) eq_refl) as (l & Z).
  destruct Z.
Qed.
