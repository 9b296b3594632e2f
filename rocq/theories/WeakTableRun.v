(* The steps of WeakTable.v as a program, for the examples; and of two look-ups. *)
From Coq Require Import Arith NArith List Bool Lia.
From Verif Require Import Word Af BitSpan Maps ChtMath Cht Node Tree TreeProofs MultiMap PrefixCht Lsm Rib HistSpec
  Conc ConcTree ConcTreeProofs ConcStore ConcTable ConcSpec ConcFacts WeakTable WeakTableFacts.
Import ListNotations.
Local Open Scope N_scope.

Definition has_some {A} (o : option A) : bool := match o with Some _ => true | None => false end.
Definition cell_reachedb (v : heap pval) (k : key) : bool :=
  match rev (snd k) with
  | _ :: (a :: r) => has_some (lookup ((fst k, rev (a :: r)) : key) v)
  | _ => true
  end.
Definition cells_agreeb (f : af) (id : pid) (m v : heap pval) (q : ppc) : bool :=
  match q with
  | PGet _ => true
  | PInit w =>
    match hash_id f id (w_level w) with
    | Ok index => Bool.eqb (has_some (lookup (wkey w index) v)) (has_some (lookup (wkey w index) m))
    | _ => true
    end
  end.

Inductive aev : Type :=
| ESpawn
| EBegin (i : nat) (p : pid) (c : acall)
| ELearn (i : nat) (k : key)
| EStep (i : nat)   (* nothing, when the call has returned *)
| ERet (i : nat)
| ETold (i j : nat).

Definition with_at (x : aconf) (i : nat) (g : athread -> option (tmem * athread)) : option aconf :=
  match nth_error (ac_ths x) i with
  | Some t => match g t with Some (m, t') => Some (AConf m (set_nth i t' (ac_ths x))) | None => None end
  | None => None
  end.

Definition eplay1 (f : af) (x : aconf) (e : aev) : option aconf :=
  let m := ac_mem x in
  match e with
  | ESpawn => Some (AConf m (ac_ths x ++ [AThread [] None [] [] 0]))
  | EBegin i p c => with_at x i (fun t =>
      match at_run t with
      | None => if wf_pidb f p
                then Some (m, AThread (at_view t) (Some (p, c, abegin f p c)) (at_past t) (at_did t) 0) else None
      | Some _ => None
      end)
  | ELearn i k => with_at x i (fun t =>
      match lookup k (tm_heap m), lookup k (at_view t) with
      | Some e, None =>
        if cell_reachedb (at_view t) k
        then Some (m, AThread (update k (Entry (e_id e) pval_new (e_slots e)) (at_view t)) (at_run t) (at_past t) (at_did t) (at_steps t))
        else None
      | _, _ => None
      end)
  | EStep i =>
    with_at x i (fun t =>
      match at_run t with
      | Some (p, c, AWalk q) =>
        if cells_agreeb f p (tm_heap m) (at_view t) q
        then Some (TMem (walked f p (tm_heap m) q) (tm_log m),
                   AThread (walked f p (at_view t) q)
                     (Some (p, c, or_apanic (do x <- pstep f p (at_view t) q; Ok (after_walk c (snd x)))))
                     (at_past t) (at_did t) (S (at_steps t)))
        else None
      | Some (p, c, ALook w) =>
        Some (m, AThread (at_view t) (Some (p, c, or_apanic (alook f p (at_view t) w))) (at_past t) (at_did t) (S (at_steps t)))
      | Some (p, c, ACrit k found) =>
        match deref k (tm_heap m) with
        | Ok v =>
          let log := tm_log m ++ List.map (fun o => (i, p, o)) (op_of_call c) in
          Some (TMem (modify k (fun v => set_recs v (fst (acrit c found (pv_recs v)))) (tm_heap m)) log,
                AThread (at_view t) (Some (p, c, ADone (many p log) (snd (acrit c found (pv_recs v)))))
                  (at_past t) (at_did t) (S (at_steps t)))
        | _ => None
        end
      | _ => None
      end)
  | ERet i => with_at x i (fun t =>
      match at_run t with
      | Some (p, c, ADone n a) => Some (m, AThread (at_view t) None ((p, n) :: at_past t) (at_did t ++ effect p c a) 0)
      | _ => None
      end)
  | ETold i j =>
    match nth_error (ac_ths x) i, nth_error (ac_ths x) j with
    | Some ti, Some tj =>
      match at_run ti, at_run tj with
      | None, None => Some (AConf m (set_nth j (atold ti tj) (ac_ths x)))
      | _, _ => None
      end
    | _, _ => None
    end
  end.

Definition at_rest (x : aconf) (e : aev) : bool :=
  match e with
  | EStep i => match nth_error (ac_ths x) i with
               | Some t => match at_run t with Some (_, _, ADone _ _) => true | _ => false end
               | None => false end
  | _ => false
  end.
Fixpoint eplay (f : af) (x : aconf) (es : list aev) : option aconf :=
  match es with
  | [] => Some x
  | e :: es' =>
    if at_rest x e then eplay f x es'
    else match eplay1 f x e with Some y => eplay f y es' | None => None end
  end.
Definition erun (f : af) (es : list aev) : option aconf := eplay f (AConf (TMem [] []) []) es.
Definition esteps (i n : nat) : list aev := repeat (EStep i) n.

Lemma cell_reachedb_ok v k : cell_reachedb v k = true -> cell_reached v k.
Proof.
  intros H path i E N. unfold cell_reachedb in H. rewrite E, rev_unit in H.
  destruct path as [|a path]; [now elim N|].
  destruct (rev (a :: path)) as [|b r] eqn:R.
  - apply (f_equal (fun l => length l)) in R. rewrite rev_length in R. discriminate.
  - rewrite <- R, rev_involutive in H. now destruct (lookup ((fst k, a :: path) : key) v).
Qed.
Lemma cells_agreeb_ok f id m v q : cells_agreeb f id m v q = true -> cells_agree f id m v q.
Proof.
  destruct q as [w|w]; simpl; [easy|]. intros H ix E. rewrite E in H. apply eqb_prop in H.
  destruct (lookup (wkey w ix) v), (lookup (wkey w ix) m); try discriminate H; split; easy.
Qed.

Lemma with_at_ok f x i g y : with_at x i g = Some y ->
  (forall t m t', g t = Some (m, t') -> atstep f i (ac_mem x) t m t') -> acstep f x y.
Proof.
  unfold with_at. destruct (nth_error (ac_ths x) i) as [t|] eqn:E; [|discriminate].
  destruct (g t) as [[m t']|] eqn:G; [|discriminate]. intros H S. injection H as <-. destruct x as [m0 ts].
  eapply as_thread; eauto.
Qed.

Lemma eplay1_ok f x e y : eplay1 f x e = Some y -> acstep f x y.
Proof.
  destruct e as [|i p c|i k|i|i|i j]; cbn [eplay1]; intros H.
  - injection H as <-. destruct x. constructor.
  - apply (with_at_ok _ _ _ _ _ H). intros t m t'. destruct (at_run t) eqn:C; try discriminate.
    destruct (wf_pidb f p) eqn:W; [|discriminate]. intros Q. injection Q as <- <-. apply wf_pidb_spec in W. now constructor.
  - apply (with_at_ok _ _ _ _ _ H). intros t m t'.
    destruct (lookup k (tm_heap (ac_mem x))) as [e|] eqn:L; [|discriminate].
    destruct (lookup k (at_view t)) eqn:L'; [discriminate|]. destruct (cell_reachedb _ _) eqn:B; [|discriminate].
    intros Q. injection Q as <- <-. apply at_learn. apply kc_cell; auto using cell_reachedb_ok.
  - apply (with_at_ok _ _ _ _ _ H). intros t m t'.
    destruct (at_run t) as [[[p c] pc]|] eqn:C; [|discriminate]. destruct pc; try discriminate.
    + destruct (cells_agreeb _ _ _ _ _) eqn:A; [|discriminate]. intros Q. injection Q as <- <-.
      apply at_walk; auto using cells_agreeb_ok.
    + intros Q. injection Q as <- <-. now apply at_look.
    + destruct (deref k (tm_heap (ac_mem x))) as [v| |] eqn:D; try discriminate. intros Q. injection Q as <- <-.
      now apply at_crit.
  - apply (with_at_ok _ _ _ _ _ H). intros t m t'.
    destruct (at_run t) as [[[p c] pc]|] eqn:C; [|discriminate]. destruct pc; try discriminate.
    intros Q. injection Q as <- <-. now apply at_return.
  - destruct (nth_error (ac_ths x) i) as [ti|] eqn:Ni; [|discriminate].
    destruct (nth_error (ac_ths x) j) as [tj|] eqn:Nj; [|discriminate].
    destruct (at_run ti) eqn:Ci; try discriminate. destruct (at_run tj) eqn:Cj; try discriminate.
    injection H as <-. destruct x. eapply as_told; eauto.
Qed.

Lemma erun_ok f es x : erun f es = Some x -> areach f x.
Proof.
  unfold erun. assert (H : forall es y, areach f y -> eplay f y es = Some x -> areach f x).
  { clear es. induction es as [|e es IH]; intros y R E; simpl in E; [now injection E as <-|].
    destruct (at_rest y e); [now apply (IH y)|]. destruct (eplay1 f y e) as [z|] eqn:S; [|discriminate].
    apply (IH z); [|easy]. eapply ar_step; [exact R|]. eapply eplay1_ok; eauto. }
  apply H. constructor.
Qed.

(* ---------- of two look-ups ---------- *)

(* sequentially consistent memory, ConcStore.v: a look-up of the records of a
   prefix that begins after an insert has returned finds a record *)
Lemma conc_found_record f ov st x y i j p r ups a v : reach f ov st x -> st <> PersistOnly ->
  returned x i (CInsert p r ups) (RetIns a) -> sexec f ov x y -> begins_after x j ->
  returned y j (CRecords p None true) v -> v <> RetRecs None.
Proof.
  intros R S Ri E B Rj ->. destruct (conc_read f ov st x y j p None true _ R E B Rj) as (l1 & l2 & o & A1 & A2 & A3).
  injection A2 as <-. simpl in A3. specialize (A3 (r_mui r)).
  pose proof (proj1 (conc_no_lost_update f ov st x R S) i p r ups a Ri) as I.
  assert (K : lookup (r_mui r) (replay p (order x ++ l1)) <> None).
  { apply in_split in I. destruct I as (a1 & a2 & ->). rewrite <- app_assoc. simpl.
    change ((i, p, OUp r) :: a2 ++ l1) with ([(i, p, OUp r)] ++ (a2 ++ l1)). rewrite app_assoc. apply replay_keeps.
    rewrite replay_snoc, pid_eqb_refl. simpl. now rewrite lookup_update_same. }
  unfold seen_in in A3. simpl in A3. destruct (replay_rec p (r_mui r) (order x ++ l1)) as [L _]. rewrite L in K.
  destruct (rec_after p (r_mui r) (order x ++ l1)); [discriminate|easy].
Qed.

Lemma conc_one_of_two f ov st x1 x2 y i1 i2 j1 j2 p q r1 r2 ups1 ups2 a1 a2 v1 v2 :
  reach f ov st x1 -> reach f ov st x2 -> st <> PersistOnly ->
  sexec f ov x1 x2 \/ sexec f ov x2 x1 -> sexec f ov x1 y -> sexec f ov x2 y ->
  returned x1 i1 (CInsert p r1 ups1) (RetIns a1) -> begins_after x1 j1 -> returned y j1 (CRecords q None true) v1 ->
  returned x2 i2 (CInsert q r2 ups2) (RetIns a2) -> begins_after x2 j2 -> returned y j2 (CRecords p None true) v2 ->
  v1 <> RetRecs None \/ v2 <> RetRecs None.
Proof.
  intros R1 R2 S O E1 E2 I1 B1 V1 I2 B2 V2. destruct O as [O|O].
  - right. apply (conc_found_record f ov st x2 y i1 j2 p r1 ups1 a1 v2); auto. eapply returned_stays; eauto.
  - left. apply (conc_found_record f ov st x1 y i2 j1 q r2 ups2 a2 v1); auto. eapply returned_stays; eauto.
Qed.

Definition p10 : pid := (167772160, 8).
Definition p172 : pid := (2886729728, 12).
Definition reca : record := Rec 1 1 Active [1].
Definition recb : record := Rec 2 1 Active [2].
Definition upsert_and_look (i : nat) (p : pid) (r : record) (q : pid) : list aev :=
  [EBegin i p (AUp r)] ++ esteps i 70 ++ [ERet i; EBegin i q (ARead None true [])].

(* each of two threads inserts a prefix and then looks up that of the other *)
Definition both_miss : list aev :=
  [ESpawn; ESpawn] ++ upsert_and_look 0 p10 reca p172 ++ upsert_and_look 1 p172 recb p10 ++ esteps 0 70 ++ esteps 1 70.
Definition final (es : list aev) : aconf := match erun IPv4 es with Some x => x | None => AConf (TMem [] []) [] end.
Lemma final_ok es : has_some (erun IPv4 es) = true -> areach IPv4 (final es).
Proof.
  unfold final. destruct (erun IPv4 es) as [x|] eqn:E; [|discriminate]. intros _. exact (erun_ok _ _ _ E).
Qed.

Lemma weak_both_miss : exists x t0 t1, areach IPv4 x /\ ac_ths x = [t0; t1] /\
  at_did t0 = [(p10, OUp reca)] /\ at_did t1 = [(p172, OUp recb)] /\
  at_run t0 = Some (p172, ARead None true [], ADone 0 (RRead None)) /\
  at_run t1 = Some (p10, ARead None true [], ADone 0 (RRead None)).
Proof.
  exists (final both_miss). eexists. eexists. split; [apply final_ok; vm_compute; reflexivity|].
  split; [vm_compute; reflexivity|]. repeat split.
Qed.

Definition sees (i : nat) (p : pid) (ends : list aev) : list aev := [EBegin i p (ARead None true [])] ++ esteps i 70 ++ ends.
Definition cell (p : pid) : key := match walk_start IPv4 PSTRIDE p, hash_id IPv4 p 0 with
  | Ok w, Ok index => wkey w index | _, _ => (0, []) end.
(* two threads insert a prefix each; two others look both up and see them in
   opposite orders *)
Definition opposite : list aev :=
  [ESpawn; ESpawn; ESpawn; ESpawn; EBegin 0 p10 (AUp reca)] ++ esteps 0 70 ++ [EBegin 1 p172 (AUp recb)] ++ esteps 1 70 ++
  [ELearn 2 (cell p10); ELearn 3 (cell p172)] ++
  sees 2 p10 [ERet 2] ++ sees 2 p172 [] ++ sees 3 p172 [ERet 3] ++ sees 3 p10 [].
Lemma weak_opposite : exists x t0 t1 t2 t3, areach IPv4 x /\ ac_ths x = [t0; t1; t2; t3] /\
  tm_log (ac_mem x) = [(0%nat, p10, OUp reca); (1%nat, p172, OUp recb)] /\
  at_past t2 = [(p10, 1%nat)] /\ at_run t2 = Some (p172, ARead None true [], ADone 0 (RRead None)) /\
  at_past t3 = [(p172, 1%nat)] /\ at_run t3 = Some (p10, ARead None true [], ADone 0 (RRead None)).
Proof.
  exists (final opposite). eexists. eexists. eexists. eexists. split; [apply final_ok; vm_compute; reflexivity|].
  split; [vm_compute; reflexivity|]. repeat split.
Qed.
