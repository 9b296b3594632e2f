(* The invariant of the store while any number of calls are under way. *)
From Coq Require Import Arith NArith List Bool Lia.
From Verif Require Import Word Af BitSpan Maps ChtMath Cht Node Tree ChainProofs TreeProofs
  MultiMap PrefixCht PrefixChtProofs Lsm LsmProofs Rib Conc ConcTree ConcTreeProofs ConcTreeInv
  ConcTreeStep ConcTreeEnd ConcTreeSeen ConcStore ConcTable.
Import ListNotations.
Local Open Scope N_scope.

Definition tids (log : list (nat * pid * recop)) : list nat := List.map (fun e => fst (fst e)) log.

(* the critical section a call runs *)
Definition op_call (c : scall) (p : pid) (o : recop) : Prop :=
  match c with
  | CInsert q r _ => q = p /\ o = OUp r
  | CMark s q m t => q = p /\ o = OMark s m t
  | _ => False
  end.

Definition insp (cs : list scall) (p : pid) : Prop :=
  exists i r ups, nth_error cs i = Some (CInsert p r ups).

Definition on_disk (s : sstate) (k : bytes) : Prop :=
  exists l v, rb_lsm (ss_rib s) = Some l /\ In (k, v) l.

Definition stree (s : sstate) : tree := rb_tree (ss_rib s).

(* what every step guarantees *)
Definition sR (s s' : sstate) : Prop :=
  tR (stree s) (stree s') /\ grows (pheap s) (pheap s') /\
  (exists l, ss_log s' = ss_log s ++ l) /\
  (forall k, on_disk s k -> on_disk s' k) /\
  incl (ss_made s) (ss_made s') /\ incl (ss_counted s) (ss_counted s').

Lemma sR_refl s : sR s s.
Proof.
  split; [apply tR_refl|]. split; [apply grows_refl|]. split; [exists []; now rewrite app_nil_r|].
  split; [auto|]. split; apply incl_refl.
Qed.
Lemma sR_trans a b c : sR a b -> sR b c -> sR a c.
Proof.
  intros (A1 & A2 & (l & A3) & A4 & A5 & A6) (B1 & B2 & (l' & B3) & B4 & B5 & B6).
  split; [eapply tR_trans; eauto|]. split; [eapply grows_trans; eauto|].
  split; [exists (l ++ l'); now rewrite B3, A3, app_assoc|]. split; [auto|].
  split; eapply incl_tran; eauto.
Qed.

(* what a step of thread i leaves alone *)
Definition sO (i : nat) (s s' : sstate) : Prop :=
  forall j, j <> i ->
    (In j (tids (ss_log s')) <-> In j (tids (ss_log s))) /\
    (In j (ss_made s') <-> In j (ss_made s)) /\
    (In j (ss_counted s') <-> In j (ss_counted s)).

Section Inv.
Variable f : af.
Variable ov : bool.
Variable st : strategy.
(* a point in time: the state then and the number of calls begun by then *)
Variable n0 : nat.
Variable s0 : sstate.

Definition lkey (p : pid) (r : record) : bytes := long_key f p (r_mui r) (r_ltime r) (r_status r).

Record sG (s : sstate) (cs : list scall) : Prop := {
  g_legal : Forall (slegal f) cs;
  g_strat : rb_strat (ss_rib s) = st;
  g_lsm : rb_lsm (ss_rib s) = None -> st = MemoryOnly;
  g_kv : forall l, rb_lsm (ss_rib s) = Some l -> kv_ok l;
  g_tree : tG f (insp cs) (stree s);
  g_table : pinv f (pheap s);
  g_recs : forall id, match pfxs f (pheap s) id with
                      | Some v => pv_recs v = replay id (ss_log s)
                      | None => ops_of id (ss_log s) = []
                      end;
  g_tids : NoDup (tids (ss_log s));
  g_log : forall i p o, In (i, p, o) (ss_log s) -> exists c, nth_error cs i = Some c /\ op_call c p o;
  g_ahead : st = WriteAhead -> forall i p r, In (i, p, OUp r) (ss_log s) -> on_disk s (lkey p r);
  g_only : st = WriteAhead -> forall l k v, rb_lsm (ss_rib s) = Some l -> In (k, v) l ->
    exists i p r ups, nth_error cs i = Some (CInsert p r ups) /\ k = lkey p r /\ v = r_meta r;
  g_made : forall i, In i (ss_made s) -> exists p r ups, nth_error cs i = Some (CInsert p r ups);
  g_present : forall q, wf_pid f q -> present f (stree s) q = true ->
    exists i r ups, In i (ss_made s) /\ nth_error cs i = Some (CInsert q r ups);
  g_counted : forall i, In i (ss_counted s) -> exists p r ups, nth_error cs i = Some (CInsert p r ups);
  g_counted_nd : NoDup (ss_counted s);
  g_cnt_len : length (c_prefixes (rb_cnt (ss_rib s))) = 129%nat;
  g_cnt : sumN (c_prefixes (rb_cnt (ss_rib s))) = N.of_nat (length (ss_counted s));
  g_since : sR s0 s;
  g_then : ninv f (t_heap (stree s0)) /\ pinv f (pheap s0)
}.

Definition fresh (i : nat) : Prop := (n0 <= i)%nat.
(* the prefix was present, its entry in the table existed, at that point in time *)
Definition there (p : pid) : Prop := present f (stree s0) p = true.
Definition entry0 (p : pid) : Prop := pfxs f (pheap s0) p <> None.

(* thread i has run the critical section o, after those of l1 *)
Definition cs_at (s : sstate) (i : nat) (p : pid) (o : recop) (l1 : list (nat * pid * recop)) : Prop :=
  exists l2, ss_log s = l1 ++ (i, p, o) :: l2.
Definition upserted (s : sstate) (i : nat) (p : pid) (r : record) (o : option (mmval * N)) : Prop :=
  exists l1, cs_at s i p (OUp r) l1 /\ o = snd (upsert_record (replay p l1) r).
Definition logged (s : sstate) (i : nat) : Prop := In i (tids (ss_log s)).

Definition live (t : tpc) : Prop := match t with TDone _ | TPanic => False | _ => True end.

(* after the first set_prefix_exists *)
Definition pre (s : sstate) (i : nat) (p : pid) (b : N * bool) : Prop :=
  inserted f (stree s) p /\ (In i (ss_made s) -> snd b = false) /\ ~ In i (ss_counted s) /\
  (fresh i -> there p -> snd b = true).

(* what is stored once the record has been taken care of *)
Definition cnt_of (o : option (mmval * N)) (rep : report) : Prop :=
  rp_mui_count rep = match o with Some (_, n) => n | None => 1 end.
Definition kept (s : sstate) (i : nat) (p : pid) (r : record) (rep : report) : Prop :=
  match st with
  | PersistOnly => on_disk s (short_key f p (r_mui r))
  | PersistHistory => exists o, upserted s i p r o /\ cnt_of o rep /\
      forall old n, o = Some (old, n) -> on_disk s (lkey p (record_of (r_mui r) old))
  | _ => exists o, upserted s i p r o /\ cnt_of o rep
  end.

Definition newok (i : nat) (p : pid) (rep : report) : Prop :=
  st <> PersistOnly -> fresh i -> entry0 p -> rp_prefix_new rep = false.

Definition iI (s : sstate) (i : nat) (p : pid) (r : record) (ups : option tbi) (pc : ipc) : Prop :=
  match pc with
  | ITree t =>
    tI f ov p (stree s) t /\ live t /\ (In i (ss_made s) <-> made t) /\ ~ logged s i /\
    ~ In i (ss_counted s) /\ (fresh i -> there p -> may_make t = false)
  | IAhead b => st = WriteAhead /\ pre s i p b /\ ~ logged s i
  | IWalk b q =>
    st <> PersistOnly /\ pre s i p b /\ ~ logged s i /\ (st = WriteAhead -> on_disk s (lkey p r)) /\
    pI f (pheap s) p q /\ (fresh i -> entry0 p -> is_get q = true)
  | IOutdate b k =>
    st <> PersistOnly /\ pre s i p b /\ ~ logged s i /\ (st = WriteAhead -> on_disk s (lkey p r)) /\
    at_id (pheap s) k p
  | IUpsert b k found =>
    st <> PersistOnly /\ pre s i p b /\ ~ logged s i /\ (st = WriteAhead -> on_disk s (lkey p r)) /\
    at_id (pheap s) k p /\ (fresh i -> entry0 p -> found = true)
  | IRoute b k found =>
    st <> PersistOnly /\ pre s i p b /\ at_id (pheap s) k p /\ upserted s i p r None /\
    (fresh i -> entry0 p -> found = true)
  | IPrefix b =>
    st <> PersistOnly /\ pre s i p b /\ upserted s i p r None /\ (fresh i -> ~ entry0 p)
  | IBest b k o | ILoadSel b k o _ | ICasSel b k o _ _ =>
    st <> PersistOnly /\ pre s i p b /\ at_id (pheap s) k p /\ upserted s i p r o /\ ups <> None
  | IHist b rep old =>
    st = PersistHistory /\ pre s i p b /\ (exists n, upserted s i p r (Some (old, n)) /\ cnt_of (Some (old, n)) rep) /\
    newok i p rep
  | ITree2 b t => st = PersistOnly /\ pre s i p b /\ tI f ov p (stree s) t /\ live t
  | IShort b b2 => st = PersistOnly /\ pre s i p b
  | IRibRoute b rep => pre s i p b /\ kept s i p r rep /\ newok i p rep
  | IRibPrefix b rep => pre s i p b /\ kept s i p r rep /\ snd b = false
  | IDone (ROk rep) =>
    inserted f (stree s) p /\ kept s i p r rep /\
    (In i (ss_made s) -> In i (ss_counted s)) /\
    (In i (ss_counted s) -> rp_prefix_new rep = true) /\
    (fresh i -> there p -> ~ In i (ss_counted s)) /\
    (st <> PersistOnly -> fresh i -> there p -> entry0 p -> rp_prefix_new rep = false)
  | IDone (RErr e) =>
    e = PathSelectionOutdated /\ ups <> None /\ st <> PersistOnly /\ inserted f (stree s) p /\
    ~ In i (ss_counted s) /\ exists o, upserted s i p r o
  | IPanic => ~ acc_safe ov p
  end.

Definition kI (s : sstate) (i : nat) (sm : status) (p : pid) (mui ltime : N) (pc : kpc) : Prop :=
  match pc with
  | KStart => ~ logged s i
  | KWalk q => st <> PersistOnly /\ ~ logged s i /\ pI f (pheap s) p q /\
      (fresh i -> entry0 p -> is_get q = true)
  | KMark k => st <> PersistOnly /\ ~ logged s i /\ at_id (pheap s) k p
  | KGet k => st = PersistHistory /\ at_id (pheap s) k p /\
      exists l1, cs_at s i p (OMark sm mui ltime) l1
  | KEmpty => st = PersistHistory /\ exists l1, cs_at s i p (OMark sm mui ltime) l1
  | KRewrite _ => st = PersistOnly
  | KDone (ROk _) => st <> PersistOnly -> exists l1, cs_at s i p (OMark sm mui ltime) l1 /\
      (st = PersistHistory -> lookup mui (replay p l1) <> None ->
         on_disk s (long_key f p mui ltime Withdrawn))
  | KDone (RErr e) => st <> PersistOnly -> e = no_entry st sm /\ ~ logged s i /\ (fresh i -> ~ entry0 p)
  | KPanic => False
  end.

Definition vI (s : sstate) (i : nat) (p : pid) (mui : option N) (iw : bool) (pc : gpc) : Prop :=
  match pc with
  | VStart => True
  | VGet w => walk_ok PSTRIDE f (pheap s) p w
  | VRead k => at_id (pheap s) k p
  | VDone o => exists l1 l2, ss_log s = l1 ++ l2 /\
      (fresh i -> exists l3, l1 = ss_log s0 ++ l3) /\
      o = get_filtered_records (replay p l1) mui iw (t_withdrawn (stree s))
  | VPanic => False
  end.

Definition sI (s : sstate) (cs : list scall) (i : nat) (c : scall) (l : cpc) : Prop :=
  match c, l with
  | CInsert p r ups, LIns pc => iI s i p r ups pc
  | CMark sm p mui ltime, LMark pc => kI s i sm p mui ltime pc
  | CContains p, LHas pc =>
    xI f p (Nat.leb n0 i && stored f (t_heap (stree s0)) p) (t_heap (stree s)) pc
  | CRecords p mui iw, LVal pc => vI s i p mui iw pc
  | _, _ => False
  end.

(* ---------- what other threads leave standing ---------- *)

Lemma cs_at_R s s' i p o l1 : sR s s' -> cs_at s i p o l1 -> cs_at s' i p o l1.
Proof.
  intros (_ & _ & (l & E) & _) (l2 & E2). exists (l2 ++ l). now rewrite E, E2, <- app_assoc.
Qed.
Lemma upserted_R s s' i p r o : sR s s' -> upserted s i p r o -> upserted s' i p r o.
Proof. intros R (l1 & A & B). exists l1. split; [eapply cs_at_R; eauto|easy]. Qed.
Lemma cs_at_logged s i p o l1 : cs_at s i p o l1 -> logged s i.
Proof.
  intros (l2 & E). unfold logged, tids. rewrite E, map_app. apply in_or_app. right. now left.
Qed.

Lemma kept_R s s' i p r rep : sR s s' -> kept s i p r rep -> kept s' i p r rep.
Proof.
  intros R. pose proof R as (_ & _ & _ & D & _). unfold kept. destruct st; auto.
  - intros (o & A & B). exists o. split; [eapply upserted_R; eauto|easy].
  - intros (o & A & B & C). exists o. split; [eapply upserted_R; eauto|]. eauto.
  - intros (o & A & B). exists o. split; [eapply upserted_R; eauto|easy].
Qed.

Lemma sG_ninv s cs : sG s cs -> ninv f (t_heap (stree s)).
Proof. intros G. exact (g_cht _ _ _ (proj1 (g_tree _ _ G))). Qed.

Lemma pre_O s s' cs cs' i p b : sG s cs -> sG s' cs' -> sR s s' ->
  (In i (ss_made s') -> In i (ss_made s)) -> (In i (ss_counted s') -> In i (ss_counted s)) ->
  pre s i p b -> pre s' i p b.
Proof.
  intros G G' R M K (A & B & D & E). split; [|split; [auto|split; [auto|easy]]].
  apply (inserted_R f (stree s)); eauto using sG_ninv. apply R.
Qed.

Lemma sI_stable s s' cs i j c l : i <> j -> sG s cs -> sG s' cs -> sR s s' -> sO j s s' ->
  sI s cs i c l -> sI s' cs i c l.
Proof.
  intros NE G G' R O. destruct (O i NE) as (OL & OM & OC).
  pose proof (sG_ninv _ _ G) as NI. pose proof (sG_ninv _ _ G') as NI'.
  pose proof R as (RT & RG & RL & RD & RM & RC).
  assert (L : ~ logged s i -> ~ logged s' i) by (unfold logged; tauto).
  assert (PR : forall p b, pre s i p b -> pre s' i p b).
  { intros p b. eapply pre_O; eauto; tauto. }
  assert (IN : forall p, inserted f (stree s) p -> inserted f (stree s') p).
  { intros p. now apply inserted_R. }
  assert (KP : forall p r rep, kept s i p r rep -> kept s' i p r rep) by (intros; eapply kept_R; eauto).
  assert (UP : forall p r o, upserted s i p r o -> upserted s' i p r o)
    by (intros; eapply upserted_R; eauto).
  assert (AT : forall k p, at_id (pheap s) k p -> at_id (pheap s') k p)
    by (intros; eapply at_id_grows; eauto).
  assert (CA : forall p o l1, cs_at s i p o l1 -> cs_at s' i p o l1)
    by (intros; eapply cs_at_R; eauto).
  assert (PI : forall p q, pI f (pheap s) p q -> pI f (pheap s') p q)
    by (intros; eapply pI_grows; eauto).
  destruct c as [p r ups|sm p mui lt|p|p mui iw], l as [pc|pc|pc|pc]; simpl; auto.
  - destruct pc; simpl.
    + intros (A1 & A2 & A3 & A4 & A5 & A6). split; [now apply (tI_R f ov p (stree s))|].
      repeat (split; try tauto).
    + intuition.
    + intuition.
    + intuition.
    + intuition.
    + intuition.
    + intuition.
    + intuition.
    + intuition.
    + intuition.
    + intros (A1 & A2 & (n & A3 & A5) & A4). repeat (split; auto). eauto.
    + intros (A1 & A2 & A3 & A4). split; [easy|]. split; [auto|]. split; [|easy].
      now apply (tI_R f ov p (stree s)).
    + intuition.
    + intuition.
    + intuition.
    + destruct r0 as [rep|e].
      * intros (A1 & A2 & A3 & A4 & A5 & A6). split; [auto|]. split; [auto|].
        split; [tauto|]. split; [tauto|]. split; [tauto|easy].
      * intros (A1 & A2 & A3 & A4 & A5 & (o & A6)). split; [easy|]. split; [easy|]. split; [easy|].
        split; [auto|]. split; [tauto|]. eauto.
    + auto.
  - destruct pc; simpl; auto.
    + intuition.
    + intuition.
    + intros (A1 & A2 & (l1 & A3)). repeat (split; auto). eauto.
    + intros (A1 & (l1 & A3)). repeat (split; auto). eauto.
    + destruct r as [u|e].
      * intros A N. destruct (A N) as (l1 & A1 & A2). exists l1. split; auto.
      * intuition.
  - now apply (xI_hle f p _ (t_heap (stree s))), RT.
  - destruct pc; simpl; auto.
    + eauto using walk_ok_grows.
    + intros (l1 & l2 & A1 & A2 & A3). destruct RL as (l3 & RL). exists l1, (l2 ++ l3).
      split; [now rewrite RL, A1, <- app_assoc|]. split; [easy|].
      destruct RT as (_ & _ & _ & ->). easy.
Qed.

Lemma insp_mono cs c p : insp cs p -> insp (cs ++ [c]) p.
Proof.
  intros (i & r & u & E). exists i, r, u. rewrite nth_error_app1; [easy|]. eapply nth_some_lt; eauto.
Qed.
Lemma nth_mono {A} (cs : list A) c i x : nth_error cs i = Some x -> nth_error (cs ++ [c]) i = Some x.
Proof. intros E. rewrite nth_error_app1; [easy|]. eapply nth_some_lt; eauto. Qed.

Lemma sG_call s cs c : slegal f c -> sG s cs -> sG s (cs ++ [c]).
Proof.
  intros L [A B D E F G H I J K M N O P Q U V X Y]. constructor; auto.
  - apply Forall_app. split; [easy|]. constructor; auto.
  - eapply tG_mono; [|exact F]. intros p. apply insp_mono.
  - intros i p o In1. destruct (J _ _ _ In1) as (c0 & E1 & E2). exists c0. eauto using nth_mono.
  - intros W l k v L1 I1. destruct (M W l k v L1 I1) as (i & p & r & u & X1 & X2).
    exists i, p, r, u. eauto using nth_mono.
  - intros i I1. destruct (N _ I1) as (p & r & u & X1). exists p, r, u. eauto using nth_mono.
  - intros q W1 P1. destruct (O _ W1 P1) as (i & r & u & X1 & X2).
    exists i, r, u. eauto using nth_mono.
  - intros i I1. destruct (P _ I1) as (p & r & u & X1). exists p, r, u. eauto using nth_mono.
Qed.

(* a thread that has not begun has left no trace *)
Lemma not_begun s cs : sG s cs -> ~ logged s (length cs) /\ ~ In (length cs) (ss_made s) /\
  ~ In (length cs) (ss_counted s).
Proof.
  intros G. split; [|split]; intros H.
  - unfold logged, tids in H. apply in_map_iff in H. destruct H as ([[i p] o] & E & H). simpl in E.
    subst i. destruct (g_log _ _ G _ _ _ H) as (c & E & _). apply nth_some_lt in E. lia.
  - destruct (g_made _ _ G _ H) as (p & r & u & E). apply nth_some_lt in E. lia.
  - destruct (g_counted _ _ G _ H) as (p & r & u & E). apply nth_some_lt in E. lia.
Qed.

Lemma sI_start s cs c : slegal f c -> sG s cs -> sI s (cs ++ [c]) (length cs) c (cstart c).
Proof.
  intros L G. destruct (not_begun s cs G) as (A & B & D).
  destruct c; simpl; auto; try tauto.
  split; [|easy]. intros X. apply andb_true_iff in X. destruct X as [_ X].
  pose proof (g_since _ _ G) as (RT & _).
  apply (stored_hle f (t_heap (stree s0))); auto; [apply (g_then _ _ G)|now apply (sG_ninv s cs)|apply RT].
Qed.

(* the same invariant with the present as the point in time *)
Lemma there_now s cs p : sG s cs -> there p -> present f (stree s) p = true.
Proof.
  intros G. pose proof (g_since _ _ G) as ((H & D & _) & _). unfold there, present.
  destruct (p_len p =? 0); [auto|]. apply stored_hle; auto; [apply (g_then _ _ G)|now apply (sG_ninv s cs)].
Qed.
Lemma entry_now s cs p : sG s cs -> entry0 p -> pfxs f (pheap s) p <> None.
Proof.
  intros G. pose proof (g_since _ _ G) as (_ & RG & _). unfold entry0.
  apply pfxs_grows; auto; [apply (g_then _ _ G)|apply (g_table _ _ G)].
Qed.

End Inv.

Lemma rebase f ov st n0 s0 s cs n : sG f st s0 s cs -> (length cs <= n)%nat ->
  sG f st s s cs /\ forall i c l, (i < length cs)%nat -> sI f ov st n0 s0 s cs i c l ->
    sI f ov st n s s cs i c l.
Proof.
  intros G Le. split.
  - destruct G as [A B D E F G H I J K M N O P Q U V X Y]. constructor; auto.
    + apply sR_refl.
    + split; [|easy]. exact (g_cht _ _ _ (proj1 F)).
  - intros i c l Li. assert (NF : ~ fresh n i) by (unfold fresh; lia).
    assert (PR : forall p b, pre f n0 s0 s i p b -> pre f n s s i p b).
    { intros p b (A1 & A2 & A3 & A4). repeat (split; auto); intros; now destruct NF. }
    assert (NW : forall p rep, newok f st n0 s0 i p rep -> newok f st n s i p rep).
    { intros p rep _ _ X. now destruct NF. }
    destruct c as [p r ups|sm p mui lt|p|p mui iw], l as [pc|pc|pc|pc]; simpl; auto.
    + destruct pc; simpl; auto; try (intros X; decompose [and] X; clear X; repeat (split; auto); intros; now destruct NF).
      * destruct r0; [|easy]. intros (A1 & A2 & A3 & A4 & A5 & A6). repeat (split; auto); intros; now destruct NF.
    + destruct pc; simpl; auto; try (intros X; decompose [and] X; clear X; repeat (split; auto); intros; now destruct NF).
      * destruct r; auto. intros A N. destruct (A N) as (A1 & A2 & A3). repeat (split; auto); intros; now destruct NF.
    + unfold fresh in NF. replace (Nat.leb n i) with false by (symmetry; apply Nat.leb_gt; lia).
      intros [A B]. split; [easy|]. destruct pc; auto. destruct B as [B1 B2]. split; [easy|auto].
    + destruct pc; simpl; auto. intros (l1 & l2 & A1 & A2 & A3). exists l1, l2.
      split; [easy|]. split; [|easy]. intros X. now destruct NF.
Qed.
