(* On a weak memory, queries of a thread that knows that a mui was withdrawn. *)
From Coq Require Import Arith NArith List Bool Lia.
From Verif Require Import Word Af BitSpan Spec Maps ChtMath Cht Node Tree Iter MultiMap RecordSet PrefixCht Lsm Rib StarCast HistSpec
  Conc ConcTree ConcStore ConcTable ConcMarks ConcSpec ConcScan ConcWhole ConcQuery QuerySpec
  WeakTree WeakTable WeakTableFacts WeakTableRun WeakStore WeakStoreInv WeakStoreFacts WeakStoreRun WeakMatch WeakMatchInv WeakMatchFacts
  WeakPtr WeakPtrRace WeakPtrFacts WeakPtrRun WeakMatchRun.
Import ListNotations.
Local Open Scope N_scope.

(* s is what a load of the global marks gives to thread i, which knows of a mark of
   m that no opposite one has followed: a state of WeakPtr.v, any orderings *)
Definition load_after (i : nat) (wd : bool) (m : N) (s : nset) : Prop :=
  exists eqb o x t k j, pcreach apply_mark eqb o [] x /\ only_marks (order (c_mem x)) /\
    nth_error (c_ths x) i = Some t /\ p_pc t = PGave k s /\
    In (j, DidWrite (Updated (wd, m))) (p_past t) /\
    forall n, (j - 2 < n)%nat -> nth_error (order (c_mem x)) n <> Some (Updated (negb wd, m)).
Lemma load_after_ok i wd m s : load_after i wd m s -> mem m s = wd.
Proof. intros (eqb & o & x & t & k & j & R & O & N & P & I & L). exact (marks_seen _ _ _ _ _ _ _ _ _ _ R O N P I L). Qed.

(* the records that an answer shows *)
Definition shown (r : queryresult) (a : record) : Prop :=
  In a (qr_records r) \/
  exists rs l c v, (qr_less r = Some rs \/ qr_more r = Some rs) /\ rs_items rs = Ok l /\ In (c, v) l /\ In a v.

Lemma read_marked (B : nset -> Prop) past x c mui iw v m a : (forall b, B b -> mem m b = true) -> iw = true \/ mui = None ->
  read_of B past x c mui iw (Some v) -> In a v -> r_mui a = m -> iw = true /\ r_status a = Withdrawn.
Proof.
  intros HB HM (bmin & l1 & l2 & Bm & _ & _ & _ & _ & L) I E. apply L in I. rewrite E in I. unfold seen_with in I.
  rewrite (HB _ Bm) in I. destruct (named mui m); [|discriminate I]. destruct (rec_after c m l1) as [r|]; [|discriminate I].
  destruct iw; [injection I as <-; auto|]. destruct HM as [HM|HM]; [discriminate HM|]. subst mui. cbn in I.
  rewrite andb_false_r in I. discriminate I.
Qed.

Lemma wmatch_withdrawn f ov (B : nset -> Prop) p o i x0 n x r m : store_reach f ov x0 -> wf_pid f p ->
  (forall b, B b -> load_after i true m b) -> mo_withdrawn o = true \/ mo_mui o = None ->
  smatching f ov B p o i x0 n x (AtEnd (ROk r)) ->
  forall a, shown r a -> r_mui a = m -> mo_withdrawn o = true /\ r_status a = Withdrawn.
Proof.
  intros R Wp HB HM A a Sh E. destruct (asking_idle _ _ _ _ _ _ _ _ _ _ _ _ _ _ _ A) as (past0 & N0).
  assert (HB' : forall b, B b -> mem m b = true) by (intros b Bm; exact (load_after_ok i true m b (HB b Bm))).
  destruct Sh as [I|(rs & l & c & v & [Q|Q] & It & Ic & I)].
  - pose proof (wmatch_main f ov B p o i x0 past0 n x r R Wp N0 A) as M. destruct (qr_prefix r).
    + destruct M as (_ & _ & c & _ & _ & _ & _ & Rd & _). exact (read_marked _ _ _ _ _ _ _ _ _ HB' HM Rd I E).
    + destruct M as (_ & M). rewrite M in I. contradiction I.
  - pose proof (wmatch_less f ov B p o i x0 past0 n x r R Wp N0 A) as M. destruct (mo_less o); [|now rewrite M in Q].
    destruct M as (rs' & l' & Q' & It' & _ & M). rewrite Q in Q'. injection Q' as <-. rewrite It in It'. injection It' as <-.
    destruct (M _ _ Ic) as (c' & _ & _ & _ & _ & Rd & _). exact (read_marked _ _ _ _ _ _ _ _ _ HB' HM Rd I E).
  - pose proof (wmatch_more f ov B p o i x0 past0 n x r R Wp N0 A) as M. destruct (mo_more o); [|now rewrite M in Q].
    destruct M as (rs' & l' & Q' & It' & _ & M). rewrite Q in Q'. injection Q' as <-. rewrite It in It'. injection It' as <-.
    destruct (M _ _ Ic) as (c' & _ & _ & _ & _ & Rd & _). exact (read_marked _ _ _ _ _ _ _ _ _ HB' HM Rd I E).
Qed.

(* an iterator that asks for m by name, without withdrawn records, looks at the marks first *)
Lemma weach_stops f ov (B : nset -> Prop) k i x0 n x q m : (forall b, B b -> mem m b = true) -> each_asks k = Some m ->
  siterating f ov B k i x0 n x q -> (exists j, q = ItCheck m j) \/ q = ItEnd [].
Proof.
  intros HB As A. induction A as [past N|n t0 x y q A IH T S|n x q past t bmin A IH Ov Wt N Nt Bm|n x q past c bmin v A IH Wt N Bm].
  - left. unfold each_start. destruct k as [p [mu|] []|p mu iw| |mu []]; try discriminate As; injection As as ->; eauto.
  - exact IH.
  - right. destruct IH as [(j & ->)| ->]; [|discriminate Ov]. cbn [each_next].
    assert (M : rib_mui_is_withdrawn (rib_now (seeing (wt_view t) bmin) f) m = true) by (destruct f; exact (HB _ Bm)).
    now rewrite M.
  - destruct IH as [(j & ->)| ->]; discriminate Wt.
Qed.

Lemma weach_withdrawn f ov (B : nset -> Prop) k i x0 n x g m : store_reach f ov x0 -> wf_each f k ->
  (forall b, B b -> load_after i true m b) -> match k with EachLess _ (Some _) false => False | _ => True end ->
  siterating f ov B k i x0 n x (ItEnd g) ->
  forall c v a, In (ROk (c, v)) g -> In a v -> r_mui a = m -> each_iw k = true /\ r_status a = Withdrawn.
Proof.
  intros R Wk HB HM A c v a Ic I E. destruct (asking_idle _ _ _ _ _ _ _ _ _ _ _ _ _ _ _ A) as (past0 & N0).
  assert (HB' : forall b, B b -> mem m b = true) by (intros b Bm; exact (load_after_ok i true m b (HB b Bm))).
  destruct (weach_sound f ov B k i x0 past0 n x g R Wk N0 A) as (_ & S). destruct (S _ Ic) as (c' & w & l & Eq & _ & _ & _ & Rd & G & _).
  injection Eq as -> ->. assert (W : w = Some l).
  { unfold each_gives in G. destruct k; auto. destruct w; cbn in G; subst l; [auto|contradiction I]. }
  subst w.
  assert (D : each_iw k = true \/ each_mui k = None \/ exists mu, each_asks k = Some mu /\ each_mui k = Some mu /\ each_iw k = false).
  { destruct k as [p [mu|] []|p [mu|] []| |mu []]; cbn; auto; try contradiction HM; right; right; eauto. }
  destruct D as [D|[D|(mu & D1 & D2 & D3)]]; [exact (read_marked _ _ _ _ _ _ _ _ _ HB' (or_introl D) Rd I E)|
    exact (read_marked _ _ _ _ _ _ _ _ _ HB' (or_intror D) Rd I E)|].
  destruct (N.eq_dec mu m) as [->|D4].
  - destruct (weach_stops f ov B k i x0 n x _ m HB' D1 A) as [(j & Q)|Q]; [discriminate Q|]. injection Q as ->. contradiction Ic.
  - destruct Rd as (bmin & l1 & l2 & _ & _ & _ & _ & _ & L). apply L in I. rewrite D2, E in I. unfold seen_with, named in I.
    destruct (N.eqb_spec mu m) as [X|_]; [now elim D4|discriminate I].
Qed.

(* ---------- asking by name, without withdrawn records ---------- *)

Definition pdoes (i : nat) (p : ppc nset gcall) (ks : list nat) : list (pev (A := nset) (F := gcall)) :=
  PDoes i (PBegin p) :: List.map (fun k => PDoes i (PGo k)) ks.
(* thread 0 withdraws mui 1 and tells thread 1, which loads the marks *)
Definition knows_mark : list (pev (A := nset) (F := gcall)) :=
  [PSpawn; PSpawn] ++ pdoes 0 (PUpd0 (true, 1)) [1; 1; 0]%nat ++ [PSync 0 1] ++ pdoes 1 PRead0 [2; 1]%nat.
Definition with_mark : pconf nset gcall :=
  match pcrun apply_mark (fun _ _ => false) [] code_pords knows_mark with Some x => x | None => PConf (pmem0 []) [] end.
Lemma with_mark_load : load_after 1 true 1 [1].
Proof.
  exists (fun _ _ => false), code_pords, with_mark.
  assert (T : option_map (fun t => (p_pc t, p_past t)) (nth_error (c_ths with_mark) 1) =
    Some (PGave 2 [1], [(2%nat, DidWrite (Updated (true, 1)))])) by (vm_compute; reflexivity).
  destruct (nth_error (c_ths with_mark) 1) as [t|] eqn:N; [|discriminate T]. injection T as T1 T2.
  assert (O : order (c_mem with_mark) = [Updated (true, 1)]) by (vm_compute; reflexivity).
  exists t, 2%nat, 2%nat. split; [apply pcrun_ok with knows_mark; vm_compute; reflexivity|]. rewrite O. split.
  { intros b [<-|[]]. eauto. }
  split; [reflexivity|]. split; [exact T1|]. split; [rewrite T2; now left|]. intros [|n] L; [lia|]. cbn. destruct n; discriminate.
Qed.

(* 8.0.0.0/6 with a record of mui 1, 10.0.0.0/8 with one of mui 2 and one of mui 1 *)
Definition two_known : list vev :=
  [VSpawn; VSpawn; VLock p8; VLock p10] ++ vinsert 0 p8 reca ++ vinsert 0 p10 recb ++ vinsert 0 p10 reca ++ [VTold 0 1].
Definition of_mui (m : N) (iw : bool) : matchopts := MatchOpts ExactMatch iw false false (Some m) false.

Lemma wnamed_withdrawn_refuted :
  ~ (forall f ov (B : nset -> Prop) p o i x0 n x r m, store_reach f ov x0 -> wf_pid f p ->
    (forall b, B b -> load_after i true m b) -> smatching f ov B p o i x0 n x (AtEnd (ROk r)) ->
    forall a, shown r a -> r_mui a = m -> mo_withdrawn o = true /\ r_status a = Withdrawn).
Proof.
  intros H.
  destruct (match_marked [1] p8 (of_mui 1 false) 1 two_known asks_once) as [[[n x] q]|] eqn:E.
  2:{ vm_compute in E. discriminate E. }
  assert (F : match match_marked [1] p8 (of_mui 1 false) 1 two_known asks_once with
    | Some (_, x, q) => q = AtEnd (ROk (QueryResult ExactMatch (Some (IPv4, p8)) [reca] None None))
    | None => False end) by (vm_compute; auto).
  rewrite E in F. subst q. apply match_marked_ok in E; [|vm_compute; reflexivity|vm_compute; reflexivity]. destruct E as (R & M).
  assert (W : wf_pid IPv4 p8) by (apply wf_pidb_spec; vm_compute; reflexivity).
  assert (L : forall b, b = [1] -> load_after 1 true 1 b) by (intros b ->; exact with_mark_load).
  destruct (H IPv4 true (fun b => b = [1]) p8 (of_mui 1 false) 1%nat (vend two_known) n x _ 1 R W L M reca (or_introl (or_introl eq_refl)) eq_refl) as (Z & _).
  discriminate Z.
Qed.

(* the less specifics *)
Lemma weach_named_withdrawn_refuted :
  ~ (forall f ov (B : nset -> Prop) k i x0 n x g m, store_reach f ov x0 -> wf_each f k ->
    (forall b, B b -> load_after i true m b) -> siterating f ov B k i x0 n x (ItEnd g) ->
    forall c v a, In (ROk (c, v)) g -> In a v -> r_mui a = m -> each_iw k = true /\ r_status a = Withdrawn).
Proof.
  intros H.
  destruct (each_marked [1] (EachLess p10 (Some 1) false) 1 two_known asks_once) as [[[n x] q]|] eqn:E.
  2:{ vm_compute in E. discriminate E. }
  assert (F : match each_marked [1] (EachLess p10 (Some 1) false) 1 two_known asks_once with
    | Some (_, x, q) => q = ItEnd [ROk ((IPv4, p8), [reca])]
    | None => False end) by (vm_compute; auto).
  rewrite E in F. subst q. apply each_marked_ok in E; [|vm_compute; reflexivity|vm_compute; reflexivity]. destruct E as (R & M).
  assert (W : wf_each IPv4 (EachLess p10 (Some 1) false)).
  { split; [vm_compute; reflexivity|]. apply wf_pidb_spec; vm_compute; reflexivity. }
  assert (L : forall b, b = [1] -> load_after 1 true 1 b) by (intros b ->; exact with_mark_load).
  destruct (H IPv4 true (fun b => b = [1]) (EachLess p10 (Some 1) false) 1%nat (vend two_known) n x _ 1 R W L M _ _ reca
    (or_introl eq_refl) (or_introl eq_refl) eq_refl) as (Z & _).
  discriminate Z.
Qed.
