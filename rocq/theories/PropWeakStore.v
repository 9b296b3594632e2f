(* Properties of one family of the store on a weak memory, the tree and the table together. *)
From Coq Require Import Arith NArith List Bool Lia.
From Verif Require Import Word Af BitSpan Maps Cht Node Tree MultiMap PrefixCht HistSpec
  Conc ConcTree ConcStore ConcTable ConcSpec WeakTree WeakTreeRun WeakTable WeakTableFacts WeakTableRun
  WeakStore WeakStoreInv WeakStoreFacts WeakStoreRun.
Import ListNotations.
Local Open Scope N_scope.

(* thread 0 has inserted 172.16.0.0/12 and then 10.0.0.0/8 *)
Definition two_in : list vev := one_done ++ vinsert 0 p10 reca.
(* it tells thread 1, which marks a record, asks for all of 10.0.0.0/8 and then looks for 172.16.0.0/12 *)
Definition told_of : list vev := two_in ++ [VTold 0 1; VOne 1 p10 (AMark Withdrawn 1 7)] ++ vsteps 1 90 ++
  [VRet 1; VOne 1 p10 (ARead None true [])] ++ vsteps 1 90.
Definition then_has : list vev := told_of ++ [VRet 1; VHas 1 p172] ++ vsteps 1 9.
(* it tells nobody; thread 1 comes upon the cell of 10.0.0.0/8 in the table and asks for its records, *)
Definition cell_seen : list vev := two_in ++ [VTab 1 (cell p10); VOne 1 p10 (ARead None true [])] ++ vsteps 1 90.
(* and then looks for 172.16.0.0/12 in the tree, and asks for its records *)
Definition cell_has : list vev := cell_seen ++ [VRet 1; VHas 1 p172] ++ vsteps 1 9.
Definition cell_reads : list vev := cell_has ++ [VRet 1; VOne 1 p172 (ARead None true [])] ++ vsteps 1 90.
Definition pcs_of (es : list vev) : list store_pc := List.map st_pc (sc_sts (vend es)).
Definition calls_in (es : list vev) : list wcall := List.map wt_call (wc_ths (sc_tree (vend es))).
Definition locks : list store_pc := [SLock p10; SLock p172].
(* ---------- C100: on a weak memory every call on the store takes all inserts into account that happened before it ---------- *)

(* contains *)
Theorem C100_contains : forall f ov x i past t p b,
  store_reach f ov x -> nth_error (sc_sts x) i = Some (SThread (SHas p) past) ->
  nth_error (wc_ths (sc_tree x)) i = Some t -> wt_call t = WHas p (XDone b) ->
  (b = true -> In p (wc_called (sc_tree x))) /\
  (forall r, In (p, r) past -> 0 < p_len p -> b = true).
Proof. exact store_contains. Qed.
Print Assumptions C100_contains.

(* an insert of a prefix that is known does not say that it is new *)
Theorem C100_existed : forall f ov x i past t p r mui rc existed r',
  store_reach f ov x ->
  nth_error (sc_sts x) i = Some (SThread (SIns p r) past) -> nth_error (wc_ths (sc_tree x)) i = Some t ->
  wt_call t = WIns p mui (TDone (ROk (rc, existed))) -> In (p, r') past -> existed = true.
Proof. exact store_existed. Qed.
Print Assumptions C100_existed.

(* the records of a prefix are those after the first so many critical sections, among them those of all inserts that happened before *)
Theorem C100_read : forall f ov x i past p mui iw bmin a,
  store_reach f ov x ->
  nth_error (sc_sts x) i = Some (SThread (SRet p (ARead mui iw bmin) a) past) ->
  exists o l1 l2, a = RRead o /\ slog x = l1 ++ l2 /\
    (forall r, In (p, r) past -> exists j, In (j, p, OUp r) l1) /\
    answers (seen_with l1 p bmin mui iw) o.
Proof. exact store_read. Qed.
Print Assumptions C100_read.

(* an insert that returns has upserted its record, after all of the prefix that happened before; and it has itself happened before all that follows *)
Theorem C100_inserted : forall f ov x i past p r a,
  store_reach f ov x ->
  nth_error (sc_sts x) i = Some (SThread (SRet p (AUp r) a) past) ->
  exists found o l1 l2, a = RUp found o /\ slog x = l1 ++ (i, p, OUp r) :: l2 /\ In (p, r) past /\
    forall r', In (p, r') past -> exists j, In (j, p, OUp r') (l1 ++ [(i, p, OUp r)]).
Proof. exact store_inserted. Qed.
Print Assumptions C100_inserted.

(* a mark comes after all inserts of the prefix that happened before, and fails only if there are none *)
Theorem C100_marked : forall f ov x i past p st mui ltime a,
  store_reach f ov x ->
  nth_error (sc_sts x) i = Some (SThread (SRet p (AMark st mui ltime) a) past) ->
  exists ok, a = RMark ok /\
    if ok then exists l1 l2, slog x = l1 ++ (i, p, OMark st mui ltime) :: l2 /\
      forall r, In (p, r) past -> exists j, In (j, p, OUp r) l1
    else forall r, ~ In (p, r) past.
Proof. exact store_marked. Qed.
Print Assumptions C100_marked.

(* what is said to have happened before has happened *)
Theorem C100_past : forall f ov x i s p r,
  store_reach f ov x -> nth_error (sc_sts x) i = Some s -> In (p, r) (st_past s) ->
  exists j, In (j, p, OUp r) (slog x).
Proof. exact store_past_real. Qed.
Print Assumptions C100_past.

(* and stays so *)
Theorem C100_past_kept : forall f ov x y i s,
  store_reach f ov x -> store_exec f ov x y -> nth_error (sc_sts x) i = Some s ->
  exists s', nth_error (sc_sts y) i = Some s' /\ incl (st_past s) (st_past s').
Proof. exact store_past_kept. Qed.
Print Assumptions C100_past_kept.

(* no call fails; the one panic is that of C43 *)
Theorem C100_no_error : forall f ov x i s t a,
  store_reach f ov x -> nth_error (sc_sts x) i = Some s ->
  nth_error (wc_ths (sc_tree x)) i = Some t -> nth_error (ac_ths (sc_tab x)) i = Some a ->
  match wt_call t with
  | WIns p _ (TDone (RErr _)) => False
  | WIns p _ TPanic => ~ no_overflow ov p
  | WHas _ XPanic => False
  | _ => True
  end /\ forall p c pc, at_run a = Some (p, c, pc) -> pc <> APanic.
Proof. exact store_no_error. Qed.
Print Assumptions C100_no_error.

(* the parts are those of C95 to C99, whose theorems hold of them *)
Theorem C100_parts : forall f ov x,
  store_reach f ov x ->
  wtreach f ov (sc_tree x) /\ areach f (sc_tab x) /\
  length (wc_ths (sc_tree x)) = length (sc_sts x) /\ length (ac_ths (sc_tab x)) = length (sc_sts x).
Proof. exact store_parts. Qed.
Print Assumptions C100_parts.

Example C100_read_example : store_reach IPv4 true (vend told_of) /\
  pcs_of told_of = [SIdle; SRet p10 (ARead None true []) (RRead (Some [Rec 1 7 Withdrawn [1]]))] ++ locks.
Proof. split; [apply vend_ok; vm_compute; reflexivity|vm_compute; reflexivity]. Qed.
Example C100_contains_example : store_reach IPv4 true (vend then_has) /\
  calls_in then_has = [WIdle; WHas p172 (XDone true); WIdle; WIdle].
Proof. split; [apply vend_ok; vm_compute; reflexivity|vm_compute; reflexivity]. Qed.

(* ---------- C101: on a weak memory whoever reads a record of a prefix knows all that its inserter knew ---------- *)

(* if the answer takes a critical section into account that thread j had after x0, the reader knows what thread j knew at x0; and every insert taken into account is known *)
Theorem C101_message : forall f ov x0 x i j s0 p mui iw bmin a past,
  store_reach f ov x0 -> store_exec f ov x0 x ->
  nth_error (sc_sts x0) j = Some s0 ->
  nth_error (sc_sts x) i = Some (SThread (SRet p (ARead mui iw bmin) a) past) ->
  exists o l1 l2, a = RRead o /\ slog x = l1 ++ l2 /\ answers (seen_with l1 p bmin mui iw) o /\
    (forall m1 op m2, l1 = slog x0 ++ m1 ++ (j, p, op) :: m2 -> incl (st_past s0) past) /\
    (forall k r, In (k, p, OUp r) l1 -> In (p, r) past).
Proof. exact store_message. Qed.
Print Assumptions C101_message.

(* after records of p were read, contains says true of p and of all that is then known *)
Theorem C101_then_contains : forall f ov x y i p mui iw bmin rs past past' t q b,
  store_reach f ov x ->
  nth_error (sc_sts x) i = Some (SThread (SRet p (ARead mui iw bmin) (RRead (Some rs))) past) ->
  store_exec f ov x y -> nth_error (sc_sts y) i = Some (SThread (SHas q) past') ->
  nth_error (wc_ths (sc_tree y)) i = Some t -> wt_call t = WHas q (XDone b) -> 0 < p_len q ->
  q = p \/ (exists r, In (q, r) past) -> b = true.
Proof. exact store_read_then_contains. Qed.
Print Assumptions C101_then_contains.

(* nobody was told of anything, but the lock of the records passes it on *)
Example C101_message_example : store_reach IPv4 true (vend cell_seen) /\
  pcs_of cell_seen = [SIdle; SRet p10 (ARead None true []) (RRead (Some [reca]))] ++ locks /\
  option_map st_past (nth_error (sc_sts (vend cell_seen)) 1) = Some [(p10, reca); (p172, recb)].
Proof. split; [apply vend_ok; vm_compute; reflexivity|split; vm_compute; reflexivity]. Qed.
Example C101_then_contains_example : store_exec IPv4 true (vend cell_seen) (vend cell_has) /\
  calls_in cell_has = [WIdle; WHas p172 (XDone true); WIdle; WIdle].
Proof. split; [apply vend_exec; vm_compute; reflexivity|vm_compute; reflexivity]. Qed.
Example C101_then_reads_example : store_exec IPv4 true (vend cell_has) (vend cell_reads) /\
  pcs_of cell_reads = [SIdle; SRet p172 (ARead None true []) (RRead (Some [recb]))] ++ locks.
Proof. split; [apply vend_exec; vm_compute; reflexivity|vm_compute; reflexivity]. Qed.

(* ---------- C102: on a weak memory contains alone passes nothing on ---------- *)

(* thread j inserts q and then p; another finds p, and then not q *)
Theorem C102_passes_refuted :
  ~ (forall f ov x0 x1 x2 i j p q rq past past1 past2 t1 t2 b,
    store_reach f ov x0 -> nth_error (sc_sts x0) j = Some (SThread SIdle past) -> In (q, rq) past -> 0 < p_len q ->
    ~ In p (wc_called (sc_tree x0)) -> store_exec f ov x0 x1 -> (forall k op, In (k, p, op) (slog x1) -> k = j) ->
    nth_error (sc_sts x1) i = Some (SThread (SHas p) past1) -> nth_error (wc_ths (sc_tree x1)) i = Some t1 ->
    wt_call t1 = WHas p (XDone true) ->
    store_exec f ov x1 x2 -> nth_error (sc_sts x2) i = Some (SThread (SHas q) past2) ->
    nth_error (wc_ths (sc_tree x2)) i = Some t2 -> wt_call t2 = WHas q (XDone b) -> b = true).
Proof. exact contains_passes_refuted. Qed.
Print Assumptions C102_passes_refuted.

(* a thread finds p, whose insert has returned, and then no records of it *)
Theorem C102_records_refuted :
  ~ (forall f ov x1 x2 i j p r past past1 past2 t1 bmin o,
    store_reach f ov x1 -> nth_error (sc_sts x1) j = Some (SThread SIdle past) -> In (p, r) past ->
    nth_error (sc_sts x1) i = Some (SThread (SHas p) past1) -> nth_error (wc_ths (sc_tree x1)) i = Some t1 ->
    wt_call t1 = WHas p (XDone true) ->
    store_exec f ov x1 x2 -> nth_error (sc_sts x2) i = Some (SThread (SRet p (ARead None true bmin) (RRead o)) past2) ->
    o <> None).
Proof. exact contains_records_refuted. Qed.
Print Assumptions C102_records_refuted.

Example C102_example : calls_in bit_seen = [WIdle; WHas p10 (XDone true); WIdle; WIdle] /\
  calls_in then_asks = [WIdle; WHas p172 (XDone false); WIdle; WIdle] /\
  pcs_of then_reads = [SIdle; SRet p10 (ARead None true []) (RRead None)] ++ locks.
Proof. vm_compute. auto. Qed.
