(* Properties of the store when no call is under way, after any concurrent calls. *)
From Coq Require Import Arith NArith List Bool Permutation Lia.
From Verif Require Import Word Af BitSpan Spec Maps ChtMath Cht Node Tree Iter MultiMap PrefixCht Lsm Rib
  StarCast HistSpec Ask SameSpec Conc ConcTree ConcStore ConcSpec ConcFacts ConcOnly ConcSerial ConcQuiet
  Examples ConcDemo ConcRefute ConcRefute2 ConcRefute3.
Import ListNotations.
Local Open Scope N_scope.

(* two inserts of 160.0.0.0/4 race from the start, then a mark, a look-up and an
   insert of 10.0.0.0/8 *)
Definition race (st : strategy) : cstore := go IPv4 true (at0 IPv4 st) [
  Start (ins p4 1 1 [1]); Start (upd p4 2 1 [2]); Steps 0 5; Steps 1 5; Steps 0 all; Steps 1 all].
Definition later (st : strategy) : cstore := go IPv4 true (race st) [
  Start (CMark Withdrawn p4 1 7); Start (CRecords p4 None true); Start (ins p8 1 1 [3]);
  Start (CContains p4); Steps 4 9; Steps 2 1; Steps 3 all; Steps 2 all; Steps 5 all; Steps 4 all;
  Start (ins p4 3 1 [4]); Steps 6 all].

(* the schedules of the examples are legal executions of an empty store *)
Ltac conc := cbv zeta; unfold later, race; repeat match goal with |- _ /\ _ => split end; lazymatch goal with
  | |- reach _ _ _ (go _ _ (at0 _ _) _) => apply go_reach; vm_compute; reflexivity
  | |- reach _ _ _ _ => rewrite <- go_app; apply go_reach; vm_compute; reflexivity
  | |- sexec _ _ _ _ => apply go_exec; vm_compute; reflexivity
  | |- idle _ => apply idleb_ok; vm_compute; reflexivity
  | |- returned _ _ _ _ => eapply by_nth; [vm_compute; reflexivity|vm_compute; reflexivity]
  | |- started _ _ _ => eexists; vm_compute; reflexivity
  | |- wf_pid _ _ => apply wf_pidb_spec; vm_compute; reflexivity
  | |- begins_after _ _ => vm_compute; lia
  | |- In _ _ => vm_compute; auto 20
  | |- _ <> _ => discriminate
  | |- _ => vm_compute; reflexivity
  end.

(* ---------- C79: concurrent calls leave a store that answers as after the same calls one after the other ---------- *)

(* not with PersistOnly, if a mark as active is among them *)
Theorem C79_serial_refuted :
  ~ (forall f ov x y, reach f ov PersistOnly x -> sexec f ov x y -> idle x -> idle y -> wf_calls y ->
     exists h1 h2, serial_order f x h1 /\ serial_order f y (h2 ++ h1) /\
       exists s, after PersistOnly (List.map snd (h2 ++ h1)) s /\
         forall q, for_records q = true -> wf_query q -> answer_alike (ask (with_rib s f y) q) (ask s q)).
Proof. exact quiet_only_not_serial. Qed.
Print Assumptions C79_serial_refuted.

(* else there is such an order, and calls that had returned come before those that began later *)
Theorem C79_serial_partial : forall f ov st x y,
  reach f ov st x -> sexec f ov x y -> idle y -> wf_calls y ->
  (st = PersistOnly -> no_activations y) ->
  exists h1 h2, serial_order f x h1 /\ serial_order f y (h2 ++ h1) /\
    exists s, after st (List.map snd (h2 ++ h1)) s /\
      forall q, for_records q = true -> wf_query q -> answer_alike (ask (with_rib s f y) q) (ask s q).
Proof. exact conc_quiet. Qed.
Print Assumptions C79_serial_partial.

(* without PersistOnly: the order is that of the critical sections *)
Theorem C79_memory_partial : forall f ov st x,
  reach f ov st x -> st <> PersistOnly -> idle x -> wf_calls x ->
  exists s, after st (List.map snd (hist f x)) s /\
    forall q, for_records q = true -> wf_query q -> answer_alike (ask (with_rib s f x) q) (ask s q).
Proof. exact conc_quiet_memory. Qed.
Print Assumptions C79_memory_partial.

(* which is one of all the calls *)
Theorem C79_order_partial : forall f ov st x,
  reach f ov st x -> st <> PersistOnly -> serial_order f x (hist f x).
Proof. exact hist_order. Qed.
Print Assumptions C79_order_partial.

(* and grows only at its end *)
Theorem C79_extends_partial : forall f ov st x y,
  reach f ov st x -> sexec f ov x y ->
  exists h, hist f y = h ++ hist f x.
Proof. exact hist_extends. Qed.
Print Assumptions C79_extends_partial.

Example C79_example : let x := race MemoryOnly in let y := later MemoryOnly in
  reach IPv4 true MemoryOnly x /\ sexec IPv4 true x y /\ idle y /\
  List.map snd (hist IPv4 x) = [Insert (IPv4, p4) (act 2 1 [2]) (Some by_byte); Insert (IPv4, p4) (act 1 1 [1]) None] /\
  List.map snd (hist IPv4 y) =
    [Insert (IPv4, p4) (act 3 1 [4]) None; Insert (IPv4, p8) (act 1 1 [3]) None;
     MarkWithdrawn (IPv4, p4) 1 7;
     Insert (IPv4, p4) (act 2 1 [2]) (Some by_byte); Insert (IPv4, p4) (act 1 1 [1]) None].
Proof. conc. Qed.
Example C79_answers : let y := later MemoryOnly in
  match run MemoryOnly (List.map snd (hist IPv4 y)) with
  | Ok s => ask (with_rib s IPv4 y) (QGet (IPv4, p4) None true) =
      Ok (ARecords (ROk (Some [Rec 1 7 Withdrawn [1]; act 2 1 [2]; act 3 1 [4]]))) /\
      ask (with_rib s IPv4 y) (QPrefixes IPv4) = ask s (QPrefixes IPv4) /\
      ask (with_rib s IPv4 y) (QMuiIter IPv4 1 true) =
      Ok (AItems [ROk ((IPv4, p4), [Rec 1 7 Withdrawn [1]]); ROk ((IPv4, p8), [act 1 1 [3]])])
  | _ => False
  end.
Proof. vm_compute. split; [|split]; reflexivity. Qed.
Example C79_hypotheses : wf_calls (later MemoryOnly).
Proof.
  unfold later, race. split.
  - intros i p r ups (l & E). vm_compute in E.
    destruct i as [|[|[|[|[|[|[|[|i]]]]]]]]; try discriminate E; injection E as _ <- _ _; split; reflexivity.
  - intros i sm p m t (l & E). vm_compute in E.
    destruct i as [|[|[|[|[|[|[|[|i]]]]]]]]; try discriminate E; injection E as _ _ <- <- _; split; reflexivity.
Qed.
Example C79_refuted_example :
  reach IPv4 false PersistOnly then_emptied /\ idle then_emptied /\
  match run PersistOnly [] with
  | Ok s => ask (with_rib s IPv4 then_emptied) (QGet (IPv4, p4) None true) =
      Ok (ARecords (ROk (Some [act 1 2 []])))
  | _ => False
  end.
Proof. unfold then_emptied, first_inserted. conc. Qed.
