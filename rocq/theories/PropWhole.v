(* Properties of the whole store under concurrent calls: both families and the global marks. *)
From Coq Require Import Arith NArith List Bool Lia.
From Verif Require Import Word Af BitSpan Spec Maps Cht Node Tree MultiMap PrefixCht Lsm Rib StarCast HistSpec Ask
  SameSpec Conc ConcTree ConcStore ConcMarks ConcSpec ConcQuiet ConcWhole WholeSpec ConcWholeFacts ConcWholeRead
  Examples ConcDemo ConcRefute ConcWholeDemo.
Import ListNotations.
Local Open Scope N_scope.

(* inserts race with global marks of both families *)
Definition early (st : strategy) : wstore := wgo true (wat0 st) [
  WStart (WStore IPv4 (ins p4 1 1 [1])); WStart (WStore IPv4 (ins p4 2 1 [2])); WStart (WBoth 1);
  WSteps 0 5; WSteps 1 5; WSteps 2 2; WStart (WStore IPv6 (ins (0, 0) 1 1 [3])); WSteps 3 all; WSteps 1 all; WSteps 0 all].
Definition late (st : strategy) : wstore := wgo true (early st) [
  WStart (WGlobal IPv4 false 1); WStart (WStore IPv4 (CRecords p4 None true)); WSteps 5 1; WSteps 4 all;
  WStart (WStore IPv4 (CMark Withdrawn p4 2 9)); WSteps 6 all; WSteps 5 all; WSteps 2 all].

Ltac whole := cbv zeta; unfold late, early; repeat match goal with |- _ /\ _ => split end; lazymatch goal with
  | |- wreach _ _ (wgo _ (wat0 _) _) => apply wgo_reach; vm_compute; reflexivity
  | |- wreach _ _ _ => rewrite <- wgo_app; apply wgo_reach; vm_compute; reflexivity
  | |- wexec _ _ _ => apply wgo_exec; vm_compute; reflexivity
  | |- widle _ => apply widleb_ok; vm_compute; reflexivity
  | |- wwf_calls _ => apply wwfb_ok; vm_compute; reflexivity
  | |- wreturned _ _ _ _ => eexists; split; [vm_compute; reflexivity|vm_compute; reflexivity]
  | |- wstarted _ _ _ => eexists; vm_compute; reflexivity
  | |- under_way _ _ _ => eexists; split; [vm_compute; reflexivity|vm_compute; reflexivity]
  | |- _ <> _ => discriminate
  | |- (_ <= _)%nat => vm_compute; lia
  | |- _ => vm_compute; reflexivity
  end.
(* ---------- C81: concurrent calls on both families, global marks among them, have an order, and the store answers accordingly ---------- *)

(* not if mark_mui_as_withdrawn, for both families, is to be one call *)
Theorem C81_both_refuted :
  ~ (forall ov st x y, wreach ov st x -> wexec ov x y -> widle y -> wwf_calls y -> wno_activations y ->
     exists h1 h2, whole_order as_one x h1 /\ whole_order as_one y (h2 ++ h1) /\
       exists s, after st (List.map snd (h2 ++ h1)) s /\
         forall q, for_records q = true -> wf_query q -> answer_alike (ask (store_now (sh y)) q) (ask s q)).
Proof. exact both_not_one. Qed.
Print Assumptions C81_both_refuted.

(* if it counts as two: one order that only grows; for the records of a prefix and the global marks at any moment, for all questions when no call is under way *)
Theorem C81_serial_partial : forall ov st x l,
  moments ov st (x :: l) -> wwf_calls x ->
  (st = PersistOnly -> wno_activations x) ->
  exists hs, growing hs /\ Forall2 (fun y h => whole_order as_ops y h /\
    (exists s, after st (List.map snd h) s /\
       forall q, for_records q = true -> wf_query q -> widle y \/ looks_up q = true ->
         answer_alike (ask (store_now (sh y)) q) (ask s q)))
    (x :: l) hs.
Proof. exact whole_serial. Qed.
Print Assumptions C81_serial_partial.

(* no call but an insert ever panics *)
Theorem C81_panics : forall ov st x i c,
  wreach ov st x -> wwf_calls x -> wreturned x i c (RetCall RetPanic) ->
  exists f p r ups, c = WStore f (CInsert p r ups) /\ ~ no_overflow ov p.
Proof. exact whole_panics. Qed.
Print Assumptions C81_panics.

Example C81_example : let x := early MemoryOnly in let y := late MemoryOnly in
  wreach true MemoryOnly x /\ wexec true x y /\ widle y /\ wwf_calls y.
Proof. whole. Qed.
Example C81_moments : moments true MemoryOnly [late MemoryOnly; early MemoryOnly].
Proof. apply mo_next; [apply mo_first|]; whole. Qed.
(* the order, the last call first *)
Definition the_order : list (nat * op) := [
  (2%nat, GlobalWithdrawn IPv6 1); (6%nat, MarkWithdrawn (IPv4, p4) 2 9); (4%nat, GlobalActive IPv4 1);
  (0%nat, Insert (IPv4, p4) (act 1 1 [1]) None); (1%nat, Insert (IPv4, p4) (act 2 1 [2]) None);
  (3%nat, Insert (IPv6, (0, 0)) (act 1 1 [3]) None); (2%nat, GlobalWithdrawn IPv4 1)].
Example C81_answers : let y := store_now (sh (late MemoryOnly)) in
  match run MemoryOnly (List.map snd the_order) with
  | Ok s => ask y (QGet (IPv4, p4) None true) = Ok (ARecords (ROk (Some [Rec 2 9 Withdrawn [2]; act 1 1 [1]]))) /\
      ask s (QGet (IPv4, p4) None true) = ask y (QGet (IPv4, p4) None true) /\
      ask y (QGet (IPv6, (0, 0)) None true) = Ok (ARecords (ROk (Some [Rec 1 1 Withdrawn [3]]))) /\
      ask s (QGet (IPv6, (0, 0)) None true) = ask y (QGet (IPv6, (0, 0)) None true) /\
      ask y (QWithdrawn IPv4 1) = Ok (ABool false) /\ ask y (QWithdrawn IPv6 1) = Ok (ABool true) /\
      ask s QAllPrefixes = ask y QAllPrefixes
  | _ => False
  end.
Proof. vm_compute. repeat match goal with |- _ /\ _ => split end; reflexivity. Qed.
(* with all four strategies the calls return *)
Example C81_returns : forall st, widle (late st) /\ wreach true st (late st).
Proof. intros st. destruct st; whole. Qed.
Example C81_refuted_example : wreach false MemoryOnly half_marked /\ widle half_marked /\
  ask (store_now (sh half_marked)) (QWithdrawn IPv4 1) = Ok (ABool false) /\
  ask (store_now (sh half_marked)) (QWithdrawn IPv6 1) = Ok (ABool true).
Proof. unfold half_marked, half_undone. whole. Qed.

(* ---------- C82: a look-up of records gives what was in the store at a moment while it ran ---------- *)

(* not if global marks run at the same time: it may give as active a record that never was *)
Theorem C82_refuted :
  ~ (forall ov st x x1 y i f p mui iw o, wreach ov st x -> wexec ov x x1 -> wexec ov x1 y -> (length (ths x) <= i)%nat ->
     wwf_calls y -> wreturned y i (WStore f (CRecords p mui iw)) (RetGot (ROk o)) ->
     exists w, (wexec ov x w /\ wexec ov w x1 \/ wexec ov x1 w /\ wexec ov w y) /\
       ask (store_now (sh w)) (QGet (f, p) mui iw) = Ok (ARecords (ROk o))).
Proof. exact read_no_moment. Qed.
Print Assumptions C82_refuted.

(* it gives the records of a moment w2 with the global marks of an earlier moment w1 *)
Theorem C82_two_partial : forall ov st x y i f p mui iw v,
  wreach ov st x -> wexec ov x y -> (length (ths x) <= i)%nat ->
  wwf_calls y -> wreturned y i (WStore f (CRecords p mui iw)) v ->
  exists w1 w2 o, wexec ov x w1 /\ wexec ov w1 w2 /\ wexec ov w2 y /\
    under_way w1 i (WStore f (CRecords p mui iw)) /\ under_way w2 i (WStore f (CRecords p mui iw)) /\
    v = RetGot (ROk o) /\ ask (marks_of w1 w2) (QGet (f, p) mui iw) = Ok (ARecords (ROk o)).
Proof. exact whole_read_now. Qed.
Print Assumptions C82_two_partial.

(* which is one moment if all global marks had returned before *)
Theorem C82_moment_partial : forall ov st x y i f p mui iw v,
  wreach ov st x -> wexec ov x y -> (length (ths x) <= i)%nat ->
  wwf_calls y -> (forall j c, wstarted y j c -> marks_in f c = true -> exists u, wreturned x j c u) ->
  wreturned y i (WStore f (CRecords p mui iw)) v ->
  exists w o, wexec ov x w /\ wexec ov w y /\ under_way w i (WStore f (CRecords p mui iw)) /\
    v = RetGot (ROk o) /\ ask (store_now (sh w)) (QGet (f, p) mui iw) = Ok (ARecords (ROk o)).
Proof. exact whole_read_moment. Qed.
Print Assumptions C82_moment_partial.

(* in terms of the order of the calls *)
Theorem C82_order_partial : forall ov st x y i f p mui iw v,
  wreach ov st x -> wexec ov x y -> (length (ths x) <= i)%nat ->
  wwf_calls y -> (st = PersistOnly -> wno_activations y) ->
  wreturned y i (WStore f (CRecords p mui iw)) v ->
  exists w1 w2 h1 d o, wexec ov x w1 /\ wexec ov w1 w2 /\ wexec ov w2 y /\
    whole_order as_ops w1 h1 /\ whole_order as_ops w2 (d ++ h1) /\
    v = RetGot (ROk o) /\ answers (view st (List.map snd (mixed h1 (d ++ h1))) (f, p) mui iw) o.
Proof. exact whole_read_order. Qed.
Print Assumptions C82_order_partial.

(* call 5 began when mui 1 was withdrawn, and saw that; the mark of mui 2 came while it ran *)
Example C82_example : let x := early MemoryOnly in let y := late MemoryOnly in
  wreach true MemoryOnly x /\ wexec true x y /\ (length (ths x) <= 5)%nat /\ wwf_calls y /\
  wreturned y 5 (WStore IPv4 (CRecords p4 None true))
    (RetGot (ROk (Some [Rec 2 9 Withdrawn [2]; Rec 1 1 Withdrawn [1]]))).
Proof. whole. Qed.
(* with PersistOnly, and without global marks *)
Example C82_moment_example : let x := wgo true (wat0 PersistOnly) [WStart (WStore IPv4 (ins p4 1 1 [1])); WSteps 0 all] in
  let y := wgo true x [WStart (WStore IPv4 (CRecords p4 (Some 1) false)); WStart (WStore IPv4 (ins p4 1 2 [2]));
             WSteps 1 1; WSteps 2 all; WSteps 1 all] in
  wreach true PersistOnly x /\ wexec true x y /\ wwf_calls y /\
  wreturned y 1 (WStore IPv4 (CRecords p4 (Some 1) false)) (RetGot (ROk (Some [act 1 2 [2]]))).
Proof. whole. Qed.
Example C82_refuted_example : wreach false MemoryOnly seen_up /\
  wreturned seen_up 0 (WStore IPv4 (CRecords p4 None true)) (RetGot (ROk (Some [act 1 1 [1]]))) /\
  ask (store_now (sh mui_down)) (QGet (IPv4, p4) None true) = Ok (ARecords (ROk None)) /\
  ask (store_now (sh seen_up)) (QGet (IPv4, p4) None true) = Ok (ARecords (ROk (Some [Rec 1 1 Withdrawn [1]]))).
Proof. unfold seen_up, mui_down, loaded. split; [rewrite <- !wgo_app; apply wgo_reach; vm_compute; reflexivity|]. whole. Qed.
