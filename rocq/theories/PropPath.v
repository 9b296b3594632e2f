(* Properties of path selection. *)
From Coq Require Import Arith NArith List Bool Lia Permutation.
From Verif Require Import Word Af BitSpan Spec Maps ChtMath Cht Node Tree Iter MultiMap PrefixCht Lsm
  LsmProofs RecordSet Rib StarCast HistSpec Ask PropSpec Facts1 Facts2 Facts3 Facts4 Facts5 Facts6
  Examples Refute.
Import ListNotations.
Local Open Scope N_scope.

(* ---------- C30: best path is the minimal record after recalculation ---------- *)

Theorem C30_calculate : forall s h st p t r0 u0,
  in_memory s -> after s h st -> wf_prefix p ->
  In (Insert p r0 u0) h ->
  exists st' b k, exec st (Calculate p t) = Ok (st', OSel (ROk (Some b, k))) /\
    selection t (last_rec h p) (Some b, k) /\
    forall r, last_rec h p b = Some r -> r_status r = Active ->
      best_path st' p = Ok (Some (ROk r)).
Proof. exact calculate_best. Qed.
Print Assumptions C30_calculate.

(* there is one best and one second best only *)
Theorem C30_selection_unique : forall t V s s',
  selection t V s -> selection t V s' -> s = s'.
Proof. exact selection_unique. Qed.
Print Assumptions C30_selection_unique.

Example C30_example : after MemoryOnly (tl demo) (ran MemoryOnly (tl demo)) /\
  next MemoryOnly (tl demo) (Calculate (v4 10 0 0 0 8) by_byte) = Some (OSel (ROk (Some 2, Some 1))) /\
  best_path (ran MemoryOnly demo) (v4 10 0 0 0 8) = Ok (Some (ROk (act 2 3 [3]))).
Proof. example. Qed.

(* ---------- C31: the outdated flag tells whether records changed since the last selection ---------- *)

Theorem C31_cleared_refuted :
  ~ (forall s h st p t, in_memory s ->
  after s (Calculate p t :: h) st -> inserted h p = true -> is_ps_outdated st p = Ok (ROk false)).
Proof. exact outdated_after_calculation. Qed.
Print Assumptions C31_cleared_refuted.

Theorem C31_mark_refuted :
  ~ (forall s h st p m t r, in_memory s ->
  after s (MarkWithdrawn p m t :: h) st -> last_rec h p m = Some r ->
  is_ps_outdated st p = Ok (ROk true)).
Proof. exact mark_not_outdated. Qed.
Print Assumptions C31_mark_refuted.

Theorem C31_first_insert_refuted :
  ~ (forall s st p r, in_memory s ->
  after s [Insert p r None] st -> is_ps_outdated st p = Ok (ROk true)).
Proof. exact first_insert_not_outdated. Qed.
Print Assumptions C31_first_insert_refuted.

(* what the flag is, exactly *)
Theorem C31_outdated_partial : forall s h st p,
  in_memory s -> after s h st -> wf_prefix p ->
  exists x, is_ps_outdated st p = Ok x /\
    match x with
    | RErr e => e = StoreNotReadyError /\ touched h p = false
    | ROk b => touched h p = true /\ outdated h p b
    end.
Proof. exact outdated_exact. Qed.
Print Assumptions C31_outdated_partial.

(* an insert for a known prefix sets it *)
Theorem C31_insert_partial : forall s h st p r,
  in_memory s -> after s h st -> wf_prefix p -> wf_record r ->
  touched h p = true ->
  exists st', exec st (Insert p r None) = Ok (st', OReport (ROk (report_spec s h p r))) /\
    is_ps_outdated st' p = Ok (ROk true).
Proof. exact outdated_after_insert. Qed.
Print Assumptions C31_insert_partial.

(* a calculation that changes the selection clears it, any other leaves it *)
Theorem C31_calculate_partial : forall s h st p t sel,
  in_memory s -> after s h st -> wf_prefix p ->
  touched h p = true -> selected h p sel ->
  exists st' sel', exec st (Calculate p t) = Ok (st', OSel (ROk sel')) /\
    (sel' <> sel -> is_ps_outdated st' p = Ok (ROk false)) /\
    (sel' = sel -> is_ps_outdated st' p = is_ps_outdated st p).
Proof. exact outdated_cleared. Qed.
Print Assumptions C31_calculate_partial.

Example C31_example : after MemoryOnly h_recalc (ran MemoryOnly h_recalc) /\
  is_ps_outdated (ran MemoryOnly h_recalc) p_new = Ok (ROk true) /\
  is_ps_outdated (ran MemoryOnly (tl (tl h_recalc))) p_new = Ok (ROk false) /\
  is_ps_outdated (ran MemoryOnly h_mark_after) p_new = Ok (ROk false).
Proof. example. Qed.

(* ---------- C32: best path is never withdrawn, and insert with tie-break info selects one ---------- *)

Theorem C32_best_refuted :
  ~ (forall s h st p t m r, in_memory s -> after s (Calculate p t :: h) st ->
  last_rec h p m = Some r -> r_status r = Active ->
  exists b, best_path st p = Ok (Some (ROk b))).
Proof. exact best_withdrawn. Qed.
Print Assumptions C32_best_refuted.

Theorem C32_insert_refuted :
  ~ (forall s h st p r t, in_memory s ->
  after s (Insert p r (Some t) :: h) st -> r_status r = Active ->
  exists b, best_path st p = Ok (Some (ROk b))).
Proof. exact insert_no_selection. Qed.
Print Assumptions C32_insert_refuted.

(* what is returned is the current record of its mui and active *)
Theorem C32_best_partial : forall s h st p r,
  after s h st -> wf_prefix p ->
  best_path st p = Ok (Some (ROk r)) -> last_rec h p (r_mui r) = Some r /\ r_status r = Active.
Proof. exact best_path_active. Qed.
Print Assumptions C32_best_partial.

(* an error if the selected record is not active now *)
Theorem C32_best_exact_partial : forall s h st p,
  in_memory s -> after s h st -> wf_prefix p ->
  exists x, best_path st p = Ok x /\
    match x with
    | None => touched h p = false
    | Some y => touched h p = true /\
        exists sel, selected h p sel /\
          y = match fst sel with
              | None => RErr BestPathNotFound
              | Some m => match view_local h p m with
                          | Some r => ROk r
                          | None => RErr StoreNotReadyError
                          end
              end
    end.
Proof. exact best_path_exact. Qed.
Print Assumptions C32_best_exact_partial.

Example C32_example : after MemoryOnly h_best_gone (ran MemoryOnly h_best_gone) /\
  best_path (ran MemoryOnly h_best_gone) p_new = Ok (Some (RErr StoreNotReadyError)) /\
  get_records_for_prefix (ran MemoryOnly h_best_gone) p_new None false = Ok (ROk (Some [act 2 2 [2]])).
Proof. example. Qed.
