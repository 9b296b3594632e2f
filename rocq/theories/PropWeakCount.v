(* The number of routes in memory, on a weak memory *)
From Coq Require Import Arith NArith List Bool Lia.
From Verif Require Import Word Af BitSpan Maps ChtMath Cht Node Tree MultiMap PrefixCht HistSpec
  Conc ConcTree ConcStore ConcTable ConcSpec WeakTable WeakTableFacts WeakTableRun WeakCount WeakCountFacts WeakCountRun.
Import ListNotations.
Local Open Scope N_scope.

(* thread 0 stores two routes of 10.0.0.0/8 and tells thread 1, which stores one of 172.16.0.0/12 and one of thread 0's
   again; thread 2 knows nothing *)
Definition counted : list rev_ := [RTab ESpawn; RTab ESpawn; RTab ESpawn] ++ rups 0 p10 reca ++ [rret 0] ++ rups 0 p10 recb ++ [rret 0; RTab (ETold 0 1)] ++
  rups 1 p172 reca ++ [rret 1] ++ rups 1 p10 reca ++ [rret 1].
Definition gots (x : rconf) : list (option nat) := List.map rt_got (rc_ths x).

(* ---------- C108: on a weak memory the number of routes in memory takes into account what was counted before ---------- *)

(* a load gives at least the routes whose counting happened before *)
Theorem C108_low : forall f x i u k l,
  rreach f x -> nth_error (rc_ths x) i = Some u -> rt_got u = Some k ->
  NoDup l -> (forall a, In a l -> In a (rt_past u)) -> (length l <= k)%nat.
Proof. exact wroutes_low. Qed.
Print Assumptions C108_low.

(* and at most those that there are *)
Theorem C108_high : forall f x i u k l,
  rreach f x -> nth_error (rc_ths x) i = Some u -> rt_got u = Some k ->
  (forall p m, rec_after p m (tm_log (ac_mem (rc_tab x))) <> None -> In (p, m) l) -> (k <= length l)%nat.
Proof. exact wroutes_high. Qed.
Print Assumptions C108_high.

(* a route is counted, for its thread, when the call that was the first to store it has returned *)
Theorem C108_counted : forall f x i t u p r l1 l2,
  rreach f x -> nth_error (ac_ths (rc_tab x)) i = Some t -> nth_error (rc_ths x) i = Some u ->
  tm_log (ac_mem (rc_tab x)) = l1 ++ (i, p, OUp r) :: l2 -> rec_after p (r_mui r) l1 = None -> at_run t = None ->
  In (p, r_mui r) (rt_past u).
Proof. exact wroutes_counted. Qed.
Print Assumptions C108_counted.

(* whoever knows of the counting of all is given their number; missing: knowing that they were stored is not enough, see C108_own_refuted *)
Theorem C108_exact_partial : forall f x i u k l,
  rreach f x -> nth_error (rc_ths x) i = Some u -> rt_got u = Some k ->
  NoDup l -> (forall p m, In (p, m) l <-> rec_after p m (tm_log (ac_mem (rc_tab x))) <> None) ->
  (forall a, In a l -> In a (rt_past u)) -> k = length l.
Proof. exact wroutes_exact. Qed.
Print Assumptions C108_exact_partial.

(* a thread is never given less than before *)
Theorem C108_grow : forall f x y i u v k k',
  rreach f x -> rexec f x y -> nth_error (rc_ths x) i = Some u -> nth_error (rc_ths y) i = Some v ->
  rt_got u = Some k -> rt_got v = Some k' -> (k <= k')%nat.
Proof. exact wroutes_grow. Qed.
Print Assumptions C108_grow.

(* a thread that has stored a route itself is given less than one, though no call is under way *)
Theorem C108_own_refuted :
  ~ (forall f x i t u k p r, rreach f x -> (forall t', In t' (ac_ths (rc_tab x)) -> at_run t' = None) ->
    nth_error (ac_ths (rc_tab x)) i = Some t -> nth_error (rc_ths x) i = Some u -> rt_got u = Some k ->
    In (p, OUp r) (at_did t) -> (1 <= k)%nat).
Proof. exact wroutes_own_refuted. Qed.
Print Assumptions C108_own_refuted.

(* thread 1 is given 3; thread 0 two or three; thread 2 anything up to three *)
Example C108_example : rreach IPv4 (rend (counted ++ [RLoad 1 3; RLoad 0 2; RLoad 2 1])) /\
  gots (rend (counted ++ [RLoad 1 3; RLoad 0 2; RLoad 2 1])) = [Some 2; Some 3; Some 1]%nat /\
  List.map rt_past (rc_ths (rend (counted ++ [RLoad 1 3; RLoad 0 2; RLoad 2 1]))) =
    [[(p10, 2); (p10, 1)]; [(p172, 1); (p10, 2); (p10, 1)]; []] /\
  rrun IPv4 (counted ++ [RLoad 1 2]) = None /\ rrun IPv4 (counted ++ [RLoad 0 1]) = None /\ rrun IPv4 (counted ++ [RLoad 2 4]) = None.
Proof.
  split; [apply rend_ok; vm_compute; reflexivity|]. split; [vm_compute; reflexivity|]. split; [vm_compute; reflexivity|].
  split; [vm_compute; reflexivity|]. split; vm_compute; reflexivity.
Qed.
(* the routes that there are *)
Example C108_exact_example : forall p m, In (p, m) [(p172, 1); (p10, 2); (p10, 1)] <->
  rec_after p m (tm_log (ac_mem (rc_tab (rend counted)))) <> None.
Proof.
  intros p m. rewrite <- firsts_in.
  assert (E : List.map snd (firsts (tm_log (ac_mem (rc_tab (rend counted))))) = [(p10, 1); (p10, 2); (p172, 1)]) by (vm_compute; reflexivity).
  rewrite E. cbn. tauto.
Qed.
(* thread 0 does not go back *)
Example C108_grow_example : rrun IPv4 (counted ++ [RLoad 0 3; RLoad 0 2]) = None /\
  gots (rend (counted ++ [RLoad 0 2; RLoad 0 3])) = [Some 3; None; None]%nat.
Proof. split; vm_compute; reflexivity. Qed.
Example C108_own_example : rreach IPv4 (rend not_counted) /\ gots (rend not_counted) = [None; Some 0]%nat /\
  List.map (fun t => (at_run t, at_did t)) (ac_ths (rc_tab (rend not_counted))) = [(None, [(p10, OUp reca)]); (None, [(p10, OUp reca)])] /\
  rc_adds (rend not_counted) = [(0%nat, (p10, 1))].
Proof.
  split; [apply rend_ok; vm_compute; reflexivity|]. split; [vm_compute; reflexivity|]. split; vm_compute; reflexivity.
Qed.
