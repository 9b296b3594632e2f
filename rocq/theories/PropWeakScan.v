(* Properties of the readers that take many steps, on a weak memory. *)
From Coq Require Import Arith NArith List Bool Sorted Lia.
From Verif Require Import Word Af BitSpan Spec Maps Cht Node Tree TreeProofs ConcTree ConcSpec ConcScan ConcScanSpec ConcScanFacts
  ConcQueryDemo WeakTree WeakTreeFacts WeakTreeRun WeakScan WeakScanFacts WeakScanRun.
Import ListNotations.
Local Open Scope N_scope.

Definition p16 : pid := (335609856, 16).   (* 20.1.0.0/16 *)
Definition p24 : pid := (335610112, 24).   (* 20.1.1.0/24 *)
Definition inserts (i : nat) (p : pid) : list uev := [UIns i p 1] ++ usteps i 60 ++ [URet i].
(* thread 0 inserts 20.0.0.0/8 and 20.1.0.0/16 and tells thread 1, which is to read *)
Definition two_told : list uev := [USpawn; USpawn] ++ inserts 0 cut_a ++ inserts 0 p16 ++ [UTold 0 1].
(* after some steps of the reader thread 0 inserts 10.0.0.0/8 and 20.1.1.0/24, and thread 1 is told of nothing *)
Definition beside_it : list sev := [SOwn 3; SCalls (inserts 0 cut_b ++ inserts 0 p24); SOwn 200].
Definition outcome {S A : Type} (g : S -> A) (o : option (nat * wtconf * S)) : option (nat * list (list pid) * A) :=
  match o with Some (n, x, s) => Some (n, List.map wt_past (wc_ths x), g s) | None => None end.
(* ---------- C98: on a weak memory a scan gives all that its thread knows to be inserted when it begins ---------- *)

(* no panic; nothing twice; only prefixes that p covers and that someone inserts *)
Theorem C98_scan_sound : forall f ov p i x0 tb n x s,
  wtreach f ov x0 -> nth_error (wc_ths x0) i = Some tb -> wf_pid f p ->
  wscans f ov p i x0 n x s ->
  sc_pc s <> MPanic /\ NoDup (given s) /\
  forall q, In q (given s) -> In q (wc_called x) /\ 0 < p_len q /\ covers f p q.
Proof. exact wscan_sound. Qed.
Print Assumptions C98_scan_sound.

(* all that happened before, if it is not cut short *)
Theorem C98_scan_complete_partial : forall f ov p i x0 tb n x s,
  wtreach f ov x0 -> nth_error (wc_ths x0) i = Some tb -> wf_pid f p ->
  wscans f ov p i x0 n x s -> sc_pc s = MDone true ->
  forall q, In q (wt_past tb) -> 0 < p_len q -> covers f p q -> p_len p < BITS f -> In q (given s).
Proof. exact wscan_complete. Qed.
Print Assumptions C98_scan_complete_partial.

(* it is cut short only if its thread does not know of some insert *)
Theorem C98_scan_cut : forall f ov p i x0 tb n x s t,
  wtreach f ov x0 -> nth_error (wc_ths x0) i = Some tb -> wf_pid f p ->
  wscans f ov p i x0 n x s -> scan_over s = false -> nth_error (wc_ths x) i = Some t ->
  sc_pc (mnext f p (wt_view t) s) = MDone false ->
  exists q, In q (wc_called x) /\ ~ In q (wt_past t).
Proof. exact wscan_cut. Qed.
Print Assumptions C98_scan_cut.

(* it ends *)
Theorem C98_scan_ends : forall f ov p i x0 tb n x s,
  wtreach f ov x0 -> nth_error (wc_ths x0) i = Some tb -> wf_pid f p ->
  wscans f ov p i x0 n x s -> N.of_nat n <= 2 ^ 204.
Proof. exact wscan_ends. Qed.
Print Assumptions C98_scan_ends.

(* it can be cut short though no call is under way and nothing happens while it reads, and then it misses what happened before *)
Theorem C98_scan_refuted :
  ~ (forall f ov p i x0 tb n s, wtreach f ov x0 ->
  (forall t, In t (wc_ths x0) -> wt_call t = WIdle) -> nth_error (wc_ths x0) i = Some tb ->
  wf_pid f p -> p_len p < BITS f -> wscans f ov p i x0 n x0 s -> scan_over s = true ->
  forall q, In q (wt_past tb) -> 0 < p_len q -> covers f p q -> In q (given s)).
Proof. exact wscan_idle_refuted. Qed.
Print Assumptions C98_scan_refuted.

(* what is inserted beside it and not told it does not see; it is complete all the same *)
Example C98_scan_example : exists n x s, scan_run IPv4 true cut_top 1 two_told beside_it = Some (n, x, s) /\
  (exists x0, urun IPv4 true two_told = Some x0 /\ wtreach IPv4 true x0 /\ wscans IPv4 true cut_top 1 x0 n x s) /\
  sc_pc s = MDone true /\ given s = [cut_a; p16].
Proof.
  destruct (scan_run IPv4 true cut_top 1 two_told beside_it) as [[[n x] s]|] eqn:E.
  2:{ vm_compute in E. discriminate E. }
  exists n, x, s. split; [reflexivity|]. split; [exact (scan_run_ok _ _ _ _ _ _ _ _ _ E)|].
  assert (F : match scan_run IPv4 true cut_top 1 two_told beside_it with
    | Some (_, _, s) => sc_pc s = MDone true /\ given s = [cut_a; p16] | None => False end) by (vm_compute; auto).
  rewrite E in F. exact F.
Qed.
Example C98_all_example : outcome (fun s => (sc_pc s, given s))
    (scan_run IPv4 true cut_top 1 two_told [SOwn 3; SCalls (inserts 0 cut_b ++ inserts 0 p24 ++ [UTold 0 1]); SOwn 200]) =
  Some (38%nat, [[p24; cut_b; p16; cut_a]; [p24; cut_b; p16; cut_a; p16; cut_a]], (MDone true, [cut_b; cut_a; p16; p24])).
Proof. vm_compute. reflexivity. Qed.
(* the pointer bit without its node: nothing is given, though 20.0.0.0/8 is known *)
Example C98_cut_example : outcome (fun s => (sc_pc s, given s)) (scan_run IPv4 true cut_top 1 cut_calls [SOwn 200]) =
  Some (6%nat, [[cut_b; cut_a]; [cut_a]], (MDone false, [])).
Proof. vm_compute. reflexivity. Qed.

(* ---------- C99: on a weak memory the longest match and the less specifics are of all that their thread knows to be inserted ---------- *)

(* at most one; it covers p; and none that happened before is longer *)
Theorem C99_longest : forall f ov p i x0 tb n x s,
  wtreach f ov x0 -> nth_error (wc_ths x0) i = Some tb -> wf_pid f p ->
  wlooks f ov true p i x0 n x s ->
  bs_pc s <> BPanic /\ (length (matches s) <= 1)%nat /\
  (forall m, In m (matches s) -> In m (wc_called x) /\ 0 < p_len m /\ covers f m p) /\
  (look_over s = true -> forall q, In q (wt_past tb) -> 0 < p_len q -> covers f q p ->
     exists m, matches s = [m] /\ p_len q <= p_len m).
Proof. exact wlongest. Qed.
Print Assumptions C99_longest.

(* the less specifics: only prefixes that someone inserts, shorter than p and covering it *)
Theorem C99_less_sound : forall f ov p i x0 tb n x s,
  wtreach f ov x0 -> nth_error (wc_ths x0) i = Some tb -> wf_pid f p ->
  wlooks f ov false p i x0 n x s ->
  bs_pc s <> BPanic /\
  forall q, In q (matches s) -> In q (wc_called x) /\ 0 < p_len q /\ p_len q < p_len p /\ covers f q p.
Proof. exact wless_sound. Qed.
Print Assumptions C99_less_sound.

(* longest first, and all that happened before *)
Theorem C99_less_complete : forall f ov p i x0 tb n x s,
  wtreach f ov x0 -> nth_error (wc_ths x0) i = Some tb -> wf_pid f p ->
  wlooks f ov false p i x0 n x s ->
  len_desc (matches s) /\
  (look_over s = true -> forall q, In q (wt_past tb) -> 0 < p_len q -> p_len q < p_len p -> covers f q p ->
     In q (matches s)).
Proof. exact wless_complete. Qed.
Print Assumptions C99_less_complete.

(* both end *)
Theorem C99_ends : forall f ov once p i x0 tb n x s,
  wtreach f ov x0 -> nth_error (wc_ths x0) i = Some tb -> wf_pid f p ->
  wlooks f ov once p i x0 n x s -> N.of_nat n <= 100 * p_len p + 68.
Proof. exact wlooks_end. Qed.
Print Assumptions C99_ends.

Example C99_longest_example : exists n x s, look_run IPv4 true true p24 1 two_told beside_it = Some (n, x, s) /\
  (exists x0, urun IPv4 true two_told = Some x0 /\ wtreach IPv4 true x0 /\ wlooks IPv4 true true p24 1 x0 n x s) /\
  look_over s = true /\ matches s = [p16].
Proof.
  destruct (look_run IPv4 true true p24 1 two_told beside_it) as [[[n x] s]|] eqn:E.
  2:{ vm_compute in E. discriminate E. }
  exists n, x, s. split; [reflexivity|]. split; [exact (look_run_ok _ _ _ _ _ _ _ _ _ _ E)|].
  assert (F : match look_run IPv4 true true p24 1 two_told beside_it with
    | Some (_, _, s) => look_over s = true /\ matches s = [p16] | None => False end) by (vm_compute; auto).
  rewrite E in F. exact F.
Qed.
Example C99_less_example : outcome (fun s => (look_over s, matches s)) (look_run IPv4 true false p24 1 two_told beside_it) =
  Some (62%nat, [[p24; cut_b; p16; cut_a]; [p16; cut_a]], (true, [p16; cut_a])).
Proof. vm_compute. reflexivity. Qed.
(* a thread that is told nothing finds nothing *)
Example C99_stale_example : outcome (fun s => (look_over s, matches s))
    (look_run IPv4 true false p24 1 ([USpawn; USpawn] ++ inserts 0 cut_a) [SOwn 300]) =
  Some (50%nat, [[cut_a]; []], (true, [])).
Proof. vm_compute. reflexivity. Qed.
