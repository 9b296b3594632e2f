(* Properties of the readers that take many steps, beside any calls of the store. *)
From Coq Require Import Arith NArith List Bool Lia.
From Verif Require Import Word Af BitSpan Spec Maps Cht Tree Iter MultiMap Rib Conc ConcTree ConcStore
  ConcSpec ConcScan ConcScanSpec ConcScanFacts Examples ConcDemo ConcRefute ConcScanDemo.
Import ListNotations.
Local Open Scope N_scope.

(* ---------- C49: a concurrent scan sees everything inserted before it started ---------- *)

(* it never panics, and gives nothing but inserted prefixes that p covers, each once *)
Theorem C49_scan_sound : forall f ov st p x0 n x s,
  reach f ov st x0 -> wf_pid f p -> scans f ov p x0 n x s ->
  sc_pc s <> MPanic /\ NoDup (given s) /\
  forall q, In q (given s) ->
    (exists i r ups, started x i (CInsert q r ups)) /\ 0 < p_len q /\ covers f p q.
Proof. exact conc_scan_sound. Qed.
Print Assumptions C49_scan_sound.

(* it has given all those inserted before it began, unless it was cut off *)
Theorem C49_scan_complete_partial : forall f ov st p x0 n x s,
  reach f ov st x0 -> wf_pid f p ->
  scans f ov p x0 n x s -> sc_pc s = MDone true ->
  forall q i r ups rep, returned x0 i (CInsert q r ups) (RetIns (ROk rep)) ->
    0 < p_len q -> covers f p q -> p_len p < BITS f -> In q (given s).
Proof. exact conc_scan_complete. Qed.
Print Assumptions C49_scan_complete_partial.

(* it is cut off only at a moment when an insert is under way, or has panicked *)
Theorem C49_scan_cut : forall f ov st p x0 n x s,
  reach f ov st x0 -> wf_pid f p -> scans f ov p x0 n x s ->
  scan_over s = false -> sc_pc (mnext f p (tree_of x) s) = MDone false -> ~ inserts_done x.
Proof. exact conc_scan_cut. Qed.
Print Assumptions C49_scan_cut.

(* and it ends, whatever the inserts do *)
Theorem C49_scan_ends : forall f ov st p x0 n x s,
  reach f ov st x0 -> wf_pid f p -> scans f ov p x0 n x s ->
  N.of_nat n <= 2 ^ 204.
Proof. exact conc_scan_ends. Qed.
Print Assumptions C49_scan_ends.

Example C49_scan_example : reach IPv4 true MemoryOnly before4 /\ wf_pid IPv4 root4 /\
  (exists n, scans IPv4 true root4 before4 n (fst late_scan_end) (snd late_scan_end)) /\
  sc_pc (snd late_scan_end) = MDone true /\ given (snd late_scan_end) = [ten8; ten16] /\
  returned before4 0 (ins ten16 1 1 [1]) (RetIns (ROk (Report 0 true true 1))) /\
  covers IPv4 root4 ten16.
Proof.
  split; [schedule|]. split; [apply wf4; vm_compute; reflexivity|]. split; [exact late_scan_scans|].
  split; [vm_compute; reflexivity|]. split; [vm_compute; reflexivity|]. split; [ret|].
  split; [vm_compute; discriminate|]. simpl. intros k K. lia.
Qed.
Example C49_cut_example :
  (exists n, scans IPv4 true root4 before4 n (fst cut_scan_end) (snd cut_scan_end)) /\
  sc_pc (snd cut_scan_end) = MDone false.
Proof. split; [apply scan_play_ok; vm_compute; reflexivity|]. vm_compute. reflexivity. Qed.

(* ---------- C71: a scan or a longest match is that of one moment ---------- *)

(* a scan may give b and not a, though a was inserted before the insert of b began *)
Theorem C71_scan_refuted :
  ~ (forall f ov st p x0 x1 n x s a b i r ups rep, reach f ov st x0 -> wf_pid f p ->
     scans f ov p x0 n x s -> sc_pc s = MDone true -> sexec f ov x0 x1 -> sexec f ov x1 x ->
     returned x1 i (CInsert a r ups) (RetIns (ROk rep)) -> 0 < p_len a -> covers f p a ->
     p_len p < BITS f -> (forall j r ups, started x j (CInsert b r ups) -> begins_after x1 j) ->
     In b (given s) -> In a (given s)).
Proof. exact scan_no_snapshot. Qed.
Print Assumptions C71_scan_refuted.

(* so may the longest match give the shorter, later one *)
Theorem C71_longest_refuted :
  ~ (forall f ov st p x0 x1 n x s a b i r ups rep, reach f ov st x0 -> wf_pid f p ->
     looks f ov true p x0 n x s -> look_over s = true -> sexec f ov x0 x1 -> sexec f ov x1 x ->
     returned x1 i (CInsert a r ups) (RetIns (ROk rep)) -> 0 < p_len a -> covers f a p ->
     (forall j r ups, started x j (CInsert b r ups) -> begins_after x1 j) ->
     matches s = [b] -> p_len a <= p_len b).
Proof. exact longest_no_snapshot. Qed.
Print Assumptions C71_longest_refuted.

Example C71_scan_example : sc_pc (snd late_scan_end) = MDone true /\
  given (snd late_scan_end) = [ten8; ten16] /\
  returned late1 1 (ins low4 2 1 [2]) (RetIns (ROk (Report 0 true true 1))) /\
  length (ths late1) = 2%nat.
Proof.
  split; [vm_compute; reflexivity|]. split; [vm_compute; reflexivity|]. split; [ret|].
  vm_compute. reflexivity.
Qed.
Example C71_longest_example : matches (snd late_look_end) = [ten8] /\
  returned late0 0 (ins ten24 2 1 [2]) (RetIns (ROk (Report 0 true true 1))) /\
  length (ths late0) = 1%nat.
Proof. split; [vm_compute; reflexivity|]. split; [ret|]. vm_compute. reflexivity. Qed.

(* ---------- C72: the longest match beside inserts ---------- *)

Theorem C72_sound : forall f ov st p x0 n x s,
  reach f ov st x0 -> wf_pid f p ->
  looks f ov true p x0 n x s ->
  bs_pc s <> BPanic /\
  forall q, In q (matches s) -> (exists i r ups, started x i (CInsert q r ups)) /\
    0 < p_len q /\ covers f q p.
Proof. exact conc_longest_sound. Qed.
Print Assumptions C72_sound.

(* no prefix that was there when it began is longer than the answer *)
Theorem C72_longest : forall f ov st p x0 n x s,
  reach f ov st x0 -> wf_pid f p ->
  looks f ov true p x0 n x s -> look_over s = true ->
  (length (matches s) <= 1)%nat /\
  forall q i r ups rep, returned x0 i (CInsert q r ups) (RetIns (ROk rep)) ->
    0 < p_len q -> covers f q p -> exists m, matches s = [m] /\ p_len q <= p_len m.
Proof. exact conc_longest. Qed.
Print Assumptions C72_longest.

Theorem C72_ends : forall f ov st p x0 n x s,
  reach f ov st x0 -> wf_pid f p ->
  looks f ov true p x0 n x s -> N.of_nat n <= 100 * p_len p + 68.
Proof. exact conc_longest_ends. Qed.
Print Assumptions C72_ends.

Example C72_example : reach IPv4 true MemoryOnly before4 /\ wf_pid IPv4 ten24 /\
  let z := look_play IPv4 true true ten24 before4 [Own 5; Do (Start (ins ten8 3 1 [3])); Do (Steps 1 6); Own all] in
  (exists n, looks IPv4 true true ten24 before4 n (fst z) (snd z)) /\
  look_over (snd z) = true /\ matches (snd z) = [ten16].
Proof.
  split; [schedule|]. split; [apply wf4; vm_compute; reflexivity|]. cbv zeta.
  split; [apply look_play_ok; vm_compute; reflexivity|]. split; vm_compute; reflexivity.
Qed.

(* ---------- C73: the less specifics beside inserts ---------- *)

Theorem C73_sound : forall f ov st p x0 n x s,
  reach f ov st x0 -> wf_pid f p ->
  looks f ov false p x0 n x s ->
  bs_pc s <> BPanic /\
  forall q, In q (matches s) -> (exists i r ups, started x i (CInsert q r ups)) /\
    0 < p_len q /\ p_len q < p_len p /\ covers f q p.
Proof. exact conc_less_sound. Qed.
Print Assumptions C73_sound.

(* longest first, none twice *)
Theorem C73_sorted : forall f ov st p x0 n x s,
  reach f ov st x0 -> wf_pid f p ->
  looks f ov false p x0 n x s -> len_desc (matches s).
Proof. exact conc_less_sorted. Qed.
Print Assumptions C73_sorted.

(* every one that was there when it began is given *)
Theorem C73_complete : forall f ov st p x0 n x s,
  reach f ov st x0 -> wf_pid f p ->
  looks f ov false p x0 n x s -> look_over s = true ->
  forall q i r ups rep, returned x0 i (CInsert q r ups) (RetIns (ROk rep)) ->
    0 < p_len q -> p_len q < p_len p -> covers f q p -> In q (matches s).
Proof. exact conc_less_complete. Qed.
Print Assumptions C73_complete.

Theorem C73_ends : forall f ov st p x0 n x s,
  reach f ov st x0 -> wf_pid f p ->
  looks f ov false p x0 n x s -> N.of_nat n <= 100 * p_len p + 68.
Proof. exact conc_less_ends. Qed.
Print Assumptions C73_ends.

Example C73_example : reach IPv4 true MemoryOnly before4 /\ wf_pid IPv4 ten24 /\
  (exists n, looks IPv4 true false ten24 before4 n (fst less_look_end) (snd less_look_end)) /\
  look_over (snd less_look_end) = true /\ matches (snd less_look_end) = [ten16; ten8].
Proof.
  split; [schedule|]. split; [apply wf4; vm_compute; reflexivity|].
  split; [apply look_play_ok; vm_compute; reflexivity|]. split; vm_compute; reflexivity.
Qed.
