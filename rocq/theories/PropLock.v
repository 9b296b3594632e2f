(* Properties of the locks of the records, when the code of the user that runs under them fails. *)
From Coq Require Import Arith NArith List Bool.
From Verif Require Import Conc ConcLock.
Import ListNotations.

(* ---------- C90: a call on the records of a prefix can come to an end, whatever the user's code did before ---------- *)

(* not after a panic in the user's code *)
Theorem C90_refuted :
  ~ (forall x i c p, lexec lconf0 x -> nth_error (ths x) i = Some (c, p) -> exists y, lexec x y /\ over y i).
Proof. exact may_hang. Qed.
Print Assumptions C90_refuted.

(* to be exact: no call on the same prefix that had not returned then ever returns *)
Theorem C90_poisoned_partial : forall x y i j c c',
  lexec lconf0 x -> lexec x y ->
  nth_error (ths x) i = Some (c, LUnwound) -> lc_key c' = lc_key c -> nth_error (ths y) j = Some (c', LDone) ->
  nth_error (ths x) j = Some (c', LDone).
Proof. exact lock_poisoned_stuck. Qed.
Print Assumptions C90_poisoned_partial.

(* nor after the user's code, under the lock, called the store for the same prefix *)
Theorem C90_reentered_partial : forall x y i j c c',
  lexec lconf0 x -> lexec x y ->
  nth_error (ths x) i = Some (c, LInWait) -> lc_key c' = lc_key c -> nth_error (ths y) j = Some (c', LDone) ->
  nth_error (ths x) j = Some (c', LDone).
Proof. exact lock_reentered_stuck. Qed.
Print Assumptions C90_reentered_partial.

(* two calls never have the lock of the same prefix *)
Theorem C90_exclusion : forall x i j ci cj pi pj,
  lexec lconf0 x -> nth_error (ths x) i = Some (ci, pi) -> nth_error (ths x) j = Some (cj, pj) ->
  inside pi = true -> inside pj = true -> lc_key ci = lc_key cj -> i = j.
Proof. exact lock_exclusion. Qed.
Print Assumptions C90_exclusion.

(* if the user's code returns in all calls for one prefix, each of these can come to an end, whatever happened at other prefixes *)
Theorem C90_ends_partial : forall x i c p,
  lexec lconf0 x -> nth_error (ths x) i = Some (c, p) ->
  (forall j c' p', nth_error (ths x) j = Some (c', p') -> lc_key c' = lc_key c ->
     lc_kind c' = LUpsert \/ lc_kind c' = LMarkRecord \/ lc_user c' = Returns) ->
  exists y, lexec x y /\ length (ths y) = length (ths x) /\ nth_error (ths y) i = Some (c, LDone).
Proof. exact lock_ends. Qed.
Print Assumptions C90_ends_partial.

(* call 0 panicked; 1, which reads, and 2, an insert, go round for ever; 3 is for another prefix *)
Example C90_refuted_example : lexec lconf0 panicked /\ List.map snd (ths panicked) = [LUnwound; LWait; LWait; LDone].
Proof. split; [apply lgo_exec|vm_compute; reflexivity]. Qed.
Example C90_reentered_example : let x := lgo [Call (LCall 5 LReadRecords Reenters); Call (LCall 5 LMarkRecord Returns); Run 0; Run 0; Run 1; Run 0] in
  lexec lconf0 x /\ List.map snd (ths x) = [LInWait; LWait].
Proof. cbv zeta. split; [apply lgo_exec|vm_compute; reflexivity]. Qed.
(* 0 has the lock and 1 waits for it; an insert runs none of the user's code under the lock *)
Example C90_example : let x := lgo [Call (LCall 5 LReadRecords Returns); Call (LCall 5 LUpsert Panics); Run 0; Run 1] in
  lexec lconf0 x /\ List.map snd (ths x) = [LIn; LWait] /\
  (forall j c' p', nth_error (ths x) j = Some (c', p') -> lc_key c' = 5%N ->
     lc_kind c' = LUpsert \/ lc_kind c' = LMarkRecord \/ lc_user c' = Returns).
Proof.
  cbv zeta. split; [apply lgo_exec|]. split; [vm_compute; reflexivity|].
  intros [|[|[|j]]] c' p' E; vm_compute in E; try discriminate; injection E as <- <-; auto.
Qed.
