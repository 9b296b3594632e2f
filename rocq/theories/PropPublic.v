(* Properties of the conversions between the Prefix of the public methods and the PrefixId of the store. *)
From Coq Require Import Arith NArith List Bool Lia.
From Verif Require Import Word Af Maps Tree Iter MultiMap Lsm RecordSet Rib StarCast HistSpec Ask PropSpec
  Examples Public PublicFacts.
Import ListNotations.
Local Open Scope N_scope.

(* ---------- C109: prefixes cross the boundary of the API unchanged ---------- *)

(* a Prefix becomes an id of its family with the same bits and length, and the id becomes the same Prefix *)
Theorem C109_in : forall x, public x ->
  exists p, id_of_prefix (family (fst x)) x = Ok p /\ wf_prefix (family (fst x), p) /\ p_len p = snd x /\
    (forall i, i < BITS (family (fst x)) ->
       N.testbit (p_bits p) (BITS (family (fst x)) - 1 - i) = addr_bit (fst x) i) /\
    prefix_of_id (family (fst x)) p = Ok x.
Proof. exact public_in. Qed.
Print Assumptions C109_in.

(* every id that the other theorems speak about is the id of a Prefix *)
Theorem C109_out : forall f p, wf_prefix (f, p) ->
  exists x, prefix_of_id f p = Ok x /\ public x /\ family (fst x) = f /\ id_of_prefix f x = Ok p.
Proof. exact public_out. Qed.
Print Assumptions C109_out.

(* every prefix that a query shows, also one read from disk, can be made a Prefix: no unwrap panics *)
Theorem C109_shown : forall s h st q a p,
  after s h st -> wf_query q -> ask st q = Ok a -> In p (shown_by a) ->
  exists x, prefix_of_id (fst p) (snd p) = Ok x /\ public x /\ family (fst x) = fst p /\
    id_of_prefix (fst p) x = Ok (snd p).
Proof. exact shown_public. Qed.
Print Assumptions C109_shown.

(* the unwrap panics for all other ids *)
Theorem C109_unwrap : forall f p, p_bits p < 2 ^ BITS f ->
  (prefix_of_id f p = Panic <-> ~ wf_prefix (f, p)).
Proof. exact public_panics. Qed.
Print Assumptions C109_unwrap.

(* a Prefix of the other family makes the conversion panic, the caller has to choose the family first *)
Theorem C109_other : forall f x, public x -> f <> family (fst x) -> id_of_prefix f x = Panic.
Proof. exact public_other. Qed.
Print Assumptions C109_other.

Example C109_example :
  prefix_new (AddrV4 [10; 1; 128; 0]) 17 = Some (AddrV4 [10; 1; 128; 0], 17) /\
  prefix_new (AddrV4 [10; 1; 128; 0]) 16 = None /\ prefix_new (AddrV4 [10; 0; 0; 0]) 33 = None /\
  id_of_prefix IPv4 (AddrV4 [10; 1; 128; 0], 17) = Ok (167870464, 17) /\
  id_of_prefix IPv6 (AddrV4 [10; 1; 128; 0], 17) = Panic /\
  prefix_of_id IPv4 (167870464, 17) = Ok (AddrV4 [10; 1; 128; 0], 17) /\
  prefix_of_id IPv4 (167870464, 16) = Panic /\
  after PersistOnly demo (ran PersistOnly demo) /\
  match ask (ran PersistOnly demo) (QMoreIter (v4 10 1 0 0 16) None true) with
  | Ok a => List.map (fun p => prefix_of_id (fst p) (snd p)) (shown_by a) =
      [Ok (AddrV4 [10; 1; 0; 0], 16); Ok (AddrV4 [10; 1; 2; 0], 24); Ok (AddrV4 [10; 1; 2; 128], 25)]
  | _ => False
  end.
Proof. example. Qed.

(* ---------- C110: a PrefixId from an array of more than one byte ---------- *)

Theorem C110_bytes_refuted :
  ~ (forall f b, (1 < length b)%nat -> id_of_bytes f b <> Panic).
Proof. exact bytes_too_few. Qed.
Print Assumptions C110_bytes_refuted.

(* it panics for all lengths but one *)
Theorem C110_length_partial : forall f b, id_of_bytes f b = Panic <-> length b <> S (AFB f).
Proof. exact bytes_panics. Qed.
Print Assumptions C110_length_partial.

(* from the bytes of an id it gives the id *)
Theorem C110_bytes_partial : forall f p, p_bits p < 2 ^ BITS f -> id_of_bytes f (pid_bytes f p) = Ok p.
Proof. exact bytes_in. Qed.
Print Assumptions C110_bytes_partial.

Example C110_example :
  pid_bytes IPv4 (167870464, 17) = [17; 10; 1; 128; 0] /\
  id_of_bytes IPv4 [17; 10; 1; 128; 0] = Ok (167870464, 17) /\
  id_of_bytes IPv6 [17; 10; 1; 128; 0] = Panic /\ id_of_bytes IPv4 [17; 10] = Panic.
Proof. example. Qed.
