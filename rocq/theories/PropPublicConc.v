(* Properties of the conversions from PrefixId to Prefix for queries beside concurrent calls. *)
From Coq Require Import Arith NArith List Bool Lia.
From Verif Require Import Word Af BitSpan Spec Maps Cht Node Tree Iter MultiMap RecordSet PrefixCht Lsm Rib StarCast
  HistSpec Ask SameSpec Public PublicConc Conc ConcTree ConcStore ConcMarks ConcSpec ConcQuiet ConcWhole WholeSpec
  ConcScan ConcQuery QuerySpec Examples ConcDemo ConcRefute ConcScanDemo ConcWholeDemo ConcQueryDemo PropConcQuery.
Import ListNotations.
Local Open Scope N_scope.

(* ---------- C109: beside concurrent calls ---------- *)

(* whatever runs beside match_prefix, every prefix in its result can be made a Prefix: no unwrap panics *)
Theorem C109_match_beside : forall ov st f p o x0 n x r a,
  wreach ov st x0 -> wf_pid f p -> wf_mui (mo_mui o) ->
  matching ov f p o x0 n x (AtEnd (ROk r)) -> wwf_calls x -> In a (shown_by (AMatch (ROk r))) ->
  fst a = f /\ exists y, prefix_of_id f (snd a) = Ok y /\ public y /\ family (fst y) = f /\
    id_of_prefix f y = Ok (snd a).
Proof. exact match_beside_public. Qed.
Print Assumptions C109_match_beside.

(* nor for a prefix that an iterator gives *)
Theorem C109_each_beside : forall ov st f k x0 n x g a,
  wreach ov st x0 -> wf_each f k ->
  iterating ov f k x0 n x (ItEnd g) -> wwf_calls x -> In a (shown_by (AItems g)) ->
  fst a = f /\ exists y, prefix_of_id f (snd a) = Ok y /\ public y /\ family (fst y) = f /\
    id_of_prefix f y = Ok (snd a).
Proof. exact each_beside_public. Qed.
Print Assumptions C109_each_beside.

Definition made (l : list prefix) : list (res (ipaddr * N)) := List.map (fun a => prefix_of_id (fst a) (snd a)) l.

Example C109_beside_example : wreach true MemoryOnly first /\ wf_pid IPv4 ten16 /\ wwf_calls (fst beside_match) /\
  (exists n, matching true IPv4 ten16 every first n (fst beside_match) (snd beside_match)) /\
  match snd beside_match with
  | AtEnd (ROk r) => made (shown_by (AMatch (ROk r)))
  | _ => []
  end = [Ok (AddrV4 [10; 1; 0; 0], 16); Ok (AddrV4 [10; 0; 0; 0], 8); Ok (AddrV4 [10; 1; 2; 0], 24)].
Proof. query. Qed.
Example C109_each_beside_example : let z := beside_each (EachMore ten8 None true) in
  wreach true MemoryOnly first /\ wwf_calls (fst z) /\
  (exists n, iterating true IPv4 (EachMore ten8 None true) first n (fst z) (snd z)) /\
  match snd z with ItEnd g => made (shown_by (AItems g)) | _ => [] end =
    [Ok (AddrV4 [10; 0; 0; 0], 8); Ok (AddrV4 [10; 1; 0; 0], 16)].
Proof. query. Qed.
