(* types/prefix_id.rs:56-110 and types/af.rs: how the Prefix of the public methods
   becomes the PrefixId of the store, and back. *)
From Coq Require Import Arith NArith List Bool Lia.
From Verif Require Import Word Af Tree Iter MultiMap Lsm RecordSet Rib StarCast Ask.
Import ListNotations.
Local Open Scope N_scope.

(* std::net::IpAddr: the octets in network order *)
Inductive ipaddr : Type := AddrV4 (o : list N) | AddrV6 (o : list N).
Definition octets (a : ipaddr) : list N := match a with AddrV4 o | AddrV6 o => o end.
(* `match prefix.addr()`, e.g. rib/starcast.rs:107-122 *)
Definition family (a : ipaddr) : af := match a with AddrV4 _ => IPv4 | AddrV6 _ => IPv6 end.
(* what the types [u8; 4] and [u8; 16] guarantee *)
Definition valid_addr (a : ipaddr) : Prop :=
  length (octets a) = AFB (family a) /\ Forall (fun o => o < 256) (octets a).

(* bit i of an address, the most significant bit of the first octet is bit 0 *)
Definition addr_bit (a : ipaddr) (i : N) : bool :=
  N.testbit (nth (N.to_nat (i / 8)) (octets a) 0) (7 - i mod 8).

(* inetnum::addr::Prefix and Prefix::new (external crate): an error if the length is too large
   for the family or if a bit beyond it is set *)
Definition ipprefix : Type := ipaddr * N.
Definition prefix_new (a : ipaddr) (len : N) : option ipprefix :=
  if (len <=? BITS (family a)) &&
     forallb (fun i => negb (addr_bit a (N.of_nat i)))
       (seq (N.to_nat len) (N.to_nat (BITS (family a) - len)))
  then Some (a, len) else None.
(* the values of the type Prefix *)
Definition public (x : ipprefix) : Prop :=
  valid_addr (fst x) /\ prefix_new (fst x) (snd x) = Some x.

(* zerocopy's try_ref_from_bytes and ref_from_bytes of U32/U128<NetworkEndian>, with unwrap:
   the number of bytes has to be that of the type *)
Definition af_from_bytes (f : af) (b : bytes) : res N :=
  if Nat.eqb (length b) (AFB f) then Ok (le_val (rev b)) else Panic.
(* types/prefix_id.rs:59-74 *)
Definition id_of_prefix (f : af) (x : ipprefix) : res pid :=
  do bits <- af_from_bytes f (octets (fst x)); Ok (bits, snd x).
(* types/af.rs:126-128 and 208-210 *)
Definition into_ipaddr (f : af) (bits : N) : ipaddr :=
  let o := rev (le_bytes (AFB f) bits) in match f with IPv4 => AddrV4 o | IPv6 => AddrV6 o end.
(* types/prefix_id.rs:78-82, with the unwrap *)
Definition prefix_of_id (f : af) (p : pid) : res ipprefix :=
  match prefix_new (into_ipaddr f (p_bits p)) (p_len p) with Some x => Ok x | None => Panic end.
(* types/prefix_id.rs:84-95; [b] is the array *)
Definition id_of_bytes (f : af) (b : bytes) : res pid :=
  do bits <- af_from_bytes f (skipn 1 b);
  match b with [] => Panic | len :: _ => Ok (bits, len) end.

(* the prefixes that an answer of the store shows *)
Definition of_set (s : option recordset) : list prefix :=
  match s with Some s => List.map fst (rs_v4 s ++ rs_v6 s) | None => [] end.
Definition shown_by (a : answer) : list prefix :=
  match a with
  | AMatch (ROk q) =>
    match qr_prefix q with Some p => [p] | None => [] end ++ of_set (qr_less q) ++ of_set (qr_more q)
  | AItems l => flat_map (fun x => match x with ROk y => [fst y] | RErr _ => [] end) l
  | ADisk l => flat_map (fun x => match x with Some y => [fst y] | None => [] end) l
  | _ => []
  end.
