(* lsm_tree/mod.rs: the persisted records.  The external lsm_tree crate is taken
   to be a map from byte strings to byte strings, ordered by key, where the last
   write for a key wins and I/O never fails.  Flushing and compaction do not
   change its contents. *)
From Coq Require Import Arith NArith List Bool Lia.
From Verif Require Import Word Af Maps Tree MultiMap.
Import ListNotations.
Local Open Scope N_scope.

Definition bytes : Type := list N.

(* ---------- the external key/value store ---------- *)

Fixpoint bcmp (a b : bytes) : comparison :=
  match a, b with
  | [], [] => Eq
  | [], _ => Lt
  | _, [] => Gt
  | x :: a', y :: b' => match N.compare x y with Eq => bcmp a' b' | c => c end
  end.

Definition lsm : Type := list (bytes * bytes).

(* lsm_tree::Tree::insert with a constant sequence number *)
Fixpoint kv_insert (k v : bytes) (l : lsm) : lsm :=
  match l with
  | [] => [(k, v)]
  | (k', v') :: l' =>
    match bcmp k k' with
    | Lt => (k, v) :: l
    | Eq => (k, v) :: l'
    | Gt => (k', v') :: kv_insert k v l'
    end
  end.

Fixpoint is_prefix (p k : bytes) : bool :=
  match p, k with
  | [], _ => true
  | _, [] => false
  | x :: p', y :: k' => (x =? y) && is_prefix p' k'
  end.

(* lsm_tree::Tree::prefix *)
Definition kv_prefix (p : bytes) (l : lsm) : lsm := filter (fun kv => is_prefix p (fst kv)) l.

(* ---------- bytes of the keys and values ---------- *)

(* little-endian bytes: zerocopy's NativeEndian and packed integers on the
   little-endian machines the model is for *)
Fixpoint le_bytes (n : nat) (x : N) : bytes :=
  match n with O => [] | S n' => x mod 256 :: le_bytes n' (x / 256) end.
Fixpoint le_val (b : bytes) : N :=
  match b with [] => 0 | x :: b' => x + 256 * le_val b' end.

(* the number of bytes of an address *)
Definition AFB (f : af) : nat := match f with IPv4 => 4 | IPv6 => 16 end.
(* rib/starcast.rs:59-60: the KEY_SIZE arguments *)
Definition KEY_SIZE (f : af) : nat := match f with IPv4 => 18 | IPv6 => 30 end.

(* types/route_status.rs:18-23 *)
Definition status_byte (s : status) : N :=
  match s with Active => 1 | InActive => 2 | Withdrawn => 3 end.
Definition status_of_byte (b : N) : option status :=
  if b =? 1 then Some Active else if b =? 2 then Some InActive
  else if b =? 3 then Some Withdrawn else None.

(* types/prefix_id.rs:26-33: the length byte, then the address in network order *)
Definition pid_bytes (f : af) (id : pid) : bytes := p_len id :: rev (le_bytes (AFB f) (p_bits id)).
(* lsm_tree/mod.rs:50-53 and 78-85 *)
Definition short_key (f : af) (id : pid) (mui : N) : bytes := pid_bytes f id ++ le_bytes 4 mui.
(* types/prefix_record.rs:100-105 *)
Definition value_header (ltime : N) (s : status) : bytes := le_bytes 8 ltime ++ [status_byte s].
(* lsm_tree/mod.rs:66-71 and 92-103 *)
Definition long_key (f : af) (id : pid) (mui ltime : N) (s : status) : bytes :=
  short_key f id mui ++ value_header ltime s.

(* ---------- reading ---------- *)

Definition sub_bytes (a n : nat) (b : bytes) : bytes := firstn n (skipn a b).

(* zerocopy's try_ref_from_bytes::<ZeroCopyRecord<AF>>, types/prefix_record.rs:70-84:
   at least the fixed part, and a status byte that is a RouteStatus *)
Definition zc_record (f : af) (b : bytes) : option (pid * record) :=
  if Nat.ltb (length b) (KEY_SIZE f) then None
  else match status_of_byte (nth (KEY_SIZE f - 1) b 0) with
       | None => None
       | Some s =>
         Some ((le_val (rev (sub_bytes 1 (AFB f) b)), nth 0 b 0),
               Rec (le_val (sub_bytes (1 + AFB f) 4 b))
                   (le_val (sub_bytes (5 + AFB f) 8 b)) s (skipn (KEY_SIZE f) b))
       end.

(* lsm_tree/mod.rs:33-35 (header) and 40-45 (header_mut): LongKey from exactly
   KEY_SIZE bytes *)
Definition key_header (f : af) (b : bytes) : option (pid * record) :=
  if Nat.eqb (length b) (KEY_SIZE f) then zc_record f b else None.

(* &bytes[..KEY_SIZE] *)
Definition slice_to (n : nat) (b : bytes) : res bytes :=
  if Nat.ltb (length b) n then Panic else Ok (firstn n b).

(* key.status = RouteStatus::Withdrawn through header_mut *)
Definition set_withdrawn (f : af) (b : bytes) : bytes :=
  firstn (KEY_SIZE f - 1) b ++ [status_byte Withdrawn] ++ skipn (KEY_SIZE f) b.

Fixpoint map_res {A B} (g : A -> res B) (l : list A) : res (list B) :=
  match l with
  | [] => Ok []
  | x :: l' => do y <- g x; do ys <- map_res g l'; Ok (y :: ys)
  end.

(* lsm_tree/mod.rs:175-188 and 208-226: one record, withdrawn ones included.
   None stands for Err(FatalError). *)
Definition rec_included (f : af) (bmin : nset) (kv : bytes * bytes) : res (option bytes) :=
  let b := fst kv ++ snd kv in
  do hd <- slice_to (KEY_SIZE f) b;
  Ok (match key_header f hd with
      | None => None
      | Some (_, r) => Some (if mem (r_mui r) bmin then set_withdrawn f b else b)
      end).

(* lsm_tree/mod.rs:246-285 and 307-326: one record, withdrawn ones left out;
   the outer None is filtered away by filter_map *)
Definition rec_excluded (f : af) (bmin : nset) (kv : bytes * bytes)
    : res (option (option bytes)) :=
  let b := fst kv ++ snd kv in
  do hd <- slice_to (KEY_SIZE f) b;
  Ok (match key_header f hd with
      | None => Some None
      | Some (_, r) =>
        if status_eqb (r_status r) Withdrawn || mem (r_mui r) bmin then None else Some (Some b)
      end).

Definition cat_opts {A} (l : list (option A)) : list A :=
  flat_map (fun o => match o with Some x => [x] | None => [] end) l.

(* lsm_tree/mod.rs:160-342 *)
Definition records_for_prefix (f : af) (l : lsm) (id : pid) (mui : option N)
    (include_withdrawn : bool) (bmin : nset) : res (option (list (option bytes))) :=
  let p := match mui with Some m => short_key f id m | None => pid_bytes f id end in
  do recs <- if include_withdrawn then map_res (rec_included f bmin) (kv_prefix p l)
             else (do os <- map_res (rec_excluded f bmin) (kv_prefix p l); Ok (cat_opts os));
  Ok (none_if_empty recs).

(* lsm_tree/mod.rs:353-374: the loop of most_recent_record_for_prefix_mui;
   [r] is res, None is Err(FatalError) *)
Fixpoint most_recent_loop (f : af) (kvs : lsm) (r : option bytes) : option bytes :=
  match kvs with
  | [] => r
  | (k, v) :: kvs' =>
    let kv := k ++ v in
    match key_header f kv with
    | None => None
    | Some (_, h) =>
      most_recent_loop f kvs'
        (match r with
         | Some r0 =>
           match key_header f r0 with
           | Some (_, h0) => if r_ltime h0 <? r_ltime h then Some kv else r
           | None => r
           end
         | None => Some kv
         end)
    end
  end.

(* lsm_tree/mod.rs:344-375 *)
Definition most_recent_record_for_prefix_mui (f : af) (l : lsm) (id : pid) (mui : N)
    : option bytes :=
  most_recent_loop f (kv_prefix (short_key f id mui) l) None.

(* lsm_tree/mod.rs:377-394 *)
Definition records_with_keys_for_prefix_mui (f : af) (l : lsm) (id : pid) (mui : N)
    : list bytes :=
  List.map (fun kv => fst kv ++ snd kv) (kv_prefix (short_key f id mui) l).

(* ---------- writing ---------- *)

(* lsm_tree/mod.rs:438-453 *)
Definition persist_record_w_long_key (f : af) (l : lsm) (id : pid) (r : record) : lsm :=
  kv_insert (long_key f id (r_mui r) (r_ltime r) (r_status r)) (r_meta r) l.

(* lsm_tree/mod.rs:455-478 *)
Definition persist_record_w_short_key (f : af) (l : lsm) (id : pid) (r : record) : lsm :=
  kv_insert (short_key f id (r_mui r)) (value_header (r_ltime r) (r_status r) ++ r_meta r) l.

(* lsm_tree/mod.rs:480-499: the meta data is appended to a temporary that is
   dropped, the value written is the header alone.  None is Err(FatalError). *)
Definition rewrite_header_for_record (f : af) (l : lsm) (ltime : N) (s : status) (b : bytes)
    : option lsm :=
  match zc_record f b with
  | None => None
  | Some (id, r) => Some (kv_insert (short_key f id (r_mui r)) (value_header ltime s) l)
  end.

(* lsm_tree/mod.rs:501-512 *)
Definition insert_empty_record (f : af) (l : lsm) (id : pid) (mui ltime : N) : lsm :=
  kv_insert (long_key f id mui ltime Withdrawn) [] l.

(* lsm_tree/mod.rs:594-607: the inner loop of PersistedPrefixIter::next.
   Returns r_rec, cur_rec and what is left of tree_iter. *)
Fixpoint pp_take (f : af) (outer : pid) (r_rec : list (option bytes)) (kvs : lsm)
    : list (option bytes) * option (list (option bytes)) * lsm :=
  match kvs with
  | [] => (r_rec, None, [])
  | (k, v) :: kvs' =>
    match key_header f k with
    | Some (id, _) =>
      if pid_eqb id outer then pp_take f outer (r_rec ++ [Some (k ++ v)]) kvs'
      else (r_rec, Some [Some (k ++ v)], kvs')
    | None => pp_take f outer (r_rec ++ [None]) kvs'
    end
  end.

(* lsm_tree/mod.rs:557-613; the state is cur_rec and tree_iter *)
Definition pp_next (f : af) (st : option (list (option bytes)) * lsm)
    : option (list (option bytes) * (option (list (option bytes)) * lsm)) :=
  let r := match fst st with
           | Some r => Some (r, snd st)
           | None => match snd st with
                     | [] => None
                     | (k, v) :: l => Some ([Some (k ++ v)], l)
                     end
           end in
  match r with
  | None => None
  | Some (r_rec, l) =>
    match r_rec with
    | Some b :: _ =>
      match key_header f b with
      | Some (outer, _) =>
        let '(r_rec', cur, l') := pp_take f outer r_rec l in Some (r_rec', (cur, l'))
      | None => Some ([None], (None, l))
      end
    | _ => Some ([None], (None, l))
    end
  end.

Fixpoint pp_collect (fuel : nat) (f : af) (st : option (list (option bytes)) * lsm)
    : res (list (list (option bytes))) :=
  match fuel with
  | O => OutOfFuel
  | S fuel' =>
    match pp_next f st with
    | None => Ok []
    | Some (x, st') => do xs <- pp_collect fuel' f st'; Ok (x :: xs)
    end
  end.

(* lsm_tree/mod.rs:514-523, run to its end; every call takes at least one item
   from tree_iter or from cur_rec *)
Definition persisted_prefixes_iter (f : af) (l : lsm) : res (list (list (option bytes))) :=
  pp_collect (S (length l)) f (None, l).
