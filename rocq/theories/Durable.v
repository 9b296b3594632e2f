(* What is on stable storage: lsm_tree/mod.rs flush_to_disk, and the directories
   that rib/starcast.rs chooses.  The external lsm_tree crate keeps what is
   inserted in a table in memory, and has no log: only what flush_active_memtable
   wrote and register_segments registered is there after a crash. *)
From Coq Require Import Arith NArith List Bool.
From Verif Require Import Word Af Maps Tree MultiMap PrefixCht Lsm Rib StarCast.
Import ListNotations.
Local Open Scope N_scope.

(* what the calls of the crate at lsm_tree/mod.rs:397-404 return *)
Inductive flush_io : Type :=
| FErr                        (* flush_active_memtable: Err *)
| FNone                       (* Ok(None): nothing in the memory table *)
| FSome (reg comp : bool).    (* Ok(Some(segment)); do register_segments and compact succeed *)

(* lsm_tree/mod.rs:396-408.  [l] is what the tree holds, [d] what of it is on
   stable storage; false is an Err.  A segment holds the whole memory table, so
   with it the stable contents are those of the tree *)
Definition lsm_flush (io : flush_io) (l d : lsm) : lsm * bool :=
  match io with
  | FErr => (d, true)
  | FNone => (d, true)
  | FSome reg comp => if reg then (l, comp) else (d, false)
  end.

(* rib/starcast_af.rs:508-515 *)
Definition rib_flush (io : flush_io) (rb : rib) (d : lsm) : lsm * result unit :=
  match rb_lsm rb with
  | Some l => let x := lsm_flush io l d in
              (fst x, if snd x then ROk tt else RErr PersistFailed)
  | None => (d, RErr PersistFailed)
  end.

(* a process with its store, and the stable contents of the two directories *)
Record dstate : Type := D { d_st : store; d_v4 : lsm; d_v6 : lsm }.

(* rib/starcast.rs:956-961 *)
Definition flush (io4 io6 : flush_io) (d : dstate) : dstate * result unit :=
  let x := rib_flush io4 (st_v4 (d_st d)) (d_v4 d) in
  match snd x with
  | RErr e => (D (d_st d) (fst x) (d_v6 d), RErr e)
  | ROk _ =>
    let y := rib_flush io6 (st_v6 (d_st d)) (d_v6 d) in
    (D (d_st d) (fst x) (fst y), snd y)
  end.

(* ---------- the directories ---------- *)

(* rib/starcast.rs:96 and 101: path/uuid/ipv4 and path/uuid/ipv6 below one path *)
Definition dirname : Type := list N * af.
Definition filesys : Type := list (dirname * lsm).
Definition dirname_eqb (a b : dirname) : bool :=
  (if list_eq_dec N.eq_dec (fst a) (fst b) then true else false) &&
  match snd a, snd b with IPv4, IPv4 | IPv6, IPv6 => true | _, _ => false end.
(* lsm_tree::Config::open makes an empty tree if there is none *)
Fixpoint dir (fs : filesys) (n : dirname) : lsm :=
  match fs with
  | [] => []
  | (n', l) :: fs' => if dirname_eqb n n' then l else dir fs' n
  end.

(* rib/starcast_af.rs:78-112 on a directory that can be opened *)
Definition rib_open (f : af) (s : strategy) (l : lsm) : res rib :=
  do t <- tree_new f;
  Ok (Rib s t pcht_init (match s with MemoryOnly => None | _ => Some l end) counters_new).

(* rib/starcast.rs:83-109; [uuid] are the twelve random characters of 86-91 *)
Definition open (s : strategy) (fs : filesys) (uuid : list N) : res store :=
  do a <- rib_open IPv4 s (dir fs (uuid, IPv4));
  do b <- rib_open IPv6 s (dir fs (uuid, IPv6));
  Ok (Store a b).
