(* The prefix table and the records on a weak memory: upsert_prefix without path
   selections (prefix_cht/cht.rs:589-684), the marks of one prefix
   (rib/starcast_af.rs:222-364, in memory) and get_records_for_prefix
   (prefix_cht/cht.rs:541-587), when a load may give an old value.

   A cell of a slot array is empty and then holds its entry for good, so what a
   thread knows of the table is itself a table, a part of the one in memory.  A
   `get` gives what the thread knows; before any step the thread may come to know
   one more cell.  get_or_init fills a cell only if it is empty.  The records of an
   entry are read and changed under the lock of their map, where the present
   value is the one that counts; the values of the entries that a thread knows
   are not used.

   As in WeakTree.v no ordering of the atomics is used, nor that a lock passes on
   what the thread that had it before knew: a thread learns of one cell from
   another only when the threads synchronise outside the store.  The entry that
   a cell leads to is seen as it was initialised (see WeakOnce.v, C88).  Left out:
   the counters (fetch_add), the pointer to the path selections (WeakPtr.v), the
   disk; the global marks that a look-up of records uses are given with it. *)
From Coq Require Import Arith NArith List Bool.
From Verif Require Import Word Af BitSpan Maps ChtMath Cht Node Tree MultiMap PrefixCht Conc ConcTree ConcStore ConcTable.
Import ListNotations.
Local Open Scope N_scope.

(* ---------- what a thread knows ---------- *)

(* a slot array is reached through the entry that owns it, which is then known *)
Definition cell_reached (v : heap pval) (k : key) : Prop :=
  forall path i, snd k = path ++ [i] -> path <> [] -> lookup ((fst k, path) : key) v <> None.

Inductive knows_cell (m v : heap pval) : heap pval -> Prop :=
| kc_cell k e : lookup k m = Some e -> cell_reached v k -> lookup k v = None ->
    knows_cell m v (update k (Entry (e_id e) pval_new (e_slots e)) v).

(* all that one of two threads knows *)
Definition add_cell (a : heap pval) (k : key) (h : heap pval) : heap pval :=
  match lookup k h, lookup k a with
  | None, Some e => update k e h
  | _, _ => h
  end.
Definition cells_join (a b : heap pval) : heap pval := fold_right (add_cell a) b (List.map fst a).

(* a slot that get_or_init finds empty is empty; for one that it finds taken the
   two agree as it stays so *)
Definition cells_agree (f : af) (id : pid) (m v : heap pval) (q : ppc) : Prop :=
  match q with
  | PGet _ => True
  | PInit w =>
    forall index, hash_id f id (w_level w) = Ok index ->
      (lookup (wkey w index) v = None <-> lookup (wkey w index) m = None)
  end.

(* ---------- calls ---------- *)

Inductive acall : Type :=
| AUp (r : record)                                  (* upsert_prefix *)
| AMark (s : status) (mui ltime : N)                (* mark_mui_as_(withdrawn|active)_for_prefix *)
| ARead (mui : option N) (iw : bool) (bmin : nset). (* get_records_for_prefix *)

Inductive aret : Type :=
(* found by `get`; the value replaced and the number of records *)
| RUp (found : bool) (o : option (mmval * N))
| RMark (ok : bool)   (* or the error for a prefix that has no entry *)
| RRead (o : option (list record)).

Inductive apc : Type :=
| AWalk (q : ppc)
| ALook (w : walk)
| ACrit (k : key) (found : bool)
(* n, for the statements only: how many critical sections on the prefix, in their
   order, the answer stands for *)
| ADone (n : nat) (a : aret)
| APanic.

(* the result of non_recursive_retrieve_prefix_mut: cht.rs:602, starcast_af.rs:222-364 *)
Definition after_walk (c : acall) (o : pout) : apc :=
  match o with
  | PMore q => AWalk q
  | PFound k found =>
    match c with
    | AMark _ _ _ => if found then ACrit k true else ADone 0 (RMark false)
    | _ => ACrit k found
    end
  end.

(* cht.rs:551-586 *)
Definition alook (f : af) (p : pid) (h : heap pval) (w : walk) : res apc :=
  do index <- hash_id f p (w_level w);
  match slot_get h (w_b w) (w_path w) (w_slots w) index with
  | None => Ok (ADone 0 (RRead None))
  | Some e =>
    if pid_eqb p (e_id e) then Ok (ACrit (wkey w index) true)
    else
      do level' <- add8 (w_level w) 1;
      Ok (ALook (Walk (w_b w) (w_path w ++ [index]) (e_slots e) level'))
  end.

(* under the lock of the record map: the new records and the answer *)
Definition acrit (c : acall) (found : bool) (m : mmap) : mmap * aret :=
  match c with
  | AUp r => (fst (upsert_record m r), RUp found (snd (upsert_record m r)))
  | AMark s mui ltime => (mark_for_mui s m mui ltime, RMark true)
  | ARead mui iw bmin => (m, RRead (get_filtered_records m mui iw bmin))
  end.
Definition op_of_call (c : acall) : list recop :=
  match c with AUp r => [OUp r] | AMark s mui ltime => [OMark s mui ltime] | ARead _ _ _ => [] end.

Definition walked (f : af) (p : pid) (h : heap pval) (q : ppc) : heap pval :=
  match pstep f p h q with Ok (h', _) => h' | _ => h end.
Definition or_apanic (r : res apc) : apc := match r with Ok pc => pc | _ => APanic end.

Definition abegin (f : af) (p : pid) (c : acall) : apc :=
  or_apanic (do w <- walk_start f PSTRIDE p;
             Ok match c with ARead _ _ _ => ALook w | _ => AWalk (PGet w) end).

(* ---------- threads ---------- *)

(* the table, and the critical sections that changed records so far *)
Record tmem : Type := TMem { tm_heap : heap pval; tm_log : list (nat * pid * recop) }.

Record athread : Type := AThread {
  at_view : heap pval;
  at_run : option (pid * acall * apc);
  (* for the statements only: of which prefixes how many critical sections
     happened before; what the calls that have returned did to the records; the
     steps of the present call *)
  at_past : list (pid * nat);
  at_did : list (pid * recop);
  at_steps : nat
}.
Record aconf : Type := AConf { ac_mem : tmem; ac_ths : list athread }.

(* how many critical sections have changed the records of p *)
Definition many (p : pid) (log : list (nat * pid * recop)) : nat := length (ops_of p log).

(* what a call that gave this answer did *)
Definition effect (p : pid) (c : acall) (a : aret) : list (pid * recop) :=
  match a with RMark false => [] | _ => List.map (fun o => (p, o)) (op_of_call c) end.

Inductive atstep (f : af) (i : nat) (m : tmem) (t : athread) : tmem -> athread -> Prop :=
| at_begin p c : at_run t = None -> wf_pid f p ->
    atstep f i m t m (AThread (at_view t) (Some (p, c, abegin f p c)) (at_past t) (at_did t) 0)
| at_learn v : knows_cell (tm_heap m) (at_view t) v ->
    atstep f i m t m (AThread v (at_run t) (at_past t) (at_did t) (at_steps t))
| at_walk p c q : at_run t = Some (p, c, AWalk q) -> cells_agree f p (tm_heap m) (at_view t) q ->
    atstep f i m t (TMem (walked f p (tm_heap m) q) (tm_log m))
      (AThread (walked f p (at_view t) q)
        (Some (p, c, or_apanic (do x <- pstep f p (at_view t) q; Ok (after_walk c (snd x)))))
        (at_past t) (at_did t) (S (at_steps t)))
| at_look p c w : at_run t = Some (p, c, ALook w) ->
    atstep f i m t m
      (AThread (at_view t) (Some (p, c, or_apanic (alook f p (at_view t) w))) (at_past t) (at_did t) (S (at_steps t)))
| at_crit p c k found v : at_run t = Some (p, c, ACrit k found) -> deref k (tm_heap m) = Ok v ->
    let log := tm_log m ++ List.map (fun o => (i, p, o)) (op_of_call c) in
    atstep f i m t
      (TMem (modify k (fun v => set_recs v (fst (acrit c found (pv_recs v)))) (tm_heap m)) log)
      (AThread (at_view t) (Some (p, c, ADone (many p log) (snd (acrit c found (pv_recs v)))))
        (at_past t) (at_did t) (S (at_steps t)))
| at_lost p c k found : at_run t = Some (p, c, ACrit k found) -> (forall v, deref k (tm_heap m) <> Ok v) ->
    atstep f i m t m (AThread (at_view t) (Some (p, c, APanic)) (at_past t) (at_did t) (S (at_steps t)))
| at_return p c n a : at_run t = Some (p, c, ADone n a) ->
    atstep f i m t m (AThread (at_view t) None ((p, n) :: at_past t) (at_did t ++ effect p c a) 0).

(* thread j comes to know what thread i knows: i is joined, sends j a message, .. *)
Definition atold (ti tj : athread) : athread :=
  AThread (cells_join (at_view ti) (at_view tj)) None (at_past ti ++ at_past tj) (at_did tj) (at_steps tj).

Inductive acstep (f : af) : aconf -> aconf -> Prop :=
| as_spawn m ts : acstep f (AConf m ts) (AConf m (ts ++ [AThread [] None [] [] 0]))
| as_thread m ts i t m' t' : nth_error ts i = Some t -> atstep f i m t m' t' ->
    acstep f (AConf m ts) (AConf m' (set_nth i t' ts))
| as_told m ts i j ti tj : nth_error ts i = Some ti -> nth_error ts j = Some tj ->
    at_run ti = None -> at_run tj = None ->
    acstep f (AConf m ts) (AConf m (set_nth j (atold ti tj) ts)).

(* a new table is empty *)
Inductive areach (f : af) : aconf -> Prop :=
| ar_start : areach f (AConf (TMem [] []) [])
| ar_step x y : areach f x -> acstep f x y -> areach f y.
