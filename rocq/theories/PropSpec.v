(* The rest of the specification: the notions that the theorems of the Prop*.v
   files are stated with, besides those of Spec.v and HistSpec.v. *)
From Coq Require Import Arith NArith List Bool Lia Permutation.
From Verif Require Import Word Af Spec Maps Tree Iter MultiMap RecordSet Rib StarCast HistSpec Ask.
Import ListNotations.
Local Open Scope N_scope.

(* the strategies that keep the records in memory *)
Definition in_memory (s : strategy) : Prop := s <> PersistOnly.

(* the strategies that write records under keys with time and status *)
Definition keeps_long (s : strategy) : Prop := s = WriteAhead \/ s = PersistHistory.

(* the addresses that agree with p up to its last stride of four bits *)
Definition block (p : prefix) : prefix :=
  let l := 4 * ((p_len (snd p) - 1) / 4) in
  (fst p, (trunc (BITS (fst p)) (p_bits (snd p)) l, l)).

(* the same records, in whatever order *)
Definition same_records (a b : option (list record)) : Prop :=
  match a, b with
  | None, None => True
  | Some l, Some l' => Permutation l l'
  | _, _ => False
  end.

(* r is among the records of an answer *)
Definition holds (o : option (list record)) (r : record) : Prop :=
  match o with Some l => In r l | None => False end.

(* the calls that set the record of (p, m) *)
Definition sets (p : prefix) (m : N) (o : op) : bool :=
  match o with
  | Insert q r _ => prefix_eqb p q && (m =? r_mui r)
  | MarkWithdrawn q n _ | MarkActive q n _ => prefix_eqb p q && (m =? n)
  | _ => false
  end.

(* the calls that change the global status of m for the family f *)
Definition sets_global (f : af) (m : N) (o : op) : bool :=
  match o with
  | GlobalWithdrawn g n | GlobalActive g n => af_eqb f g && (m =? n)
  | GlobalWithdrawnBoth n => m =? n
  | _ => false
  end.

(* the global marks of m *)
Definition global_of (m : N) (o : op) : bool :=
  match o with
  | GlobalWithdrawn _ n | GlobalWithdrawnBoth n | GlobalActive _ n => n =? m
  | _ => false
  end.

(* the history without the global marks of m *)
Definition without_global (m : N) (h : list op) : list op :=
  filter (fun o => negb (global_of m o)) h.

(* what insert reports *)
Definition report_spec (s : strategy) (h : list op) (p : prefix) (r : record) : report :=
  match s with
  | PersistOnly => Report 0 true true 0
  | _ => Report 0 (negb (inserted h p)) true
           (match last_rec h p (r_mui r) with Some _ => n_muis p h | None => 1 end)
  end.

(* the error of a withdrawal for an unknown prefix *)
Definition mark_err (s : strategy) : perr :=
  match s with PersistHistory => StoreNotReadyError | _ => PrefixNotFound end.

(* what a call returns after a history *)
Definition outcome_spec (s : strategy) (h : list op) (o : op) (x : outcome) : Prop :=
  match o with
  | Insert p r _ => x = OReport (ROk (report_spec s h p r))
  | MarkWithdrawn p _ _ =>
    x = OUnit (match s with
               | PersistOnly => ROk tt
               | _ => if touched h p then ROk tt else RErr (mark_err s)
               end)
  | MarkActive p _ _ =>
    x = OUnit (match s with
               | PersistOnly => ROk tt
               | _ => if touched h p then ROk tt else RErr FatalErr
               end)
  | Calculate p t =>
    match x with
    | OSel (ROk sel) => s <> PersistOnly /\ touched h p = true /\ selection t (last_rec h p) sel
    | OSel (RErr e) => e = StoreNotReadyError /\ (s = PersistOnly \/ touched h p = false)
    | _ => False
    end
  | _ => x = OUnit (ROk tt)
  end.

(* the two results of a call, apart from the kind of error of a failed mark *)
Definition same_outcome (x y : outcome) : Prop :=
  match x, y with
  | OUnit (RErr _), OUnit (RErr _) => True
  | _, _ => x = y
  end.

(* a tree node for every multiple of four below the length of an inserted prefix *)
Definition node_on_path (f : af) (h : list op) (id : pid) : Prop :=
  id = (0, 0) \/
  exists p r u, In (Insert (f, p) r u) h /\ wf_pid f id /\ p_len id mod 4 = 0 /\
    p_len id < p_len p /\ covers f id p.

(* the data on disk hold record r for prefix p *)
Definition on_disk (st : store) (p : prefix) (r : record) : Prop := In (Some (p, r)) (disk st (fst p)).

(* what tells the history records of one prefix apart *)
Definition key_of (r : record) : N * N * status := (r_mui r, r_ltime r, r_status r).

(* the record a call writes to the history, if any *)
Definition superseded (h : list op) (o : op) : option (prefix * record) :=
  match o with
  | Insert p r _ => option_map (pair p) (last_rec h p (r_mui r))
  | MarkWithdrawn p m t | MarkActive p m t =>
    option_map (fun _ => (p, Rec m t Withdrawn [])) (last_rec h p m)
  | _ => None
  end.

(* the marks for one prefix *)
Definition local_mark (o : op) : bool :=
  match o with MarkWithdrawn _ _ _ | MarkActive _ _ _ => true | _ => false end.

(* the visible record of (p, m) when everything is read from disk *)
Definition view_map (h : list op) (p : prefix) (mui : option N) (iw : bool) (m : N) : option record :=
  match last_rec h p m with
  | Some r =>
    if negb (named mui m) then None
    else if iw then Some (if g_withdrawn h (fst p) m then with_status Withdrawn r else r)
    else if status_eqb (r_status r) Withdrawn || g_withdrawn h (fst p) m then None else Some r
  | None => None
  end.

(* only active records, no local marks *)
Definition all_active (h : list op) : Prop :=
  existsb local_mark h = false /\ forall p r u, In (Insert p r u) h -> r_status r = Active.

(* no query by name for a mui that is withdrawn globally, unless withdrawn
   records are included *)
Definition not_hidden (h : list op) (f : af) (mui : option N) (iw : bool) : Prop :=
  iw = true \/ match mui with Some m => g_withdrawn h f m = false | None => True end.

(* the number of levels of the chain of an id *)
Definition chain_len (len : N) : N := N.max 1 ((len + 3) / 4).

(* the table at cht/mod.rs:132-158: the bits used by the levels before lvl *)
Definition naive_offset (len lvl : N) : N := N.min (4 * lvl) len.

(* the prefix of x belongs to f *)
Definition of_family (f : af) (x : prefixrecord) : bool := af_eqb (fst (fst x)) f.

(* every local mark came after an insert of its prefix *)
Fixpoint marks_known (h : list op) : Prop :=
  match h with
  | [] => True
  | o :: h' => match o with
               | MarkWithdrawn p _ _ | MarkActive p _ _ => inserted h' p = true
               | _ => True
               end /\ marks_known h'
  end.
