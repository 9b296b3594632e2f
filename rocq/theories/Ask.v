(* All the methods of rib/starcast.rs that only read, as one type of questions. *)
From Coq Require Import Arith NArith List Bool Lia.
From Verif Require Import Word Af Maps Tree Iter MultiMap RecordSet Rib StarCast HistSpec.
Import ListNotations.
Local Open Scope N_scope.

(* one constructor per method of StarCast.v; [QDisk] is the data on disk *)
Inductive query : Type :=
| QMatch (p : prefix) (o : matchopts)
| QContains (p : prefix) (mui : option N)
| QBestPath (p : prefix)
| QOutdated (p : prefix)
| QMoreFrom (p : prefix) (mui : option N) (iw : bool)
| QLessFrom (p : prefix) (mui : option N) (iw : bool)
| QMoreIter (p : prefix) (mui : option N) (iw : bool)
| QLessIter (p : prefix) (mui : option N) (iw : bool)
| QGet (p : prefix) (mui : option N) (iw : bool)
| QMuiIter (f : af) (mui : N) (iw : bool)
| QPrefixes (f : af)
| QPersisted (f : af)
| QActive (f : af) (mui : N)
| QWithdrawn (f : af) (mui : N)
| QPrefixCount (f : af)
| QPrefixCountLen (f : af) (len : N)
| QRouteCount (f : af)
| QNodeCount (f : af)
| QStats (f : af)
| QDisk (f : af)
| QAllPrefixes
| QAllPersisted
| QActiveBoth (mui : N)
| QAllPrefixCount
| QAllRouteCount
| QAllNodeCount
| QFlush.

Inductive answer : Type :=
| AMatch (r : result queryresult)
| ABool (b : bool)
| ABest (r : option (result record))
| AOutdated (r : result bool)
| AItems (l : list (result prefixrecord))
| ARecords (r : result (option (list record)))
| ACount (c : ucounters)
| ACountLen (r : result ucounters)
| ANum (n : N)
| AStats (l : list (N * N))
| ADisk (l : list (option (prefix * record)))
| AUnit (r : result unit).

Definition lift {A} (g : A -> answer) (r : res A) : res answer := do x <- r; Ok (g x).

(* the method that answers a question, see the definitions in StarCast.v *)
Definition ask (st : store) (q : query) : res answer :=
  match q with
  | QMatch p o => lift AMatch (match_prefix st p o)
  | QContains p mui => lift ABool (contains st p mui)
  | QBestPath p => lift ABest (best_path st p)
  | QOutdated p => lift AOutdated (is_ps_outdated st p)
  | QMoreFrom p mui iw => lift AMatch (more_specifics_from st p mui iw)
  | QLessFrom p mui iw => lift AMatch (less_specifics_from st p mui iw)
  | QMoreIter p mui iw => lift AItems (more_specifics_iter_from st p mui iw)
  | QLessIter p mui iw => lift AItems (less_specifics_iter_from st p mui iw)
  | QGet p mui iw => lift ARecords (get_records_for_prefix st p mui iw)
  | QMuiIter f mui iw => lift AItems (iter_records_for_mui st f mui iw)
  | QPrefixes f => lift AItems (prefixes_iter_af st f)
  | QPersisted f => lift AItems (persist_prefixes_iter_af st f)
  | QActive f mui => Ok (ABool (is_mui_active_af st f mui))
  | QWithdrawn f mui => Ok (ABool (mui_is_withdrawn st f mui))
  | QPrefixCount f => Ok (ACount (prefixes_count_af st f))
  | QPrefixCountLen f len => lift ACountLen (prefixes_count_for_len st f len)
  | QRouteCount f => Ok (ACount (routes_count_af st f))
  | QNodeCount f => Ok (ANum (nodes_count_af st f))
  | QStats f => Ok (AStats (stats st f))
  | QDisk f => Ok (ADisk (disk st f))
  | QAllPrefixes => lift AItems (prefixes_iter st)
  | QAllPersisted => lift AItems (persist_prefixes_iter st)
  | QActiveBoth mui => Ok (ABool (is_mui_active st mui))
  | QAllPrefixCount => Ok (ACount (prefixes_count st))
  | QAllRouteCount => Ok (ACount (routes_count st))
  | QAllNodeCount => Ok (ANum (nodes_count st))
  | QFlush => Ok (AUnit (flush_to_disk st))
  end.

(* valid arguments: the types Prefix and u32 of the methods *)
Definition wf_mui (mui : option N) : Prop := match mui with Some m => m < 2 ^ 32 | None => True end.
Definition wf_query (q : query) : Prop :=
  match q with
  | QMatch p o => wf_prefix p /\ wf_mui (mo_mui o)
  | QContains p mui | QMoreFrom p mui _ | QLessFrom p mui _ | QMoreIter p mui _
  | QLessIter p mui _ | QGet p mui _ => wf_prefix p /\ wf_mui mui
  | QBestPath p | QOutdated p => wf_prefix p
  | QMuiIter _ m _ | QActive _ m | QWithdrawn _ m | QActiveBoth m => m < 2 ^ 32
  | _ => True
  end.

(* the family a question is about, if it is about one only *)
Definition query_af (q : query) : option af :=
  match q with
  | QMatch p _ | QContains p _ | QBestPath p | QOutdated p | QMoreFrom p _ _ | QLessFrom p _ _
  | QMoreIter p _ _ | QLessIter p _ _ | QGet p _ _ => Some (fst p)
  | QMuiIter f _ _ | QPrefixes f | QPersisted f | QActive f _ | QWithdrawn f _ | QPrefixCount f
  | QPrefixCountLen f _ | QRouteCount f | QNodeCount f | QStats f | QDisk f => Some f
  | _ => None
  end.
(* the family a call is for, if it is for one only *)
Definition op_af (o : op) : option af :=
  match o with
  | Insert p _ _ | MarkWithdrawn p _ _ | MarkActive p _ _ | Calculate p _ => Some (fst p)
  | GlobalWithdrawn f _ | GlobalActive f _ => Some f
  | GlobalWithdrawnBoth _ => None
  end.
(* the questions about the data on disk *)
Definition about_disk (q : query) : bool :=
  match q with QPersisted _ | QAllPersisted | QDisk _ | QFlush => true | _ => false end.
