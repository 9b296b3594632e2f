(* What the theorems about queries beside concurrent calls are stated with. *)
From Coq Require Import Arith NArith List Bool.
From Verif Require Import Word Af Spec Maps Cht Tree Iter MultiMap RecordSet PrefixCht Lsm Rib StarCast HistSpec Ask
  Conc ConcTree ConcStore ConcMarks ConcSpec ConcWhole WholeSpec ConcScan ConcQuery.
Import ListNotations.
Local Open Scope N_scope.

(* a query begins when the store is at x0; from then on a step is a step of the
   store's calls, or one of the query.  n counts the steps of the query *)
Inductive wbeside {S : Type} (ov : bool) (over : S -> bool) (next : wstate -> S -> S)
    (x0 : wstore) (s0 : S) : nat -> wstore -> S -> Prop :=
| wb_start : wbeside ov over next x0 s0 0 x0 s0
| wb_call n x y s : wbeside ov over next x0 s0 n x s ->
    cstep wstart wlegal (wstep ov) x y -> wbeside ov over next x0 s0 n y s
| wb_own n x s : wbeside ov over next x0 s0 n x s -> over s = false ->
    wbeside ov over next x0 s0 (Datatypes.S n) x (next (sh x) s).

Definition matching (ov : bool) (f : af) (p : pid) (o : matchopts) (x0 : wstore) : nat -> wstore -> atpc -> Prop :=
  wbeside ov match_over (match_next f p o) x0 (match_start p).
Definition iterating (ov : bool) (f : af) (k : each) (x0 : wstore) : nat -> wstore -> itpc -> Prop :=
  wbeside ov each_over (each_next f k) x0 (each_start k).

(* an insert of the prefix has begun; has returned *)
Definition being_inserted (x : wstore) (f : af) (q : pid) : Prop :=
  exists i r ups, wstarted x i (WStore f (CInsert q r ups)).
Definition was_inserted (x : wstore) (f : af) (q : pid) : Prop :=
  exists i r ups rep, wreturned x i (WStore f (CInsert q r ups)) (RetCall (RetIns (ROk rep))).
(* no insert runs between x and y, and none has panicked *)
Definition no_inserts (x y : wstore) (f : af) : Prop :=
  forall i q r ups, wstarted y i (WStore f (CInsert q r ups)) ->
    exists a, wreturned x i (WStore f (CInsert q r ups)) (RetCall (RetIns a)).

(* nothing but inserts of active records, ever *)
Definition only_active (x : wstore) : Prop :=
  forall i c, wstarted x i c -> exists f q r ups, c = WStore f (CInsert q r ups) /\ r_status r = Active.

(* between x and y there are a moment w2, and one w1 not after it, so that a
   look-up of q gives r with the records of w2 and the global marks of w1 *)
Definition looked_up (ov : bool) (x y : wstore) (f : af) (q : pid) (mui : option N) (iw : bool)
    (r : option (list record)) : Prop :=
  exists w1 w2, wexec ov x w1 /\ wexec ov w1 w2 /\ wexec ov w2 y /\
    ask (marks_of w1 w2) (QGet (f, q) mui iw) = Ok (ARecords (ROk r)).

(* the prefixes with their records in a set *)
Definition in_set (s : option recordset) (x : prefixrecord) : Prop :=
  exists rs l, s = Some rs /\ rs_items rs = Ok l /\ In x l.

(* ---------- iterators ---------- *)

Definition wf_each (f : af) (k : each) : Prop :=
  wf_mui (each_mui k) /\ match k with EachMore p _ _ | EachLess p _ _ => wf_pid f p | _ => True end.
(* the iterator asks first whether the mui is globally withdrawn *)
Definition each_asks (k : each) : option N :=
  match k with EachMore _ (Some m) false => Some m | EachOfMui m false => Some m | _ => None end.
(* the prefix it begins at *)
Definition each_pfx (k : each) : pid := match k with EachMore p _ _ | EachLess p _ _ => p | _ => (0, 0) end.
(* the prefixes it is for *)
Definition each_of (f : af) (k : each) (c : pid) : Prop :=
  match k with
  | EachLess p _ _ => covers f c p /\ p_len c < p_len p
  | _ => covers f (each_pfx k) c
  end.
(* what it gives for a prefix, if a look-up of it gives v *)
Definition each_gives (k : each) (v : option (list record)) (l : list record) : Prop :=
  match k with EachPrefix => l = opt_default v | _ => v = Some l end.
Definition prefixes_given (g : list (result prefixrecord)) : list prefix :=
  flat_map (fun r => match r with ROk x => [fst x] | RErr _ => [] end) g.
(* the more specifics of a prefix that has as many bits as the family are not looked for *)
Definition each_looks (f : af) (k : each) : Prop :=
  match k with EachLess _ _ _ => True | _ => p_len (each_pfx k) < BITS f end.
(* the sequential code run to its end *)
Definition each_in_sequence (s : store) (f : af) (k : each) : res (list (result prefixrecord)) :=
  match k with
  | EachMore p mui iw => more_specifics_iter_from s (f, p) mui iw
  | EachLess p mui iw => less_specifics_iter_from s (f, p) mui iw
  | EachPrefix => prefixes_iter_af s f
  | EachOfMui m iw => iter_records_for_mui s f m iw
  end.
