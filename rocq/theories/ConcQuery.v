(* The queries that give prefixes with their records, run beside any number of
   calls on the whole store (ConcWhole.v): match_prefix and the iterators.  A
   step is one step of a reader of ConcScan.v, one step of get_value as in
   ConcWhole.v, or a step of the query's own without shared memory, from one part
   of the query to the next.  A query writes nothing. *)
From Coq Require Import Arith NArith List Bool.
From Verif Require Import Word Af Maps Cht Tree Iter MultiMap RecordSet PrefixCht Lsm Rib StarCast
  Conc ConcTree ConcStore ConcMarks ConcScan ConcWhole.
Import ListNotations.
Local Open Scope N_scope.

Definition tree_in (s : wstate) (f : af) : tree := rb_tree (ss_rib (fam s f)).

(* get_value, rib/starcast_af_query.rs:33-84: from WAsk to WGot or WPanic, the
   steps of the call of ConcWhole.v *)
Definition value_next (f : af) (p : pid) (mui : option N) (iw : bool) (s : wstate) (l : wpc) : wpc :=
  match l with
  | WAsk => WLook (g_set (marks s f)) VStart
  | WLook bmin pc => wlook f (fam s f) p mui iw bmin pc
  | _ => l
  end.

(* an iterator over the tree: the more specifics of p; the less specifics of p
   (false) or the longest match (true) *)
Inductive scan : Type := SMore (p : pid) (m : mscan) | SLess (once : bool) (p : pid) (b : bscan).
Definition more_from (p : pid) : scan := SMore p mscan0.
Definition less_from (once : bool) (p : pid) : scan := SLess once p (bscan0 once p).
Definition scan_next (f : af) (t : tree) (s : scan) : scan :=
  match s with
  | SMore p m => SMore p (mnext f p t m)
  | SLess once p b => SLess once p (bnext f once p t b)
  end.
(* what it has given, the last one first *)
Definition scan_out (s : scan) : list pid :=
  match s with SMore _ m => sc_out m | SLess _ _ b => bs_out b end.
Inductive stage : Type := Going | Ended | Broken.
Definition scan_stage (s : scan) : stage :=
  match s with
  | SMore _ m => match sc_pc m with MDone _ => Ended | MPanic => Broken | _ => Going end
  | SLess _ _ b => match bs_pc b with BDone => Ended | BPanic => Broken | _ => Going end
  end.

(* ---------- match_prefix, rib/starcast_af_query.rs:202-285 ---------- *)

Inductive atpc : Type :=
| AtLong (s : scan)                                        (* tree_bitmap_query.rs:20 *)
| AtLess (lm : option pid) (s : scan)                      (* 37-42 *)
| AtMore (lm : option pid) (ls : option (list pid)) (s : scan) (* 44-50 *)
| AtMain (t : treeresult) (l : wpc)                        (* starcast_af_query.rs:214-223 *)
| AtFill (more : bool) (t : treeresult) (main : option (list record))
    (ms : option (list prefixrecord)) (todo : list pid) (got : list prefixrecord) (l : wpc)
    (* 231-256 for the more specifics (true), then 257-282 for the less specifics
       (false): l is at the first of [todo]; the sets hold one family only, so
       that going over one gives its prefixes in the order of the tree's lists *)
| AtEnd (r : result queryresult)
| AtPanic.

(* tree_bitmap_query.rs:22-35, 52-57 *)
Definition tree_result (p : pid) (o : matchopts) (lm : option pid) (ls ms : option (list pid)) : treeresult :=
  let '(pfx, mt) :=
    match mo_type o with
    | ExactMatch =>
      match lm with
      | Some q => if pid_eqb q p then (lm, ExactMatch) else (None, EmptyMatch)
      | None => (None, EmptyMatch)
      end
    | _ => (lm, LongestMatch)
    end in
  TreeResult mt pfx ls ms.

Definition at_end (f : af) (t : treeresult) (main : option (list record))
    (ms ls : option (list prefixrecord)) : atpc :=
  AtEnd (ROk (match main with
              | Some l => QueryResult (tr_type t) (option_map (fun q => (f, q)) (tr_prefix t)) l
              | None => QueryResult EmptyMatch None []
              end (option_map rs_from_iter ls) (option_map rs_from_iter ms))).
Definition at_fill_less (f : af) (t : treeresult) (main : option (list record))
    (ms : option (list prefixrecord)) : atpc :=
  match tr_less t with
  | Some l => AtFill false t main ms l [] WAsk
  | None => at_end f t main ms None
  end.
Definition at_fill_more (f : af) (t : treeresult) (main : option (list record)) : atpc :=
  match tr_more t with
  | Some l => AtFill true t main None l [] WAsk
  | None => at_fill_less f t main None
  end.
Definition at_main (f : af) (t : treeresult) : atpc :=
  match tr_prefix t with Some _ => AtMain t WAsk | None => at_fill_more f t None end.
Definition at_more (f : af) (p : pid) (o : matchopts) (lm : option pid) (ls : option (list pid)) : atpc :=
  if mo_more o then AtMore lm ls (more_from p) else at_main f (tree_result p o lm ls None).
Definition at_less (f : af) (p : pid) (o : matchopts) (lm : option pid) : atpc :=
  if mo_less o then AtLess lm (less_from false p) else at_more f p o lm None.

Definition match_next (f : af) (p : pid) (o : matchopts) (s : wstate) (q : atpc) : atpc :=
  let mui := mo_mui o in
  let iw := mo_withdrawn o in
  match q with
  | AtLong sc =>
    match scan_stage sc with
    | Going => AtLong (scan_next f (tree_in s f) sc)
    | Ended => at_less f p o (hd_error (scan_out sc))
    | Broken => AtPanic
    end
  | AtLess lm sc =>
    match scan_stage sc with
    | Going => AtLess lm (scan_next f (tree_in s f) sc)
    | Ended => at_more f p o lm (Some (rev (scan_out sc)))
    | Broken => AtPanic
    end
  | AtMore lm ls sc =>
    match scan_stage sc with
    | Going => AtMore lm ls (scan_next f (tree_in s f) sc)
    | Ended =>
      at_main f (tree_result p o lm ls (Some (filter (fun q => negb (pid_eqb q p)) (rev (scan_out sc)))))
    | Broken => AtPanic
    end
  | AtMain t l =>
    match tr_prefix t, l with
    | Some _, WGot r =>
      at_fill_more f t (match r with ROk (Some (x :: v)) => Some (x :: v) | _ => None end)
    | Some c, WAsk | Some c, WLook _ _ => AtMain t (value_next f c mui iw s l)
    | _, _ => AtPanic
    end
  | AtFill more t main ms [] got _ =>
    if more then at_fill_less f t main (Some got) else at_end f t main ms (Some got)
  | AtFill more t main ms (c :: todo) got l =>
    match l with
    | WGot (ROk (Some v)) => AtFill more t main ms todo (got ++ [((f, c), v)]) WAsk
    | WGot (ROk None) => AtFill more t main ms todo got WAsk
    | WGot (RErr e) => AtEnd (RErr e)
    | WAsk | WLook _ _ => AtFill more t main ms (c :: todo) got (value_next f c mui iw s l)
    | _ => AtPanic
    end
  | AtEnd _ | AtPanic => q
  end.

Definition match_start (p : pid) : atpc := AtLong (less_from true p).
Definition match_over (q : atpc) : bool := match q with AtEnd _ | AtPanic => true | _ => false end.

(* ---------- the iterators ---------- *)

Inductive each : Type :=
| EachMore (p : pid) (mui : option N) (iw : bool) (* more_specifics_iter_from, starcast_af_query.rs:155-183 *)
| EachLess (p : pid) (mui : option N) (iw : bool) (* less_specifics_iter_from, 185-200 *)
| EachPrefix                                      (* prefixes_iter, rib/starcast_af.rs:446-458 *)
| EachOfMui (mui : N) (iw : bool).                (* iter_records_for_mui, rib/starcast.rs:464-523 *)
Definition each_mui (k : each) : option N :=
  match k with EachMore _ mui _ | EachLess _ mui _ => mui | EachPrefix => None | EachOfMui m _ => Some m end.
Definition each_iw (k : each) : bool :=
  match k with EachMore _ _ iw | EachLess _ _ iw | EachOfMui _ iw => iw | EachPrefix => true end.
Definition each_scan (k : each) : scan :=
  match k with
  | EachMore p _ _ => more_from p
  | EachLess p _ _ => less_from false p
  | EachPrefix | EachOfMui _ _ => more_from (0, 0)
  end.

Inductive itpc : Type :=
| ItCheck (m : N) (n : nat)
    (* the set of withdrawn muis is looked at, n more times after this one:
       starcast_af_query.rs:165 and starcast.rs:470 *)
| ItScan (s : scan) (cur : option (pid * wpc)) (got : list (result prefixrecord))
    (* cur: get_value for the prefix just found *)
| ItEnd (got : list (result prefixrecord))
| ItPanic.

(* what is made of a look-up: the closures at starcast_af_query.rs:174-178 and
   195-199, and starcast_af.rs:446-458 *)
Definition each_item (f : af) (k : each) (c : pid) (r : result (option (list record)))
    : list (result prefixrecord) :=
  match k, r with
  | EachPrefix, ROk v => [ROk ((f, c), opt_default v)]
  | EachPrefix, RErr _ => [RErr FatalErr]
  | _, ROk (Some v) => [ROk ((f, c), v)]
  | _, ROk None => []
  | _, RErr e => [RErr e]
  end.

Definition each_start (k : each) : itpc :=
  match k with
  | EachMore p (Some m) false => ItCheck m 0
  | EachOfMui m false => ItCheck m 1
  | _ => ItScan (each_scan k) None []
  end.

Definition each_next (f : af) (k : each) (s : wstate) (q : itpc) : itpc :=
  match q with
  | ItCheck m n =>
    if rib_mui_is_withdrawn (rib_now s f) m then ItEnd []
    else match n with O => ItScan (each_scan k) None [] | S n' => ItCheck m n' end
  | ItScan sc None got =>
    match scan_stage sc with
    | Going =>
      let sc' := scan_next f (tree_in s f) sc in
      ItScan sc' (match scan_out sc' with
                  | c :: l => if Nat.eqb (length l) (length (scan_out sc)) then Some (c, WAsk) else None
                  | [] => None
                  end) got
    | Ended => ItEnd got
    | Broken => ItPanic
    end
  | ItScan sc (Some (c, l)) got =>
    match l with
    | WGot r => ItScan sc None (got ++ each_item f k c r)
    | WAsk | WLook _ _ => ItScan sc (Some (c, value_next f c (each_mui k) (each_iw k) s l)) got
    | _ => ItPanic
    end
  | ItEnd _ | ItPanic => q
  end.

Definition each_over (q : itpc) : bool := match q with ItEnd _ | ItPanic => true | _ => false end.
