(* rib/starcast_af.rs and prefix_cht/cht.rs run by many threads: the steps of
   insert, of the marks for one prefix, of contains and of the look-up of the
   records of one prefix.  As in ConcTree.v one step is one access to shared
   memory: one probe of a once-cell, one load, one compare_exchange, one
   fetch_add, one critical section of the record map's mutex, one call of the
   lsm_tree crate.  Locks are taken to be free when asked for (a critical section
   is one step).  The global marks (t_withdrawn) are the subject of ConcMarks.v;
   no call of this machine writes them. *)
From Coq Require Import Arith NArith List Bool Lia.
From Verif Require Import Word Af BitSpan Maps ChtMath Cht Node Tree MultiMap PrefixCht Lsm Rib
  Conc ConcTree.
Import ListNotations.
Local Open Scope N_scope.

(* ---------- non_recursive_retrieve_prefix_mut, prefix_cht/cht.rs:693-762 ---------- *)

Inductive ppc : Type :=
| PGet (w : walk)   (* 711: prefix_set.0.get(index) *)
| PInit (w : walk). (* 730: prefix_set.0.get_or_init(index, ..) *)

(* the flag tells whether the entry was found by `get` *)
Inductive pout : Type := PMore (p : ppc) | PFound (k : key) (found : bool).

(* 746-760: there is no check of the size of the next bucket *)
Definition pcheck (id : pid) (w : walk) (index : N) (e : entry pval) (found : bool) : res pout :=
  if pid_eqb id (e_id e) then Ok (PFound (wkey w index) found)
  else
    do level' <- add8 (w_level w) 1;
    Ok (PMore (PGet (Walk (w_b w) (w_path w ++ [index]) (e_slots e) level'))).

Definition pstep (f : af) (id : pid) (h : heap pval) (p : ppc) : res (heap pval * pout) :=
  match p with
  | PGet w =>
    do index <- hash_id f id (w_level w);
    match slot_get h (w_b w) (w_path w) (w_slots w) index with
    | None => Ok (h, PMore (PInit w))
    | Some e => do o <- pcheck id w index e true; Ok (h, o)
    end
  | PInit w =>
    do index <- hash_id f id (w_level w);
    do l1 <- add8 (w_level w) 1;
    do next_level <- nodeset_size (p_len id) l1;
    do x <- slot_get_or_init h (w_b w) (w_path w) (w_slots w) index
              (Entry id pval_new (slots_for next_level));
    let '(h1, e, _) := x in
    do o <- pcheck id w index e false; Ok (h1, o)
  end.

(* ---------- the shared state ---------- *)

(* what a critical section of a record map does *)
Inductive recop : Type := OUp (r : record) | OMark (s : status) (mui ltime : N).

Record sstate : Type := SState {
  ss_rib : rib;
  (* how often the pointer to the path selections of an entry has been replaced:
     the pointer itself, of which the model keeps only the value and the tag.
     Memory that a thread may still look at is not reused (epoch::pin). *)
  ss_ver : map key N;
  (* the fields below are no part of the program's state, the program never reads
     them: the critical sections so far, with the thread that ran them; the
     threads that have made their prefix present in the tree; the threads that
     have incremented the counter of prefixes *)
  ss_log : list (nat * pid * recop);
  ss_made : list nat;
  ss_counted : list nat
}.

Definition set_rib (s : sstate) (rb : rib) : sstate :=
  SState rb (ss_ver s) (ss_log s) (ss_made s) (ss_counted s).
Definition set_pheap (rb : rib) (h : heap pval) : rib :=
  set_pcht rb (PCht h (pc_cnt (rb_pcht rb))).
Definition set_pcnt (rb : rib) (c : counters) : rib :=
  set_pcht rb (PCht (pc_heap (rb_pcht rb)) c).
Definition pheap (s : sstate) : heap pval := pc_heap (rb_pcht (ss_rib s)).
Definition ver (s : sstate) (k : key) : N :=
  match lookup k (ss_ver s) with Some n => n | None => 0 end.
Definition add_log (s : sstate) (e : nat * pid * recop) : sstate :=
  SState (ss_rib s) (ss_ver s) (ss_log s ++ [e]) (ss_made s) (ss_counted s).

(* has set_prefix_exists made the prefix present (or panicked)? *)
Definition has_made (pc : tpc) : bool :=
  match pc with
  | TDefault existed _ => negb existed
  | TDone (ROk (_, existed)) => negb existed
  | TPanic => true
  | _ => false
  end.
Definition note_made (i : nat) (pc pc' : tpc) (l : list nat) : list nat :=
  if has_made pc' && negb (has_made pc) then l ++ [i] else l.

(* ---------- insert, rib/starcast_af.rs:114-206 ---------- *)

Inductive ipc : Type :=
| ITree (t : tpc)                                   (* 123 *)
| IAhead (b : N * bool)                             (* 158 *)
| IWalk (b : N * bool) (p : ppc)                    (* cht.rs:602 *)
| IOutdate (b : N * bool) (k : key)                 (* cht.rs:651 *)
| IUpsert (b : N * bool) (k : key) (found : bool)   (* cht.rs:614, 653 *)
| IRoute (b : N * bool) (k : key) (found : bool)    (* cht.rs:624, 662 *)
| IPrefix (b : N * bool)                            (* cht.rs:628 *)
| IBest (b : N * bool) (k : key) (o : option (mmval * N)) (* cht.rs:481, under the lock *)
| ILoadSel (b : N * bool) (k : key) (o : option (mmval * N)) (sel : option N * option N) (* 440 *)
| ICasSel (b : N * bool) (k : key) (o : option (mmval * N)) (sel : option N * option N)
    (cur : N * bool)                                (* 447: pointer and tag loaded *)
| IHist (b : N * bool) (rep : report) (old : mmval) (* starcast_af.rs:176 *)
| ITree2 (b : N * bool) (t : tpc)                   (* 191 *)
| IShort (b : N * bool) (b2 : N * bool)             (* 194 *)
| IRibRoute (b : N * bool) (rep : report)           (* 135 *)
| IRibPrefix (b : N * bool) (rep : report)          (* 139 *)
| IDone (r : result report)
| IPanic.

(* 138-142, after the routes counter *)
Definition after_route (b : N * bool) (rep : report) : ipc :=
  if snd b then IDone (ROk (Report (rp_cas rep + fst b) (rp_prefix_new rep)
                              (rp_mui_new rep) (rp_mui_count rep)))
  else IRibPrefix b rep.
(* 133-136 *)
Definition after_upsert (b : N * bool) (rep : report) : ipc :=
  if rp_mui_new rep then IRibRoute b rep else after_route b rep.

(* cht.rs:673-682, then starcast_af.rs:167, 172-183 or 187 *)
Definition after_cht (st : strategy) (b : N * bool) (o : option (mmval * N))
    (prefix_is_new mui_is_new : bool) : ipc :=
  let rep := Report 0 prefix_is_new mui_is_new (match o with Some (_, n) => n | None => 1 end) in
  match st, o with
  | PersistHistory, Some (old, _) => IHist b rep old
  | _, _ => after_upsert b rep
  end.

(* cht.rs:666-670 *)
Definition after_count (st : strategy) (ups : option tbi) (b : N * bool) (k : key)
    (o : option (mmval * N)) : ipc :=
  match ups with
  | Some _ => IBest b k o
  | None => after_cht st b o false true
  end.

(* starcast_af.rs:154-205, up to the first shared access *)
Definition begin_upsert (f : af) (rb : rib) (p : pid) (b : N * bool) : res ipc :=
  match rb_strat rb with
  | WriteAhead =>
    match rb_lsm rb with Some _ => Ok (IAhead b) | None => Ok (IDone (RErr StoreNotReadyError)) end
  | PersistHistory | MemoryOnly =>
    do w <- walk_start f PSTRIDE p; Ok (IWalk b (PGet w))
  | PersistOnly =>
    match rb_lsm rb with
    | Some _ => Ok (ITree2 b TStart)
    | None => Ok (IDone (RErr PersistFailed))
    end
  end.

Definition or_ipanic (r : res ipc) : ipc := match r with Ok pc => pc | _ => IPanic end.

(* the thread's number i is for the ghost fields only *)
Definition istep (f : af) (ov : bool) (i : nat) (s : sstate) (p : pid) (r : record)
    (ups : option tbi) (pc : ipc) : option (sstate * ipc) :=
  let rb := ss_rib s in
  match pc with
  | ITree t =>
    let '(tr, t') := tnext f ov p (r_mui r) (rb_tree rb) t in
    let s' := SState (set_tree rb tr) (ss_ver s) (ss_log s)
                (note_made i t t' (ss_made s)) (ss_counted s) in
    Some (s', match t' with
              | TDone (ROk b) => or_ipanic (begin_upsert f rb p b)
              | TDone (RErr e) => IDone (RErr e)
              | TPanic => IPanic
              | _ => ITree t'
              end)
  | IAhead b =>
    match rb_lsm rb with
    | Some l =>
      Some (set_rib s (set_lsm rb (persist_record_w_long_key f l p r)),
            or_ipanic (do w <- walk_start f PSTRIDE p; Ok (IWalk b (PGet w))))
    | None => Some (s, IPanic)
    end
  | IWalk b q =>
    match pstep f p (pheap s) q with
    | Ok (h, o) =>
      Some (set_rib s (set_pheap rb h),
            match o with
            | PMore q' => IWalk b q'
            | PFound k true => IOutdate b k
            | PFound k false => IUpsert b k false
            end)
    | _ => Some (s, IPanic)
    end
  | IOutdate b k =>
    (* fetch_update: a compare_exchange loop that ends with the pointer tagged *)
    Some (set_rib s (set_pheap rb (modify k set_ps_outdated (pheap s))), IUpsert b k true)
  | IUpsert b k found =>
    match deref k (pheap s) with
    | Ok v =>
      let '(m, o) := upsert_record (pv_recs v) r in
      let s' := add_log (set_rib s (set_pheap rb (modify k (fun v => set_recs v m) (pheap s))))
                  (i, p, OUp r) in
      Some (s',
            match o, found with
            | None, _ => IRoute b k found
            | Some _, false => after_cht (rb_strat rb) b o false false
            | Some _, true => after_count (rb_strat rb) ups b k o
            end)
    | _ => Some (s, IPanic)
    end
  | IRoute b k found =>
    Some (set_rib s (set_pcnt rb (inc_routes_count (pc_cnt (rb_pcht rb)))),
          if found then after_count (rb_strat rb) ups b k None else IPrefix b)
  | IPrefix b =>
    Some (set_rib s (set_pcnt rb (inc_prefixes_count (pc_cnt (rb_pcht rb)) (p_len p))),
          after_cht (rb_strat rb) b None true true)
  | IBest b k o =>
    match deref k (pheap s), ups with
    | Ok v, Some t => Some (s, ILoadSel b k o (best_backup (pv_recs v) t))
    | _, _ => Some (s, IPanic)
    end
  | ILoadSel b k o sel =>
    match deref k (pheap s) with
    | Ok v => Some (s, if sel_eqb (pv_sel v) sel then after_cht (rb_strat rb) b o false true
                       else ICasSel b k o sel (ver s k, pv_out v))
    | _ => Some (s, IPanic)
    end
  | ICasSel b k o sel cur =>
    match deref k (pheap s) with
    | Ok v =>
      if (ver s k =? fst cur) && Bool.eqb (pv_out v) (snd cur)
      then Some (SState (set_pheap rb (modify k (fun v => PVal (pv_recs v) sel false) (pheap s)))
                        (update k (ver s k + 1) (ss_ver s)) (ss_log s) (ss_made s) (ss_counted s),
                 after_cht (rb_strat rb) b o false true)
      else Some (s, IDone (RErr PathSelectionOutdated))
    | _ => Some (s, IPanic)
    end
  | IHist b rep old =>
    Some (match rb_lsm rb with
          | Some l => set_rib s (set_lsm rb
                        (persist_record_w_long_key f l p (record_of (r_mui r) old)))
          | None => s
          end, after_upsert b rep)
  | ITree2 b t =>
    let '(tr, t') := tnext f ov p (r_mui r) (rb_tree rb) t in
    Some (set_rib s (set_tree rb tr),
              match t' with
              | TDone (ROk b2) => IShort b b2
              | TDone (RErr e) => IDone (RErr e)
              | TPanic => IPanic
              | _ => ITree2 b t'
              end)
  | IShort b b2 =>
    match rb_lsm rb with
    | Some l => Some (set_rib s (set_lsm rb (persist_record_w_short_key f l p r)),
                      after_upsert b (Report (fst b2) (snd b2) true 0))
    | None => Some (s, IPanic)
    end
  | IRibRoute b rep =>
    Some (set_rib s (set_cnt rb (inc_routes_count (rb_cnt rb))), after_route b rep)
  | IRibPrefix b rep =>
    Some (SState (set_cnt rb (inc_prefixes_count (rb_cnt rb) (p_len p)))
            (ss_ver s) (ss_log s) (ss_made s) (ss_counted s ++ [i]),
          IDone (ROk (Report (rp_cas rep + fst b) true (rp_mui_new rep) (rp_mui_count rep))))
  | IDone _ | IPanic => None
  end.

(* ---------- the marks for one prefix, rib/starcast_af.rs:222-364 ---------- *)

Inductive kpc : Type :=
| KStart
| KWalk (p : ppc)
| KMark (k : key)
| KGet (k : key)              (* PersistHistory: get_record_for_mui *)
| KEmpty                      (* insert_empty_record *)
| KRewrite (recs : list bytes) (* PersistOnly: rewrite_header_for_record *)
| KDone (r : result unit)
| KPanic.

(* the errors of the two functions differ *)
Definition no_entry (st : strategy) (s : status) : perr :=
  match s, st with
  | Withdrawn, PersistHistory => StoreNotReadyError
  | Withdrawn, _ => PrefixNotFound
  | _, _ => FatalErr
  end.
Definition no_disk (s : status) : perr :=
  match s with Withdrawn => StoreNotReadyError | _ => FatalErr end.

Definition or_kpanic (r : res kpc) : kpc := match r with Ok pc => pc | _ => KPanic end.

Definition kstep (f : af) (i : nat) (s : sstate) (st : status) (p : pid) (mui ltime : N) (pc : kpc)
    : option (sstate * kpc) :=
  let rb := ss_rib s in
  match pc with
  | KStart =>
    match rb_strat rb with
    | PersistOnly =>
      match rb_lsm rb with
      | Some l =>
        (* the records to rewrite are read in one step *)
        Some (s, KRewrite (match st with
                           | Active =>
                             match most_recent_record_for_prefix_mui f l p mui with
                             | Some b => [b] | None => [] end
                           | _ => records_with_keys_for_prefix_mui f l p mui
                           end))
      | None => Some (s, KDone (RErr (no_disk st)))
      end
    | _ => Some (s, or_kpanic (do w <- walk_start f PSTRIDE p; Ok (KWalk (PGet w))))
    end
  | KWalk q =>
    match pstep f p (pheap s) q with
    | Ok (h, o) =>
      Some (set_rib s (set_pheap rb h),
            match o with
            | PMore q' => KWalk q'
            | PFound k true => KMark k
            | PFound _ false => KDone (RErr (no_entry (rb_strat rb) st))
            end)
    | _ => Some (s, KPanic)
    end
  | KMark k =>
    Some (add_log (set_rib s (set_pheap rb
            (modify k (fun v => set_recs v (mark_for_mui st (pv_recs v) mui ltime)) (pheap s))))
            (i, p, OMark st mui ltime),
          match rb_strat rb with PersistHistory => KGet k | _ => KDone (ROk tt) end)
  | KGet k =>
    match deref k (pheap s) with
    | Ok v => Some (s, match get_record_for_mui (pv_recs v) mui true with
                       | Some _ => KEmpty | None => KDone (ROk tt) end)
    | _ => Some (s, KPanic)
    end
  | KEmpty =>
    match rb_lsm rb with
    | Some l => Some (set_rib s (set_lsm rb (insert_empty_record f l p mui ltime)), KDone (ROk tt))
    | None => Some (s, KDone (RErr (no_disk st)))
    end
  | KRewrite [] => Some (s, KDone (ROk tt))
  | KRewrite (b :: recs) =>
    match rb_lsm rb with
    | Some l =>
      match rewrite_header_for_record f l ltime st b with
      | Some l' => Some (set_rib s (set_lsm rb l'), KRewrite recs)
      | None => Some (s, KDone (RErr (no_disk st)))
      end
    | None => Some (s, KPanic)
    end
  | KDone _ | KPanic => None
  end.

(* ---------- get_records_for_prefix, prefix_cht/cht.rs:541-587 ---------- *)

Inductive gpc : Type :=
| VStart
| VGet (w : walk)
| VRead (k : key)   (* get_filtered_records: one critical section *)
| VDone (r : option (list record))
| VPanic.

Definition vstep (f : af) (s : sstate) (p : pid) (mui : option N) (iw : bool) (pc : gpc)
    : option (sstate * gpc) :=
  match pc with
  | VStart =>
    Some (s, match walk_start f PSTRIDE p with Ok w => VGet w | _ => VPanic end)
  | VGet w =>
    Some (s,
      match (do index <- hash_id f p (w_level w);
             match slot_get (pheap s) (w_b w) (w_path w) (w_slots w) index with
             | None => Ok (VDone None)
             | Some e =>
               if pid_eqb p (e_id e) then Ok (VRead (wkey w index))
               else
                 do level' <- add8 (w_level w) 1;
                 Ok (VGet (Walk (w_b w) (w_path w ++ [index]) (e_slots e) level'))
             end) with
      | Ok pc' => pc' | _ => VPanic end)
  | VRead k =>
    Some (s, match deref k (pheap s) with
             | Ok v => VDone (get_filtered_records (pv_recs v) mui iw
                                (t_withdrawn (rb_tree (ss_rib s))))
             | _ => VPanic
             end)
  | VDone _ | VPanic => None
  end.

(* ---------- the machine ---------- *)

Inductive scall : Type :=
| CInsert (p : pid) (r : record) (ups : option tbi)
| CMark (st : status) (p : pid) (mui ltime : N)
| CContains (p : pid)
| CRecords (p : pid) (mui : option N) (iw : bool).

Inductive cpc : Type := LIns (pc : ipc) | LMark (pc : kpc) | LHas (pc : xpc) | LVal (pc : gpc).

Definition cstart (c : scall) : cpc :=
  match c with
  | CInsert _ _ _ => LIns (ITree TStart)
  | CMark _ _ _ _ => LMark KStart
  | CContains _ => LHas XStart
  | CRecords _ _ _ => LVal VStart
  end.

Definition lift {A} (g : A -> cpc) (o : option (sstate * A)) : option (sstate * cpc) :=
  match o with Some (s, a) => Some (s, g a) | None => None end.

Definition ststep (f : af) (ov : bool) (i : nat) (s : sstate) (c : scall) (l : cpc)
    : option (sstate * cpc) :=
  match c, l with
  | CInsert p r ups, LIns pc => lift LIns (istep f ov i s p r ups pc)
  | CMark st p mui ltime, LMark pc => lift LMark (kstep f i s st p mui ltime pc)
  | CContains p, LHas pc =>
    match pc with
    | XDone _ | XPanic => None
    | _ => Some (s, LHas match xstep f p (t_heap (rb_tree (ss_rib s))) pc with
                         | Ok pc' => pc' | _ => XPanic end)
    end
  | CRecords p mui iw, LVal pc => lift LVal (vstep f s p mui iw pc)
  | _, _ => None
  end.

(* the API checks nothing more of its arguments than this: a prefix is well
   formed by its type, Active and Withdrawn are the statuses that can be marked *)
Definition slegal (f : af) (c : scall) : Prop :=
  match c with
  | CInsert p _ _ | CContains p | CRecords p _ _ => wf_pid f p
  | CMark st p _ _ => wf_pid f p /\ st <> InActive
  end.

Definition sexec (f : af) (ov : bool) := exec cstart (slegal f) (ststep f ov).
Definition splay (f : af) (ov : bool) := play cstart (ststep f ov).
Definition sconf0 (rb : rib) : conf sstate scall cpc := Conf (SState rb [] [] [] []) [].
