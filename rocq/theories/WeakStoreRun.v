(* The steps of WeakStore.v as a program, for the examples; and what contains alone
   does not pass on. *)
From Coq Require Import Arith NArith List Bool Lia.
From Verif Require Import Word Af BitSpan Maps ChtMath Cht Node Tree TreeProofs MultiMap PrefixCht Lsm Rib HistSpec
  Conc ConcTree ConcTreeProofs ConcStore ConcTable ConcSpec ConcFacts ConcLock
  WeakTree WeakTreeFacts WeakTreeRun WeakTable WeakTableFacts WeakTableRun WeakStore WeakStoreInv WeakStoreFacts.
Import ListNotations.
Local Open Scope N_scope.

Definition call_at (x : wtconf) (i : nat) : option wcall := option_map wt_call (nth_error (wc_ths x) i).
Definition run_at (x : aconf) (i : nat) : option (option (pid * acall * apc)) := option_map at_run (nth_error (ac_ths x) i).

Definition acts (e : uev) : option nat :=
  match e with UIns i _ _ | UHas i _ | ULearn i _ | UDefault i | UStep i | URet i => Some i | _ => None end.
Definition acts_tab (e : aev) : option nat :=
  match e with EBegin i _ _ | ELearn i _ | EStep i | ERet i => Some i | _ => None end.

Lemma with_th_by f ov x i g y : with_th x i g = Some y ->
  (forall t m c t', g t = Some (m, c, t') -> wtstep f ov (wc_mem x) t m c t') -> exists t t', tree_by f ov i t t' x y.
Proof.
  unfold with_th. destruct (nth_error (wc_ths x) i) as [t|] eqn:E; [|discriminate].
  destruct (g t) as [[[m c] t']|] eqn:G; [|discriminate]. intros H S. injection H as <-. exists t, t'. exists m, c. auto.
Qed.
Lemma with_at_by f x i g y : with_at x i g = Some y ->
  (forall t m t', g t = Some (m, t') -> atstep f i (ac_mem x) t m t') -> exists a a', tab_by f i a a' x y.
Proof.
  unfold with_at. destruct (nth_error (ac_ths x) i) as [t|] eqn:E; [|discriminate].
  destruct (g t) as [[m t']|] eqn:G; [|discriminate]. intros H S. injection H as <-. exists t, t'. exists m. auto.
Qed.

Lemma uplay1_by f ov t0 x e i y : uplay1 f ov t0 x e = Some y -> acts e = Some i ->
  (exists t t', tree_by f ov i t t' x y) \/ y = x.
Proof.
  intros H A. destruct e as [|j p mui|j p|j k|j|j|j|j k]; try discriminate A; injection A as ->; cbn [uplay1] in H.
  - left. apply (with_th_by _ _ _ _ _ _ H). intros t m c t'. destruct (wt_call t) eqn:C; try discriminate.
    destruct (wf_pidb f p) eqn:W; [|discriminate]. intros Q. injection Q as <- <- <-. apply wf_pidb_spec in W. now constructor.
  - left. apply (with_th_by _ _ _ _ _ _ H). intros t m c t'. destruct (wt_call t) eqn:C; try discriminate.
    destruct (wf_pidb f p) eqn:W; [|discriminate]. intros Q. injection Q as <- <- <-. apply wf_pidb_spec in W. now constructor.
  - left. apply (with_th_by _ _ _ _ _ _ H). intros t m c t'.
    destruct (lookup k (t_heap (wc_mem x))) as [e|] eqn:L; [|discriminate].
    destruct (in_reachb (t_heap (wt_view t)) k) eqn:B; [|discriminate]. cbn [andb].
    destruct (match lookup k (t_heap (wt_view t)) with Some e0 => nleb (e_val e0) (e_val e) | None => true end) eqn:B'; [|discriminate].
    intros Q. injection Q as <- <- <-. apply wt_learn. apply ln_node with (e := e); auto using in_reachb_ok, nle_refl.
    intros e0 E0. rewrite E0 in B'. now apply nleb_ok.
  - left. apply (with_th_by _ _ _ _ _ _ H). intros t m c t'.
    destruct (t_default (wc_mem x)) eqn:D; [|discriminate]. intros Q. injection Q as <- <- <-. apply wt_learn. now apply ln_default.
  - destruct (nth_error (wc_ths x) i) as [t|] eqn:N1; cbn [option_map] in H.
    2:{ unfold with_th in H. rewrite N1 in H. discriminate H. }
    destruct (wt_call t) as [|q mu pc|q pc] eqn:C.
    + unfold with_th in H. rewrite N1, C in H. discriminate H.
    + assert (E : (ended pc /\ y = x) \/ (~ ended pc /\ (if agreesb f q (wc_mem x) (wt_view t) pc
        then Some (fst (tnext f ov q mu (wc_mem x) pc), [] : list pid,
               at_call t (fst (tnext f ov q mu (wt_view t) pc)) (WIns q mu (snd (tnext f ov q mu (wt_view t) pc))))
        else None) <> None /\ exists m c t', (if agreesb f q (wc_mem x) (wt_view t) pc
        then Some (fst (tnext f ov q mu (wc_mem x) pc), [] : list pid,
               at_call t (fst (tnext f ov q mu (wt_view t) pc)) (WIns q mu (snd (tnext f ov q mu (wt_view t) pc))))
        else None) = Some (m, c, t') /\ y = WTConf m (wc_called x ++ c) (set_nth i t' (wc_ths x)))).
      { unfold with_th in H. rewrite N1, C in H.
        destruct pc; cbn [ended]; try (left; split; [exact Logic.I|]; now injection H);
          (right; split; [intros Z; exact Z|]; destruct (agreesb _ _ _ _ _); [|discriminate H];
           split; [discriminate|]; injection H as <-; eauto 6). }
      destruct E as [[_ ->]|(NE & _ & m & c & t' & G & ->)]; [now right|left]. exists t, t'. exists m, c. split; [exact N1|]. split; [|reflexivity].
      destruct (agreesb _ _ _ _ _) eqn:A; [|discriminate G]. injection G as <- <- <-. apply wt_ins; auto. now apply agreesb_ok.
    + assert (E : (match pc with XDone _ | XPanic => True | _ => False end /\ y = x) \/
        (match pc with XDone _ | XPanic => False | _ => True end /\
         y = WTConf (wc_mem x) (wc_called x ++ []) (set_nth i (at_call t (wt_view t)
          (WHas q match xstep f q (t_heap (wt_view t)) pc with Ok pc' => pc' | _ => XPanic end)) (wc_ths x)))).
      { unfold with_th in H. rewrite N1, C in H.
        destruct pc; try (left; split; [exact Logic.I|]; now injection H); (right; split; [exact Logic.I|]; now injection H). }
      destruct E as [[_ ->]|(NE & ->)]; [now right|left]. eexists t, _. exists (wc_mem x), []. split; [exact N1|]. split; [|reflexivity].
      now apply wt_has.
  - left. apply (with_th_by _ _ _ _ _ _ H). intros t m c t'.
    destruct (wt_call t) as [|q mu pc|q pc] eqn:C; try discriminate.
    + destruct pc; try discriminate. destruct r as [[rc ex]|]; [|discriminate].
      intros Q. injection Q as <- <- <-. eapply wt_inserted; eauto.
    + destruct pc; try discriminate. intros Q. injection Q as <- <- <-. eapply wt_told; eauto.
Qed.

Lemma eplay1_by f x e i y : eplay1 f x e = Some y -> acts_tab e = Some i -> exists a a', tab_by f i a a' x y.
Proof.
  intros H A. destruct e as [|j p c|j k|j|j|j k]; try discriminate A; injection A as ->; cbn [eplay1] in H.
  - apply (with_at_by _ _ _ _ _ H). intros t m t'. destruct (at_run t) eqn:C; try discriminate.
    destruct (wf_pidb f p) eqn:W; [|discriminate]. intros Q. injection Q as <- <-. apply wf_pidb_spec in W. now constructor.
  - apply (with_at_by _ _ _ _ _ H). intros t m t'.
    destruct (lookup k (tm_heap (ac_mem x))) as [e|] eqn:L; [|discriminate].
    destruct (lookup k (at_view t)) eqn:L'; [discriminate|]. destruct (cell_reachedb _ _) eqn:B; [|discriminate].
    intros Q. injection Q as <- <-. apply at_learn. apply kc_cell; auto using cell_reachedb_ok.
  - apply (with_at_by _ _ _ _ _ H). intros t m t'.
    destruct (at_run t) as [[[p c] pc]|] eqn:C; [|discriminate]. destruct pc; try discriminate.
    + destruct (cells_agreeb _ _ _ _ _) eqn:B; [|discriminate]. intros Q. injection Q as <- <-.
      apply at_walk; auto using cells_agreeb_ok.
    + intros Q. injection Q as <- <-. now apply at_look.
    + destruct (deref k (tm_heap (ac_mem x))) as [v| |] eqn:D; try discriminate. intros Q. injection Q as <- <-.
      now apply at_crit.
  - apply (with_at_by _ _ _ _ _ H). intros t m t'.
    destruct (at_run t) as [[[p c] pc]|] eqn:C; [|discriminate]. destruct pc; try discriminate.
    intros Q. injection Q as <- <-. now apply at_return.
Qed.

Lemma by_call f ov i t t' x y : tree_by f ov i t t' x y -> call_at x i = Some (wt_call t) /\ call_at y i = Some (wt_call t').
Proof.
  intros (m & c & N & _ & ->). unfold call_at. cbn [wc_ths]. rewrite N, (nth_set_at _ _ _ _ N). easy.
Qed.
Lemma by_run f i a a' x y : tab_by f i a a' x y -> run_at x i = Some (at_run a) /\ run_at y i = Some (at_run a').
Proof.
  intros (m & N & _ & ->). unfold run_at. cbn [ac_ths]. rewrite N, (nth_set_at _ _ _ _ N). easy.
Qed.
Lemma uplay1_tells f ov t0 x i j y : uplay1 f ov t0 x (UTold i j) = Some y -> tree_tells i j x y.
Proof.
  cbn [uplay1]. destruct (nth_error (wc_ths x) i) as [ti|] eqn:Ni; [|discriminate].
  destruct (nth_error (wc_ths x) j) as [tj|] eqn:Nj; [|discriminate].
  destruct (wt_call ti) eqn:Ci; try discriminate. destruct (wt_call tj) eqn:Cj; try discriminate.
  intros H. injection H as <-. exists ti, tj. auto.
Qed.
Lemma eplay1_tells f x i j y : eplay1 f x (ETold i j) = Some y -> tab_tells i j x y.
Proof.
  cbn [eplay1]. destruct (nth_error (ac_ths x) i) as [ti|] eqn:Ni; [|discriminate].
  destruct (nth_error (ac_ths x) j) as [tj|] eqn:Nj; [|discriminate].
  destruct (at_run ti) eqn:Ci; try discriminate. destruct (at_run tj) eqn:Cj; try discriminate.
  intros H. injection H as <-. exists ti, tj. auto.
Qed.

Lemma ret_run f x i y : eplay1 f x (ERet i) = Some y ->
  run_at y i = Some None /\ exists p c n b, run_at x i = Some (Some (p, c, ADone n b)).
Proof.
  cbn [eplay1]. unfold with_at, run_at. destruct (nth_error (ac_ths x) i) as [a|] eqn:N; [|discriminate].
  destruct (at_run a) as [[[p c] pc]|] eqn:C; [|discriminate]. destruct pc; try discriminate.
  intros H. injection H as <-. cbn [ac_ths]. rewrite (nth_set_at _ _ _ _ N). cbn [option_map at_run]. split; [reflexivity|].
  rewrite C. eauto 8.
Qed.
Lemma begin_run f x i p c y : eplay1 f x (EBegin i p c) = Some y ->
  run_at y i = Some (Some (p, c, abegin f p c)) /\ run_at x i = Some None.
Proof.
  cbn [eplay1]. unfold with_at, run_at. destruct (nth_error (ac_ths x) i) as [a|] eqn:N; [|discriminate].
  destruct (at_run a) eqn:C; [discriminate|]. destruct (wf_pidb f p); [|discriminate].
  intros H. injection H as <-. cbn [ac_ths]. rewrite (nth_set_at _ _ _ _ N). cbn [option_map at_run]. now rewrite C.
Qed.
Lemma ret_call f ov t0 x i y : uplay1 f ov t0 x (URet i) = Some y ->
  call_at y i = Some WIdle /\ exists c, call_at x i = Some c /\ c <> WIdle.
Proof.
  cbn [uplay1]. unfold with_th, call_at. destruct (nth_error (wc_ths x) i) as [a|] eqn:N; [|discriminate].
  destruct (wt_call a) as [|q mu pc|q pc] eqn:C; try discriminate.
  - destruct pc; try discriminate. destruct r as [[rc ex]|]; [|discriminate].
    intros H. injection H as <-. cbn [wc_ths]. rewrite (nth_set_at _ _ _ _ N). cbn [option_map wt_call]. rewrite C. split; [reflexivity|].
    eexists. split; [reflexivity|discriminate].
  - destruct pc; try discriminate. intros H. injection H as <-. cbn [wc_ths]. rewrite (nth_set_at _ _ _ _ N). cbn [option_map wt_call].
    rewrite C. split; [reflexivity|]. eexists. split; [reflexivity|discriminate].
Qed.
Lemma start_call f ov t0 x i y e c : e = UIns i (fst c) (snd c) \/ e = UHas i (fst c) -> uplay1 f ov t0 x e = Some y ->
  call_at x i = Some WIdle /\
  call_at y i = Some match e with UIns _ p m => WIns p m TStart | _ => WHas (fst c) XStart end.
Proof.
  unfold call_at. intros [-> | ->]; cbn [uplay1]; unfold with_th; (destruct (nth_error (wc_ths x) i) as [a|] eqn:N; [|discriminate]);
    (destruct (wt_call a) eqn:C; try discriminate); (destruct (wf_pidb f (fst c)); [|discriminate]); intros H; injection H as <-;
    cbn [wc_ths]; rewrite (nth_set_at _ _ _ _ N); cbn [option_map wt_call]; now rewrite C.
Qed.

(* ---------- the program ---------- *)

Inductive vev : Type :=
| VSpawn
| VLock (p : pid)
| VTree (i : nat) (k : key)      (* learn all of one node *)
| VTab (i : nat) (k : key)       (* learn one cell *)
| VIns (i : nat) (p : pid) (r : record)
| VHas (i : nat) (p : pid)
| VOne (i : nat) (p : pid) (c : acall)
| VGo (i : nat)                  (* a step of the call; nothing, when it is about to return *)
| VRet (i : nat)
| VTold (i j : nat).

Definition locks_none (p : pid) (s : sthread) : bool := match st_pc s with SLock q => negb (pid_eqb p q) | _ => true end.
Fixpoint lock_of (p : pid) (n : nat) (l : list sthread) : option (nat * list (pid * record)) :=
  match l with
  | [] => None
  | s :: l' =>
    match st_pc s with
    | SLock q => if pid_eqb p q then Some (n, st_past s) else lock_of p (S n) l'
    | _ => lock_of p (S n) l'
    end
  end.

(* under the lock *)
Definition vlocked (f : af) (ov : bool) (t0 : tree) (x : sconf) (i : nat) (s : store_pc) (past : list (pid * record))
    (p : pid) (c : acall) : option sconf :=
  match lock_of p 0 (sc_sts x), eplay1 f (sc_tab x) (EStep i) with
  | Some (l, lpast), Some z1 =>
    match run_at z1 i, eplay1 f z1 (ERet i) with
    | Some (Some (_, _, ADone n b)), Some z2 =>
      match eplay1 f z2 (ETold l i), uplay1 f ov t0 (sc_tree x) (UTold l i) with
      | Some z3, Some y1 =>
        match eplay1 f z3 (ETold i l), uplay1 f ov t0 y1 (UTold i l) with
        | Some z4, Some y2 =>
          let known := lpast ++ own_insert s ++ past in
          Some (SConf y2 z4 (set_nth l (SThread (SLock p) (known ++ lpast)) (set_st i (answered s b) known x))
                 (sc_hist x ++ List.map (fun _ => (p, n, known)) (op_of_call c)))
        | _, _ => None
        end
      | _, _ => None
      end
    | _, _ => None
    end
  | _, _ => None
  end.

Definition vtable (f : af) (ov : bool) (t0 : tree) (x : sconf) (i : nat) (s : store_pc) (past : list (pid * record)) : option sconf :=
  match run_at (sc_tab x) i with
  | Some (Some (p, c, ACrit _ _)) => vlocked f ov t0 x i s past p c
  | Some (Some (p, c, ADone _ b)) =>
    match eplay1 f (sc_tab x) (ERet i) with
    | Some z => Some (SConf (sc_tree x) z (set_st i (answered s b) past x) (sc_hist x))
    | None => None
    end
  | Some (Some (p, c, APanic)) => None
  | Some (Some _) =>
    match eplay1 f (sc_tab x) (EStep i) with
    | Some z => Some (SConf (sc_tree x) z (sc_sts x) (sc_hist x))
    | None => None
    end
  | _ => None
  end.

Definition vtree (f : af) (ov : bool) (t0 : tree) (x : sconf) (i : nat) : option sconf :=
  match uplay1 f ov t0 (sc_tree x) (UStep i) with
  | Some y => Some (SConf y (sc_tab x) (sc_sts x) (sc_hist x))
  | None => None
  end.

Definition vplay1 (f : af) (ov : bool) (t0 : tree) (x : sconf) (e : vev) : option sconf :=
  match e with
  | VSpawn => Some
      (SConf (WTConf (wc_mem (sc_tree x)) (wc_called (sc_tree x)) (wc_ths (sc_tree x) ++ [WThread t0 WIdle [] [] 0]))
             (AConf (ac_mem (sc_tab x)) (ac_ths (sc_tab x) ++ [AThread [] None [] [] 0]))
             (sc_sts x ++ [SThread SIdle []]) (sc_hist x))
  | VLock p =>
    if forallb (locks_none p) (sc_sts x) then Some
      (SConf (WTConf (wc_mem (sc_tree x)) (wc_called (sc_tree x)) (wc_ths (sc_tree x) ++ [WThread t0 WIdle [] [] 0]))
             (AConf (ac_mem (sc_tab x)) (ac_ths (sc_tab x) ++ [AThread [] None [] [] 0]))
             (sc_sts x ++ [SThread (SLock p) []]) (sc_hist x))
    else None
  | VTree i k =>
    match uplay1 f ov t0 (sc_tree x) (ULearn i k) with
    | Some y => Some (SConf y (sc_tab x) (sc_sts x) (sc_hist x))
    | None => None
    end
  | VTab i k =>
    match eplay1 f (sc_tab x) (ELearn i k) with
    | Some z => Some (SConf (sc_tree x) z (sc_sts x) (sc_hist x))
    | None => None
    end
  | VIns i p r =>
    match nth_error (sc_sts x) i, uplay1 f ov t0 (sc_tree x) (UIns i p (r_mui r)) with
    | Some (SThread SIdle past), Some y => Some (SConf y (sc_tab x) (set_st i (SIns p r) past x) (sc_hist x))
    | _, _ => None
    end
  | VHas i p =>
    match nth_error (sc_sts x) i, uplay1 f ov t0 (sc_tree x) (UHas i p) with
    | Some (SThread SIdle past), Some y => Some (SConf y (sc_tab x) (set_st i (SHas p) past x) (sc_hist x))
    | _, _ => None
    end
  | VOne i p c =>
    match c with
    | AUp _ => None
    | _ =>
      match nth_error (sc_sts x) i, eplay1 f (sc_tab x) (EBegin i p c) with
      | Some (SThread SIdle past), Some z => Some (SConf (sc_tree x) z (set_st i (SOne p c) past x) (sc_hist x))
      | _, _ => None
      end
    end
  | VGo i =>
    match nth_error (sc_sts x) i with
    | Some (SThread (SIns p r) past) =>
      match call_at (sc_tree x) i with
      | Some (WIns q mui (TDone (ROk (rc, existed)))) =>
        match uplay1 f ov t0 (sc_tree x) (URet i), eplay1 f (sc_tab x) (EBegin i p (AUp r)) with
        | Some y, Some z => Some (SConf y z (set_st i (SUp p r existed) past x) (sc_hist x))
        | _, _ => None
        end
      | _ => vtree f ov t0 x i
      end
    | Some (SThread (SHas p) past) => vtree f ov t0 x i
    | Some (SThread (SUp p r ex) past) => vtable f ov t0 x i (SUp p r ex) past
    | Some (SThread (SOne p c) past) => vtable f ov t0 x i (SOne p c) past
    | Some (SThread (SRet p c a) past) => Some x
    | _ => None
    end
  | VRet i =>
    match nth_error (sc_sts x) i with
    | Some (SThread (SHas p) past) =>
      match uplay1 f ov t0 (sc_tree x) (URet i) with
      | Some y => Some (SConf y (sc_tab x) (set_st i SIdle past x) (sc_hist x))
      | None => None
      end
    | Some (SThread (SRet p c a) past) => Some (SConf (sc_tree x) (sc_tab x) (set_st i SIdle past x) (sc_hist x))
    | _ => None
    end
  | VTold i j =>
    match nth_error (sc_sts x) i, nth_error (sc_sts x) j with
    | Some (SThread SIdle pi), Some (SThread SIdle pj) =>
      match uplay1 f ov t0 (sc_tree x) (UTold i j), eplay1 f (sc_tab x) (ETold i j) with
      | Some y, Some z => Some (SConf y z (set_st j SIdle (pi ++ pj) x) (sc_hist x))
      | _, _ => None
      end
    | _, _ => None
    end
  end.

Fixpoint vplay (f : af) (ov : bool) (t0 : tree) (x : sconf) (es : list vev) : option sconf :=
  match es with
  | [] => Some x
  | e :: es' => match vplay1 f ov t0 x e with Some y => vplay f ov t0 y es' | None => None end
  end.
Definition vnew (f : af) : sconf := SConf (WTConf (ustart f) [] []) (AConf (TMem [] []) []) [] [].
Definition vrun (f : af) (ov : bool) (es : list vev) : option sconf := vplay f ov (ustart f) (vnew f) es.
Definition vsteps (i n : nat) : list vev := repeat (VGo i) n.

Lemma lock_of_ok p n l k past : lock_of p n l = Some (k, past) ->
  exists j, k = (n + j)%nat /\ nth_error l j = Some (SThread (SLock p) past).
Proof.
  revert n. induction l as [|[s pa] l IH]; intros n H; cbn [lock_of st_pc st_past] in H; [discriminate H|].
  assert (REST : lock_of p (S n) l = Some (k, past) -> exists j, k = (n + j)%nat /\ nth_error (SThread s pa :: l) j = Some (SThread (SLock p) past)).
  { intros H'. destruct (IH _ H') as (j & -> & N). exists (S j). split; [lia|exact N]. }
  destruct s; auto. destruct (pid_eqb p p0) eqn:E; [|auto]. injection H as <- <-. apply pid_eqb_spec in E. subst p0.
  exists 0%nat. split; [lia|reflexivity].
Qed.

Section Ok.
Context (f : af) (ov : bool) (t0 : tree) (T0 : tree_new f = Ok t0).

Lemma one x y : store_step f ov t0 x y -> store_exec f ov x y.
Proof using T0. intros S. eapply se_step; [constructor|exact T0|exact S]. Qed.

Lemma vtree_ok x i y : vtree f ov t0 x i = Some y ->
  (forall t, call_at (sc_tree x) i = Some t -> t <> WIdle) -> store_exec f ov x y.
Proof using T0.
  unfold vtree. destruct (uplay1 f ov t0 (sc_tree x) (UStep i)) as [z|] eqn:U; [|discriminate]. intros H NI. injection H as <-.
  destruct (uplay1_by _ _ _ _ _ i _ U eq_refl) as [(t & t' & B)| ->].
  - apply one. destruct (by_call _ _ _ _ _ _ _ B) as [C C']. specialize (NI _ C). eapply ss_tree; [exact B|exact NI|].
    destruct B as (m & c & _ & S & _). destruct S; cbn [wt_call at_call] in *; try congruence.
    + exfalso. cbn [uplay1] in U. unfold call_at in C. destruct (nth_error (wc_ths (sc_tree x)) i) as [t1|] eqn:N; [|discriminate C].
      cbn [option_map] in *. injection C as C. rewrite C, H in U. injection U as <-.
      unfold call_at in C'. rewrite N in C'. cbn [option_map] in C'. congruence.
    + exfalso. cbn [uplay1] in U. unfold call_at in C. destruct (nth_error (wc_ths (sc_tree x)) i) as [t1|] eqn:N; [|discriminate C].
      cbn [option_map] in *. injection C as C. rewrite C, H in U. injection U as <-.
      unfold call_at in C'. rewrite N in C'. cbn [option_map] in C'. congruence.
  - destruct x. constructor.
Qed.

Lemma vlocked_ok x i s past p c k found y : nth_error (sc_sts x) i = Some (SThread s past) ->
  run_at (sc_tab x) i = Some (Some (p, c, ACrit k found)) -> vlocked f ov t0 x i s past p c = Some y -> store_exec f ov x y.
Proof using T0.
  intros Ns RA. unfold vlocked. destruct (lock_of p 0 (sc_sts x)) as [[l lpast]|] eqn:LO; [|intros H; discriminate H].
  destruct (lock_of_ok _ _ _ _ _ LO) as (j & -> & Nl). rewrite Nat.add_0_l in *.
  destruct (eplay1 f (sc_tab x) (EStep i)) as [z1|] eqn:Z1; [|discriminate].
  destruct (run_at z1 i) as [[[[p1 c1] pc]|]|] eqn:R1; try discriminate. destruct pc as [| | |n b|]; try discriminate.
  destruct (eplay1 f z1 (ERet i)) as [z2|] eqn:Z2; [|discriminate].
  destruct (eplay1 f z2 (ETold j i)) as [z3|] eqn:Z3; [|discriminate].
  destruct (uplay1 f ov t0 (sc_tree x) (UTold j i)) as [y1|] eqn:Y1; [|discriminate].
  destruct (eplay1 f z3 (ETold i j)) as [z4|] eqn:Z4; [|discriminate].
  destruct (uplay1 f ov t0 y1 (UTold i j)) as [y2|] eqn:Y2; [|discriminate].
  intros H. injection H as <-. apply one.
  destruct (eplay1_by _ _ _ i _ Z1 eq_refl) as (a & a1 & B1). destruct (eplay1_by _ _ _ i _ Z2 eq_refl) as (a1' & a2 & B2).
  destruct (by_run _ _ _ _ _ _ B1) as [Q1 Q2]. destruct (by_run _ _ _ _ _ _ B2) as [Q3 Q4].
  rewrite RA in Q1. injection Q1 as Q1. rewrite R1 in Q2. injection Q2 as Q2.
  assert (a1' = a1). { destruct B1 as (m & N & _ & ->). destruct B2 as (m' & N' & _ & _). cbn [ac_ths] in N'. rewrite (nth_set_at _ _ _ _ N) in N'. now injection N'. }
  subst a1'. 
  assert (S1 : (p1, c1) = (p, c)). { destruct B1 as (m & _ & S & _). destruct S; cbn [at_run] in *; try congruence. }
  injection S1 as -> ->.
  assert (E3 : at_run a2 = None). { rewrite (proj1 (ret_run _ _ _ _ Z2)) in Q4. now injection Q4. }
  exact (ss_locked f ov t0 x i j s past lpast p c k found n b a a1 a2 z1 z2 z3 z4 y1 y2 Ns Nl B1 (eq_sym Q1) (eq_sym Q2) B2 E3
    (eplay1_tells _ _ _ _ _ Z3) (eplay1_tells _ _ _ _ _ Z4) (uplay1_tells _ _ _ _ _ _ _ Y1) (uplay1_tells _ _ _ _ _ _ _ Y2)).
Qed.

Lemma vtable_ok x i s past y : nth_error (sc_sts x) i = Some (SThread s past) -> vtable f ov t0 x i s past = Some y ->
  store_exec f ov x y.
Proof using T0.
  intros Ns. unfold vtable. destruct (run_at (sc_tab x) i) as [[[[p c] pc]|]|] eqn:R; try discriminate.
  assert (WALK : match eplay1 f (sc_tab x) (EStep i) with
    | Some z => Some (SConf (sc_tree x) z (sc_sts x) (sc_hist x)) | None => None end = Some y ->
    match pc with AWalk _ | ALook _ => True | _ => False end -> store_exec f ov x y).
  { destruct (eplay1 f (sc_tab x) (EStep i)) as [z|] eqn:Z; [|discriminate]. intros H W. injection H as <-. apply one.
    destruct (eplay1_by _ _ _ i _ Z eq_refl) as (a & a' & B). eapply ss_table; [exact B|].
    destruct (by_run _ _ _ _ _ _ B) as [Q _]. rewrite R in Q. injection Q as Q. unfold walking. rewrite <- Q. now destruct pc. }
  destruct pc as [q|w|k found|n b|]; try discriminate.
  - intros H. exact (WALK H Logic.I).
  - intros H. exact (WALK H Logic.I).
  - intros H. eapply vlocked_ok; eauto.
  - destruct (eplay1 f (sc_tab x) (ERet i)) as [z|] eqn:Z; [|discriminate]. intros H. injection H as <-. apply one.
    destruct (eplay1_by _ _ _ i _ Z eq_refl) as (a & a' & B). destruct (by_run _ _ _ _ _ _ B) as [Q Q'].
    rewrite R in Q. injection Q as Q. rewrite (proj1 (ret_run _ _ _ _ Z)) in Q'. injection Q' as Q'.
    exact (ss_none f ov t0 x i s past p c n b a a' z Ns B (eq_sym Q) (eq_sym Q')).
Qed.

Lemma vplay1_ok x e y : storeI f ov x -> vplay1 f ov t0 x e = Some y -> store_exec f ov x y.
Proof using T0.
  intros I H. destruct e as [|p|i k|i k|i p r|i p|i p c|i|i|i j]; cbn [vplay1] in H.
  - injection H as <-. apply one, ss_spawn. now left.
  - destruct (forallb (locks_none p) (sc_sts x)) eqn:B; [|discriminate]. injection H as <-. apply one, ss_spawn. right. exists p.
    split; [reflexivity|]. intros j past N. rewrite forallb_forall in B. specialize (B _ (nth_error_In _ _ N)).
    unfold locks_none in B. cbn [st_pc] in B. now rewrite pid_eqb_refl in B.
  - destruct (uplay1 f ov t0 (sc_tree x) (ULearn i k)) as [z|] eqn:U; [|discriminate]. injection H as <-. apply one.
    cbn [uplay1] in U. unfold with_th in U. destruct (nth_error (wc_ths (sc_tree x)) i) as [t|] eqn:N; [|discriminate].
    destruct (lookup k (t_heap (wc_mem (sc_tree x)))) as [e|] eqn:L; [|discriminate].
    destruct (in_reachb (t_heap (wt_view t)) k) eqn:B; [|discriminate]. cbn [andb] in U.
    destruct (match lookup k (t_heap (wt_view t)) with Some e0 => nleb (e_val e0) (e_val e) | None => true end) eqn:B'; [|discriminate].
    injection U as <-.
    assert (LN : learns (wc_mem (sc_tree x)) (wt_view t)
      (set_heap (wt_view t) (update k (Entry (e_id e) (e_val e) (e_slots e)) (t_heap (wt_view t))))).
    { apply ln_node with (e := e); auto using in_reachb_ok, nle_refl. intros e0 E0. rewrite E0 in B'. now apply nleb_ok. }
    eapply ss_learn_tree; [exact N|exact LN|]. exists (wc_mem (sc_tree x)), []. split; [exact N|]. split; [now apply wt_learn|reflexivity].
  - destruct (eplay1 f (sc_tab x) (ELearn i k)) as [z|] eqn:U; [|discriminate]. injection H as <-. apply one.
    cbn [eplay1] in U. unfold with_at in U. destruct (nth_error (ac_ths (sc_tab x)) i) as [a|] eqn:N; [|discriminate].
    destruct (lookup k (tm_heap (ac_mem (sc_tab x)))) as [e|] eqn:L; [|discriminate].
    destruct (lookup k (at_view a)) eqn:L'; [discriminate|]. destruct (cell_reachedb _ _) eqn:B; [|discriminate]. injection U as <-.
    assert (KC : knows_cell (tm_heap (ac_mem (sc_tab x))) (at_view a) (update k (Entry (e_id e) pval_new (e_slots e)) (at_view a)))
      by (apply kc_cell; auto using cell_reachedb_ok).
    eapply ss_learn_tab; [exact N|exact KC|]. exists (ac_mem (sc_tab x)). split; [exact N|]. split; [now apply at_learn|reflexivity].
  - destruct (nth_error (sc_sts x) i) as [[s past]|] eqn:Ns; [|discriminate]. destruct s; try discriminate.
    destruct (uplay1 f ov t0 (sc_tree x) (UIns i p (r_mui r))) as [z|] eqn:U; [|discriminate]. injection H as <-.
    destruct (start_call _ _ _ _ i _ _ (p, r_mui r) (or_introl eq_refl) U) as [C C'].
    destruct (uplay1_by _ _ _ _ _ i _ U eq_refl) as [(t & t' & B)|E]; [|rewrite E, C in C'; discriminate C'].
    destruct (by_call _ _ _ _ _ _ _ B) as [Q Q']. rewrite C in Q. rewrite C' in Q'. injection Q as Q. injection Q' as Q'.
    apply one. exact (ss_insert f ov t0 x i past p r t t' z Ns B (eq_sym Q) (eq_sym Q')).
  - destruct (nth_error (sc_sts x) i) as [[s past]|] eqn:Ns; [|discriminate]. destruct s; try discriminate.
    destruct (uplay1 f ov t0 (sc_tree x) (UHas i p)) as [z|] eqn:U; [|discriminate]. injection H as <-.
    destruct (start_call _ _ _ _ i _ _ (p, 0) (or_intror eq_refl) U) as [C C'].
    destruct (uplay1_by _ _ _ _ _ i _ U eq_refl) as [(t & t' & B)|E]; [|rewrite E, C in C'; discriminate C'].
    destruct (by_call _ _ _ _ _ _ _ B) as [Q Q']. rewrite C in Q. rewrite C' in Q'. injection Q as Q. injection Q' as Q'.
    apply one. exact (ss_contains f ov t0 x i past p t t' z Ns B (eq_sym Q) (eq_sym Q')).
  - assert (NU : forall r, c <> AUp r) by (intros r ->; discriminate H).
    assert (H' : match nth_error (sc_sts x) i, eplay1 f (sc_tab x) (EBegin i p c) with
      | Some (SThread SIdle past), Some z => Some (SConf (sc_tree x) z (set_st i (SOne p c) past x) (sc_hist x))
      | _, _ => None end = Some y) by (destruct c; [discriminate H|exact H|exact H]).
    clear H. destruct (nth_error (sc_sts x) i) as [[s past]|] eqn:Ns; [|discriminate H']. destruct s; try discriminate H'.
    destruct (eplay1 f (sc_tab x) (EBegin i p c)) as [z|] eqn:U; [|discriminate H'].
    injection H' as <-. destruct (begin_run _ _ _ _ _ _ U) as [C' C].
    destruct (eplay1_by _ _ _ i _ U eq_refl) as (a & a' & B). destruct (by_run _ _ _ _ _ _ B) as [Q Q'].
    rewrite C in Q. rewrite C' in Q'. injection Q as Q. injection Q' as Q'.
    apply one. exact (ss_one f ov t0 x i past p c a a' z Ns NU B (eq_sym Q) (eq_sym Q')).
  - destruct (nth_error (sc_sts x) i) as [[s past]|] eqn:Ns; [|discriminate].
    destruct (parts_of _ _ _ _ _ I Ns) as (t & a & Nt & Na & P). cbn [st_pc] in P.
    destruct s; try discriminate.
    + destruct P as [(pc & Ct) _].
      assert (CA : call_at (sc_tree x) i = Some (wt_call t)) by (unfold call_at; now rewrite Nt).
      assert (TR : vtree f ov t0 x i = Some y -> store_exec f ov x y).
      { intros V. eapply vtree_ok; [exact V|]. intros c0 E. rewrite CA in E. injection E as <-. rewrite Ct. discriminate. }
      rewrite CA, Ct in H. destruct pc; auto. destruct r0 as [[rc ex]|]; auto.
      destruct (uplay1 f ov t0 (sc_tree x) (URet i)) as [z|] eqn:U; [|discriminate].
      destruct (eplay1 f (sc_tab x) (EBegin i p (AUp r))) as [w|] eqn:W; [|discriminate]. injection H as <-.
      destruct (ret_call _ _ _ _ _ _ U) as [C' _]. destruct (begin_run _ _ _ _ _ _ W) as [R' R].
      destruct (uplay1_by _ _ _ _ _ i _ U eq_refl) as [(t1 & t' & B)|E]; [|rewrite E, CA, Ct in C'; discriminate C'].
      destruct (eplay1_by _ _ _ i _ W eq_refl) as (a1 & a' & B').
      destruct (by_call _ _ _ _ _ _ _ B) as [Q Q']. destruct (by_run _ _ _ _ _ _ B') as [Q1 Q1'].
      rewrite CA, Ct in Q. rewrite C' in Q'. rewrite R in Q1. rewrite R' in Q1'.
      injection Q as Q. injection Q' as Q'. injection Q1 as Q1. injection Q1' as Q1'.
      apply one. eapply ss_upsert; [exact Ns|exact B|now symmetry; exact Q|now symmetry|exact B'|now symmetry|now symmetry].
    + eapply vtable_ok; eauto.
    + destruct P as [(pc & Ct) _]. eapply vtree_ok; [exact H|]. unfold call_at. rewrite Nt. intros c0 E. injection E as <-. rewrite Ct. discriminate.
    + eapply vtable_ok; eauto.
    + injection H as <-. constructor.
  - destruct (nth_error (sc_sts x) i) as [[s past]|] eqn:Ns; [|discriminate]. destruct s; try discriminate.
    + destruct (uplay1 f ov t0 (sc_tree x) (URet i)) as [z|] eqn:U; [|discriminate]. injection H as <-.
      destruct (ret_call _ _ _ _ _ _ U) as (C' & c0 & C & NI).
      destruct (uplay1_by _ _ _ _ _ i _ U eq_refl) as [(t & t' & B)|E]; [|rewrite E, C in C'; now injection C'].
      destruct (by_call _ _ _ _ _ _ _ B) as [Q Q']. rewrite C in Q. rewrite C' in Q'. injection Q as Q. injection Q' as Q'.
      apply one. eapply ss_contained; [exact Ns|exact B|congruence|now symmetry].
    + injection H as <-. apply one. eapply ss_return. exact Ns.
  - destruct (nth_error (sc_sts x) i) as [[s1 pi]|] eqn:Ni; [|discriminate]. destruct s1; try discriminate.
    destruct (nth_error (sc_sts x) j) as [[s2 pj]|] eqn:Nj; [|discriminate]. destruct s2; try discriminate.
    destruct (uplay1 f ov t0 (sc_tree x) (UTold i j)) as [z|] eqn:U; [|discriminate].
    destruct (eplay1 f (sc_tab x) (ETold i j)) as [w|] eqn:W; [|discriminate]. injection H as <-. apply one.
    exact (ss_told f ov t0 x i j pi pj z w Ni Nj (uplay1_tells _ _ _ _ _ _ _ U) (eplay1_tells _ _ _ _ _ W)).
Qed.

Lemma vplay_ok es : forall x y, store_reach f ov x -> vplay f ov t0 x es = Some y -> store_exec f ov x y.
Proof using T0.
  induction es as [|e es IH]; intros x y R H; simpl in H.
  - injection H as <-. constructor.
  - destruct (vplay1 f ov t0 x e) as [z|] eqn:P; [|discriminate].
    pose proof (vplay1_ok _ _ _ (storeI_reach _ _ _ R) P) as E. eapply store_exec_trans; [exact E|].
    apply IH; [|exact H]. eapply store_exec_reach; eauto.
Qed.
End Ok.

Lemma ustart_ok f : tree_new f = Ok (ustart f).
Proof. destruct (tree_new_ok f) as (t0 & E & _). unfold ustart. now rewrite E. Qed.
Lemma vrun_ok f ov es x : vrun f ov es = Some x -> store_reach f ov x.
Proof.
  intros H. assert (R : store_reach f ov (vnew f)) by (apply (sr_start _ _ (ustart f)), ustart_ok).
  eapply store_exec_reach; [exact R|]. eapply vplay_ok; [apply ustart_ok|exact R|exact H].
Qed.
Lemma vrun_exec f ov es es' x y : vrun f ov es = Some x -> vplay f ov (ustart f) x es' = Some y -> store_exec f ov x y.
Proof. intros A B. eapply vplay_ok; [apply ustart_ok|eapply vrun_ok; eauto|exact B]. Qed.
Lemma vplay_app f ov t0 es es' x : vplay f ov t0 x (es ++ es') =
  match vplay f ov t0 x es with Some y => vplay f ov t0 y es' | None => None end.
Proof.
  revert x. induction es as [|e es IH]; intros x; simpl; [reflexivity|]. destruct (vplay1 f ov t0 x e); [apply IH|reflexivity].
Qed.

(* ---------- what contains alone does not pass on ---------- *)

Definition vend (es : list vev) : sconf := match vrun IPv4 true es with Some x => x | None => vnew IPv4 end.
Lemma vend_ok es : has_some (vrun IPv4 true es) = true -> store_reach IPv4 true (vend es).
Proof. unfold vend. destruct (vrun IPv4 true es) as [x|] eqn:E; [|discriminate]. intros _. exact (vrun_ok _ _ _ _ E). Qed.
Lemma vend_exec es es' : has_some (vrun IPv4 true (es ++ es')) = true -> store_exec IPv4 true (vend es) (vend (es ++ es')).
Proof.
  unfold vend. unfold vrun at 1 3. rewrite vplay_app. fold (vrun IPv4 true es).
  destruct (vrun IPv4 true es) as [x|] eqn:E; [|discriminate].
  destruct (vplay IPv4 true (ustart IPv4) x es') as [y|] eqn:E'; [|discriminate]. intros _. exact (vrun_exec _ _ _ _ _ _ E E').
Qed.

Definition vinsert (i : nat) (p : pid) (r : record) : list vev := [VIns i p r] ++ vsteps i 90 ++ [VRet i].
(* thread 0 inserts 172.16.0.0/12, *)
Definition one_done : list vev := [VSpawn; VSpawn; VLock p10; VLock p172] ++ vinsert 0 p172 recb.
(* then 10.0.0.0/8; thread 1 sees the bit of the latter in the tree, *)
Definition bit_seen : list vev := one_done ++ vinsert 0 p10 reca ++ [VTree 1 (1, [0]); VHas 1 p10] ++ vsteps 1 9.
(* and then asks for the former, or for the records *)
Definition then_asks : list vev := bit_seen ++ [VRet 1; VHas 1 p172] ++ vsteps 1 9.
Definition then_reads : list vev := bit_seen ++ [VRet 1; VOne 1 p10 (ARead None true [])] ++ vsteps 1 90.

Lemma contains_passes_refuted :
  ~ (forall f ov x0 x1 x2 i j p q rq past past1 past2 t1 t2 b,
    store_reach f ov x0 -> nth_error (sc_sts x0) j = Some (SThread SIdle past) -> In (q, rq) past -> 0 < p_len q ->
    ~ In p (wc_called (sc_tree x0)) -> store_exec f ov x0 x1 -> (forall k op, In (k, p, op) (slog x1) -> k = j) ->
    nth_error (sc_sts x1) i = Some (SThread (SHas p) past1) -> nth_error (wc_ths (sc_tree x1)) i = Some t1 ->
    wt_call t1 = WHas p (XDone true) ->
    store_exec f ov x1 x2 -> nth_error (sc_sts x2) i = Some (SThread (SHas q) past2) ->
    nth_error (wc_ths (sc_tree x2)) i = Some t2 -> wt_call t2 = WHas q (XDone b) -> b = true).
Proof.
  intros H. enough (E : false = true) by discriminate E.
  eapply (H IPv4 true (vend one_done) (vend bit_seen) (vend then_asks) 1%nat 0%nat p10 p172 recb); clear H.
  - apply vend_ok. vm_compute. reflexivity.
  - vm_compute. reflexivity.
  - left. reflexivity.
  - reflexivity.
  - intros Q. vm_compute in Q. destruct Q as [Q|[]]. discriminate Q.
  - apply vend_exec. vm_compute. reflexivity.
  - intros k op Q. vm_compute in Q. destruct Q as [Q|[Q|[]]]; injection Q as <- _; reflexivity.
  - vm_compute. reflexivity.
  - vm_compute. reflexivity.
  - reflexivity.
  - apply vend_exec. vm_compute. reflexivity.
  - vm_compute. reflexivity.
  - vm_compute. reflexivity.
  - reflexivity.
Qed.

(* nor do the records come with the bit, though the insert has long returned *)
Lemma contains_records_refuted :
  ~ (forall f ov x1 x2 i j p r past past1 past2 t1 bmin o,
    store_reach f ov x1 -> nth_error (sc_sts x1) j = Some (SThread SIdle past) -> In (p, r) past ->
    nth_error (sc_sts x1) i = Some (SThread (SHas p) past1) -> nth_error (wc_ths (sc_tree x1)) i = Some t1 ->
    wt_call t1 = WHas p (XDone true) ->
    store_exec f ov x1 x2 -> nth_error (sc_sts x2) i = Some (SThread (SRet p (ARead None true bmin) (RRead o)) past2) ->
    o <> None).
Proof.
  intros H. refine (H IPv4 true (vend bit_seen) (vend then_reads) 1%nat 0%nat p10 reca _ _ _ _ [] None _ _ _ _ _ _ _ _ eq_refl); clear H.
  - apply vend_ok. vm_compute. reflexivity.
  - vm_compute. reflexivity.
  - left. reflexivity.
  - vm_compute. reflexivity.
  - vm_compute. reflexivity.
  - reflexivity.
  - apply vend_exec. vm_compute. reflexivity.
  - vm_compute. reflexivity.
Qed.
