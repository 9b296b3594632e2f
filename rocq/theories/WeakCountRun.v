(* The steps of WeakCount.v as a program, for the examples; and what a load can miss. *)
From Coq Require Import Arith NArith List Bool Lia.
From Verif Require Import Word Af BitSpan Maps ChtMath Cht Node Tree TreeProofs MultiMap PrefixCht Lsm Rib HistSpec
  Conc ConcTree ConcTreeProofs ConcStore ConcTable ConcSpec ConcFacts WeakTable WeakTableFacts WeakTableRun WeakTreeInv WeakCount WeakCountFacts.
Import ListNotations.
Local Open Scope N_scope.

Inductive rev_ : Type := RTab (e : aev) | RLoad (i k : nat).
Definition of_whom (e : aev) : option nat :=
  match e with EBegin i _ _ | ELearn i _ | EStep i | ERet i => Some i | _ => None end.

Definition rplay1 (f : af) (x : rconf) (e : rev_) : option rconf :=
  match e with
  | RTab ESpawn => Some (RConf (AConf (ac_mem (rc_tab x)) (ac_ths (rc_tab x) ++ [AThread [] None [] [] 0]))
                     (rc_adds x) (rc_ths x ++ [RThread 0 None []]))
  | RTab (ETold i j) =>
    match nth_error (ac_ths (rc_tab x)) i, nth_error (ac_ths (rc_tab x)) j, nth_error (rc_ths x) i, nth_error (rc_ths x) j with
    | Some ti, Some tj, Some ui, Some uj =>
      match at_run ti, at_run tj with
      | None, None => Some (RConf (AConf (ac_mem (rc_tab x)) (set_nth j (atold ti tj) (ac_ths (rc_tab x)))) (rc_adds x)
          (set_nth j (RThread (Nat.max (rt_view ui) (rt_view uj)) None (rt_past ui ++ rt_past uj)) (rc_ths x)))
      | _, _ => None
      end
    | _, _, _, _ => None
    end
  | RTab e' =>
    match of_whom e', eplay1 f (rc_tab x) e' with
    | Some i, Some y =>
      match nth_error (ac_ths (rc_tab x)) i, nth_error (ac_ths y) i, nth_error (rc_ths x) i with
      | Some t, Some t', Some u =>
        match new_route t, at_run t' with
        | Some a, None => Some (RConf y (rc_adds x ++ [(i, a)])
            (set_nth i (RThread (S (length (rc_adds x))) None (a :: rt_past u)) (rc_ths x)))
        | _, _ => Some (RConf y (rc_adds x) (set_nth i (RThread (rt_view u) None (rt_past u)) (rc_ths x)))
        end
      | _, _, _ => None
      end
    | _, _ => None
    end
  | RLoad i k =>
    match nth_error (ac_ths (rc_tab x)) i, nth_error (rc_ths x) i with
    | Some t, Some u =>
      match at_run t with
      | None => if Nat.leb (rt_view u) k && Nat.leb k (length (rc_adds x))
                then Some (RConf (rc_tab x) (rc_adds x) (set_nth i (RThread k (Some k) (rt_past u)) (rc_ths x))) else None
      | Some _ => None
      end
    | _, _ => None
    end
  end.
Fixpoint rplay (f : af) (x : rconf) (es : list rev_) : option rconf :=
  match es with
  | [] => Some x
  | e :: es' =>
    if match e with RTab e' => at_rest (rc_tab x) e' | _ => false end then rplay f x es'
    else match rplay1 f x e with Some y => rplay f y es' | None => None end
  end.
Definition rrun (f : af) (es : list rev_) : option rconf := rplay f (RConf (AConf (TMem [] []) []) [] []) es.

Lemma eplay1_at f x e i y : of_whom e = Some i -> eplay1 f x e = Some y ->
  exists t m t', nth_error (ac_ths x) i = Some t /\ atstep f i (ac_mem x) t m t' /\ y = AConf m (set_nth i t' (ac_ths x)).
Proof.
  assert (W : forall g, with_at x i g = Some y -> (forall t m t', g t = Some (m, t') -> atstep f i (ac_mem x) t m t') ->
    exists t m t', nth_error (ac_ths x) i = Some t /\ atstep f i (ac_mem x) t m t' /\ y = AConf m (set_nth i t' (ac_ths x))).
  { intros g. unfold with_at. destruct (nth_error (ac_ths x) i) as [t|] eqn:E; [|discriminate].
    destruct (g t) as [[m t']|] eqn:G; [|discriminate]. intros H S. injection H as <-. exists t, m, t'. auto. }
  destruct e as [|i' p c|i' k|i'|i'|i' j]; cbn [of_whom]; intros Wh H; try discriminate Wh; injection Wh as ->; cbn [eplay1] in H.
  - apply (W _ H). intros t m t'. destruct (at_run t) eqn:C; try discriminate.
    destruct (wf_pidb f p) eqn:B; [|discriminate]. intros Q. injection Q as <- <-. apply wf_pidb_spec in B. now constructor.
  - apply (W _ H). intros t m t'.
    destruct (lookup k (tm_heap (ac_mem x))) as [e|] eqn:L; [|discriminate].
    destruct (lookup k (at_view t)) eqn:L'; [discriminate|]. destruct (cell_reachedb _ _) eqn:B; [|discriminate].
    intros Q. injection Q as <- <-. apply at_learn. apply kc_cell; auto using cell_reachedb_ok.
  - apply (W _ H). intros t m t'.
    destruct (at_run t) as [[[p c] pc]|] eqn:C; [|discriminate]. destruct pc; try discriminate.
    + destruct (cells_agreeb _ _ _ _ _) eqn:A; [|discriminate]. intros Q. injection Q as <- <-.
      apply at_walk; auto using cells_agreeb_ok.
    + intros Q. injection Q as <- <-. now apply at_look.
    + destruct (deref k (tm_heap (ac_mem x))) as [v| |] eqn:D; try discriminate. intros Q. injection Q as <- <-.
      now apply at_crit.
  - apply (W _ H). intros t m t'.
    destruct (at_run t) as [[[p c] pc]|] eqn:C; [|discriminate]. destruct pc; try discriminate.
    intros Q. injection Q as <- <-. now apply at_return.
Qed.

Lemma rplay1_ok f x e y : rplay1 f x e = Some y -> rstep f x y.
Proof.
  assert (G : forall e' i, of_whom e' = Some i ->
    match of_whom e', eplay1 f (rc_tab x) e' with
    | Some i, Some y =>
      match nth_error (ac_ths (rc_tab x)) i, nth_error (ac_ths y) i, nth_error (rc_ths x) i with
      | Some t, Some t', Some u =>
        match new_route t, at_run t' with
        | Some a, None => Some (RConf y (rc_adds x ++ [(i, a)])
            (set_nth i (RThread (S (length (rc_adds x))) None (a :: rt_past u)) (rc_ths x)))
        | _, _ => Some (RConf y (rc_adds x) (set_nth i (RThread (rt_view u) None (rt_past u)) (rc_ths x)))
        end
      | _, _, _ => None
      end
    | _, _ => None
    end = Some y -> rstep f x y).
  { intros e' i W. rewrite W. destruct (eplay1 f (rc_tab x) e') as [z|] eqn:P; [|discriminate].
    destruct (eplay1_at f _ e' i z W P) as (t & m & t' & N & A & ->). cbn [ac_ths]. rewrite N, (set_nth_here _ _ _ _ N).
    destruct (nth_error (rc_ths x) i) as [u|] eqn:Nu; [|discriminate].
    destruct (new_route t) as [[p mui]|] eqn:R; [destruct (at_run t') eqn:C|]; intros H; injection H as <-.
    - apply (rs_table f x i t m t' u N Nu A). right. rewrite C. discriminate.
    - now apply (rs_count f x i t m t' u p mui).
    - apply (rs_table f x i t m t' u N Nu A). now left. }
  destruct e as [e|i k].
  - destruct e as [|i p c|i k|i|i|i j]; cbn [rplay1].
    + intros H. injection H as <-. apply rs_spawn.
    + exact (G (EBegin i p c) i eq_refl).
    + exact (G (ELearn i k) i eq_refl).
    + exact (G (EStep i) i eq_refl).
    + exact (G (ERet i) i eq_refl).
    + destruct (nth_error (ac_ths (rc_tab x)) i) as [ti|] eqn:Ni; [|discriminate].
      destruct (nth_error (ac_ths (rc_tab x)) j) as [tj|] eqn:Nj; [|discriminate].
      destruct (nth_error (rc_ths x) i) as [ui|] eqn:Ui; [|discriminate].
      destruct (nth_error (rc_ths x) j) as [uj|] eqn:Uj; [|discriminate].
      destruct (at_run ti) eqn:Ci; [discriminate|]. destruct (at_run tj) eqn:Cj; [discriminate|].
      intros H. injection H as <-. now apply (rs_told f x i j ti tj ui uj).
  - cbn [rplay1]. destruct (nth_error (ac_ths (rc_tab x)) i) as [t|] eqn:N; [|discriminate].
    destruct (nth_error (rc_ths x) i) as [u|] eqn:Nu; [|discriminate]. destruct (at_run t) eqn:C; [discriminate|].
    destruct (Nat.leb (rt_view u) k && Nat.leb k (length (rc_adds x))) eqn:B; [|discriminate]. intros H. injection H as <-.
    apply andb_prop in B. destruct B as [B1 B2]. apply Nat.leb_le in B1, B2. now apply (rs_load f x i t u k).
Qed.
Lemma rplay_ok f es : forall x y, rplay f x es = Some y -> rexec f x y.
Proof.
  assert (T : forall x y z, rstep f x y -> rexec f y z -> rexec f x z).
  { intros x y z S E. induction E as [|z w E IH S']; [eapply re_step; [apply re_here|exact S]|eapply re_step; eauto]. }
  induction es as [|e es IH]; intros x y H; cbn [rplay] in H; [injection H as <-; apply re_here|].
  destruct (match e with RTab e' => at_rest (rc_tab x) e' | _ => false end); [now apply IH|].
  destruct (rplay1 f x e) as [z|] eqn:P; [|discriminate H]. eapply T; [exact (rplay1_ok f x e z P)|now apply IH].
Qed.
Definition rend (es : list rev_) : rconf :=
  match rrun IPv4 es with Some x => x | None => RConf (AConf (TMem [] []) []) [] [] end.
Lemma rend_ok es : has_some (rrun IPv4 es) = true -> rreach IPv4 (rend es).
Proof. unfold rend. destruct (rrun IPv4 es) as [x|] eqn:E; [|discriminate]. intros _. exact (rplay_ok _ _ _ _ E). Qed.

(* ---------- a thread whose own insert has returned ---------- *)

Definition rups (i : nat) (p : pid) (r : record) : list rev_ := List.map RTab ([EBegin i p (AUp r)] ++ esteps i 70).
Definition rret (i : nat) : rev_ := RTab (ERet i).
(* thread 0 has stored the route and has not yet counted it when thread 1 stores it again and returns; then thread 0
   returns, and thread 1 asks *)
Definition not_counted : list rev_ :=
  [RTab ESpawn; RTab ESpawn] ++ rups 0 p10 reca ++ List.map RTab [ELearn 1 (cell p10)] ++ rups 1 p10 reca ++ [rret 1; rret 0; RLoad 1 0].

(* a thread that has stored a route itself, and returned, is given 0, though no call is under way any more *)
Lemma wroutes_own_refuted :
  ~ (forall f x i t u k p r, rreach f x -> (forall t', In t' (ac_ths (rc_tab x)) -> at_run t' = None) ->
    nth_error (ac_ths (rc_tab x)) i = Some t -> nth_error (rc_ths x) i = Some u -> rt_got u = Some k ->
    In (p, OUp r) (at_did t) -> (1 <= k)%nat).
Proof.
  intros H. assert (R : rreach IPv4 (rend not_counted)) by (apply rend_ok; vm_compute; reflexivity).
  assert (A : List.map (fun t => (at_run t, at_did t)) (ac_ths (rc_tab (rend not_counted))) =
    [(None, [(p10, OUp reca)]); (None, [(p10, OUp reca)])]) by (vm_compute; reflexivity).
  assert (B : List.map rt_got (rc_ths (rend not_counted)) = [None; Some 0%nat]) by (vm_compute; reflexivity).
  revert R A B. generalize (rend not_counted). intros x R A B. destruct x as [[m ts] adds us]. cbn [rc_tab ac_ths rc_ths] in A, B.
  destruct ts as [|t0 [|t1 [|]]]; try discriminate A. injection A as A1 A2 A3 A4.
  destruct us as [|u0 [|u1 [|]]]; try discriminate B. injection B as B1 B2.
  assert (L : (1 <= 0)%nat); [|lia].
  apply (H IPv4 _ 1%nat t1 u1 0%nat p10 reca R).
  - cbn [rc_tab ac_ths]. intros t' [<-|[<-|[]]]; assumption.
  - reflexivity.
  - reflexivity.
  - exact B2.
  - rewrite A4. now left.
Qed.
