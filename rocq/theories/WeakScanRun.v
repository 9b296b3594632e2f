(* Executions of the long readers on a weak memory, computed. *)
From Coq Require Import Arith NArith List Bool Lia.
From Verif Require Import Word Af BitSpan Spec Maps ChtMath Cht Node Tree TreeProofs ConcTree ConcSpec ConcScan ConcScanSpec ConcQueryDemo
  WeakTree WeakTreeFacts WeakTreeRun WeakScan.
Import ListNotations.
Local Open Scope N_scope.

(* the steps of the reader, and between them those of others *)
Inductive sev : Type := SCalls (es : list uev) | SOwn (n : nat).

Section P.
Context {S : Type}.
Variable f : af.
Variable ov : bool.
Variable over : S -> bool.
Variable next : tree -> S -> S.
Variable i : nat.

(* nothing, when the reader is done *)
Fixpoint own (n : nat) (v : tree) (c : nat) (s : S) : nat * S :=
  match n with
  | O => (c, s)
  | Datatypes.S k => if over s then (c, s) else own k v (Datatypes.S c) (next v s)
  end.
Definition splay1 (z : nat * wtconf * S) (e : sev) : option (nat * wtconf * S) :=
  let '(c, x, s) := z in
  match e with
  | SCalls es => match uplay f ov (ustart f) x es with Some y => Some (c, y, s) | None => None end
  | SOwn n =>
    match nth_error (wc_ths x) i with
    | Some t =>
      match wt_call t with
      | WIdle => let '(c', s') := own n (wt_view t) c s in Some (c', x, s')
      | _ => None
      end
    | None => None
    end
  end.
Fixpoint splay (z : nat * wtconf * S) (es : list sev) : option (nat * wtconf * S) :=
  match es with
  | [] => Some z
  | e :: es' => match splay1 z e with Some z' => splay z' es' | None => None end
  end.

Lemma own_ok x0 s0 x t n : nth_error (wc_ths x) i = Some t -> wt_call t = WIdle -> forall c s c' s',
  wbeside f ov over next i x0 s0 c x s -> own n (wt_view t) c s = (c', s') ->
  wbeside f ov over next i x0 s0 c' x s'.
Proof.
  intros N C. induction n as [|n IH]; simpl; intros c s c' s' B E.
  - injection E as <- <-. easy.
  - destruct (over s) eqn:O; [injection E as <- <-; easy|]. eapply IH; [|exact E]. eapply wb_own; eauto.
Qed.
Lemma wb_exec x0 s0 n x s y : wbeside f ov over next i x0 s0 n x s -> wtexec f ov x y -> wbeside f ov over next i x0 s0 n y s.
Proof. intros B E. induction E; [easy|]. eapply wb_call; eauto. Qed.
Lemma splay1_ok x0 s0 c x s e c' y s' : wbeside f ov over next i x0 s0 c x s -> splay1 (c, x, s) e = Some (c', y, s') ->
  wbeside f ov over next i x0 s0 c' y s'.
Proof.
  intros B H. destruct e as [es|n]; cbn [splay1] in H.
  - destruct (uplay f ov (ustart f) x es) as [z|] eqn:U; [|discriminate]. injection H as <- <- <-.
    destruct (tree_new_ok f) as (t0 & E & _). unfold ustart in U. rewrite E in U.
    eapply wb_exec; [exact B|]. eapply uplay_ok; eauto.
  - destruct (nth_error (wc_ths x) i) as [t|] eqn:N; [|discriminate]. destruct (wt_call t) eqn:C; try discriminate.
    destruct (own n (wt_view t) c s) as [c1 s1] eqn:O. injection H as <- <- <-. eapply own_ok; eauto.
Qed.
Lemma splay_ok x0 s0 es : forall c x s c' y s', wbeside f ov over next i x0 s0 c x s ->
  splay (c, x, s) es = Some (c', y, s') -> wbeside f ov over next i x0 s0 c' y s'.
Proof.
  induction es as [|e es IH]; intros c x s c' y s' B H; cbn [splay] in H.
  - injection H as <- <- <-. easy.
  - destruct (splay1 (c, x, s) e) as [[[c1 x1] s1]|] eqn:P; [|discriminate].
    eapply IH; [|exact H]. eapply splay1_ok; eauto.
Qed.
End P.

(* first some calls, then thread i reads *)
Definition scan_run (f : af) (ov : bool) (p : pid) (i : nat) (es : list uev) (ss : list sev) : option (nat * wtconf * mscan) :=
  match urun f ov es with
  | Some x => splay f ov scan_over (mnext f p) i (O, x, mscan0) ss
  | None => None
  end.
Definition look_run (f : af) (ov once : bool) (p : pid) (i : nat) (es : list uev) (ss : list sev) : option (nat * wtconf * bscan) :=
  match urun f ov es with
  | Some x => splay f ov look_over (bnext f once p) i (O, x, bscan0 once p) ss
  | None => None
  end.

Lemma scan_run_ok f ov p i es ss n x s : scan_run f ov p i es ss = Some (n, x, s) ->
  exists x0, urun f ov es = Some x0 /\ wtreach f ov x0 /\ wscans f ov p i x0 n x s.
Proof.
  unfold scan_run. destruct (urun f ov es) as [x0|] eqn:U; [|discriminate]. intros H. exists x0. split; [easy|].
  split; [eapply urun_ok; eauto|]. eapply splay_ok; [|exact H]. constructor.
Qed.
Lemma look_run_ok f ov once p i es ss n x s : look_run f ov once p i es ss = Some (n, x, s) ->
  exists x0, urun f ov es = Some x0 /\ wtreach f ov x0 /\ wlooks f ov once p i x0 n x s.
Proof.
  unfold look_run. destruct (urun f ov es) as [x0|] eqn:U; [|discriminate]. intros H. exists x0. split; [easy|].
  split; [eapply urun_ok; eauto|]. eapply splay_ok; [|exact H]. constructor.
Qed.

(* nothing happens while it reads *)
Lemma scan_alone f ov p i es k n x s : scan_run f ov p i es [SOwn k] = Some (n, x, s) ->
  wtreach f ov x /\ wscans f ov p i x n x s.
Proof.
  intros H. destruct (scan_run_ok _ _ _ _ _ _ _ _ _ H) as (x0 & U & R & B). unfold scan_run in H. rewrite U in H. clear U.
  cbn [splay splay1] in H. destruct (nth_error (wc_ths x0) i) as [t|]; [|discriminate H].
  destruct (wt_call t); try discriminate H. destruct (own scan_over (mnext f p) k (wt_view t) 0 mscan0) as [c' s'].
  injection H as -> -> ->. exact (conj R B).
Qed.

(* ---------- a scan that is cut short though no insert is under way ---------- *)

Definition cut_a : pid := (335544320, 8).    (* 20.0.0.0/8 *)
Definition cut_b : pid := (167772160, 8).    (* 10.0.0.0/8 *)
Definition cut_top : pid := (0, 1).          (* 0.0.0.0/1 *)
(* thread 0 inserts the one and tells thread 1; it inserts the other and returns; then thread 1 loads the root again *)
Definition cut_calls : list uev :=
  [USpawn; USpawn; UIns 0 cut_a 1] ++ usteps 0 40 ++ [URet 0; UTold 0 1; UIns 0 cut_b 1] ++ usteps 0 40 ++
  [URet 0; ULearn 1 (0, [0])].

Lemma wscan_idle_refuted : ~ (forall f ov p i x0 tb n s, wtreach f ov x0 ->
  (forall t, In t (wc_ths x0) -> wt_call t = WIdle) -> nth_error (wc_ths x0) i = Some tb ->
  wf_pid f p -> p_len p < BITS f -> wscans f ov p i x0 n x0 s -> scan_over s = true ->
  forall q, In q (wt_past tb) -> 0 < p_len q -> covers f p q -> In q (given s)).
Proof.
  intros H.
  destruct (scan_run IPv4 true cut_top 1 cut_calls [SOwn 6]) as [[[n x] s]|] eqn:E.
  2:{ vm_compute in E. discriminate E. }
  destruct (scan_alone _ _ _ _ _ _ _ _ _ E) as (R & B).
  assert (F : match scan_run IPv4 true cut_top 1 cut_calls [SOwn 6] with
    | Some (_, x, s) => forallb (fun t => match wt_call t with WIdle => true | _ => false end) (wc_ths x) = true /\
        option_map wt_past (nth_error (wc_ths x) 1) = Some [cut_a] /\ scan_over s = true /\ given s = []
    | None => False
    end) by (vm_compute; auto).
  rewrite E in F. clear E. destruct F as (F1 & F2 & F3 & F4).
  destruct (nth_error (wc_ths x) 1) as [tb|] eqn:N; [|discriminate F2]. injection F2 as F2.
  assert (In cut_a (given s)) as Q.
  { apply (H IPv4 true cut_top 1%nat x tb n s R); auto.
    - intros t T. rewrite forallb_forall in F1. specialize (F1 t T). now destruct (wt_call t).
    - apply wf_pidb_spec. vm_compute. reflexivity.
    - vm_compute. reflexivity.
    - rewrite F2. now left.
    - vm_compute. reflexivity.
    - apply coversb_ok. vm_compute. reflexivity. }
  rewrite F4 in Q. destruct Q.
Qed.
