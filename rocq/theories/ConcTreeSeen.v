(* An insert of a prefix that is already present does not report it as new. *)
From Coq Require Import Arith NArith List Bool Lia.
From Verif Require Import Word Af BitSpan Maps ChtMath Cht Node Tree ChainProofs TreeProofs
  ConcMarks ConcTree ConcTreeProofs ConcTreeInv ConcTreeStep.
Import ListNotations.
Local Open Scope N_scope.

(* the call has made, or may yet make without looking again, its prefix present *)
Definition may_make (pc : tpc) : bool :=
  match pc with
  | TCasPfx _ _ _ _ => true
  | TDefault existed _ => negb existed
  | TDone (ROk (_, existed)) => negb existed
  | _ => false
  end.

Lemma next_turn_may f p s c a : may_make (or_panic (next_turn f p s c a)) = false.
Proof.
  unfold next_turn. destruct (add8 s STRIDE_SIZE); cbn [bind]; try easy.
  match goal with |- context [bind (if ?b then ?x else ?y) _] => destruct (if b then x else y) end;
    cbn [bind]; try easy.
  destruct (sub8 _ _); cbn [bind]; try easy.
  destruct (into_bit_span _ _ _ _); cbn [bind]; try easy.
  destruct (walk_start _ _ _); cbn [bind]; easy.
Qed.

Lemma go_on_may f ov p fr n a b : may_make (or_panic (go_on f ov p fr n a b)) = false.
Proof.
  unfold go_on. repeat (destruct (add32 _ _ _); cbn [bind]; try easy). apply next_turn_may.
Qed.

Section S.
Variable f : af.
Variable ov : bool.
Variable C : pid -> Prop.

Lemma tnext_seen_known p mui t pc : ninv f (t_heap t) -> tI f ov p t pc ->
  present f t p = true -> may_make pc = false ->
  may_make (snd (tnext f ov p mui t pc)) = false.
Proof.
  intros NI I P M.
  unfold tnext. destruct pc as [|ex r|fr r|fr k|fr k ptr|fr k ptr|fr k cur rc|fr k cur rc|fr rc
    |fr rc nn s0|r|]; simpl in M; try discriminate; simpl in I; cbn [tstep].
  - unfold present in P. destruct (N.eqb_spec (p_len p) 0) as [L|L].
    + destruct (walk_start _ _ _); cbn [bind snd]; try easy. simpl. now rewrite P.
    + pose proof (next_turn_may f p 0 root_node_id 0) as X. destruct (next_turn _ _ _ _ _); easy.
  - apply negb_false_iff in M. subst ex. destruct (rstep _ _ _ _ _) as [[h o]| |]; cbn [bind]; try easy.
    destruct o; easy.
  - destruct (rstep _ _ _ _ _) as [[h o]| |]; cbn [bind]; try easy. destruct o; easy.
  - destruct (deref _ _); easy.
  - destruct I as ((s & acc & -> & Ms & Ls & A) & PD & AT & SE). simpl in PD, AT.
    destruct (at_id_lookup _ _ _ AT) as (v & DR & sl & LK). rewrite DR. cbn [bind].
    pose proof (at_id_nodes f _ _ _ _ _ NI LK) as NV.
    destruct (into_bit_pos _) as [bp| |] eqn:BP; cbn [bind]; try easy.
    change (fr_last (mkframe f p s acc)) with (p_len p <=? s + 4).
    change (fr_bs (mkframe f p s acc)) with (BS (slice (BITS f) (p_bits p) s (nib_len p s)) (nib_len p s)) in BP.
    destruct (N.leb_spec (p_len p) (s + 4)) as [Last|NLast]; cbn [negb]; [|easy].
    destruct (span_here f p s Ms Ls Last) as (E1 & E2 & E3).
    rewrite E1, into_bit_pos_ok in BP by apply wf_span. injection BP as <-.
    rewrite land_pow2_eq0. unfold present in P.
    destruct (N.eqb_spec (p_len p) 0); [lia|]. unfold stored in P. rewrite E2, NV in P. rewrite P.
    cbn [negb]. unfold finish. destruct (add32 _ _ _); easy.
  - destruct (deref _ _); cbn [bind]; try easy.
    destruct (into_bit_pos _); cbn [bind]; try easy.
    destruct (_ =? 0); [easy|].
    destruct (add_to_len _ _); cbn [bind]; try easy.
    pose proof (go_on_may f ov p fr (node_truncate_to_len f a1) 0 0) as X.
    destruct (go_on _ _ _ _ _ _ _); easy.
  - destruct (deref _ _); cbn [bind]; try easy.
    destruct (into_bit_pos _); cbn [bind]; try easy.
    destruct (_ =? _); [easy|]. destruct (add32 _ _ _); easy.
  - destruct (new_id _ _ _); cbn [bind]; try easy. destruct (walk_start _ _ _); easy.
  - destruct (new_id _ _ _); cbn [bind]; try easy.
    destruct (sstep _ _ _ _ _ _) as [[h o]| |]; cbn [bind]; try easy. destruct o as [s'|[[? ?]|]].
    + easy.
    + apply go_on_may.
    + apply next_turn_may.
  - easy.
  - easy.
Qed.

Lemma tnext_seen p mui t pc : wf_pid f p -> tG f C t -> tI f ov p t pc ->
  present f t p = true -> may_make pc = false ->
  may_make (snd (tnext f ov p mui t pc)) = false.
Proof. intros _ G. apply tnext_seen_known. exact (g_cht _ _ _ (proj1 G)). Qed.

(* a call that has returned, or will yet test the bit, has not made it *)
Lemma may_make_made pc : made pc -> may_make pc = true \/ pc = TPanic.
Proof. destruct pc; simpl; try easy; auto; [intros ->; auto|]. destruct r as [[? []]|]; auto. Qed.

Lemma inserted_present t p : inserted f t p -> present f t p = true.
Proof. unfold inserted, present. destruct (p_len p =? 0); tauto. Qed.

End S.
