(* The steps of WeakPtr.v as a program, for the examples. *)
From Coq Require Import Arith NArith List Bool Lia.
From Verif Require Import Conc WeakPtr.
Import ListNotations.

Section Run.
Context {A F : Type}.
Variable apply : F -> A -> A.
Variable eqb : A -> A -> bool.
Variable a0 : A.

(* a step: a fence, the beginning of a call, or the next step of one; k is the message to
   read, or 0 for a compare_exchange that succeeds *)
Inductive pact : Type := PFence | PBegin (p : ppc A F) | PGo (k : nat).
Inductive pev : Type := PSpawn | PDoes (i : nat) (a : pact) | PSync (i j : nat).

Definition pget (w : pmem A F) (v : pview) (k : nat) : option (pmsg A F) :=
  if (1 <=? k) && (v_at v <=? k) then nth_error (s_msgs w) (k - 1) else None.
Definition ptop (w : pmem A F) : option (pmsg A F) := nth_error (s_msgs w) (length (s_msgs w) - 1).
Definition pobj (w : pmem A F) (t : pthread A F) (n : nat) (f : A -> pmem A F * pthread A F) : option (pmem A F * pthread A F) :=
  if v_objs (p_cur t) n then match nth_error (s_objs w) n with Some a => Some (f a) | None => None end else Some (w, pat t PRaced).
Definition pwin (w : pmem A F) (n : nat) (tag : bool) (f : pmsg A F -> pmem A F * pthread A F) : option (pmem A F * pthread A F) :=
  match ptop w with
  | Some g => if (pm_ptr g =? n) && Bool.eqb (pm_tag g) tag then Some (f g) else None
  | None => None
  end.
Definition plose (w : pmem A F) (v : pview) (k n : nat) (tag : bool) (f : pmsg A F -> pmem A F * pthread A F) : option (pmem A F * pthread A F) :=
  match pget w v k with
  | Some g => if (pm_ptr g =? n) && Bool.eqb (pm_tag g) tag then None else Some (f g)
  | None => None
  end.
Definition pload (w : pmem A F) (v : pview) (k : nat) (f : pmsg A F -> pthread A F) : option (pmem A F * pthread A F) :=
  match pget w v k with Some g => Some (w, f g) | None => None end.

Definition ptexec (o : pords) (w : pmem A F) (t : pthread A F) (a : pact) : option (pmem A F * pthread A F) :=
  match a, p_pc t with
  | PFence, PIdle => Some (pfence w t)
  | PBegin p, PIdle => match p with PRead0 | PTag0 | PUpd0 _ | PSet0 _ | POut0 => Some (w, pat t p) | _ => None end
  | PGo k, PRead0 => pload w (p_cur t) k (fun g => ploaded (q_load_acq o) t k g (PRead1 k (pm_ptr g)))
  | PGo _, PRead1 k n => pobj w t n (fun a => (w, pat t (PGave k a)))
  | PGo _, PGave k a => Some (w, pdone t k (DidRead a))
  | PGo _, PTagGave k b => Some (w, pdone t k (DidFlag b))
  | PGo k, PTag0 => pload w (p_cur t) k (fun g => ploaded (q_load_acq o) t k g (PTagGave k (pm_tag g)))
  | PGo k, PUpd0 f => pload w (p_cur t) k (fun g => ploaded (q_load_acq o) t k g (PUpd1 f (pm_ptr g) (pm_tag g)))
  | PGo _, PUpd1 f n tag => pobj w t n (fun a => (pnew w (apply f a), pmade w t (PUpd2 f n tag (length (s_objs w)))))
  | PGo 0, PUpd2 f n tag new => pwin w n tag (fun g => pswapped (q_succ_acq o) (q_succ_rel o) w t g new false (Updated f) PIdle)
  | PGo k, PUpd2 f n tag new => plose w (p_cur t) k n tag (fun g => (w, ploaded (q_fail_acq o) t k g (PUpd3 f n tag (pm_ptr g))))
  | PGo _, PUpd3 f n tag m => pobj w t m (fun a => (pnew w a, pmade w t (PUpd2 f n tag (length (s_objs w)))))
  | PGo k, PSet0 a => pload w (p_cur t) k (fun g => ploaded (q_load_acq o) t k g (PSet1 k a (pm_ptr g) (pm_tag g)))
  | PGo _, PSet1 k a n tag => pobj w t n (fun b => if eqb b a then (w, pdone t k (DidKeep a)) else (pnew w a, pmade w t (PSet2 a n tag (length (s_objs w)))))
  | PGo 0, PSet2 a n tag new => pwin w n tag (fun g => pswapped (q_succ_acq o) (q_succ_rel o) w t g new false (Stored a) PIdle)
  | PGo k, PSet2 a n tag new => plose w (p_cur t) k n tag (fun g => (w, ploaded (q_fail_acq o) t k g PIdle))
  | PGo k, POut0 => pload w (p_cur t) k (fun g => ploaded (q_tag_acq o) t k g (POut1 (pm_ptr g) (pm_tag g)))
  | PGo 0, POut1 n tag => pwin w n tag (fun g => pswapped (q_tag_acq o) (q_tag_rel o) w t g n true Outdated PIdle)
  | PGo k, POut1 n tag => pload w (p_cur t) k (fun g => ploaded (q_tag_acq o) t k g (POut1 (pm_ptr g) (pm_tag g)))
  | _, _ => None
  end.

Lemma pget_ok w v k g : pget w v k = Some g -> preads w v k g.
Proof.
  unfold pget, preads. destruct (Nat.leb_spec 1 k); cbn; [|discriminate]. destruct (Nat.leb_spec (v_at v) k); [|discriminate]. auto.
Qed.
Lemma ptop_ok w g : ptop w = Some g -> exists l, s_msgs w = l ++ [g].
Proof.
  unfold ptop. destruct (s_msgs w) as [|x l] using rev_ind; [discriminate|]. rewrite app_length. cbn.
  replace (length l + 1 - 1) with (length l) by lia. rewrite nth_error_app2, Nat.sub_diag by lia. cbn. intros E. injection E as ->. eauto.
Qed.
Lemma pload_ok w v k f w' t' : pload w v k f = Some (w', t') -> exists g, preads w v k g /\ w' = w /\ t' = f g.
Proof.
  unfold pload. destruct (pget w v k) as [g|] eqn:E; [|discriminate]. intros H. injection H as <- <-. exists g. split; [now apply pget_ok|auto].
Qed.
Lemma pwin_ok w n tag f y : pwin w n tag f = Some y -> exists l g, s_msgs w = l ++ [g] /\ pm_ptr g = n /\ pm_tag g = tag /\ y = f g.
Proof.
  unfold pwin. destruct (ptop w) as [g|] eqn:E; [|discriminate]. destruct (ptop_ok w g E) as [l L].
  destruct (Nat.eqb_spec (pm_ptr g) n) as [E1|]; [|discriminate]. cbn. destruct (Bool.eqb _ _) eqn:E2; [|discriminate].
  apply Bool.eqb_prop in E2. intros H. injection H as <-. exists l, g. auto.
Qed.
Lemma plose_ok w v k n tag f y : plose w v k n tag f = Some y ->
  exists g, preads w v k g /\ (pm_ptr g, pm_tag g) <> (n, tag) /\ y = f g.
Proof.
  unfold plose. destruct (pget w v k) as [g|] eqn:E; [|discriminate]. destruct (_ && _) eqn:B; [discriminate|].
  intros H. injection H as <-. exists g. split; [now apply pget_ok|]. split; [|reflexivity].
  intros Q. injection Q as E1 E2. rewrite E1, E2, Nat.eqb_refl, Bool.eqb_reflx in B. discriminate.
Qed.
Lemma pobj_ok w t n f y : pobj w t n f = Some y ->
  (v_objs (p_cur t) n = true /\ exists a, nth_error (s_objs w) n = Some a /\ y = f a) \/ (v_objs (p_cur t) n = false /\ y = (w, pat t PRaced)).
Proof.
  unfold pobj. destruct (v_objs _ _); [|intros E; injection E as <-; right; auto].
  destruct (nth_error _ _); [|discriminate]. intros E. injection E as <-. left. eauto.
Qed.
Local Ltac loads := match goal with [ H : pload _ _ _ _ = _ |- _ ] =>
  apply pload_ok in H; destruct H as (g & R & -> & ->) end.
Local Ltac objs := match goal with [ H : pobj _ _ _ _ = _ |- _ ] =>
  apply pobj_ok in H; destruct H as [[? (? & ? & H)]|[? H]]; injection H as -> -> end.
Local Ltac wins := match goal with [ H : pwin _ _ _ _ = _ |- _ ] =>
  apply pwin_ok in H; destruct H as (l & g & ? & ? & ? & H); injection H as -> -> end.
Local Ltac loses := match goal with [ H : plose _ _ _ _ _ _ = _ |- _ ] =>
  apply plose_ok in H; destruct H as (g & ? & ? & H); injection H as -> -> end.

Lemma ptexec_ok o w t a w' t' : ptexec o w t a = Some (w', t') -> ptstep apply eqb o w t w' t'.
Proof.
  unfold ptexec. intros H. destruct a as [|p|k].
  - destruct (p_pc t) eqn:P; try discriminate. injection H as <- <-. now apply (pt_fence apply eqb o w t).
  - destruct (p_pc t) eqn:P; try discriminate. destruct p; try discriminate; injection H as <- <-; now apply pt_call.
  - destruct k as [|k]; destruct (p_pc t) eqn:P; try discriminate;
      first
      [ loads; solve [now apply pt_read0|now apply pt_tag0|now apply pt_upd0|now apply pt_set0|now apply pt_out0|eapply pt_out1_lost; eauto]
      | injection H as <- <-; solve [eapply pt_gave; eauto|eapply pt_tag_gave; eauto]
      | wins; solve [eapply pt_upd2_won; eauto|eapply pt_set2_won; eauto|eapply pt_out1_won; eauto]
      | loses; solve [eapply pt_upd2_lost; eauto|eapply pt_set2_lost; eauto]
      | objs; solve [eapply pt_read1; eauto|eapply pt_read1_race; eauto|eapply pt_upd1; eauto|eapply pt_upd1_race; eauto|eapply pt_upd3; eauto|eapply pt_upd3_race; eauto]
      | apply pobj_ok in H; destruct H as [[V (b & B & H)]|[V H]];
        [destruct (eqb b a) eqn:Q; injection H as -> ->; [eapply pt_set1_same; eauto|eapply pt_set1; eauto]
        |injection H as -> ->; eapply pt_set1_race; eauto] ].
Qed.

Definition pcexe (o : pords) (x : pconf A F) (e : pev) : option (pconf A F) :=
  match e with
  | PSpawn => Some (PConf (c_mem x) (c_ths x ++ [pthread0]))
  | PDoes i a => match nth_error (c_ths x) i with
    | Some t => match ptexec o (c_mem x) t a with Some (w', t') => Some (PConf w' (set_nth i t' (c_ths x))) | None => None end
    | None => None end
  | PSync i j => match nth_error (c_ths x) i, nth_error (c_ths x) j with
    | Some ti, Some tj => match p_pc ti, p_pc tj with PIdle, PIdle => Some (PConf (c_mem x) (set_nth j (psynced ti tj) (c_ths x))) | _, _ => None end
    | _, _ => None end
  end.
Fixpoint pcruns (o : pords) (x : pconf A F) (es : list pev) : option (pconf A F) :=
  match es with [] => Some x | e :: es => match pcexe o x e with Some y => pcruns o y es | None => None end end.
Definition pcrun (o : pords) (es : list pev) : option (pconf A F) := pcruns o (PConf (pmem0 a0) []) es.

Lemma pcruns_ok o es x y : pcreach apply eqb o a0 x -> pcruns o x es = Some y -> pcreach apply eqb o a0 y.
Proof.
  revert x. induction es as [|e es IH]; intros x R H; cbn in H; [injection H as <-; exact R|].
  destruct (pcexe o x e) as [z|] eqn:E; [|discriminate]. refine (IH z _ H). eapply pr_step; [exact R|]. destruct x as [w ts].
  destruct e as [|i a|i j]; cbn in E.
  - injection E as <-. apply pc_spawn.
  - destruct (nth_error ts i) as [t|] eqn:T; [|discriminate]. destruct (ptexec o w t a) as [[w' t']|] eqn:Q; [|discriminate].
    injection E as <-. eapply pc_thread; [exact T|]. now apply ptexec_ok with a.
  - destruct (nth_error ts i) as [ti|] eqn:Ti; [|discriminate]. destruct (nth_error ts j) as [tj|] eqn:Tj; [|discriminate].
    destruct (p_pc ti) eqn:Pi; try discriminate. destruct (p_pc tj) eqn:Pj; try discriminate. injection E as <-. now eapply pc_sync; eauto.
Qed.
Lemma pcrun_ok o es x : pcrun o es = Some x -> pcreach apply eqb o a0 x.
Proof. apply pcruns_ok. apply pr_start. Qed.
End Run.
