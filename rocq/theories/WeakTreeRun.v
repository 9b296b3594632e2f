(* The steps of WeakTree.v as a program, for the examples. *)
From Coq Require Import Arith NArith List Bool Lia.
From Verif Require Import Word Af BitSpan Maps ChtMath Cht Node Tree TreeProofs
  Conc ConcMarks ConcTree ConcTreeProofs WeakTree WeakTreeFacts.
Import ListNotations.
Local Open Scope N_scope.

Definition is_some {A} (o : option A) : bool := match o with Some _ => true | None => false end.
Definition in_reachb (v : heap nodeval) (k : key) : bool :=
  match rev (snd k) with
  | _ :: (a :: r) => is_some (lookup ((fst k, rev (a :: r)) : key) v)
  | _ => true
  end.
Definition bits_inb (a b : N) : bool := N.land a b =? a.
Definition nleb (a b : nodeval) : bool :=
  bits_inb (nv_ptr a) (nv_ptr b) && bits_inb (nv_pfx a) (nv_pfx b) && forallb (fun m => mem m (nv_rbm b)) (nv_rbm a).
Definition same_slotb (f : af) (id : pid) (m v : heap nodeval) (w : walk) : bool :=
  match hash_id f id (w_level w) with
  | Ok index => Bool.eqb (is_some (lookup (wkey w index) v)) (is_some (lookup (wkey w index) m))
  | _ => true
  end.
Definition same_arrb (isptr : bool) (m v : heap nodeval) (k : key) (cur : N) : bool :=
  match deref k v, deref k m with
  | Ok x, Ok y => Bool.eqb (get_arr isptr x =? cur) (get_arr isptr y =? cur)
  | _, _ => true
  end.
Definition agreesb (f : af) (p : pid) (m v : tree) (pc : tpc) : bool :=
  match pc with
  | TStart => negb (p_len p =? 0) || Bool.eqb (t_default v) (t_default m)
  | TDefault _ (RInit w) => same_slotb f root_node_id (t_heap m) (t_heap v) w
  | TNode fr (RInit w) => same_slotb f (fr_cur fr) (t_heap m) (t_heap v) w
  | TStore fr _ _ (SInit w) =>
    match new_id f p fr with Ok id => same_slotb f id (t_heap m) (t_heap v) w | _ => true end
  | TCasPtr _ k cur _ => same_arrb true (t_heap m) (t_heap v) k cur
  | TCasPfx _ k cur _ => same_arrb false (t_heap m) (t_heap v) k cur
  | _ => true
  end.

Inductive uev : Type :=
| USpawn
| UIns (i : nat) (p : pid) (mui : N)
| UHas (i : nat) (p : pid)
| ULearn (i : nat) (k : key)     (* all of one node *)
| UDefault (i : nat)
| UStep (i : nat)                (* nothing, when the call has returned *)
| URet (i : nat)
| UTold (i j : nat).

Definition with_th (x : wtconf) (i : nat) (g : wthread -> option (tree * list pid * wthread)) : option wtconf :=
  match nth_error (wc_ths x) i with
  | Some t =>
    match g t with
    | Some (m, c, t') => Some (WTConf m (wc_called x ++ c) (set_nth i t' (wc_ths x)))
    | None => None
    end
  | None => None
  end.

Definition uplay1 (f : af) (ov : bool) (t0 : tree) (x : wtconf) (e : uev) : option wtconf :=
  let m := wc_mem x in
  match e with
  | USpawn => Some (WTConf m (wc_called x) (wc_ths x ++ [WThread t0 WIdle [] [] 0]))
  | UIns i p mui => with_th x i (fun t =>
      match wt_call t with
      | WIdle => if wf_pidb f p then Some (m, [p], WThread (wt_view t) (WIns p mui TStart) (wt_past t) (wt_news t) 0) else None
      | _ => None
      end)
  | UHas i p => with_th x i (fun t =>
      match wt_call t with
      | WIdle => if wf_pidb f p then Some (m, [], WThread (wt_view t) (WHas p XStart) (wt_past t) (wt_news t) 0) else None
      | _ => None
      end)
  | ULearn i k => with_th x i (fun t =>
      match lookup k (t_heap m) with
      | Some e =>
        if in_reachb (t_heap (wt_view t)) k &&
           match lookup k (t_heap (wt_view t)) with Some e0 => nleb (e_val e0) (e_val e) | None => true end
        then Some (m, [], WThread (set_heap (wt_view t) (update k (Entry (e_id e) (e_val e) (e_slots e)) (t_heap (wt_view t))))
                            (wt_call t) (wt_past t) (wt_news t) (wt_steps t))
        else None
      | None => None
      end)
  | UDefault i => with_th x i (fun t =>
      if t_default m
      then Some (m, [], WThread (Tree (t_heap (wt_view t)) (t_withdrawn (wt_view t)) (t_nodes (wt_view t)) true)
                          (wt_call t) (wt_past t) (wt_news t) (wt_steps t))
      else None)
  | UStep i =>
    match option_map wt_call (nth_error (wc_ths x) i) with
    | Some (WIns _ _ (TDone _)) | Some (WIns _ _ TPanic) | Some (WHas _ (XDone _)) | Some (WHas _ XPanic) => Some x
    | _ => with_th x i (fun t =>
      match wt_call t with
      | WIns p mui pc =>
        if agreesb f p m (wt_view t) pc
        then Some (fst (tnext f ov p mui m pc), [],
               at_call t (fst (tnext f ov p mui (wt_view t) pc)) (WIns p mui (snd (tnext f ov p mui (wt_view t) pc))))
        else None
      | WHas p pc => Some (m, [], at_call t (wt_view t)
          (WHas p match xstep f p (t_heap (wt_view t)) pc with Ok pc' => pc' | _ => XPanic end))
      | WIdle => None
      end)
    end
  | URet i => with_th x i (fun t =>
      match wt_call t with
      | WIns p mui (TDone (ROk (rc, existed))) =>
        Some (m, [], WThread (wt_view t) WIdle (p :: wt_past t) (if existed then wt_news t else p :: wt_news t) 0)
      | WHas p (XDone b) => Some (m, [], WThread (wt_view t) WIdle (wt_past t) (wt_news t) 0)
      | _ => None
      end)
  | UTold i j =>
    match nth_error (wc_ths x) i, nth_error (wc_ths x) j with
    | Some ti, Some tj =>
      match wt_call ti, wt_call tj with
      | WIdle, WIdle => Some (WTConf m (wc_called x) (set_nth j (told ti tj) (wc_ths x)))
      | _, _ => None
      end
    | _, _ => None
    end
  end.

Fixpoint uplay (f : af) (ov : bool) (t0 : tree) (x : wtconf) (es : list uev) : option wtconf :=
  match es with
  | [] => Some x
  | e :: es' => match uplay1 f ov t0 x e with Some y => uplay f ov t0 y es' | None => None end
  end.
Definition ustart (f : af) : tree := match tree_new f with Ok t => t | _ => Tree [] [] 0 false end.
Definition urun (f : af) (ov : bool) (es : list uev) : option wtconf :=
  uplay f ov (ustart f) (WTConf (ustart f) [] []) es.
Definition usteps (i n : nat) : list uev := repeat (UStep i) n.

Lemma in_reachb_ok v k : in_reachb v k = true -> in_reach v k.
Proof.
  intros H path i E N. unfold in_reachb in H. rewrite E, rev_unit in H.
  destruct path as [|a path]; [now elim N|].
  destruct (rev (a :: path)) as [|b r] eqn:R.
  - apply (f_equal (fun l => length l)) in R. rewrite rev_length in R. discriminate.
  - rewrite <- R, rev_involutive in H. now destruct (lookup ((fst k, a :: path) : key) v).
Qed.
Lemma bits_inb_ok a b : bits_inb a b = true -> bits_in a b.
Proof.
  unfold bits_inb. intros H i T. apply N.eqb_eq in H. rewrite <- H, N.land_spec in T. now apply andb_true_iff in T.
Qed.
Lemma nleb_ok a b : nleb a b = true -> nle a b.
Proof.
  unfold nleb. rewrite !andb_true_iff. intros [[A B] C]. split; [now apply bits_inb_ok|]. split; [now apply bits_inb_ok|].
  rewrite forallb_forall in C. intros m M. apply C. now apply mem_In.
Qed.
Lemma same_slotb_ok f id m v w : same_slotb f id m v w = true -> same_slot f id m v w.
Proof.
  unfold same_slotb, same_slot. intros H ix E. rewrite E in H. apply eqb_prop in H.
  destruct (lookup (wkey w ix) v), (lookup (wkey w ix) m); try discriminate H; split; easy.
Qed.
Lemma same_arrb_ok isptr m v k cur : same_arrb isptr m v k cur = true -> same_arr isptr m v k cur.
Proof.
  unfold same_arrb, same_arr. intros H x y E1 E2. rewrite E1, E2 in H. apply eqb_prop in H.
  destruct (N.eqb_spec (get_arr isptr x) cur), (N.eqb_spec (get_arr isptr y) cur); try discriminate H; split; easy.
Qed.
Lemma agreesb_ok f p m v pc : agreesb f p m v pc = true -> agrees f p m v pc.
Proof.
  destruct pc as [|ex r|fr r|fr k|fr k ptr|fr k ptr|fr k cur rc|fr k cur rc|fr rc
    |fr rc nn s0|r|]; simpl; auto using same_arrb_ok.
  - intros H L. rewrite L in H. simpl in H. now apply eqb_prop.
  - destruct r; auto using same_slotb_ok.
  - destruct r; auto using same_slotb_ok.
  - destruct s0; auto. intros H id E. rewrite E in H. now apply same_slotb_ok.
Qed.

Lemma with_th_ok f ov t0 x i g y : with_th x i g = Some y ->
  (forall t m c t', g t = Some (m, c, t') -> wtstep f ov (wc_mem x) t m c t') -> wtcstep f ov t0 x y.
Proof.
  unfold with_th. destruct (nth_error (wc_ths x) i) as [t|] eqn:E; [|discriminate].
  destruct (g t) as [[[m c] t']|] eqn:G; [|discriminate]. intros H S. injection H as <-. destruct x as [m0 c0 ts].
  eapply wc_thread; eauto.
Qed.

Lemma uplay1_ok f ov t0 x e y : tree_new f = Ok t0 -> uplay1 f ov t0 x e = Some y -> wtexec f ov x y.
Proof.
  intros T0 H.
  assert (ONE : wtcstep f ov t0 x y -> wtexec f ov x y) by (intros S; eapply we_step; [constructor|exact T0|exact S]).
  destruct e as [|i p mui|i p|i k|i|i|i|i j]; cbn [uplay1] in H.
  - injection H as <-. apply ONE. destruct x. constructor.
  - apply ONE. apply (with_th_ok _ _ _ _ _ _ _ H). intros t m c t'. destruct (wt_call t) eqn:C; try discriminate.
    destruct (wf_pidb f p) eqn:W; [|discriminate]. intros Q. injection Q as <- <- <-. apply wf_pidb_spec in W. now constructor.
  - apply ONE. apply (with_th_ok _ _ _ _ _ _ _ H). intros t m c t'. destruct (wt_call t) eqn:C; try discriminate.
    destruct (wf_pidb f p) eqn:W; [|discriminate]. intros Q. injection Q as <- <- <-. apply wf_pidb_spec in W. now constructor.
  - apply ONE. apply (with_th_ok _ _ _ _ _ _ _ H). intros t m c t'.
    destruct (lookup k (t_heap (wc_mem x))) as [e|] eqn:L; [|discriminate].
    destruct (in_reachb _ _ && _) eqn:B; [|discriminate]. apply andb_true_iff in B. destruct B as [B1 B2].
    intros Q. injection Q as <- <- <-. apply wt_learn. eapply ln_node; eauto using nle_refl, in_reachb_ok.
    intros e0 L0. rewrite L0 in B2. now apply nleb_ok.
  - apply ONE. apply (with_th_ok _ _ _ _ _ _ _ H). intros t m c t'.
    destruct (t_default (wc_mem x)) eqn:D; [|discriminate].
    intros Q. injection Q as <- <- <-. apply wt_learn. now constructor.
  - destruct (option_map wt_call (nth_error (wc_ths x) i)) as [wc|] eqn:O; unfold option_map in O;
      destruct (nth_error (wc_ths x) i) as [t1|] eqn:N1; try discriminate O.
    + injection O as O.
      assert (E : (match wc with WIns _ _ (TDone _) | WIns _ _ TPanic | WHas _ (XDone _) | WHas _ XPanic => True | _ => False end
                   /\ x = y) \/
        (match wc with WIns _ _ (TDone _) | WIns _ _ TPanic | WHas _ (XDone _) | WHas _ XPanic => False | _ => True end /\
        with_th x i (fun t =>
      match wt_call t with
      | WIns p mui pc =>
        if agreesb f p (wc_mem x) (wt_view t) pc
        then Some (fst (tnext f ov p mui (wc_mem x) pc), [],
               at_call t (fst (tnext f ov p mui (wt_view t) pc)) (WIns p mui (snd (tnext f ov p mui (wt_view t) pc))))
        else None
      | WHas p pc => Some (wc_mem x, [], at_call t (wt_view t)
          (WHas p match xstep f p (t_heap (wt_view t)) pc with Ok pc' => pc' | _ => XPanic end))
      | WIdle => None
      end) = Some y)).
      { destruct wc as [|q mu pc|q pc]; [now right| |]; destruct pc; (now right) || (left; now injection H). }
      clear H. destruct E as [[_ ->]|[NF H]]; [constructor|]. apply ONE.
      unfold with_th in H. rewrite N1 in H. rewrite O in H. destruct x as [m0 c0 ts]. cbn [wc_mem wc_ths wc_called] in *.
      destruct wc as [|q mu pc|q pc]; [discriminate| |].
      * destruct (agreesb _ _ _ _ _) eqn:A; [|discriminate]. injection H as <-.
        eapply wc_thread; [exact N1|]. apply wt_ins; auto; [|now apply agreesb_ok]. intros Z. now destruct pc.
      * injection H as <-. eapply wc_thread; [exact N1|]. apply wt_has; [exact O|now destruct pc].
    + unfold with_th in H. rewrite N1 in H. discriminate.
  - apply ONE. apply (with_th_ok _ _ _ _ _ _ _ H). intros t m c t'.
    destruct (wt_call t) as [|q mu pc|q pc] eqn:C; try discriminate.
    + destruct pc; try discriminate. destruct r as [[rc ex]|]; [|discriminate].
      intros Q. injection Q as <- <- <-. eapply wt_inserted; eauto.
    + destruct pc; try discriminate. intros Q. injection Q as <- <- <-. eapply wt_told; eauto.
  - destruct (nth_error (wc_ths x) i) as [ti|] eqn:Ni; [|discriminate].
    destruct (nth_error (wc_ths x) j) as [tj|] eqn:Nj; [|discriminate].
    destruct (wt_call ti) eqn:Ci; try discriminate. destruct (wt_call tj) eqn:Cj; try discriminate.
    injection H as <-. apply ONE. destruct x. eapply wc_told; eauto.
Qed.

Lemma uplay_ok f ov t0 es : tree_new f = Ok t0 -> forall x y, uplay f ov t0 x es = Some y -> wtexec f ov x y.
Proof.
  intros T0. induction es as [|e es IH]; intros x y H; simpl in H.
  - injection H as <-. constructor.
  - destruct (uplay1 f ov t0 x e) as [z|] eqn:P; [|discriminate].
    eapply wtexec_trans; [eapply uplay1_ok; eauto|]. now apply IH.
Qed.

Lemma urun_ok f ov es x : urun f ov es = Some x -> wtreach f ov x.
Proof.
  intros H. unfold urun in H. destruct (tree_new_ok f) as (t0 & E & _).
  assert (U : ustart f = t0) by (unfold ustart; now rewrite E). rewrite U in H.
  eapply wtexec_reach; [eapply wr_start; eauto|]. eapply uplay_ok; eauto.
Qed.
Lemma urun_app f ov es es' x : urun f ov es = Some x -> urun f ov (es ++ es') = uplay f ov (ustart f) x es'.
Proof.
  unfold urun. generalize (WTConf (ustart f) [] []). induction es as [|e es IH]; intros z H; simpl in *.
  - now injection H as ->.
  - destruct (uplay1 _ _ _ _ _); [|discriminate]. now apply IH.
Qed.
