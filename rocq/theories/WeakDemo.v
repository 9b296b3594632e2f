(* Schedules for WeakOnce.v, and the races without the right orderings. *)
From Coq Require Import Arith NArith List Bool Lia.
From Verif Require Import Conc WeakOnce WeakRace.
Import ListNotations.

(* what a thread does next; AGo n reads the message of timestamp n, if it reads *)
Inductive wkact : Type := AFence | AGet (idx : N) | AInit (idx x : N) | AGo (n : nat).

Definition msg_at (w : wmem) (a : view) (l : loc) (n : nat) : option msg :=
  if Nat.leb (a l) n && Nat.leb 1 n then nth_error (w_msgs w l) (n - 1) else None.
Definition last_null (w : wmem) (l : loc) : option msg :=
  match rev (w_msgs w l) with g :: _ => match m_val g with Null => Some g | _ => None end | [] => None end.
Definition has (n : nat) (l : list nat) : bool := existsb (Nat.eqb n) l.

Definition texec (o : ords) (w : wmem) (t : thread) (a : wkact) : option (wmem * thread) :=
  match t_pc t, a with
  | Idle, AFence => Some (fence w t)
  | Idle, AGet idx => Some (fst (begin o w t), at_pc (snd (begin o w t)) (G0 idx))
  | Idle, AInit idx x =>
    if N.ltb idx (w_size w) then Some (fst (begin o w t), calls (snd (begin o w t)) idx x) else None
  | G0 idx, AGo n =>
    match msg_at w (t_cur t) LArr n with
    | Some g => Some (w, loaded (load_acq o) t LArr n g (match m_val g with Ptr b => G1 idx b | _ => Back idx None end))
    | None => None
    end
  | G1 idx b, AGo n =>
    if N.leb (w_size w) idx then Some (w, at_pc t (Back idx None))
    else if has b (w_freed_arrs w) then Some (w, at_pc t (Dangling idx))
    else if seen (t_cur t) (LCell b idx)
    then match msg_at w (t_cur t) (LCell b idx) n with
         | Some g => Some (w, loaded (load_acq o) t (LCell b idx) n g
                             (Back idx (match m_val g with Ptr v => Some (v, false) | _ => None end)))
         | None => None
         end
    else Some (w, at_pc t (Raced idx))
  | I0 idx x, AGo n =>
    match msg_at w (t_cur t) LArr n with
    | Some g =>
      match m_val g with
      | Ptr b => Some (w, loaded (load_acq o) t LArr n g (I2 idx x b))
      | Null => Some (new_arr w, with_cur (loaded (load_acq o) t LArr n g Idle) (know_arr (w_size w) (w_arrs w)) (I1 idx x (w_arrs w)))
      | _ => None
      end
    | None => None
    end
  | I1 idx x b, AGo n =>
    match last_null w LArr with
    | Some g => Some (swapped o w t LArr g b (I2 idx x b))
    | None =>
      match msg_at w (t_cur t) LArr n with
      | Some g => match m_val g with
                  | Ptr b' => Some (free_arr w b, loaded (fail_acq o) t LArr n g (I2 idx x b'))
                  | _ => None
                  end
      | None => None
      end
    end
  | I2 idx x b, AGo n =>
    if has b (w_freed_arrs w) then Some (w, at_pc t (Dangling idx))
    else if seen (t_cur t) (LCell b idx)
    then match msg_at w (t_cur t) (LCell b idx) n with
         | Some g =>
           match m_val g with
           | Ptr v => Some (w, loaded (load_acq o) t (LCell b idx) n g (Back idx (Some (v, false))))
           | Null => Some (new_val w x, with_cur (loaded (load_acq o) t (LCell b idx) n g Idle)
                              (fun a => know a (LVal (w_vals w)) 1) (I3 idx x b (w_vals w)))
           | _ => None
           end
         | None => None
         end
    else Some (w, at_pc t (Raced idx))
  | I3 idx x b v, AGo n =>
    match last_null w (LCell b idx) with
    | Some g => Some (fst (swapped o w t (LCell b idx) g v (Back idx (Some (v, true)))),
                      win (snd (swapped o w t (LCell b idx) g v (Back idx (Some (v, true))))) idx)
    | None =>
      match msg_at w (t_cur t) (LCell b idx) n with
      | Some g => match m_val g with
                  | Ptr v' => Some (free_val w v, loaded (fail_acq o) t (LCell b idx) n g (Back idx (Some (v', false))))
                  | _ => None
                  end
      | None => None
      end
    end
  | Back idx None, AGo _ => Some (w, at_pc t Idle)
  | Back idx (Some (v, us)), AGo n =>
    if has v (w_freed_vals w) then Some (w, at_pc t (Dangling idx))
    else if seen (t_cur t) (LVal v)
    then match msg_at w (t_cur t) (LVal v) n with
         | Some g => match m_val g with
                     | Bytes x => Some (w, Thread (t_cur t) (t_acq t) (t_rel t) Idle (Got idx v us x :: t_past t) (t_calls t) (t_wins t))
                     | _ => None
                     end
         | None => None
         end
    else Some (w, at_pc t (Raced idx))
  | _, _ => None
  end.

Lemma msg_at_ok w a l n g : msg_at w a l n = Some g -> reads w a l n g.
Proof.
  unfold msg_at, reads. destruct (_ && _) eqn:E; [|discriminate]. apply andb_true_iff in E.
  rewrite !Nat.leb_le in E. tauto.
Qed.
Lemma last_null_ok w l g : last_null w l = Some g -> exists ms, w_msgs w l = ms ++ [g] /\ m_val g = Null.
Proof.
  unfold last_null. destruct (rev (w_msgs w l)) as [|h ms] eqn:E; [discriminate|].
  destruct (m_val h) eqn:V; try discriminate. intros K. injection K as ->. exists (rev ms). split; [|exact V].
  rewrite <- (rev_involutive (w_msgs w l)), E. reflexivity.
Qed.
Lemma has_in n l : has n l = true <-> In n l.
Proof.
  unfold has. rewrite existsb_exists. split.
  - intros (m & I & E). apply Nat.eqb_eq in E. now subst.
  - intros I. exists n. split; [exact I|apply Nat.eqb_refl].
Qed.
Lemma has_not n l : has n l = false -> ~ In n l.
Proof. intros H I. apply has_in in I. now rewrite I in H. Qed.

Lemma texec_ok o w t a w' t' : texec o w t a = Some (w', t') -> tstep o w t w' t'.
Proof.
  unfold texec. intros H.
  destruct (t_pc t) as [|idx|idx b|idx x|idx x b|idx x b|idx x b v|idx [[v us]|]|idx|idx] eqn:P; destruct a as [|j|j y|n]; try discriminate.
  - injection H as <- <-. now apply ts_fence.
  - injection H as <- <-. now apply ts_get.
  - destruct (N.ltb_spec j (w_size w)); [|discriminate]. injection H as <- <-. now apply ts_init.
  - destruct (msg_at _ _ _ _) eqn:M; [|discriminate]. apply msg_at_ok in M. injection H as <- <-. now apply ts_g0.
  - destruct (N.leb_spec (w_size w) idx). { injection H as <- <-. eapply ts_g1_out; eauto. }
    destruct (has b (w_freed_arrs w)) eqn:F. { apply has_in in F. injection H as <- <-. eapply ts_g1_freed; eauto. }
    destruct (seen _ _) eqn:S. 2:{ injection H as <- <-. eapply ts_g1_race; eauto. }
    destruct (msg_at _ _ _ _) eqn:M; [|discriminate]. apply msg_at_ok in M. injection H as <- <-.
    apply ts_g1; auto. now apply has_not.
  - destruct (msg_at _ _ _ _) eqn:M; [|discriminate]. apply msg_at_ok in M.
    destruct (m_val m) eqn:V; [| |discriminate]; injection H as <- <-.
    + now apply ts_i0_new.
    + now apply ts_i0_found.
  - destruct (last_null w LArr) eqn:L.
    + apply last_null_ok in L. destruct L as (ms & E & V). injection H as <- <-. exact (ts_i1_won o w t idx x b m ms P E V).
    + destruct (msg_at _ _ _ _) eqn:M; [|discriminate]. apply msg_at_ok in M.
      destruct (m_val m) eqn:V; try discriminate. injection H as <- <-. now apply ts_i1_lost.
  - destruct (has b (w_freed_arrs w)) eqn:F. { apply has_in in F. injection H as <- <-. eapply ts_i2_freed; eauto. }
    destruct (seen _ _) eqn:S. 2:{ injection H as <- <-. eapply ts_i2_race; eauto. }
    destruct (msg_at _ _ _ _) eqn:M; [|discriminate]. apply msg_at_ok in M. apply has_not in F.
    destruct (m_val m) eqn:V; [| |discriminate]; injection H as <- <-.
    + now apply ts_i2_new.
    + eapply ts_i2_found; eauto.
  - destruct (last_null w (LCell b idx)) eqn:L.
    + apply last_null_ok in L. destruct L as (ms & E & V). injection H as <- <-. now apply ts_i3_won with (x := x) (l := ms).
    + destruct (msg_at _ _ _ _) eqn:M; [|discriminate]. apply msg_at_ok in M.
      destruct (m_val m) eqn:V; try discriminate. injection H as <- <-. eapply ts_i3_lost; eauto.
  - destruct (has v (w_freed_vals w)) eqn:F. { apply has_in in F. injection H as <- <-. eapply ts_use_freed; eauto. }
    destruct (seen _ _) eqn:S. 2:{ injection H as <- <-. eapply ts_use_race; eauto. }
    destruct (msg_at _ _ _ _) eqn:M; [|discriminate]. apply msg_at_ok in M. apply has_not in F.
    destruct (m_val m) eqn:V; try discriminate. injection H as <- <-. eapply ts_use; eauto.
  - injection H as <- <-. eapply ts_none; eauto.
Qed.

Inductive wkev : Type := Spawn | Does (i : nat) (a : wkact) | Sync (i j : nat).
Definition wkexec (o : ords) (x : wconf) (e : wkev) : option wconf :=
  match e with
  | Spawn => Some (WConf (k_mem x) (k_ths x ++ [thread0]))
  | Does i a =>
    match nth_error (k_ths x) i with
    | Some t => match texec o (k_mem x) t a with
                | Some (w', t') => Some (WConf w' (set_nth i t' (k_ths x)))
                | None => None
                end
    | None => None
    end
  | Sync i j =>
    match nth_error (k_ths x) i, nth_error (k_ths x) j with
    | Some ti, Some tj =>
      match t_pc ti, t_pc tj with
      | Idle, Idle => Some (WConf (k_mem x) (set_nth j (synced ti tj) (k_ths x)))
      | _, _ => None
      end
    | _, _ => None
    end
  end.
Fixpoint wkplay (o : ords) (x : wconf) (es : list wkev) : option wconf :=
  match es with
  | [] => Some x
  | e :: es' => match wkexec o x e with Some y => wkplay o y es' | None => None end
  end.
Definition wkrun (o : ords) (size : N) (es : list wkev) : option wconf := wkplay o (WConf (wmem0 size) []) es.

Lemma wkexec_ok o x e y : wkexec o x e = Some y -> wkstep o x y.
Proof.
  destruct x as [w ts], e as [|i a|i j]; cbn; intros H.
  - injection H as <-. apply wk_spawn.
  - destruct (nth_error ts i) eqn:E; [|discriminate]. destruct (texec o w t a) as [[w' t']|] eqn:T; [|discriminate].
    injection H as <-. apply texec_ok in T. now apply wk_thread with (t := t).
  - destruct (nth_error ts i) as [ti|] eqn:E; [|discriminate]. destruct (nth_error ts j) as [tj|] eqn:F; [|discriminate].
    destruct (t_pc ti) eqn:P; try discriminate. destruct (t_pc tj) eqn:Q; try discriminate. injection H as <-.
    now apply wk_sync with (i := i).
Qed.
Lemma wkplay_ok o size x es y : wkreach o size x -> wkplay o x es = Some y -> wkreach o size y.
Proof.
  revert x. induction es as [|e es IH]; cbn; intros x R H; [now injection H as <-|].
  destruct (wkexec o x e) eqn:E; [|discriminate]. apply wkexec_ok in E. eapply IH; [|exact H]. now apply wr_step with x.
Qed.
Lemma wkrun_ok o size es y : wkrun o size es = Some y -> wkreach o size y.
Proof. apply wkplay_ok, wr_start. Qed.

(* ---------- races ---------- *)

Definition gos (i : nat) (ns : list nat) : list wkev := map (fun n => Does i (AGo n)) ns.
(* one thread makes the array and a value, another reads the pointer to the array *)
Definition seen_early : list wkev :=
  [Spawn; Spawn; Does 0 (AInit 0 7)] ++ gos 0 [1; 1; 1; 1]%nat ++ [Does 1 (AGet 0)] ++ gos 1 [2; 1]%nat.
(* two threads make the array *)
Definition lost_early : list wkev :=
  [Spawn; Spawn; Does 0 (AInit 0 7); Does 1 (AInit 0 8)] ++ gos 0 [1]%nat ++ gos 1 [1]%nat ++ gos 0 [1]%nat ++ gos 1 [2; 1]%nat.

Definition racedb (o : option wconf) : bool :=
  match o with
  | Some x => existsb (fun t => match t_pc t with Raced _ => true | _ => false end) (k_ths x)
  | None => false
  end.
Lemma racedb_ok o size es : racedb (wkrun o size es) = true -> exists x, wkreach o size x /\ raced x.
Proof.
  unfold racedb. destruct (wkrun o size es) as [x|] eqn:E; [|discriminate]. apply wkrun_ok in E. intros H.
  apply existsb_exists in H. destruct H as (t & I & P). exists x. split; [exact E|].
  apply In_nth_error in I. destruct I as [i I]. destruct (t_pc t) eqn:Q; try discriminate.
  exists i, t, idx. split; assumption.
Qed.

Lemma weak_races o size : (0 < size)%N -> ~ strong o -> exists x, wkreach o size x /\ raced x.
Proof.
  intros P S. destruct size as [|p]; [lia|]. destruct o as [a b c d e].
  assert (R : racedb (wkrun (Ords a b c d e) (Npos p) seen_early) = true \/
              racedb (wkrun (Ords a b c d e) (Npos p) lost_early) = true).
  { destruct a, c; try (left; destruct b, d, e; vm_compute; reflexivity).
    destruct d. { exfalso. apply S. repeat split. }
    right. destruct b, e; vm_compute; reflexivity. }
  destruct R as [R|R]; apply racedb_ok in R; exact R.
Qed.

Lemma race_free_iff o size : (0 < size)%N ->
  (forall x, wkreach o size x -> ~ raced x) <-> load_acq o = true /\ succ_rel o = true /\ fail_acq o = true.
Proof.
  intros P. change (load_acq o = true /\ succ_rel o = true /\ fail_acq o = true) with (strong o).
  split; [|intros S x; now apply strong_no_race].
  intros H. assert (D : strong o \/ ~ strong o).
  { destruct o as [[] b [] [] e]; unfold strong; cbn; (left; tauto) || (right; intros (? & ? & ?); discriminate). }
  destruct D as [D|D]; [exact D|]. destruct (weak_races o size P D) as (x & R & E). exfalso. exact (H _ R E).
Qed.

Lemma code_races pin : ~ (forall size x, wkreach (code_ords pin) size x -> ~ raced x).
Proof. intros H. destruct (proj1 (race_free_iff (code_ords pin) 1 eq_refl) (H 1%N)) as [K _]. discriminate. Qed.
