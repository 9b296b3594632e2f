(* Concrete histories with flushes, and the claims that they refute.  Nothing
   here is part of the model. *)
From Coq Require Import Arith NArith List Bool Lia.
From Verif Require Import Word Af Maps Tree MultiMap PrefixCht Lsm RecordSet Rib StarCast HistSpec PropSpec
  Durable DurableSpec DurableFacts Examples.
Import ListNotations.
Local Open Scope N_scope.

Definition plain_io (io : flush_io) : bool := match io with FNone => false | _ => true end.
Fixpoint live (s : strategy) (es : list devent) : option dstate :=
  match es with
  | [] => match new_with_config s with Ok st => Some (D st [] []) | _ => None end
  | DCall o :: es' =>
    match live s es' with
    | Some d =>
      if wf_opb o then
        match exec (d_st d) o with Ok (st', _) => Some (D st' (d_v4 d) (d_v6 d)) | _ => None end
      else None
    | None => None
    end
  | DFlush io4 io6 :: es' =>
    match live s es' with
    | Some d => if plain_io io4 && plain_io io6 then Some (fst (flush io4 io6 d)) else None
    | None => None
    end
  end.
Lemma live_lives s es : forall d, live s es = Some d -> lives s es d.
Proof.
  induction es as [|e es IH]; intros d E; cbn [live] in E.
  - destruct (new_with_config s) as [st| |] eqn:N; try discriminate E. injection E as <-. apply li_new. exact N.
  - destruct e as [o|io4 io6]; cbn [live] in E.
    + destruct (live s es) as [d0|]; [|discriminate]. destruct (wf_opb o) eqn:W; [|discriminate].
      destruct (exec (d_st d0) o) as [[st' x]| |] eqn:X; try discriminate. injection E as <-.
      apply (li_call s es d0 o st' x); auto.
      assert (H : wf_history [o]) by (apply wf_history_b; simpl; now rewrite W).
      now inversion H.
    + destruct (live s es) as [d0|]; [|discriminate].
      destruct (plain_io io4 && plain_io io6) eqn:P; [|discriminate]. injection E as <-.
      apply andb_true_iff in P. destruct P as [P4 P6].
      constructor; [now apply IH| |]; [destruct io4|destruct io6]; try discriminate; exact I.
Qed.

Definition d_none : dstate := D (ran MemoryOnly []) [] [].
Definition lived (s : strategy) (es : list devent) : dstate :=
  match live s es with Some d => d | None => d_none end.
Lemma lived_lives s es : (match live s es with Some _ => true | None => false end) = true ->
  lives s es (lived s es).
Proof.
  intros E. unfold lived. apply live_lives. destruct (live s es) as [d|]; [reflexivity|discriminate].
Qed.
Ltac living := apply lived_lives; vm_compute; reflexivity.

Definition some8 : prefix := v4 10 0 0 0 8.
Definition some32 : prefix := v6 8193 3512 32.
Definition two_inserts : list devent :=
  [DCall (Insert some32 (act 2 1 [2]) None); DCall (Insert some8 (act 1 1 [1]) None)].

Lemma flush_lies :
  ~ (forall s es d io4 io6, lives s es d ->
     io_ok io4 (st_v4 (d_st d)) (d_v4 d) -> io_ok io6 (st_v6 (d_st d)) (d_v6 d) ->
     snd (flush io4 io6 d) = ROk tt ->
     forall p r, on_disk (d_st d) p r -> survives (fst (flush io4 io6 d)) p r).
Proof.
  intros H. specialize (H WriteAhead two_inserts (lived WriteAhead two_inserts) FErr FErr).
  assert (S : survives (fst (flush FErr FErr (lived WriteAhead two_inserts))) some8 (act 1 1 [1])).
  - apply H.
    + living.
    + exact I.
    + exact I.
    + vm_compute. reflexivity.
    + vm_compute. left. reflexivity.
  - vm_compute in S. exact S.
Qed.

Lemma insert_lost :
  ~ (forall es d p r u st' rep, lives WriteAhead es d -> wf_op (Insert p r u) ->
     exec (d_st d) (Insert p r u) = Ok (st', OReport (ROk rep)) ->
     survives (D st' (d_v4 d) (d_v6 d)) p r).
Proof.
  intros H.
  destruct (exec (d_st (lived WriteAhead [])) (Insert some8 (act 1 1 [1]) None)) as [[st' x]| |] eqn:E;
    [|vm_compute in E; discriminate|vm_compute in E; discriminate].
  assert (X : x = OReport (ROk (Report 0 true true 1))).
  { vm_compute in E. injection E as _ <-. reflexivity. }
  subst x. assert (W : wf_history [Insert some8 (act 1 1 [1]) None])
    by (apply wf_history_b; vm_compute; reflexivity).
  assert (Li : lives WriteAhead [] (lived WriteAhead [])) by living.
  pose proof (H _ _ _ _ _ _ _ Li (Forall_inv W) E) as S. vm_compute in S. exact S.
Qed.

(* what one process left behind *)
Definition left_behind : filesys :=
  let d := lived WriteAhead (DFlush (FSome true true) (FSome true true) :: two_inserts) in
  [(([97], IPv4), d_v4 d); (([97], IPv6), d_v6 d)].

Lemma next_process_starts_empty :
  ~ (forall s fs u1 u2 st p r, open s fs u2 = Ok st ->
     In (Some (p, r)) (records_in (fst p) (dir fs (u1, fst p))) -> on_disk st p r).
Proof.
  intros H. destruct (open WriteAhead left_behind [98]) as [st| |] eqn:E;
    [|vm_compute in E; discriminate|vm_compute in E; discriminate].
  apply (open_stale WriteAhead left_behind [98] st some8 (act 1 1 [1]) E).
  - intros f. destruct f; vm_compute; reflexivity.
  - apply (H WriteAhead left_behind [97] [98] st); [exact E|]. vm_compute. left. reflexivity.
Qed.
