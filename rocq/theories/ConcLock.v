(* The locks of the record maps, prefix_cht/cht.rs:36-79, when the code of the user
   that runs under them, Meta::as_orderable and the comparison and the clone of the metadata,
   may panic or call the store again.

   std's Mutex: a guard that is dropped by a panic leaves it poisoned; lock() and
   try_lock() then give an Err for ever after.  acquire_write_lock (45-64) and
   acquire_read_guard (66-79) go round their loops on an Err of any kind. *)
From Coq Require Import Arith NArith List Bool Lia.
From Verif Require Import Conc.
Import ListNotations.

(* of one prefix: who holds the lock, and whether it is poisoned *)
Record lock : Type := Lock { l_held : option nat; l_poisoned : bool }.
Definition locks : Type := N -> lock.
Definition set_lock (s : locks) (k : N) (l : lock) : locks := fun k' => if N.eqb k' k then l else s k'.

(* which calls there are: upsert_record 256-277, mark_as_withdrawn_for_mui and mark_as_active_for_mui 234-248, the readers 85-231, best_backup 101-110 *)
Inductive lkind : Type := LUpsert | LMarkRecord | LReadRecords | LBestBackup.
(* how the user's code does: it returns, it panics, or it reads the same prefix *)
Inductive manner : Type := Returns | Panics | Reenters.
Record lcall : Type := LCall { lc_key : N; lc_kind : lkind; lc_user : manner }.
(* what happens under the lock: the first two kinds run no code of the user *)
Definition under_lock (c : lcall) : manner :=
  match lc_kind c with LUpsert | LMarkRecord => Returns | LReadRecords | LBestBackup => lc_user c end.

Inductive lpc : Type :=
| LWait      (* in the loop of acquire_write_lock or acquire_read_guard *)
| LIn        (* with the guard *)
| LInWait    (* with the guard, in the loop of acquire_read_guard once more *)
| LDone
| LUnwound.  (* the panic went on to the caller *)

(* 57 and 72: lock() waits while another thread has the lock, and then gives an Err
   if it is poisoned; try_lock() gives an Err in both cases *)
Definition lstep (i : nat) (s : locks) (c : lcall) (p : lpc) : option (locks * lpc) :=
  let k := lc_key c in
  match p with
  | LWait =>
    match l_held (s k), l_poisoned (s k) with
    | None, false => Some (set_lock s k (Lock (Some i) false), LIn)
    | _, _ => Some (s, LWait)
    end
  | LIn =>
    match under_lock c with
    | Returns => Some (set_lock s k (Lock None (l_poisoned (s k))), LDone)
    | Panics => Some (set_lock s k (Lock None true), LUnwound)
    | Reenters => Some (s, LInWait)
    end
  | LInWait => Some (s, LInWait) (* the lock is held, by the thread itself *)
  | LDone | LUnwound => None
  end.
Definition lexec := exec (St := locks) (fun _ => LWait) (fun _ => True) lstep.
Definition lconf0 : conf locks lcall lpc := Conf (fun _ => Lock None false) [].

Definition has_returned (x : conf locks lcall lpc) (i : nat) : Prop := exists c, nth_error (ths x) i = Some (c, LDone).
Definition over (x : conf locks lcall lpc) (i : nat) : Prop :=
  exists c p, nth_error (ths x) i = Some (c, p) /\ (p = LDone \/ p = LUnwound).

(* ---------- the invariant ---------- *)

Definition inside (p : lpc) : bool := match p with LIn | LInWait => true | _ => false end.
Record linv (x : conf locks lcall lpc) : Prop := {
  li_held : forall i c p, nth_error (ths x) i = Some (c, p) -> inside p = true -> l_held (sh x (lc_key c)) = Some i;
  li_owner : forall k i, l_held (sh x k) = Some i -> exists c p, nth_error (ths x) i = Some (c, p) /\ lc_key c = k /\ inside p = true;
  li_poison : forall k, l_poisoned (sh x k) = true -> l_held (sh x k) = None /\
    exists i c, nth_error (ths x) i = Some (c, LUnwound) /\ lc_key c = k /\ under_lock c = Panics;
  li_again : forall i c, nth_error (ths x) i = Some (c, LInWait) -> under_lock c = Reenters
}.

Lemma set_lock_same s k l : set_lock s k l k = l.
Proof. unfold set_lock. now rewrite N.eqb_refl. Qed.
Lemma set_lock_other s k l k' : k' <> k -> set_lock s k l k' = s k'.
Proof. intros H. unfold set_lock. apply N.eqb_neq in H. now rewrite H. Qed.

Lemma nth_app_cases {A} (l : list A) y j z : nth_error (l ++ [y]) j = Some z -> nth_error l j = Some z \/ (j = length l /\ z = y).
Proof.
  intros E. destruct (Nat.lt_trichotomy j (length l)) as [L|[->|L]].
  - left. now rewrite nth_error_app1 in E.
  - right. rewrite nth_error_app2, Nat.sub_diag in E by lia. cbn in E. split; congruence.
  - rewrite nth_error_app2 in E by lia. destruct (j - length l) as [|n] eqn:Q; [lia|]. destruct n; discriminate.
Qed.
Lemma nth_set_case {A} i (x : A) l j y : nth_error (set_nth i x l) j = Some y -> i < length l ->
  (i = j /\ y = x) \/ (i <> j /\ nth_error l j = Some y).
Proof.
  intros H L. rewrite nth_set_nth in H by exact L. destruct (Nat.eqb_spec i j); [left|right]; split; auto. congruence.
Qed.
Lemma nth_set_at {A} i (x y : A) l : nth_error l i = Some y -> nth_error (set_nth i x l) i = Some x.
Proof. intros E. rewrite nth_set_nth, Nat.eqb_refl; [reflexivity|eapply nth_some_lt; eauto]. Qed.
Lemma nth_set_off {A} i (x : A) l j y : nth_error l j = Some y -> i <> j -> i < length l -> nth_error (set_nth i x l) j = Some y.
Proof. intros E D L. rewrite nth_set_nth by exact L. apply Nat.eqb_neq in D. now rewrite D. Qed.

Lemma linv_cstep x y : cstep (fun _ => LWait) (fun _ => True) lstep x y -> linv x -> linv y.
Proof.
  intros H [A B P G]. destruct H as [s ts c _|s ts i c p s' p' E S]; cbn in *.
  - constructor; cbn.
    + intros i c0 p0 E. apply nth_app_cases in E. destruct E as [E|[-> E]]; [eauto|]. injection E as -> ->. discriminate.
    + intros k i E. destruct (B k i E) as (c0 & p0 & F & R). exists c0, p0. split; [|exact R].
      rewrite nth_error_app1; [exact F|eapply nth_some_lt; eauto].
    + intros k E. destruct (P k E) as (H1 & i & c0 & F & R). split; [exact H1|]. exists i, c0. split; [|exact R].
      rewrite nth_error_app1; [exact F|eapply nth_some_lt; eauto].
    + intros i c0 E. apply nth_app_cases in E. destruct E as [E|[-> E]]; [eauto|discriminate].
  - assert (L : i < length ts) by (eapply nth_some_lt; eauto).
    assert (Same : s' = s -> p' = p \/ (p = LIn /\ p' = LInWait /\ under_lock c = Reenters) -> linv (Conf s' (set_nth i (c, p') ts))).
    { intros -> Q. assert (IP : inside p' = inside p) by (destruct Q as [->|(-> & -> & _)]; reflexivity).
      constructor; cbn.
      - intros j c0 p0 F. apply nth_set_case in F; [|exact L]. destruct F as [[<- F]|[D F]]; [|eauto].
        injection F as -> ->. rewrite IP. eauto.
      - intros k j F. destruct (B k j F) as (c0 & p0 & F0 & F1 & F2). destruct (Nat.eq_dec i j) as [->|D].
        + rewrite E in F0. injection F0 as -> ->. exists c0, p'. split; [eapply nth_set_at; eauto|]. split; [exact F1|congruence].
        + exists c0, p0. split; [now apply nth_set_off|auto].
      - intros k F. destruct (P k F) as (H1 & j & c0 & F0 & F1 & F2). split; [exact H1|]. destruct (Nat.eq_dec i j) as [->|D].
        + rewrite E in F0. injection F0 as -> ->. destruct Q as [->|(X & _)]; [|discriminate].
          exists j, c0. split; [eapply nth_set_at; eauto|auto].
        + exists j, c0. split; [now apply nth_set_off|auto].
      - intros j c0 F. apply nth_set_case in F; [|exact L]. destruct F as [[<- F]|[D F]]; [|eauto].
        injection F as -> F2. destruct Q as [Q|(_ & _ & X)]; [|exact X]. apply (G i). congruence. }
    unfold lstep in S. destruct p; try discriminate.
    + destruct (l_held (s (lc_key c))) as [h|] eqn:HE; [injection S as <- <-; now apply Same; auto|].
      destruct (l_poisoned (s (lc_key c))) eqn:PE; [injection S as <- <-; now apply Same; auto|].
      injection S as <- <-. constructor; cbn.
      * intros j c0 p0 F I. apply nth_set_case in F; [|exact L]. destruct F as [[<- F]|[D F]].
        -- injection F as -> ->. now rewrite set_lock_same.
        -- assert (K := A j c0 p0 F I). rewrite set_lock_other; [exact K|]. congruence.
      * intros k j F. destruct (N.eq_dec k (lc_key c)) as [->|D].
        -- rewrite set_lock_same in F. cbn in F. injection F as <-. exists c, LIn. split; [eapply nth_set_at; eauto|auto].
        -- rewrite set_lock_other in F by exact D. destruct (B k j F) as (c0 & p0 & F0 & F1 & F2).
           exists c0, p0. split; [|auto]. apply nth_set_off; auto. intros ->. rewrite E in F0. injection F0 as <- <-. discriminate || congruence.
      * intros k F. destruct (N.eq_dec k (lc_key c)) as [->|D].
        -- rewrite set_lock_same in F. discriminate.
        -- rewrite set_lock_other in * by exact D. destruct (P k F) as (H1 & j & c0 & F0 & F1 & F2). split; [exact H1|].
           exists j, c0. split; [|auto]. apply nth_set_off; auto. intros ->. rewrite E in F0. discriminate.
      * intros j c0 F. apply nth_set_case in F; [|exact L]. destruct F as [[<- F]|[D F]]; [discriminate|eauto].
    + assert (HK := A i c LIn E eq_refl).
      assert (NP : l_poisoned (s (lc_key c)) = false).
      { destruct (l_poisoned (s (lc_key c))) eqn:Q; [|reflexivity]. destruct (P _ Q) as [X _]. congruence. }
      assert (Out : forall b p2, inside p2 = false -> p2 <> LInWait -> (b = true -> p2 = LUnwound /\ under_lock c = Panics) ->
        linv (Conf (set_lock s (lc_key c) (Lock None b)) (set_nth i (c, p2) ts))).
      { intros b p2 I2 I3 Q. constructor; cbn.
        - intros j c0 p0 F I. apply nth_set_case in F; [|exact L]. destruct F as [[<- F]|[D F]]; [injection F as -> ->; congruence|].
          assert (K := A j c0 p0 F I). rewrite set_lock_other; [exact K|]. congruence.
        - intros k j F. destruct (N.eq_dec k (lc_key c)) as [->|D]; [rewrite set_lock_same in F; discriminate|].
          rewrite set_lock_other in F by exact D. destruct (B k j F) as (c0 & p0 & F0 & F1 & F2).
          exists c0, p0. split; [|auto]. apply nth_set_off; auto. intros ->. rewrite E in F0. injection F0 as <- <-. discriminate || congruence.
        - intros k F. destruct (N.eq_dec k (lc_key c)) as [->|D].
          + rewrite set_lock_same in *. cbn in F. subst. destruct (Q eq_refl) as [-> QQ]. split; [reflexivity|].
            exists i, c. split; [eapply nth_set_at; eauto|auto].
          + rewrite set_lock_other in * by exact D. destruct (P k F) as (H1 & j & c0 & F0 & F1 & F2). split; [exact H1|].
            exists j, c0. split; [|auto]. apply nth_set_off; auto. intros ->. rewrite E in F0. discriminate.
        - intros j c0 F. apply nth_set_case in F; [|exact L]. destruct F as [[<- F]|[D F]]; [|eauto].
          injection F as _ F2. congruence. }
      destruct (under_lock c) eqn:U; injection S as <- <-.
      * rewrite NP. apply Out; easy.
      * apply Out; easy.
      * apply Same; auto.
    + injection S as <- <-. apply Same; auto.
Qed.
Lemma linv_exec x : lexec lconf0 x -> linv x.
Proof.
  intros E. unfold lexec in E. revert E. apply exec_ind_l.
  - constructor; cbn; try discriminate; intros [|i]; discriminate.
  - intros y z _ I S. eapply linv_cstep; eauto.
Qed.

(* ---------- results ---------- *)

Lemma lock_exclusion x i j ci cj pi pj : lexec lconf0 x -> nth_error (ths x) i = Some (ci, pi) -> nth_error (ths x) j = Some (cj, pj) ->
  inside pi = true -> inside pj = true -> lc_key ci = lc_key cj -> i = j.
Proof.
  intros E Ei Ej Ii Ij K. apply linv_exec in E. assert (A := li_held x E i ci pi Ei Ii). assert (B := li_held x E j cj pj Ej Ij).
  rewrite K in A. congruence.
Qed.

(* a lock that nobody will ever have again *)
Definition lost (s : locks) (ts : list (lcall * lpc)) (k : N) : Prop :=
  l_poisoned (s k) = true \/ exists i c, nth_error ts i = Some (c, LInWait) /\ lc_key c = k.
Lemma lost_stuck x y k : lexec lconf0 x -> lost (sh x) (ths x) k -> lexec x y ->
  lost (sh y) (ths y) k /\ forall i c p, nth_error (ths y) i = Some (c, p) -> lc_key c = k -> (p = LDone \/ p = LUnwound) ->
    nth_error (ths x) i = Some (c, p).
Proof.
  intros X LO E. induction E as [|x y z E IH S].
  - auto.
  - destruct (IH X LO) as [LY IY]. clear IH.
    assert (I : linv y) by (apply linv_exec; eapply exec_trans; [exact X|exact E]).
    destruct S as [s ts c _|s ts i c p s' p' F S]; cbn [sh ths] in *.
    + split.
      * destruct LY as [LY|(j & c0 & LY & K)]; [now left|]. right. exists j, c0. split; [|exact K].
        rewrite nth_error_app1; [exact LY|eapply nth_some_lt; eauto].
      * intros j c0 p0 G K Q. apply nth_app_cases in G. destruct G as [G|[-> G]]; [eauto|].
        injection G as -> ->. destruct Q; discriminate.
    + assert (L : i < length ts) by (eapply nth_some_lt; eauto).
      (* no call on k steps out of or into the lock *)
      assert (NO : lc_key c = k -> s' = s /\ p' = p).
      { intros K. destruct LY as [LY|(j & c0 & LY & K0)].
        - destruct (li_poison _ I k LY) as [HN _]. cbn in HN. unfold lstep in S. rewrite K in S. destruct p; try discriminate.
          + rewrite HN, LY in S. injection S as <- <-. auto.
          + assert (X1 := li_held _ I i c LIn F eq_refl). cbn in X1. congruence.
          + assert (X1 := li_held _ I i c LInWait F eq_refl). cbn in X1. congruence.
        - assert (HJ := li_held _ I j c0 LInWait LY eq_refl). cbn in HJ. rewrite K0 in HJ.
          unfold lstep in S. rewrite K in S. destruct p; try discriminate.
          + rewrite HJ in S. injection S as <- <-. auto.
          + assert (X1 := li_held _ I i c LIn F eq_refl). cbn in X1. rewrite K in X1. assert (i = j) by congruence. subst.
            rewrite LY in F. discriminate.
          + injection S as <- <-. auto. }
      assert (Frame : lc_key c <> k -> s' k = s k).
      { intros K. unfold lstep in S. destruct p; try discriminate.
        - destruct (l_held (s (lc_key c))); [injection S as <- <-; reflexivity|].
          destruct (l_poisoned (s (lc_key c))); injection S as <- <-; [reflexivity|]. apply set_lock_other. congruence.
        - destruct (under_lock c); injection S as <- <-; try reflexivity; apply set_lock_other; congruence.
        - injection S as <- <-. reflexivity. }
      assert (PL : l_poisoned (s' k) = l_poisoned (s k)).
      { destruct (N.eq_dec (lc_key c) k) as [K|K]; [destruct (NO K) as [-> _]; reflexivity|now rewrite Frame]. }
      split.
      * destruct LY as [LY|(j & c0 & LY & K0)]; [left; congruence|]. right. exists j, c0. split; [|exact K0].
        destruct (Nat.eq_dec i j) as [->|D]; [|now apply nth_set_off].
        rewrite F in LY. injection LY as -> ->. destruct (NO K0) as [_ ->]. eapply nth_set_at; eauto.
      * intros j c0 p0 G K Q. apply nth_set_case in G; [|exact L]. destruct G as [[<- G]|[D G]]; [|eauto].
        injection G as -> ->. destruct (NO K) as [_ ->]. eauto.
Qed.

(* after a panic, or a call of the user's code into the same prefix *)
Lemma lock_poisoned_stuck x y i j c c' : lexec lconf0 x -> lexec x y ->
  nth_error (ths x) i = Some (c, LUnwound) -> lc_key c' = lc_key c -> nth_error (ths y) j = Some (c', LDone) ->
  nth_error (ths x) j = Some (c', LDone).
Proof.
  intros X E F K G. assert (LO : lost (sh x) (ths x) (lc_key c)).
  { left. clear - X F. revert i c F. unfold lexec in X. pattern x. revert X. apply exec_ind_l.
    - intros [|i]; discriminate.
    - intros y z E IH S i c F. destruct S as [s ts c0 _|s ts j c0 p s' p' G S]; cbn in *.
      + apply nth_app_cases in F. destruct F as [F|[-> F]]; [eauto|discriminate].
      + assert (L : j < length ts) by (eapply nth_some_lt; eauto).
        assert (PK : forall k, l_poisoned (s k) = true -> l_poisoned (s' k) = true).
        { intros k Q. unfold lstep in S. destruct p; try discriminate.
          - destruct (l_held (s (lc_key c0))); [now injection S as <- <-|]. destruct (l_poisoned (s (lc_key c0))) eqn:PP; injection S as <- <-; [exact Q|].
            unfold set_lock. destruct (N.eqb_spec k (lc_key c0)) as [->|]; [congruence|exact Q].
          - destruct (under_lock c0); injection S as <- <-; try exact Q; unfold set_lock; destruct (N.eqb_spec k (lc_key c0)) as [->|]; auto.
          - now injection S as <- <-. }
        apply nth_set_case in F; [|exact L]. destruct F as [[<- F]|[D F]]; [|eauto].
        injection F as <- <-. unfold lstep in S. destruct p; try discriminate.
        * destruct (l_held (s (lc_key c))); [discriminate|]. destruct (l_poisoned (s (lc_key c))); discriminate.
        * destruct (under_lock c); try discriminate. injection S as <-. now rewrite set_lock_same. }
  destruct (lost_stuck x y _ X LO E) as [_ Q]. eapply Q; eauto.
Qed.
Lemma lock_reentered_stuck x y i j c c' : lexec lconf0 x -> lexec x y ->
  nth_error (ths x) i = Some (c, LInWait) -> lc_key c' = lc_key c -> nth_error (ths y) j = Some (c', LDone) ->
  nth_error (ths x) j = Some (c', LDone).
Proof.
  intros X E F K G. assert (LO : lost (sh x) (ths x) (lc_key c)) by (right; eauto).
  destruct (lost_stuck x y _ X LO E) as [_ Q]. eapply Q; eauto.
Qed.

Lemma unwound_panics x j c : lexec lconf0 x -> nth_error (ths x) j = Some (c, LUnwound) -> under_lock c = Panics.
Proof.
  intros X. revert j c. unfold lexec in X. pattern x. revert X. apply exec_ind_l.
  - intros [|j]; discriminate.
  - intros y z _ IH S j c F. destruct S as [s ts c0 _|s ts k c0 p s' p' G S]; cbn in *.
    + apply nth_app_cases in F. destruct F as [F|[-> F]]; [eauto|discriminate].
    + apply nth_set_case in F; [|eapply nth_some_lt; eauto]. destruct F as [[<- F]|[D F]]; [|eauto].
      injection F as <- <-. unfold lstep in S. destruct p; try discriminate.
      * destruct (l_held (s (lc_key c))); [discriminate|]. destruct (l_poisoned (s (lc_key c))); discriminate.
      * destruct (under_lock c); auto; discriminate.
Qed.

(* if the user's code always returns, for the calls of one prefix, each of them can *)
Lemma lock_free x i c p : lexec lconf0 x -> nth_error (ths x) i = Some (c, p) ->
  (forall j c' p', nth_error (ths x) j = Some (c', p') -> lc_key c' = lc_key c -> under_lock c' = Returns) ->
  exists y, lexec x y /\ length (ths y) = length (ths x) /\ nth_error (ths y) i = Some (c, LDone).
Proof.
  intros X F W. assert (I := linv_exec x X).
  assert (U : under_lock c = Returns) by eauto.
  assert (NP : l_poisoned (sh x (lc_key c)) = false).
  { destruct (l_poisoned (sh x (lc_key c))) eqn:Q; [|reflexivity]. destruct (li_poison x I _ Q) as (_ & j & c0 & G & K & B).
    rewrite (W j c0 _ G K) in B. discriminate. }
  destruct x as [s ts]. cbn [sh ths] in *.
  (* it has the lock *)
  assert (In1 : forall s0 ts0, nth_error ts0 i = Some (c, LIn) -> length ts0 = length ts ->
    exists y, lexec (Conf s0 ts0) y /\ length (ths y) = length ts /\ nth_error (ths y) i = Some (c, LDone)).
  { intros s0 ts0 G LL. eexists. split; [apply exec_one; eapply cs_run; [exact G|]|].
    - cbn. rewrite U. reflexivity.
    - cbn. split; [now rewrite set_nth_length|eapply nth_set_at; eauto]. }
  (* it waits and the lock is free *)
  assert (In2 : forall s0 ts0, nth_error ts0 i = Some (c, LWait) -> length ts0 = length ts -> s0 (lc_key c) = Lock None false ->
    exists y, lexec (Conf s0 ts0) y /\ length (ths y) = length ts /\ nth_error (ths y) i = Some (c, LDone)).
  { intros s0 ts0 G LL FR. edestruct (In1 (set_lock s0 (lc_key c) (Lock (Some i) false)) (set_nth i (c, LIn) ts0)) as (y & A & B).
    - eapply nth_set_at; eauto.
    - now rewrite set_nth_length.
    - exists y. split; [|exact B]. eapply exec_trans; [|exact A]. apply exec_one. eapply cs_run; [exact G|]. cbn. now rewrite FR. }
  assert (NI : forall j c0 p0, nth_error ts j = Some (c0, p0) -> lc_key c0 = lc_key c -> p0 <> LInWait /\ p0 <> LUnwound).
  { intros j c0 p0 G K. assert (UR := W j c0 p0 G K). split; intros ->.
    - rewrite (li_again _ I j c0 G) in UR. discriminate.
    - rewrite (unwound_panics _ j c0 X G) in UR. discriminate. }
  destruct p.
  - destruct (l_held (s (lc_key c))) as [h|] eqn:H.
    + destruct (li_owner _ I (lc_key c) h H) as (c0 & p0 & G & K & IP). cbn in G.
      destruct (NI h c0 p0 G K) as [N1 _]. destruct p0; try discriminate; [|congruence].
      assert (D : h <> i). { intros ->. rewrite F in G. discriminate. }
      edestruct (In2 (set_lock s (lc_key c0) (Lock None (l_poisoned (s (lc_key c0))))) (set_nth h (c0, LDone) ts)) as (y & A & B).
      * apply nth_set_off; auto. eapply nth_some_lt; eauto.
      * now rewrite set_nth_length.
      * rewrite K, set_lock_same, NP. reflexivity.
      * exists y. split; [|exact B]. eapply exec_trans; [|exact A]. apply exec_one. eapply cs_run; [exact G|]. cbn.
        rewrite (W h c0 _ G K). reflexivity.
    + apply In2; auto. destruct (s (lc_key c)) as [h b]; cbn in *. now subst.
  - now apply In1.
  - exfalso. destruct (NI i c _ F eq_refl); congruence.
  - exists (Conf s ts). split; [apply ex_refl|]. auto.
  - exfalso. destruct (NI i c _ F eq_refl); congruence.
Qed.

(* an insert or a mark runs none of the user's code under the lock *)
Lemma lock_ends x i c p : lexec lconf0 x -> nth_error (ths x) i = Some (c, p) ->
  (forall j c' p', nth_error (ths x) j = Some (c', p') -> lc_key c' = lc_key c ->
     lc_kind c' = LUpsert \/ lc_kind c' = LMarkRecord \/ lc_user c' = Returns) ->
  exists y, lexec x y /\ length (ths y) = length (ths x) /\ nth_error (ths y) i = Some (c, LDone).
Proof.
  intros X F W. eapply lock_free; eauto. intros j c' p' G K. unfold under_lock. destruct (W j c' p' G K) as [->|[->|E]]; try reflexivity.
  destruct (lc_kind c'); auto.
Qed.

(* ---------- a panic ---------- *)

Definition lgo (es : list (ev lcall)) : conf locks lcall lpc :=
  match play (fun _ => LWait) lstep lconf0 es with Some x => x | None => lconf0 end.
Lemma lgo_exec es : lexec lconf0 (lgo es).
Proof.
  unfold lgo. destruct (play _ _ _ _) as [x|] eqn:E; [|apply ex_refl]. eapply play_exec; [|exact E].
  apply Forall_forall. intros [c|i] _; exact I.
Qed.
(* a selection of paths panics; then the records are read, and a record is inserted *)
Definition panicked : conf locks lcall lpc := lgo
  [Call (LCall 5 LBestBackup Panics); Run 0; Run 0; Call (LCall 5 LReadRecords Returns); Call (LCall 5 LUpsert Returns);
   Call (LCall 6 LUpsert Returns); Run 1; Run 2; Run 3; Run 3].

Lemma may_hang : ~ (forall x i c p, lexec lconf0 x -> nth_error (ths x) i = Some (c, p) -> exists y, lexec x y /\ over y i).
Proof.
  intros H. assert (X := lgo_exec [Call (LCall 5 LBestBackup Panics); Run 0; Run 0; Call (LCall 5 LReadRecords Returns); Call (LCall 5 LUpsert Returns);
   Call (LCall 6 LUpsert Returns); Run 1; Run 2; Run 3; Run 3]). fold panicked in X.
  destruct (H panicked 2 (LCall 5 LUpsert Returns) LWait X eq_refl) as (y & E & c & p & F & Q).
  assert (LO : lost (sh panicked) (ths panicked) 5) by (left; reflexivity).
  destruct (lost_stuck panicked y 5 X LO E) as [_ S].
  assert (K : lc_key c = 5%N).
  { destruct (exec_call (fun _ => LWait) (fun _ => True) lstep panicked y 2 (LCall 5 LUpsert Returns) LWait E eq_refl) as [l' G]. rewrite F in G.
    injection G as -> _. reflexivity. }
  specialize (S 2 c p F K Q). cbn in S. injection S as _ <-. destruct Q; discriminate.
Qed.
