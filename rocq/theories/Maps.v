(* Finite maps as association lists.  Stand-in for the containers the code uses
   (arrays of once-cells, HashMap, RoaringBitmap, the key/value store).  A key is
   updated in place, a new key is appended. *)
From Coq Require Import NArith List Bool Lia.
Import ListNotations.

Class EqB (A : Type) := {
  eqb : A -> A -> bool;
  eqb_eq : forall a b, eqb a b = true <-> a = b
}.

#[global] Instance EqB_N : EqB N := {| eqb := N.eqb; eqb_eq := N.eqb_eq |}.

Fixpoint list_eqb {A} `{EqB A} (l m : list A) : bool :=
  match l, m with
  | [], [] => true
  | x :: l', y :: m' => eqb x y && list_eqb l' m'
  | _, _ => false
  end.

Lemma list_eqb_eq {A} `{EqB A} (l m : list A) : list_eqb l m = true <-> l = m.
Proof.
  revert m; induction l as [|x l IH]; intros [|y m]; simpl; split; intros E; try easy.
  - apply andb_true_iff in E. destruct E as [E1 E2].
    apply eqb_eq in E1. apply IH in E2. now subst.
  - inversion E; subst. apply andb_true_iff. split; [now apply eqb_eq|now apply IH].
Qed.

#[global] Instance EqB_list {A} `{EqB A} : EqB (list A) :=
  {| eqb := list_eqb; eqb_eq := list_eqb_eq |}.

#[global] Program Instance EqB_prod {A B} `{EqB A} `{EqB B} : EqB (A * B) :=
  {| eqb := fun p q => eqb (fst p) (fst q) && eqb (snd p) (snd q) |}.
Next Obligation.
  simpl. rewrite andb_true_iff, !eqb_eq. split; [intros [-> ->]; easy|].
  intros E; inversion E; easy.
Qed.

Section Map.
Context {K V : Type} `{EqB K}.

Lemma eqb_refl (k : K) : eqb k k = true.
Proof. now apply eqb_eq. Qed.
Lemma eqb_neq (a b : K) : a <> b -> eqb a b = false.
Proof. intros N. destruct (eqb a b) eqn:E; [|easy]. now apply eqb_eq in E. Qed.
Lemma eqb_false (a b : K) : eqb a b = false -> a <> b.
Proof. intros E ->. now rewrite eqb_refl in E. Qed.

Definition map := list (K * V).

Fixpoint lookup (k : K) (m : map) : option V :=
  match m with
  | [] => None
  | (k', v) :: m' => if eqb k k' then Some v else lookup k m'
  end.

Fixpoint update (k : K) (v : V) (m : map) : map :=
  match m with
  | [] => [(k, v)]
  | (k', v') :: m' => if eqb k k' then (k, v) :: m' else (k', v') :: update k v m'
  end.

Fixpoint delete (k : K) (m : map) : map :=
  match m with
  | [] => []
  | (k', v') :: m' => if eqb k k' then delete k m' else (k', v') :: delete k m'
  end.

Lemma lookup_update_same k v m : lookup k (update k v m) = Some v.
Proof.
  induction m as [|[k' v'] m IH]; simpl.
  - now rewrite eqb_refl.
  - destruct (eqb k k') eqn:E; simpl.
    + now rewrite eqb_refl.
    + now rewrite E.
Qed.

Lemma lookup_update_other k k' v m : k <> k' -> lookup k (update k' v m) = lookup k m.
Proof.
  intros N. induction m as [|[k2 v2] m IH]; simpl.
  - now rewrite eqb_neq.
  - destruct (eqb k' k2) eqn:E; simpl.
    + apply eqb_eq in E. subst k2. now rewrite eqb_neq.
    + destruct (eqb k k2); easy.
Qed.

Lemma lookup_update k k' v m :
  lookup k (update k' v m) = if eqb k k' then Some v else lookup k m.
Proof.
  destruct (eqb k k') eqn:E.
  - apply eqb_eq in E. subst. apply lookup_update_same.
  - apply lookup_update_other. now apply eqb_false.
Qed.

Definition keys (m : map) : list K := List.map fst m.

Lemma update_keys k v m :
  keys (update k v m) = match lookup k m with Some _ => keys m | None => keys m ++ [k] end.
Proof.
  induction m as [|[k' v'] m IH]; simpl; [easy|].
  destruct (eqb k k') eqn:E; simpl.
  - apply eqb_eq in E. now subst.
  - unfold keys in *. rewrite IH. destruct (lookup k m); easy.
Qed.

Lemma lookup_None k m : lookup k m = None <-> ~ In k (keys m).
Proof.
  induction m as [|[k' v'] m IH]; simpl.
  - tauto.
  - destruct (eqb k k') eqn:E.
    + apply eqb_eq in E. subst. split; [easy|]. intros C. exfalso. apply C. now left.
    + apply eqb_false in E. rewrite IH. split.
      * intros C [D|D]; [now subst|easy].
      * intros C D. apply C. now right.
Qed.

Lemma lookup_In k v m : lookup k m = Some v -> In (k, v) m.
Proof.
  induction m as [|[k' v'] m IH]; simpl; [easy|].
  destruct (eqb k k') eqn:E; intros L.
  - apply eqb_eq in E. left. congruence.
  - right. auto.
Qed.

Lemma In_lookup k v m : NoDup (keys m) -> In (k, v) m -> lookup k m = Some v.
Proof.
  induction m as [|[k' v'] m IH]; simpl; intros ND I; [easy|].
  inversion ND as [|? ? NI ND']; subst.
  destruct I as [I|I].
  - inversion I; subst. now rewrite eqb_refl.
  - rewrite eqb_neq; [auto|]. intros ->. apply NI. now apply (in_map fst) in I.
Qed.

Lemma lookup_In_iff k v m : NoDup (keys m) -> (lookup k m = Some v <-> In (k, v) m).
Proof. intros; split; [apply lookup_In|now apply In_lookup]. Qed.

Lemma update_NoDup k v m : NoDup (keys m) -> NoDup (keys (update k v m)).
Proof.
  intros ND. rewrite update_keys. destruct (lookup k m) eqn:E; [easy|].
  apply lookup_None in E.
  clear v. induction (keys m) as [|x l IH]; simpl.
  - constructor; [easy|constructor].
  - inversion ND; subst. constructor.
    + rewrite in_app_iff. simpl. intros [C|[C|[]]]; [easy|]. subst. apply E. now left.
    + apply IH; auto. intros C. apply E. now right.
Qed.

Lemma update_length k v m :
  length (update k v m) = match lookup k m with Some _ => length m | None => S (length m) end.
Proof.
  induction m as [|[k' v'] m IH]; simpl; [easy|].
  destruct (eqb k k'); simpl; [easy|]. rewrite IH. now destruct (lookup k m).
Qed.

Lemma lookup_delete k k' m :
  lookup k (delete k' m) = if eqb k k' then None else lookup k m.
Proof.
  induction m as [|[k2 v2] m IH]; simpl.
  - now destruct (eqb k k').
  - destruct (eqb k' k2) eqn:E.
    + apply eqb_eq in E. subst k2. rewrite IH. destruct (eqb k k') eqn:E2; easy.
    + simpl. rewrite IH. destruct (eqb k k2) eqn:E2; [|easy].
      apply eqb_eq in E2. subst k2.
      destruct (eqb k k') eqn:E3; [|easy].
      apply eqb_eq in E3. subst. now rewrite eqb_refl in E.
Qed.

End Map.
Arguments map K V : clear implicits.

(* RoaringBitmap: a finite set of u32 *)
Definition nset := list N.
Definition mem (x : N) (s : nset) : bool := existsb (N.eqb x) s.
Definition set_insert (x : N) (s : nset) : nset := if mem x s then s else x :: s.
Definition set_remove (x : N) (s : nset) : nset := filter (fun y => negb (N.eqb x y)) s.

Lemma mem_In x s : mem x s = true <-> In x s.
Proof.
  unfold mem. rewrite existsb_exists. split.
  - intros [y [I E]]. apply N.eqb_eq in E. now subst.
  - intros I. exists x. split; [easy|apply N.eqb_refl].
Qed.

Lemma mem_insert x y s : mem x (set_insert y s) = (N.eqb x y || mem x s).
Proof.
  unfold set_insert. destruct (mem y s) eqn:E; simpl.
  - destruct (N.eqb x y) eqn:E2; [|easy]. apply N.eqb_eq in E2. now subst.
  - easy.
Qed.

Lemma mem_remove x y s : mem x (set_remove y s) = (negb (N.eqb x y) && mem x s).
Proof.
  apply eq_true_iff_eq. rewrite andb_true_iff, !mem_In. unfold set_remove.
  rewrite filter_In, !negb_true_iff, !N.eqb_neq.
  split; intros [A B]; split; auto.
Qed.

Lemma update_update {K V} `{EqB K} (k : K) (v v' : V) (m : map K V) :
  update k v (update k v' m) = update k v m.
Proof.
  induction m as [|[k2 v2] m IH]; simpl.
  - now rewrite eqb_refl.
  - destruct (eqb k k2) eqn:E; simpl.
    + now rewrite eqb_refl.
    + rewrite E. now rewrite IH.
Qed.
