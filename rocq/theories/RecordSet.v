(* types/prefix_record.rs: PrefixRecord and RecordSet. *)
From Coq Require Import Arith NArith List Bool Lia.
From Verif Require Import Word Af MultiMap.
Import ListNotations.
Local Open Scope N_scope.

(* inetnum's Prefix (external): an address family with a prefix of it *)
Definition prefix : Type := (af * pid)%type.

(* types/prefix_record.rs:117-120 *)
Definition prefixrecord : Type := (prefix * list record)%type.

(* types/prefix_record.rs:127-129 *)
Definition pr_get_record_for_mui (p : prefixrecord) (mui : N) : option record :=
  find (fun r => r_mui r =? mui) (snd p).

(* types/prefix_record.rs:164-167 *)
Record recordset : Type := RecordSet { rs_v4 : list prefixrecord; rs_v6 : list prefixrecord }.

(* types/prefix_record.rs:170-175 *)
Definition rs_new : recordset := RecordSet [] [].

(* types/prefix_record.rs:177-183 *)
Definition rs_push (s : recordset) (p : prefix) (m : list record) : recordset :=
  match fst p with
  | IPv4 => RecordSet (rs_v4 s ++ [(p, m)]) (rs_v6 s)
  | IPv6 => RecordSet (rs_v4 s) (rs_v6 s ++ [(p, m)])
  end.

(* types/prefix_record.rs:185-187 *)
Definition rs_is_empty (s : recordset) : bool :=
  match rs_v4 s, rs_v6 s with [], [] => true | _, _ => false end.

(* types/prefix_record.rs:323-326 *)
Record rsiter : Type := RsIter { ri_v4 : option (list prefixrecord); ri_v6 : list prefixrecord }.

(* types/prefix_record.rs:189-198 *)
Definition rs_iter (s : recordset) : rsiter :=
  RsIter (match rs_v4 s with [] => None | l => Some l end) (rs_v6 s).

(* types/prefix_record.rs:331-341; the recursive call is made with v4 = None,
   so it is one more look at v6 *)
Definition rsi_next (it : rsiter) : option (prefixrecord * rsiter) :=
  let v6_next :=
    match ri_v6 it with [] => None | x :: l => Some (x, RsIter None l) end in
  match ri_v4 it with
  | None => v6_next
  | Some (x :: l) => Some (x, RsIter (Some l) (ri_v6 it))
  | Some [] => v6_next
  end.

(* next() until the first None *)
Fixpoint rsi_collect (fuel : nat) (it : rsiter) : res (list prefixrecord) :=
  match fuel with
  | O => OutOfFuel
  | S fuel' =>
    match rsi_next it with
    | None => Ok []
    | Some (x, it') => do l <- rsi_collect fuel' it'; Ok (x :: l)
    end
  end.

(* types/prefix_record.rs:201-205 *)
Definition rs_reverse (s : recordset) : recordset := RecordSet (rev (rs_v4 s)) (rev (rs_v6 s)).

(* types/prefix_record.rs:207-209 *)
Definition rs_len (s : recordset) : nat := (length (rs_v4 s) + length (rs_v6 s))%nat.

(* types/prefix_record.rs:241-258, 260-281 and 283-304: the body of the loop *)
Definition rs_add (s : recordset) (x : prefixrecord) : recordset :=
  match fst (fst x) with
  | IPv4 => RecordSet (rs_v4 s ++ [x]) (rs_v6 s)
  | IPv6 => RecordSet (rs_v4 s) (rs_v6 s ++ [x])
  end.
Definition rs_from_iter (l : list prefixrecord) : recordset :=
  fold_left rs_add l (RecordSet [] []).

(* types/prefix_record.rs:306-318 *)
Definition rs_index (s : recordset) (i : nat) : res prefixrecord :=
  let o := if Nat.ltb i (length (rs_v4 s)) then nth_error (rs_v4 s) i
           else nth_error (rs_v6 s) (i - length (rs_v4 s)) in
  match o with Some x => Ok x | None => Panic end.

(* the items of a set in iteration order *)
Definition rs_items (s : recordset) : res (list prefixrecord) :=
  rsi_collect (S (rs_len s)) (rs_iter s).

(* ---------- lemmas ---------- *)

Lemma rsi_collect_ok n : forall it,
  (length (match ri_v4 it with Some l => l | None => [] end) + length (ri_v6 it) < n)%nat ->
  rsi_collect n it = Ok (match ri_v4 it with Some l => l | None => [] end ++ ri_v6 it).
Proof.
  induction n as [|n IH]; intros [v4 v6] H; [lia|]. cbn [rsi_collect]. unfold rsi_next.
  destruct v4 as [[|x l]|]; cbn [ri_v4 ri_v6] in *; simpl in H.
  - destruct v6 as [|y v6]; [easy|]. rewrite IH by (simpl in *; lia). easy.
  - rewrite IH by (simpl in *; lia). easy.
  - destruct v6 as [|y v6]; [easy|]. rewrite IH by (simpl in *; lia). easy.
Qed.

Lemma rs_items_ok s : rs_items s = Ok (rs_v4 s ++ rs_v6 s).
Proof.
  unfold rs_items, rs_iter, rs_len. destruct s as [v4 v6]; cbn [rs_v4 rs_v6].
  rewrite rsi_collect_ok; destruct v4; simpl; try easy; lia.
Qed.

Definition is_v4 (x : prefixrecord) : bool := match fst (fst x) with IPv4 => true | IPv6 => false end.

Lemma rs_from_iter_ok l : rs_from_iter l =
  RecordSet (filter is_v4 l) (filter (fun x => negb (is_v4 x)) l).
Proof.
  unfold rs_from_iter.
  assert (G : forall a b, fold_left rs_add l (RecordSet a b) =
    RecordSet (a ++ filter is_v4 l) (b ++ filter (fun x => negb (is_v4 x)) l)).
  { induction l as [|x l IH]; intros a b; simpl.
    - now rewrite !app_nil_r.
    - assert (E : is_v4 x = match fst (fst x) with IPv4 => true | IPv6 => false end) by reflexivity.
      unfold rs_add at 2. rewrite E.
      destruct (fst (fst x)); simpl; rewrite IH, <- app_assoc; reflexivity. }
  rewrite G. reflexivity.
Qed.

Lemma filter_all {A} (g : A -> bool) l : (forall x, In x l -> g x = true) -> filter g l = l.
Proof.
  induction l as [|x l IH]; intros H; simpl; [easy|].
  rewrite (H x) by (now left). rewrite IH; [easy|]. intros; apply H; now right.
Qed.
Lemma filter_none {A} (g : A -> bool) l : (forall x, In x l -> g x = false) -> filter g l = [].
Proof.
  induction l as [|x l IH]; intros H; simpl; [easy|].
  rewrite (H x) by (now left). apply IH. intros; apply H; now right.
Qed.

(* a set made from the prefixes of one family keeps them in order *)
Lemma rs_items_family f l : (forall x, In x l -> fst (fst x) = f) ->
  rs_items (rs_from_iter l) = Ok l.
Proof.
  intros H. rewrite rs_items_ok, rs_from_iter_ok. cbn [rs_v4 rs_v6]. f_equal.
  assert (E : forall x, In x l -> is_v4 x = match f with IPv4 => true | IPv6 => false end).
  { intros x I. unfold is_v4. pose proof (H x I) as E. destruct x as [[a p] r]; simpl in *. now subst. }
  destruct f.
  - rewrite filter_all, filter_none, app_nil_r; auto. intros x I. now rewrite (E x I).
  - rewrite filter_none, filter_all; auto. intros x I. now rewrite (E x I).
Qed.
