(* The specification: what a history of calls means, written with the calls
   themselves and nothing of the store.  Histories have the latest call first. *)
From Coq Require Import Arith NArith List Bool Lia.
From Verif Require Import Word Af Spec MultiMap RecordSet Rib StarCast.
Import ListNotations.
Local Open Scope N_scope.

Definition af_eqb (a b : af) : bool :=
  match a, b with IPv4, IPv4 | IPv6, IPv6 => true | _, _ => false end.
Definition prefix_eqb (p q : prefix) : bool := af_eqb (fst p) (fst q) && pid_eqb (snd p) (snd q).

(* a Prefix of inetnum: no longer than an address, no bits set beyond the length *)
Definition wf_prefix (p : prefix) : Prop := wf_pid (fst p) (snd p).
(* the mui is a u32, the logical time a u64 *)
Definition wf_record (r : record) : Prop := r_mui r < 2 ^ 32 /\ r_ltime r < 2 ^ 64.
Definition wf_op (o : op) : Prop :=
  match o with
  | Insert p r _ => wf_prefix p /\ wf_record r
  | MarkWithdrawn p m t | MarkActive p m t => wf_prefix p /\ m < 2 ^ 32 /\ t < 2 ^ 64
  | GlobalWithdrawn _ m | GlobalWithdrawnBoth m | GlobalActive _ m => m < 2 ^ 32
  | Calculate p _ => wf_prefix p
  end.
Definition wf_history (h : list op) : Prop := Forall wf_op h.
(* st is the store that a history of valid calls leaves behind *)
Definition after (s : strategy) (h : list op) (st : store) : Prop :=
  wf_history h /\ run s h = Ok st.

(* has p been inserted *)
Definition inserted (h : list op) (p : prefix) : bool :=
  existsb (fun o => match o with Insert q _ _ => prefix_eqb p q | _ => false end) h.

(* has there been an insert or a local mark for p *)
Definition touched (h : list op) (p : prefix) : bool :=
  existsb (fun o => match o with
                    | Insert q _ _ | MarkWithdrawn q _ _ | MarkActive q _ _ => prefix_eqb p q
                    | _ => false end) h.

Definition with_status (s : status) (r : record) : record :=
  Rec (r_mui r) (r_ltime r) s (r_meta r).
Definition marked (s : status) (t : N) (r : record) : record := Rec (r_mui r) t s (r_meta r).

(* the record of (p, m): the one inserted last, with the local marks made since *)
Fixpoint last_rec (h : list op) (p : prefix) (m : N) : option record :=
  match h with
  | [] => None
  | o :: h' =>
    match o with
    | Insert q r _ => if prefix_eqb p q && (m =? r_mui r) then Some r else last_rec h' p m
    | MarkWithdrawn q n t =>
      if prefix_eqb p q && (m =? n) then option_map (marked Withdrawn t) (last_rec h' p m)
      else last_rec h' p m
    | MarkActive q n t =>
      if prefix_eqb p q && (m =? n) then option_map (marked Active t) (last_rec h' p m)
      else last_rec h' p m
    | _ => last_rec h' p m
    end
  end.

(* is m withdrawn for the whole address family *)
Fixpoint g_withdrawn (h : list op) (f : af) (m : N) : bool :=
  match h with
  | [] => false
  | o :: h' =>
    match o with
    | GlobalWithdrawn g n => if af_eqb f g && (m =? n) then true else g_withdrawn h' f m
    | GlobalWithdrawnBoth n => if m =? n then true else g_withdrawn h' f m
    | GlobalActive g n => if af_eqb f g && (m =? n) then false else g_withdrawn h' f m
    | _ => g_withdrawn h' f m
    end
  end.

Definition named (mui : option N) (m : N) : bool :=
  match mui with Some n => n =? m | None => true end.

(* the documented answer of a query for the record of (p, m): with withdrawn
   records included, everything, the global status overriding the local one;
   otherwise the records that are active both ways *)
Definition view_all (h : list op) (p : prefix) (m : N) : option record :=
  option_map (fun r => if g_withdrawn h (fst p) m then with_status Withdrawn r else r)
             (last_rec h p m).
Definition view_active (h : list op) (p : prefix) (m : N) : option record :=
  match last_rec h p m with
  | Some r => if status_eqb (r_status r) Active && negb (g_withdrawn h (fst p) m)
              then Some r else None
  | None => None
  end.
Definition view_ideal (h : list op) (p : prefix) (mui : option N) (iw : bool) (m : N)
    : option record :=
  if named mui m then if iw then view_all h p m else view_active h p m else None.

(* what the in-memory strategies answer: a query that names a mui and leaves
   withdrawn records out does not look at the global status *)
Definition view_local (h : list op) (p : prefix) (m : N) : option record :=
  match last_rec h p m with
  | Some r => if status_eqb (r_status r) Active then Some r else None
  | None => None
  end.
Definition view_memory (h : list op) (p : prefix) (mui : option N) (iw : bool) (m : N)
    : option record :=
  if named mui m then
    if iw then view_all h p m
    else match mui with None => view_active h p m | Some _ => view_local h p m end
  else None.

(* what PersistOnly keeps for (p, m): a local mark as withdrawn drops the meta
   data, a local mark as active is ignored unless the meta data is empty *)
Fixpoint po_rec (h : list op) (p : prefix) (m : N) : option record :=
  match h with
  | [] => None
  | o :: h' =>
    match o with
    | Insert q r _ => if prefix_eqb p q && (m =? r_mui r) then Some r else po_rec h' p m
    | MarkWithdrawn q n t =>
      if prefix_eqb p q && (m =? n) then
        option_map (fun r => Rec (r_mui r) t Withdrawn []) (po_rec h' p m)
      else po_rec h' p m
    | MarkActive q n t =>
      if prefix_eqb p q && (m =? n) then
        option_map (fun r => match r_meta r with
                             | [] => Rec (r_mui r) t Active []
                             | _ => r end) (po_rec h' p m)
      else po_rec h' p m
    | _ => po_rec h' p m
    end
  end.
(* what PersistOnly answers: only Withdrawn is left out, InActive is not *)
Definition view_persist (h : list op) (p : prefix) (mui : option N) (iw : bool) (m : N)
    : option record :=
  if named mui m then
    match po_rec h p m with
    | Some r =>
      if iw then Some (if g_withdrawn h (fst p) m then with_status Withdrawn r else r)
      else if status_eqb (r_status r) Withdrawn || g_withdrawn h (fst p) m then None else Some r
    | None => None
    end
  else None.

Definition view (s : strategy) : list op -> prefix -> option N -> bool -> N -> option record :=
  match s with PersistOnly => view_persist | _ => view_memory end.

(* a list that holds the records of a view, each once *)
Definition lists (V : N -> option record) (l : list record) : Prop :=
  NoDup (List.map r_mui l) /\ forall r, In r l <-> V (r_mui r) = Some r.
Definition answers (V : N -> option record) (o : option (list record)) : Prop :=
  match o with
  | None => forall m, V m = None
  | Some l => l <> [] /\ lists V l
  end.

(* the inserted prefixes other than the default route *)
Definition listed (h : list op) (p : prefix) : Prop := inserted h p = true /\ 0 < p_len (snd p).
(* p covers q: same family, and every address in q is in p *)
Definition pcovers (p q : prefix) : Prop := fst p = fst q /\ covers (fst p) (snd p) (snd q).
(* p is a strictly shorter prefix that covers q *)
Definition pless (p q : prefix) : Prop := pcovers p q /\ p_len (snd p) < p_len (snd q).

(* a list that holds each prefix of D that has records under V once, with those
   records *)
Definition gives (D : prefix -> Prop) (V : prefix -> N -> option record)
    (l : list prefixrecord) : Prop :=
  NoDup (List.map fst l) /\
  (forall p rs, In (p, rs) l -> D p /\ answers (V p) (Some rs)) /\
  (forall p m, D p -> V p m <> None -> exists rs, In (p, rs) l).

(* c is the longest listed prefix that covers p, if there is one *)
Definition longest_match (h : list op) (p : prefix) (c : option prefix) : Prop :=
  match c with
  | None => forall q, listed h q -> ~ pcovers q p
  | Some q => listed h q /\ pcovers q p /\
      forall q', listed h q' -> pcovers q' p -> p_len (snd q') <= p_len (snd q)
  end.
(* c is p itself, if it is listed *)
Definition exact_match (h : list op) (p : prefix) (c : option prefix) : Prop :=
  match c with None => ~ listed h p | Some q => q = p /\ listed h p end.

(* ---------- counting ---------- *)

Fixpoint inserted_ids (f : af) (h : list op) : list pid :=
  match h with
  | [] => []
  | Insert p _ _ :: h' => if af_eqb f (fst p) then snd p :: inserted_ids f h' else inserted_ids f h'
  | _ :: h' => inserted_ids f h'
  end.
(* the different prefixes of f that were inserted *)
Definition prefix_set (f : af) (h : list op) : list pid := nodup pid_eq_dec (inserted_ids f h).
Definition n_prefixes (f : af) (h : list op) : N := N.of_nat (length (prefix_set f h)).
Definition n_prefixes_len (f : af) (h : list op) (len : N) : N :=
  N.of_nat (length (filter (fun p => p_len p =? len) (prefix_set f h))).
(* the number of calls of insert *)
Definition n_inserts (f : af) (h : list op) : N := N.of_nat (length (inserted_ids f h)).
Fixpoint inserted_pairs (f : af) (h : list op) : list (pid * N) :=
  match h with
  | [] => []
  | Insert p r _ :: h' =>
    if af_eqb f (fst p) then (snd p, r_mui r) :: inserted_pairs f h' else inserted_pairs f h'
  | _ :: h' => inserted_pairs f h'
  end.
Definition pair_eq_dec : forall a b : pid * N, {a = b} + {a <> b}.
Proof. intros [p m] [q n]. destruct (pid_eq_dec p q), (N.eq_dec m n); (left; congruence) || (right; congruence). Defined.
(* the different (prefix, mui) pairs that were inserted *)
Definition n_routes (f : af) (h : list op) : N :=
  N.of_nat (length (nodup pair_eq_dec (inserted_pairs f h))).
(* the different muis that were inserted for p *)
Fixpoint inserted_muis (p : prefix) (h : list op) : list N :=
  match h with
  | [] => []
  | Insert q r _ :: h' =>
    if prefix_eqb p q then r_mui r :: inserted_muis p h' else inserted_muis p h'
  | _ :: h' => inserted_muis p h'
  end.
Definition n_muis (p : prefix) (h : list op) : N :=
  N.of_nat (length (nodup N.eq_dec (inserted_muis p h))).
(* the prefixes whose first insert came before any local mark for them *)
Fixpoint n_fresh (f : af) (h : list op) : N :=
  match h with
  | [] => 0
  | Insert p _ _ :: h' =>
    (if af_eqb f (fst p) && negb (touched h' p) then 1 else 0) + n_fresh f h'
  | _ :: h' => n_fresh f h'
  end.

(* ---------- path selection ---------- *)

(* m comes before n: its meta data ranks lower under t, the mui breaks ties *)
Definition better (t : tbi) (V : N -> option record) (m n : N) : Prop :=
  exists r r', V m = Some r /\ V n = Some r' /\
    (t (r_meta r) < t (r_meta r') \/ (t (r_meta r) = t (r_meta r') /\ m < n)).
Definition best_of (t : tbi) (V : N -> option record) (D : N -> Prop) (m : N) : Prop :=
  D m /\ V m <> None /\ forall n, D n -> V n <> None -> n <> m -> better t V m n.
(* s is the best and the second best of the records of V *)
Definition selection (t : tbi) (V : N -> option record) (s : option N * option N) : Prop :=
  match s with
  | (None, None) => forall m, V m = None
  | (Some b, None) => best_of t V (fun _ => True) b /\ forall m, m <> b -> V m = None
  | (Some b, Some k) => best_of t V (fun _ => True) b /\ best_of t V (fun m => m <> b) k
  | (None, Some _) => False
  end.

(* the selection stored for p: made over all records of p, whatever their
   status, by the last Calculate or insert with tie-breaker info; the first
   insert for a prefix makes none *)
Fixpoint selected (h : list op) (p : prefix) (s : option N * option N) : Prop :=
  match h with
  | [] => s = (None, None)
  | o :: h' =>
    match o with
    | Insert q _ (Some t) =>
      if prefix_eqb p q && touched h' p then selection t (last_rec h p) s else selected h' p s
    | Calculate q t =>
      if prefix_eqb p q && touched h' p then selection t (last_rec h' p) s else selected h' p s
    | _ => selected h' p s
    end
  end.

(* the outdated flag stored for p: set by an insert for a prefix that is known,
   cleared when a selection is made that differs from the one before *)
Fixpoint outdated (h : list op) (p : prefix) (b : bool) : Prop :=
  match h with
  | [] => b = false
  | o :: h' =>
    match o with
    | Insert q _ ups =>
      if prefix_eqb p q && touched h' p then
        match ups with
        | None => b = true
        | Some t => exists s s', selected h' p s /\ selected h p s' /\ (b = true <-> s = s')
        end
      else outdated h' p b
    | Calculate q t =>
      if prefix_eqb p q && touched h' p then
        exists s s', selected h' p s /\ selected h p s' /\
          (s = s' /\ outdated h' p b \/ s <> s' /\ b = false)
      else outdated h' p b
    | _ => outdated h' p b
    end
  end.

(* ---------- persistence ---------- *)

(* the records written to disk under keys that hold (prefix, mui, time, status),
   latest first *)
Fixpoint writes (s : strategy) (h : list op) : list (prefix * record) :=
  match h with
  | [] => []
  | o :: h' =>
    match s, o with
    | WriteAhead, Insert p r _ => (p, r) :: writes s h'
    | PersistHistory, Insert p r _ =>
      match last_rec h' p (r_mui r) with
      | Some old => (p, old) :: writes s h'
      | None => writes s h'
      end
    | PersistHistory, (MarkWithdrawn p m t | MarkActive p m t) =>
      match last_rec h' p m with
      | Some _ => (p, Rec m t Withdrawn []) :: writes s h'
      | None => writes s h'
      end
    | _, _ => writes s h'
    end
  end.

(* the meta data of the latest write for a key *)
Definition same_key (p : prefix) (m t : N) (s : status) (w : prefix * record) : bool :=
  prefix_eqb p (fst w) && (m =? r_mui (snd w)) && (t =? r_ltime (snd w)) &&
  status_eqb s (r_status (snd w)).
Definition latest (W : list (prefix * record)) (p : prefix) (m t : N) (s : status) : option meta :=
  option_map (fun w => r_meta (snd w)) (find (same_key p m t s) W).

(* ---------- lemmas ---------- *)

Lemma af_eqb_spec a b : af_eqb a b = true <-> a = b.
Proof. destruct a, b; simpl; split; easy. Qed.
Lemma af_eqb_refl a : af_eqb a a = true.
Proof. now destruct a. Qed.
Lemma prefix_eqb_spec p q : prefix_eqb p q = true <-> p = q.
Proof.
  unfold prefix_eqb. rewrite andb_true_iff, af_eqb_spec, pid_eqb_spec.
  destruct p, q; simpl. split; [intros [-> ->]|intros E; inversion E]; easy.
Qed.
Lemma prefix_eqb_refl p : prefix_eqb p p = true.
Proof. now apply prefix_eqb_spec. Qed.
Lemma prefix_eqb_af f p q : prefix_eqb (f, p) (f, q) = pid_eqb p q.
Proof. unfold prefix_eqb. simpl. now rewrite af_eqb_refl. Qed.
Lemma prefix_eqb_other f p q : f <> fst q -> prefix_eqb (f, p) q = false.
Proof.
  intros N. unfold prefix_eqb. simpl. destruct (af_eqb f (fst q)) eqn:E; [|easy].
  now apply af_eqb_spec in E.
Qed.

Lemma last_rec_mui h p m r : last_rec h p m = Some r -> r_mui r = m.
Proof.
  revert r. induction h as [|o h IH]; intros r E; simpl in E; [discriminate|].
  destruct o as [q r' u|q n t|q n t|g n|n|g n|q t]; auto.
  - destruct (prefix_eqb p q && (m =? r_mui r')) eqn:C; auto.
    apply andb_true_iff in C. destruct C as [_ C]. apply N.eqb_eq in C. congruence.
  - destruct (prefix_eqb p q && (m =? n)); auto.
    destruct (last_rec h p m); [|discriminate]. inversion E; subst. simpl. auto.
  - destruct (prefix_eqb p q && (m =? n)); auto.
    destruct (last_rec h p m); [|discriminate]. inversion E; subst. simpl. auto.
Qed.

Lemma po_rec_mui h p m r : po_rec h p m = Some r -> r_mui r = m.
Proof.
  revert r. induction h as [|o h IH]; intros r E; simpl in E; [discriminate|].
  destruct o as [q r' u|q n t|q n t|g n|n|g n|q t]; auto.
  - destruct (prefix_eqb p q && (m =? r_mui r')) eqn:C; auto.
    apply andb_true_iff in C. destruct C as [_ C]. apply N.eqb_eq in C. congruence.
  - destruct (prefix_eqb p q && (m =? n)); auto.
    destruct (po_rec h p m); [|discriminate]. inversion E; subst. simpl. auto.
  - destruct (prefix_eqb p q && (m =? n)); auto.
    destruct (po_rec h p m) as [r1|]; [|discriminate]. inversion E; subst.
    destruct (r_meta r1); simpl; auto.
Qed.

Lemma last_rec_inserted h p m : last_rec h p m <> None -> inserted h p = true.
Proof.
  induction h as [|o h IH]; simpl; [easy|]. intros E. apply orb_true_iff.
  destruct o as [q r' u|q n t|q n t|g n|n|g n|q t]; auto.
  - destruct (prefix_eqb p q); auto.
  - destruct (prefix_eqb p q && (m =? n)); auto. destruct (last_rec h p m); auto.
    right; apply IH; discriminate.
  - destruct (prefix_eqb p q && (m =? n)); auto. destruct (last_rec h p m); auto.
    right; apply IH; discriminate.
Qed.

Lemma inserted_last_rec h p : inserted h p = true -> exists m, last_rec h p m <> None.
Proof.
  induction h as [|o h IH]; simpl; [easy|]. intros E. apply orb_true_iff in E.
  destruct o as [q r' u|q n t|q n t|g n|n|g n|q t]; try (destruct E; [easy|auto]; fail).
  - destruct (prefix_eqb p q) eqn:C.
    + exists (r_mui r'). rewrite N.eqb_refl. easy.
    + destruct E as [E|E]; [easy|]. now apply IH.
  - destruct E as [E|E]; [easy|]. destruct (IH E) as [m L]. exists m.
    destruct (prefix_eqb p q && (m =? n)); auto. now destruct (last_rec h p m).
  - destruct E as [E|E]; [easy|]. destruct (IH E) as [m L]. exists m.
    destruct (prefix_eqb p q && (m =? n)); auto. now destruct (last_rec h p m).
Qed.

Lemma inserted_touched h p : inserted h p = true -> touched h p = true.
Proof.
  unfold inserted, touched. rewrite !existsb_exists. intros [o [I E]]. exists o.
  split; auto. now destruct o.
Qed.

Lemma selected_untouched h p : touched h p = false -> selected h p (None, None).
Proof.
  induction h as [|o h IH]; simpl; [easy|]. intros T. apply orb_false_iff in T. destruct T as [T1 T2].
  destruct o as [q r' [u|]|q n t|q n t|g n|n|g n|q t]; auto.
  - rewrite T1. simpl. auto.
  - rewrite T2, andb_false_r. auto.
Qed.

Lemma outdated_untouched h p : touched h p = false -> outdated h p false.
Proof.
  induction h as [|o h IH]; simpl; [easy|]. intros T. apply orb_false_iff in T. destruct T as [T1 T2].
  destruct o as [q r' u|q n t|q n t|g n|n|g n|q t]; auto.
  - rewrite T1. simpl. auto.
  - rewrite T2, andb_false_r. auto.
Qed.

Lemma In_inserted_ids f h p : In p (inserted_ids f h) <-> inserted h (f, p) = true.
Proof.
  induction h as [|o h IH]; simpl; [easy|]. rewrite orb_true_iff, <- IH.
  destruct o as [q r' u|q n t|q n t|g n|n|g n|q t]; try intuition discriminate.
  rewrite prefix_eqb_spec. destruct q as [g q]; simpl.
  destruct (af_eqb f g) eqn:E; [apply af_eqb_spec in E; subst|].
  - simpl. split; intros [A|A]; auto; left; congruence.
  - split; auto. intros [A|A]; auto. inversion A; subst. now rewrite af_eqb_refl in E.
Qed.

Lemma In_inserted_muis h p m : In m (inserted_muis p h) <-> last_rec h p m <> None.
Proof.
  induction h as [|o h IH]; simpl; [easy|].
  destruct o as [q r' u|q n t|q n t|g n|n|g n|q t]; auto.
  - destruct (prefix_eqb p q); simpl; [|easy]. destruct (N.eqb_spec m (r_mui r')) as [->|E]; simpl.
    + split; [easy|auto].
    + rewrite <- IH. intuition congruence.
  - rewrite IH. destruct (prefix_eqb p q && (m =? n)); [|easy]. now destruct (last_rec h p m).
  - rewrite IH. destruct (prefix_eqb p q && (m =? n)); [|easy]. now destruct (last_rec h p m).
Qed.
