(* Concrete histories, for the examples and the counterexamples of the Prop*.v
   files. *)
From Coq Require Import Arith NArith List Bool Lia Permutation.
From Verif Require Import Word Af BitSpan Spec Maps Tree Iter MultiMap Lsm RecordSet Rib StarCast
  HistSpec Ask PropSpec RibOk Facts1.
Import ListNotations.
Local Open Scope N_scope.

(* the store a history leaves behind *)
Definition ran (s : strategy) (h : list op) : store :=
  match run s h with
  | Ok st => st
  | _ => let rb := Rib s (Tree [] [] 0 false) (PrefixCht.PCht [] counters_new) None counters_new in
         Store rb rb
  end.

Definition wf_opb (o : op) : bool :=
  match o with
  | Insert p r _ => wf_pidb (fst p) (snd p) && (r_mui r <? 2 ^ 32) && (r_ltime r <? 2 ^ 64)
  | MarkWithdrawn p m t | MarkActive p m t =>
    wf_pidb (fst p) (snd p) && (m <? 2 ^ 32) && (t <? 2 ^ 64)
  | GlobalWithdrawn _ m | GlobalWithdrawnBoth m | GlobalActive _ m => m <? 2 ^ 32
  | Calculate p _ => wf_pidb (fst p) (snd p)
  end.

Lemma wf_pidb_ok f p : wf_pidb f p = true -> wf_pid f p.
Proof. apply wf_pidb_spec. Qed.
Lemma wf_prefix_b p : wf_pidb (fst p) (snd p) = true -> wf_prefix p.
Proof. apply wf_pidb_ok. Qed.

Lemma wf_history_b h : forallb wf_opb h = true -> wf_history h.
Proof.
  intros H. apply Forall_forall. intros o I. rewrite forallb_forall in H. specialize (H o I).
  destruct o; simpl in *; rewrite ?andb_true_iff, ?N.ltb_lt in H; unfold wf_prefix, wf_record.
  - destruct H as [[H1 H2] H3]. split; [now apply wf_pidb_ok|now split].
  - destruct H as [[H1 H2] H3]. split; [now apply wf_pidb_ok|now split].
  - destruct H as [[H1 H2] H3]. split; [now apply wf_pidb_ok|now split].
  - auto.
  - auto.
  - auto.
  - now apply wf_pidb_ok.
Qed.

Lemma ran_after s h : forallb wf_opb h = true -> after s h (ran s h).
Proof.
  intros H. apply wf_history_b in H. split; auto. unfold ran.
  destruct (run_ok s h H) as (st & E & _). now rewrite E.
Qed.

(* a.b.c.d/l *)
Definition v4 (a b c d l : N) : prefix := (IPv4, (a * 2 ^ 24 + b * 2 ^ 16 + c * 2 ^ 8 + d, l)).
(* the first 32 bits of an IPv6 prefix *)
Definition v6 (a b l : N) : prefix := (IPv6, (a * 2 ^ 112 + b * 2 ^ 96, l)).
Definition act (m t : N) (x : meta) : record := Rec m t Active x.
Definition wdr (m t : N) (x : meta) : record := Rec m t Withdrawn x.
(* prefer the lowest first byte of the meta data *)
Definition by_byte : tbi := fun x => match x with b :: _ => b | [] => 0 end.
Definition exact_opts (iw : bool) (mui : option N) : matchopts :=
  MatchOpts ExactMatch iw false false mui false.
Definition longest_opts (iw : bool) (mui : option N) : matchopts :=
  MatchOpts LongestMatch iw true true mui false.

(* nested prefixes of both families, several muis, overwrites, marks; the latest
   call comes first *)
Definition demo : list op := [
  Calculate (v4 10 0 0 0 8) by_byte;
  GlobalWithdrawn IPv6 3;
  MarkWithdrawn (v4 10 1 0 0 16) 2 9;
  Insert (v6 8193 3512 32) (act 3 8 [1]) None;
  Insert (v4 10 1 2 128 25) (act 1 7 [8]) None;
  Insert (v4 10 1 2 0 24) (act 1 6 [5; 5]) None;
  Insert (v4 10 1 0 0 16) (act 2 5 [7]) None;
  Insert (v4 10 1 0 0 16) (act 1 4 [9]) None;
  Insert (v4 10 0 0 0 8) (act 2 3 [3]) None;
  Insert (v4 10 0 0 0 8) (act 1 2 [4; 4]) None;
  Insert (v4 10 0 0 0 8) (act 1 1 [6]) None].

Lemma demo_after s : after s demo (ran s demo).
Proof. apply ran_after. vm_compute. reflexivity. Qed.

(* the parts of a query result, and of an item list, that examples look at *)
Definition found (x : res (result queryresult)) : option (matchtype * option prefix * list record) :=
  match x with Ok (ROk q) => Some (qr_type q, qr_prefix q, qr_records q) | _ => None end.
Definition items (x : option recordset) : option (list prefixrecord) :=
  match x with Some rs => match rs_items rs with Ok l => Some l | _ => None end | None => None end.
Definition both_sets (x : res (result queryresult))
    : option (list prefixrecord) * option (list prefixrecord) :=
  match x with Ok (ROk q) => (items (qr_less q), items (qr_more q)) | _ => (None, None) end.
(* the store and the result of one more call *)
Definition then_ (x : res (store * outcome)) : option outcome :=
  match x with Ok (_, o) => Some o | _ => None end.
Definition next (s : strategy) (h : list op) (o : op) : option outcome := then_ (exec (ran s h) o).

(* prove a conjunction of facts about a concrete history *)
Ltac example :=
  repeat match goal with |- _ /\ _ => split end;
  match goal with
  | |- after _ _ _ => apply ran_after; vm_compute; reflexivity
  | |- wf_prefix _ => apply wf_prefix_b; vm_compute; reflexivity
  | |- wf_pid _ _ => apply wf_pidb_ok; vm_compute; reflexivity
  | |- in_memory _ => discriminate
  | |- _ <> _ => let H := fresh in intro H; vm_compute in H; discriminate
  | |- In _ _ => vm_compute; auto 20
  | |- on_disk _ _ _ => vm_compute; auto 20
  | |- _ <= _ => vm_compute; discriminate
  | |- _ => vm_compute; reflexivity
  end.
