(* Lemmas about the conversions between Prefix and PrefixId for queries on a weak memory. *)
From Coq Require Import Arith NArith List Bool Lia.
From Verif Require Import Word Af BitSpan Spec Maps Cht Node Tree Iter MultiMap RecordSet PrefixCht Lsm Rib StarCast
  HistSpec Ask Public PublicFacts Conc ConcTree ConcStore ConcMarks ConcSpec ConcScan ConcWhole ConcQuery QuerySpec
  WeakTree WeakTreeInv WeakTreeFacts WeakTable WeakScan WeakStore WeakStoreInv WeakStoreFacts WeakMatch WeakMatchInv
  WeakMatchFacts.
Import ListNotations.
Local Open Scope N_scope.

Lemma wcalled_wf f ov x q : store_reach f ov x -> In q (wc_called (sc_tree x)) -> wf_pid f q.
Proof.
  intros R I. destruct (store_parts _ _ _ R) as (T & _). destruct (wtI_reach f ov _ T) as (t0 & _ & J).
  exact (wi_wf _ _ _ _ J q I).
Qed.

Lemma known_wf f ov x i q : store_reach f ov x -> known_by x i q -> wf_pid f q.
Proof.
  intros R (s & r & N & I). destruct (store_parts _ _ _ R) as (T & _ & L & _).
  destruct (nth_same_len _ _ i s L N) as (t & Nt). pose proof (past_known _ _ _ _ _ _ _ _ R N Nt I) as P.
  destruct (wt_here _ _ _ _ _ T Nt) as (W & _ & H). apply W. exact (proj1 (th_past _ _ _ _ _ H q P)).
Qed.

Lemma match_weak_public f ov B p o i x0 n x r a : store_reach f ov x0 -> wf_pid f p ->
  smatching f ov B p o i x0 n x (AtEnd (ROk r)) -> In a (shown_by (AMatch (ROk r))) ->
  fst a = f /\ exists y, prefix_of_id f (snd a) = Ok y /\ public y /\ family (fst y) = f /\
    id_of_prefix f y = Ok (snd a).
Proof.
  intros R Wp A I. destruct (asking_idle _ _ _ _ _ _ _ _ _ _ _ _ _ _ _ A) as (past0 & N0).
  pose proof (store_exec_reach _ _ _ _ R (asking_exec _ _ _ _ _ _ _ _ _ _ _ _ _ _ _ A)) as Rx.
  assert (K : exists c, a = (f, c) /\ known_by x i c).
  { cbn [shown_by] in I. apply in_app_iff in I. destruct I as [I|I].
    - pose proof (wmatch_main f ov B p o i x0 past0 n x r R Wp N0 A) as M. destruct (qr_prefix r) as [q|]; [|easy].
      destruct I as [->|[]]. destruct M as (_ & _ & c & E & _ & _ & _ & _ & Kb). exists c. auto.
    - apply in_app_iff in I. destruct I as [I|I].
      + pose proof (wmatch_less f ov B p o i x0 past0 n x r R Wp N0 A) as M. destruct (mo_less o).
        * destruct M as (rs & l & E & Il & _ & G). rewrite E in I. destruct (of_set_in rs l a Il I) as (v & Iv).
          destruct (G a v Iv) as (c & Ec & _ & _ & _ & _ & Kb). exists c. auto.
        * rewrite M in I. destruct I.
      + pose proof (wmatch_more f ov B p o i x0 past0 n x r R Wp N0 A) as M. destruct (mo_more o).
        * destruct M as (rs & l & E & Il & _ & G). rewrite E in I. destruct (of_set_in rs l a Il I) as (v & Iv).
          destruct (G a v Iv) as (c & Ec & _ & _ & _ & _ & Kb). exists c. auto.
        * rewrite M in I. destruct I. }
  destruct K as (c & -> & Kb). split; [reflexivity|]. apply public_out. exact (known_wf f ov x i c Rx Kb).
Qed.

Lemma each_weak_public f ov B k i x0 n x g a : store_reach f ov x0 -> wf_each f k ->
  siterating f ov B k i x0 n x (ItEnd g) -> In a (shown_by (AItems g)) ->
  fst a = f /\ exists y, prefix_of_id f (snd a) = Ok y /\ public y /\ family (fst y) = f /\
    id_of_prefix f y = Ok (snd a).
Proof.
  intros R Wk A I. destruct (asking_idle _ _ _ _ _ _ _ _ _ _ _ _ _ _ _ A) as (past0 & N0).
  pose proof (store_exec_reach _ _ _ _ R (asking_exec _ _ _ _ _ _ _ _ _ _ _ _ _ _ _ A)) as Rx.
  destruct (weach_sound f ov B k i x0 past0 n x g R Wk N0 A) as [_ G].
  cbn [shown_by] in I. apply in_flat_map in I. destruct I as (r & Ir & Ia).
  destruct (G r Ir) as (c & v & l & -> & _ & _ & Ca & _). destruct Ia as [<-|[]].
  split; [reflexivity|]. apply public_out. exact (wcalled_wf f ov x c Rx Ca).
Qed.
