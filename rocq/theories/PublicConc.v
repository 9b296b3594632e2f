(* Lemmas about the conversions between Prefix and PrefixId for queries beside concurrent calls. *)
From Coq Require Import Arith NArith List Bool Lia.
From Verif Require Import Word Af BitSpan Spec Maps Cht Node Tree Iter MultiMap RecordSet PrefixCht Lsm Rib StarCast
  HistSpec Ask PropSpec Public PublicFacts Conc ConcTree ConcStore ConcMarks ConcSpec ConcWhole WholeSpec ConcScan
  ConcQuery QuerySpec ConcQueryInv ConcQueryFacts.
Import ListNotations.
Local Open Scope N_scope.

(* only legal calls are begun *)
Lemma set_nth_calls {A B} i (c : A) (l l' : B) : forall ts, nth_error ts i = Some (c, l) ->
  List.map fst (set_nth i (c, l') ts) = List.map fst ts.
Proof.
  induction i as [|i IH]; intros [|t ts] E; try discriminate; cbn in *.
  - now injection E as ->.
  - f_equal. now apply IH.
Qed.

Lemma exec_legal ov x y : wexec ov x y -> Forall wlegal (List.map fst (ths x)) -> Forall wlegal (List.map fst (ths y)).
Proof.
  intros E L. induction E as [|x y z E IH T]; [exact L|]. specialize (IH L). destruct T as [s ts c K|s ts i c l s' l' N T].
  - cbn [ths] in *. rewrite map_app. apply Forall_app. split; [exact IH|]. constructor; [exact K|constructor].
  - cbn [ths] in *. now rewrite (set_nth_calls i c l l' ts N).
Qed.

Lemma inserted_wf ov st x f q : wreach ov st x -> being_inserted x f q -> wf_pid f q.
Proof.
  intros (rb4 & rb6 & _ & _ & E) (i & r & ups & l & N).
  pose proof (exec_legal ov _ _ E (Forall_nil _)) as F. rewrite Forall_forall in F.
  apply (F (WStore f (CInsert q r ups))). apply in_map_iff. exists (WStore f (CInsert q r ups), l).
  split; [reflexivity|]. eapply nth_error_In. exact N.
Qed.

Lemma later_reach ov st x0 x : wreach ov st x0 -> wexec ov x0 x -> wreach ov st x.
Proof.
  intros (rb4 & rb6 & A & B & E) F. exists rb4, rb6. split; [exact A|]. split; [exact B|].
  eapply exec_trans; eauto.
Qed.

Lemma match_beside_public ov st f p o x0 n x r a : wreach ov st x0 -> wf_pid f p -> wf_mui (mo_mui o) ->
  matching ov f p o x0 n x (AtEnd (ROk r)) -> wwf_calls x -> In a (shown_by (AMatch (ROk r))) ->
  fst a = f /\ exists y, prefix_of_id f (snd a) = Ok y /\ public y /\ family (fst y) = f /\
    id_of_prefix f y = Ok (snd a).
Proof.
  intros R Wp Wm B W I.
  pose proof (later_reach ov st x0 x R (wbeside_exec _ _ _ _ _ _ _ _ B)) as Rx.
  assert (K : exists c, a = (f, c) /\ being_inserted x f c).
  { cbn [shown_by] in I. apply in_app_iff in I. destruct I as [I|I].
    - pose proof (match_main_sound ov st f p o x0 n x r R Wp Wm B W) as M. destruct (qr_prefix r) as [q|]; [|easy].
      destruct I as [->|[]]. destruct M as (_ & _ & c & E & _ & _ & _ & Bi & _). exists c. auto.
    - apply in_app_iff in I. destruct I as [I|I].
      + pose proof (match_less_sound ov st f p o x0 n x r R Wp Wm B W) as M. destruct (mo_less o).
        * destruct M as (rs & l & E & Il & _ & G). rewrite E in I. destruct (of_set_in rs l a Il I) as (v & Iv).
          destruct (G a v Iv) as (c & Ec & _ & _ & _ & Bi & _). exists c. auto.
        * rewrite M in I. destruct I.
      + pose proof (match_more_sound ov st f p o x0 n x r R Wp Wm B W) as M. destruct (mo_more o).
        * destruct M as (rs & l & E & Il & _ & G). rewrite E in I. destruct (of_set_in rs l a Il I) as (v & Iv).
          destruct (G a v Iv) as (c & Ec & _ & _ & _ & Bi & _). exists c. auto.
        * rewrite M in I. destruct I. }
  destruct K as (c & -> & Bi). split; [reflexivity|]. apply public_out. exact (inserted_wf ov st x f c Rx Bi).
Qed.

Lemma each_beside_public ov st f k x0 n x g a : wreach ov st x0 -> wf_each f k ->
  iterating ov f k x0 n x (ItEnd g) -> wwf_calls x -> In a (shown_by (AItems g)) ->
  fst a = f /\ exists y, prefix_of_id f (snd a) = Ok y /\ public y /\ family (fst y) = f /\
    id_of_prefix f y = Ok (snd a).
Proof.
  intros R Wk B W I.
  pose proof (later_reach ov st x0 x R (wbeside_exec _ _ _ _ _ _ _ _ B)) as Rx.
  destruct (each_sound ov st f k x0 n x g R Wk B W) as [_ G].
  cbn [shown_by] in I. apply in_flat_map in I. destruct I as (r & Ir & Ia).
  destruct (G r Ir) as (c & v & l & -> & _ & _ & Bi & _). destruct Ia as [<-|[]].
  split; [reflexivity|]. apply public_out. exact (inserted_wf ov st x f c Rx Bi).
Qed.
