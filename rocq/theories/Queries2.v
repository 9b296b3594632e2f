(* What the other queries of one address family return: match_prefix, path
   selection, counters and the records on disk. *)
From Coq Require Import Arith NArith List Bool Lia.
From Verif Require Import Word Af BitSpan Spec Maps Cht Tree TreeProofs Iter IterProofs MultiMap
  PrefixCht PrefixChtProofs Lsm LsmProofs RecordSet Rib StarCast HistSpec Ask PropSpec RibProofs RibLsm RibOk
  Queries.
Import ListNotations.
Local Open Scope N_scope.

Lemma collect_r_map {A} (l : list A) : collect_r (List.map ROk l) = ROk l.
Proof. induction l as [|a l IH]; simpl; auto. now rewrite IH. Qed.

Section Q.
Context (s : strategy) (f : af) (h : list op) (rb : rib).
Hypothesis Wh : wf_history h.
Hypothesis R : rib_ans s f h rb.

Lemma map_res_map {A B C} (g : B -> res C) (k : A -> B) l :
  map_res g (List.map k l) = map_res (fun x => g (k x)) l.
Proof. induction l as [|a l IH]; simpl; auto. now rewrite IH. Qed.

Lemma fill_set_ok (D : prefix -> Prop) L o : wf_mui (mo_mui o) -> NoDup L ->
  (forall q, In q L -> D (f, q)) -> (forall p, D p -> exists q, p = (f, q) /\ In q L) ->
  Forall (wf_pid f) L ->
  exists rs l, fill_set f rb o (Some (rs_from_iter (List.map (fun p => ((f, p), [])) L))) =
      Ok (ROk (Some rs)) /\
    rs_items rs = Ok l /\ gives D (fun p => view s h p (mo_mui o) (mo_withdrawn o)) l.
Proof.
  intros Wm ND DL LD W. unfold fill_set.
  rewrite (rs_items_family f).
  2:{ intros x I. apply in_map_iff in I. destruct I as [q [<- _]]. reflexivity. }
  cbn [bind]. rewrite map_res_map. cbn [fst snd].
  destruct (items_ok s f h rb Wh R L (mo_mui o) (mo_withdrawn o) Wm W)
    as (items & l & g & A & B & C & E & F).
  change (fun x : pid => item_for f rb (mo_mui o) (mo_withdrawn o) x)
    with (item_for f rb (mo_mui o) (mo_withdrawn o)).
  rewrite A. cbn [bind]. rewrite B, collect_r_map.
  eexists _, l. split; [reflexivity|]. split.
  - apply (rs_items_family f). intros x I. apply (in_map (@fst prefix (list record))) in I.
    rewrite C in I. apply in_map_iff in I. destruct I as [q [Q _]].
    destruct x as [[g' y] z]. simpl in *. now inversion Q.
  - now apply (gives_of f D L _ l g).
Qed.

(* everything match_prefix returns *)
Theorem rib_match_ok id o : wf_pid f id -> wf_mui (mo_mui o) ->
  exists q, rib_match_prefix f rb id o = Ok (ROk q) /\
    (exists c, (match mo_type o with
                | ExactMatch => exact_match h (f, id) c
                | _ => longest_match h (f, id) c
                end) /\
       match c with
       | None => qr_type q = EmptyMatch /\ qr_prefix q = None /\ qr_records q = []
       | Some c =>
         exists a, answers (view s h c (mo_mui o) (mo_withdrawn o)) a /\
           match a with
           | None => qr_type q = EmptyMatch /\ qr_prefix q = None /\ qr_records q = []
           | Some rs =>
             qr_type q = match mo_type o with ExactMatch => ExactMatch | _ => LongestMatch end /\
             qr_prefix q = Some c /\ qr_records q = rs
           end
       end) /\
    (if mo_less o then
       exists rs l, qr_less q = Some rs /\ rs_items rs = Ok l /\
         gives (fun q => listed h q /\ pless q (f, id))
           (fun p => view s h p (mo_mui o) (mo_withdrawn o)) l
     else qr_less q = None) /\
    (if mo_more o then
       exists rs l, qr_more q = Some rs /\ rs_items rs = Ok l /\
         gives (fun q => listed h q /\ pcovers (f, id) q /\ q <> (f, id))
           (fun p => view s h p (mo_mui o) (mo_withdrawn o)) l
     else qr_more q = None).
Proof.
  intros W Wm. unfold rib_match_prefix, tree_match_prefix.
  destruct (rib_longest_ok s f h rb Wh R id W) as [lm [E0 Lm]]. rewrite E0. cbn [bind].
  (* the prefix *)
  set (sel := match mo_type o with
              | ExactMatch => match lm with
                              | Some q => if pid_eqb q id then (lm, ExactMatch) else (None, EmptyMatch)
                              | None => (None, EmptyMatch) end
              | _ => (lm, LongestMatch) end).
  assert (Sel : (match mo_type o with
                | ExactMatch => exact_match h (f, id) (option_map (fun q => (f, q)) (fst sel))
                | _ => longest_match h (f, id) (option_map (fun q => (f, q)) (fst sel))
                end) /\
     (fst sel <> None -> snd sel = match mo_type o with ExactMatch => ExactMatch | _ => LongestMatch end)).
  { assert (Ll : longest_match h (f, id) (option_map (fun q => (f, q)) lm)).
    { destruct lm as [q|]; simpl in *.
      - destruct Lm as (A & B & C). split; auto. split; [split; auto|].
        intros [f' q'] Lq [Ef C']. simpl in *. subst f'. auto.
      - intros [f' q'] Lq [Ef C']. simpl in *. subst f'. now apply (Lm q'). }
    unfold sel. destruct (mo_type o); simpl; try (split; [exact Ll|easy]).
    pose proof (longest_self f h Wh id lm W Lm) as Se.
    destruct lm as [q|]; simpl.
    - destruct (pid_eqb q id) eqn:P; simpl.
      + apply pid_eqb_spec in P. subst q. split; [|easy]. split; auto. now apply Se.
      + split; [|easy]. intros Li. apply Se in Li. inversion Li. subst.
        now rewrite pid_eqb_refl in P.
    - split; [|easy]. intros Li. apply Se in Li. discriminate. }
  destruct Sel as [Sel Ty].
  assert (Wsel : match fst sel with Some c => wf_pid f c | None => True end).
  { destruct (fst sel) as [c|]; auto. simpl in Sel.
    assert (listed h (f, c)) as Lc.
    { destruct (mo_type o); try apply Sel. destruct Sel as [E ?]. now rewrite E. }
    now apply (listed_wf f h Wh). }
  (* the sets *)
  destruct (rib_less_ok s f h rb Wh R id W) as [Ls [El [Nl Il]]].
  destruct (rib_more_ok s f h rb Wh R id W) as [Ms [Em [Nm Im]]].
  assert (Lt : (do ls <- (if mo_less o then do l <- less_specifics f (rb_tree rb) id; Ok (Some l)
                else Ok None); Ok ls) = Ok (if mo_less o then Some Ls else None)).
  { destruct (mo_less o); [now rewrite El|easy]. }
  assert (Mt : (do ms <- (if mo_more o then
                  do l <- more_specifics f (rb_tree rb) id;
                  Ok (Some (filter (fun q => negb (pid_eqb q id)) l))
                else Ok None); Ok ms) =
               Ok (if mo_more o then Some (filter (fun q => negb (pid_eqb q id)) Ms) else None)).
  { destruct (mo_more o); [now rewrite Em|easy]. }
  fold sel. destruct sel as [pfx mt]. cbn [fst snd] in Sel, Ty, Wsel.
  assert (Bi : forall A (x : res A), (do y <- x; Ok y) = x) by (intros A []; reflexivity).
  rewrite Bi in Lt, Mt. rewrite Lt. cbn [bind]. rewrite Mt. cbn [bind].
  unfold query_of_tree. cbn [tr_type tr_prefix tr_less tr_more qr_prefix qr_type qr_records qr_less qr_more].
  (* the records *)
  assert (Rec : exists recs, (match option_map (fun p => (f, p)) pfx with
      | Some p => do v <- rib_get_value f rb (snd p) (mo_mui o) (mo_withdrawn o);
                  Ok match v with ROk (Some (x :: l)) => Some (x :: l) | _ => None end
      | None => Ok None end) = Ok recs /\
      match pfx with
      | None => recs = None
      | Some c => answers (view s h (f, c) (mo_mui o) (mo_withdrawn o)) recs
      end).
  { destruct pfx as [c|]; [|now exists None]. cbn [option_map snd].
    destruct (rib_value_ok s f h rb Wh R c (mo_mui o) (mo_withdrawn o) Wsel Wm) as [a [V An]].
    rewrite V. cbn [bind]. exists a. split; [|exact An].
    destruct a as [[|x l]|]; auto. destruct An as [An _]. now elim An. }
  destruct Rec as [recs [Er Rr]]. 
  match goal with |- context [bind ?X _] => replace X with (Ok recs) by (symmetry; exact Er) end.
  cbn [bind].
  set (q1 := match recs with Some m => _ | None => _ end).
  assert (Q1l : qr_less q1 = option_map (fun l => rs_from_iter (List.map (fun p => ((f, p), [])) l))
                   (if mo_less o then Some Ls else None)) by (unfold q1; now destruct recs).
  assert (Q1m : qr_more q1 = option_map (fun l => rs_from_iter (List.map (fun p => ((f, p), [])) l))
                   (if mo_more o then Some (filter (fun q => negb (pid_eqb q id)) Ms) else None))
    by (unfold q1; now destruct recs).
  rewrite Q1l, Q1m.
  assert (Mf : exists ms, (if mo_more o
      then fill_set f rb o (option_map (fun l => rs_from_iter (List.map (fun p => ((f, p), [])) l))
                   (if mo_more o then Some (filter (fun q => negb (pid_eqb q id)) Ms) else None))
      else Ok (ROk (option_map (fun l => rs_from_iter (List.map (fun p => ((f, p), [])) l))
                   (if mo_more o then Some (filter (fun q => negb (pid_eqb q id)) Ms) else None)))) =
      Ok (ROk ms) /\
    if mo_more o then
       exists rs l, ms = Some rs /\ rs_items rs = Ok l /\
         gives (fun q => listed h q /\ pcovers (f, id) q /\ q <> (f, id))
           (fun p => view s h p (mo_mui o) (mo_withdrawn o)) l
     else ms = None).
  { destruct (mo_more o); [|now exists None].
    destruct (fill_set_ok (fun q => listed h q /\ pcovers (f, id) q /\ q <> (f, id))
                (filter (fun q => negb (pid_eqb q id)) Ms) o Wm)
      as (rs & l & A & B & C).
    - now apply NoDup_filter.
    - intros q Q. apply filter_In in Q. destruct Q as [Q1 Q2]. apply Im in Q1.
      destruct Q1 as (A & B & C). split; auto. split; [now split|].
      intros E. inversion E. subst. now rewrite pid_eqb_refl in Q2.
    - intros [f' q] (A & [Ef B] & C). simpl in *. subst f'. exists q. split; auto.
      apply filter_In. assert (q <> id) as Nq by congruence. split.
      + apply Im. split; auto. split; auto.
        pose proof (listed_wf f h Wh _ A) as Wq.
        pose proof B as B'. apply covers_trunc in B'; auto. destruct B' as [B1 B2].
        destruct (N.lt_ge_cases (p_len id) (BITS f)) as [|Ge]; auto.
        elim Nq. destruct Wq as (a & b & c). destruct W as (a' & b' & c').
        assert (p_len id = p_len q) as El' by lia.
        rewrite B2, El'. rewrite trunc_id by auto. now destruct q.
      + now rewrite pid_eqb_neq.
    - apply Forall_forall. intros q Q. apply filter_In in Q. destruct Q as [Q _].
      apply Im in Q. now apply (listed_wf f h Wh).
    - cbn [option_map]. rewrite A. exists (Some rs). split; auto. now exists rs, l. }
  destruct Mf as [ms [Emf Mf]]. 
  match goal with |- context [bind ?X _] => replace X with (Ok (ROk ms)) by (symmetry; exact Emf) end.
  cbn [bind].
  assert (Lf : exists ls, (if mo_less o
      then fill_set f rb o (option_map (fun l => rs_from_iter (List.map (fun p => ((f, p), [])) l))
                   (if mo_less o then Some Ls else None))
      else Ok (ROk (option_map (fun l => rs_from_iter (List.map (fun p => ((f, p), [])) l))
                   (if mo_less o then Some Ls else None)))) =
      Ok (ROk ls) /\
    if mo_less o then
       exists rs l, ls = Some rs /\ rs_items rs = Ok l /\
         gives (fun q => listed h q /\ pless q (f, id))
           (fun p => view s h p (mo_mui o) (mo_withdrawn o)) l
     else ls = None).
  { destruct (mo_less o); [|now exists None].
    destruct (fill_set_ok (fun q => listed h q /\ pless q (f, id)) Ls o Wm)
      as (rs & l & A & B & C).
    - now apply len_desc_NoDup.
    - intros q Q. apply Il in Q. destruct Q as (A & B & C). split; auto. split; auto. now split.
    - intros [f' q] (A & [Ef B] & C). simpl in *. subst f'. exists q. split; auto.
      apply Il. split; auto. now split.
    - apply Forall_forall. intros q Q. apply Il in Q. now apply (listed_wf f h Wh).
    - cbn [option_map]. rewrite A. exists (Some rs). split; auto. now exists rs, l. }
  destruct Lf as [ls [Elf Lf]]. 
  match goal with |- context [bind ?X _] => replace X with (Ok (ROk ls)) by (symmetry; exact Elf) end.
  cbn [bind].
  eexists. split; [reflexivity|]. cbn [qr_type qr_prefix qr_records qr_less qr_more].
  split; [|now split].
  exists (option_map (fun q => (f, q)) pfx). split; auto.
  unfold q1. destruct pfx as [c|]; cbn [option_map].
  - exists recs. split; [exact Rr|]. destruct recs; cbn [qr_type qr_prefix qr_records]; auto.
    split; auto. apply Ty. discriminate.
  - rewrite Rr. auto.
Qed.

End Q.

(* ---------- path selection ---------- *)

Section P.
Context (s : strategy) (f : af) (h : list op) (rb : rib).
Hypothesis Wh : wf_history h.
Hypothesis R : rib_ok s f h rb.


Theorem rib_best_path_ok id : wf_pid f id ->
  exists x, rib_best_path f rb id = Ok x /\
    match x with
    | None => s = PersistOnly \/ touched h (f, id) = false
    | Some y => s <> PersistOnly /\ touched h (f, id) = true /\
        exists sel, selected h (f, id) sel /\
          y = match fst sel with
              | None => RErr BestPathNotFound
              | Some m => match view_local h (f, id) m with
                          | Some r => ROk r
                          | None => RErr StoreNotReadyError
                          end
              end
    end.
Proof.
  intros W. destruct R as [St Tr Cn Me Ls]. unfold rib_best_path.
  destruct (match s with PersistOnly => true | _ => false end) eqn:Es.
  - assert (s = PersistOnly) as Eq by (destruct s; easy). rewrite Eq in Me.
    rewrite Me, retrieve_empty by auto. exists None. auto.
  - assert (M : mem_rel f h (rb_pcht rb)) by (destruct s; easy).
    assert (s <> PersistOnly) as Ns by (intros ->; discriminate).
    pose proof (retrieve_prefix_ok f _ id (ml_inv _ _ _ M) W) as P.
    pose proof (ml_pfxs _ _ _ M id W) as Q.
    destruct (retrieve_prefix f (pc_heap (rb_pcht rb)) id) as [[[k e]|]| |]; try easy; cbn [bind].
    + destruct P as (_ & _ & P). rewrite P in Q. destruct Q as [T V].
      eexists. split; [reflexivity|]. split; auto. split; auto.
      exists (pv_sel (e_val e)). split; [apply V|].
      destruct (fst (pv_sel (e_val e))) as [m|]; auto.
      unfold get_record_for_mui, view_local. rewrite (vr_recs _ _ _ V).
      destruct (last_rec h (f, id) m) as [r|] eqn:E; cbn [option_map]; auto.
      simpl. destruct (status_eqb (r_status r) Active); auto.
      now rewrite (record_of_last h (f, id)).
    + rewrite P in Q. exists None. auto.
Qed.

Theorem rib_is_ps_outdated_ok id : wf_pid f id ->
  exists x, rib_is_ps_outdated f rb id = Ok x /\
    match x with
    | RErr e => e = StoreNotReadyError /\ (s = PersistOnly \/ touched h (f, id) = false)
    | ROk b => s <> PersistOnly /\ touched h (f, id) = true /\ outdated h (f, id) b
    end.
Proof.
  intros W. destruct R as [St Tr Cn Me Ls]. unfold rib_is_ps_outdated.
  destruct (match s with PersistOnly => true | _ => false end) eqn:Es.
  - assert (s = PersistOnly) as Eq by (destruct s; easy). rewrite Eq in Me.
    rewrite Me, retrieve_empty by auto. eexists. split; [reflexivity|]. split; auto.
  - assert (M : mem_rel f h (rb_pcht rb)) by (destruct s; easy).
    assert (s <> PersistOnly) as Ns by (intros ->; discriminate).
    pose proof (retrieve_prefix_ok f _ id (ml_inv _ _ _ M) W) as P.
    pose proof (ml_pfxs _ _ _ M id W) as Q.
    destruct (retrieve_prefix f (pc_heap (rb_pcht rb)) id) as [[[k e]|]| |]; try easy; cbn [bind].
    + destruct P as (_ & _ & P). rewrite P in Q. destruct Q as [T V].
      eexists. split; [reflexivity|]. split; auto. split; auto. apply V.
    + rewrite P in Q. eexists. split; [reflexivity|]. split; auto.
Qed.

(* ---------- counters ---------- *)

Theorem rib_prefixes_count_ok :
  rib_prefixes_count rb =
  UCounters (match s with PersistOnly => 0 | _ => n_fresh f h end) 0 (n_prefixes f h).
Proof.
  destruct R as [St Tr Cn Me Ls]. unfold rib_prefixes_count.
  rewrite (cl_sum _ _ _ Cn). f_equal.
  unfold pc_prefixes_count. destruct s; try apply Me. now rewrite Me.
Qed.

Theorem rib_routes_total_ok : uc_total (rib_routes_count rb) = n_inserts f h.
Proof. apply R. Qed.

Theorem rib_count_for_len_ok len :
  rib_prefixes_count_for_len f rb len =
  Ok (if len <=? BITS f then ROk (UCounters 0 0 (n_prefixes_len f h len))
      else RErr PrefixLengthInvalid).
Proof.
  destruct R as [St Tr Cn Me Ls]. unfold rib_prefixes_count_for_len, tree_prefixes_count_for_len.
  destruct (N.leb_spec len (BITS f)) as [Le|]; auto.
  rewrite (nth_error_nth' _ 0).
  - now rewrite (cl_nth _ _ _ Cn).
  - rewrite (cl_len _ _ _ Cn). pose proof (BITS_le f). lia.
Qed.

End P.
