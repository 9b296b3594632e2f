(* Properties of what is on stable storage. *)
From Coq Require Import Arith NArith List Bool Lia.
From Verif Require Import Word Af Maps Tree MultiMap PrefixCht Lsm RecordSet Rib StarCast HistSpec PropSpec
  Durable DurableSpec DurableFacts DurableDemo Examples.
Import ListNotations.
Local Open Scope N_scope.

(* ---------- C36: PersistOnly: local marks work on the latest record ---------- *)

(* the record that a mark looks up is the latest one; an error stands for None *)
Theorem C36_latest : forall f l id mui,
  (forall k v, In (k, v) l -> is_prefix (short_key f id mui) k = true -> key_header f (k ++ v) <> None) ->
  match most_recent_record_for_prefix_mui f l id mui with
  | None => forall k v, In (k, v) l -> is_prefix (short_key f id mui) k = false
  | Some b => exists k v h i, In (k, v) l /\ is_prefix (short_key f id mui) k = true /\ b = k ++ v /\
      zc_record f b = Some (i, h) /\
      forall k' v' i' h', In (k', v') l -> is_prefix (short_key f id mui) k' = true ->
        zc_record f (k' ++ v') = Some (i', h') -> r_ltime h' <= r_ltime h
  end.
Proof. exact most_recent_ok. Qed.
Print Assumptions C36_latest.

Definition C36_records : lsm := kv_insert (long_key IPv4 (snd some8) 1 5 Active) []
  (kv_insert (long_key IPv4 (snd some8) 1 9 Active) [] (kv_insert (long_key IPv4 (snd some8) 1 7 Active) [] [])).
Example C36_latest_example :
  (forall k v, In (k, v) C36_records -> is_prefix (short_key IPv4 (snd some8) 1) k = true ->
     key_header IPv4 (k ++ v) <> None) /\
  most_recent_record_for_prefix_mui IPv4 C36_records (snd some8) 1 =
    Some (long_key IPv4 (snd some8) 1 9 Active).
Proof.
  split; [|vm_compute; reflexivity]. intros k v I _. vm_compute in I.
  destruct I as [I|[I|[I|[]]]]; injection I as <- <-; vm_compute; discriminate.
Qed.

(* ---------- C74: flush_to_disk that succeeds has made everything durable ---------- *)

(* an error of flush_active_memtable is dropped *)
Theorem C74_flush_refuted :
  ~ (forall s es d io4 io6, lives s es d ->
     io_ok io4 (st_v4 (d_st d)) (d_v4 d) -> io_ok io6 (st_v6 (d_st d)) (d_v6 d) ->
     snd (flush io4 io6 d) = ROk tt ->
     forall p r, on_disk (d_st d) p r -> survives (fst (flush io4 io6 d)) p r).
Proof. exact flush_lies. Qed.
Print Assumptions C74_flush_refuted.

(* it has if the crate could write the memory tables *)
Theorem C74_flush_partial : forall s es d io4 io6,
  lives s es d ->
  io_ok io4 (st_v4 (d_st d)) (d_v4 d) -> io_ok io6 (st_v6 (d_st d)) (d_v6 d) ->
  io4 <> FErr -> io6 <> FErr -> snd (flush io4 io6 d) = ROk tt ->
  forall p r, survives (fst (flush io4 io6 d)) p r <-> on_disk (d_st d) p r.
Proof. exact flush_durable. Qed.
Print Assumptions C74_flush_partial.

(* and if all goes well the answer is that of C62 *)
Theorem C74_answer : forall s es d io4 io6,
  lives s es d -> written io4 -> written io6 ->
  snd (flush io4 io6 d) = flush_to_disk (d_st d).
Proof. exact flush_answer. Qed.
Print Assumptions C74_answer.

(* what was registered stays, also when an error is reported after that *)
Theorem C74_registered : forall s es d io4 io6 c,
  lives s es d ->
  (io4 = FSome true c -> forall p r, fst p = IPv4 -> on_disk (d_st d) p r ->
     survives (fst (flush io4 io6 d)) p r) /\
  (written io4 -> io6 = FSome true c -> forall p r, fst p = IPv6 -> on_disk (d_st d) p r ->
     survives (fst (flush io4 io6 d)) p r).
Proof. exact flush_registered. Qed.
Print Assumptions C74_registered.

(* and nothing else comes from a flush, whatever the crate does *)
Theorem C74_nothing_new : forall s es d io4 io6 p r,
  lives s es d -> survives (fst (flush io4 io6 d)) p r ->
  survives d p r \/ on_disk (d_st d) p r.
Proof. exact flush_nothing_new. Qed.
Print Assumptions C74_nothing_new.

(* the errors that are reported *)
Theorem C74_error : forall s es d io4 io6 e,
  lives s es d -> s <> MemoryOnly ->
  snd (flush io4 io6 d) = RErr e ->
  e = PersistFailed /\ exists reg comp, (io4 = FSome reg comp \/ io6 = FSome reg comp) /\ reg && comp = false.
Proof. exact flush_error. Qed.
Print Assumptions C74_error.

Example C74_registered_example : let d := lived WriteAhead two_inserts in
  snd (flush (FSome true false) FErr d) = RErr PersistFailed /\ on_disk (d_st d) some8 (act 1 1 [1]) /\
  survives (fst (flush (FSome true false) FErr d)) some8 (act 1 1 [1]).
Proof. cbv zeta. split; [vm_compute; reflexivity|]. split; vm_compute; auto. Qed.
Example C74_example : let d := lived WriteAhead two_inserts in
  lives WriteAhead two_inserts d /\ snd (flush (FSome true true) (FSome true true) d) = ROk tt /\
  survives (fst (flush (FSome true true) (FSome true true) d)) some32 (act 2 1 [2]) /\
  snd (flush (FSome true false) (FSome true true) d) = RErr PersistFailed /\
  snd (flush FErr FErr d) = ROk tt /\ d_v4 (fst (flush FErr FErr d)) = [].
Proof.
  cbv zeta. split; [living|]. split; [vm_compute; reflexivity|]. split; [vm_compute; left; reflexivity|].
  repeat split; vm_compute; reflexivity.
Qed.

(* ---------- C75: WriteAhead: what an insert has reported survives a crash ---------- *)

(* it is in a memory table until the next flush *)
Theorem C75_crash_refuted :
  ~ (forall es d p r u st' rep, lives WriteAhead es d -> wf_op (Insert p r u) ->
     exec (d_st d) (Insert p r u) = Ok (st', OReport (ROk rep)) ->
     survives (D st' (d_v4 d) (d_v6 d)) p r).
Proof. exact insert_lost. Qed.
Print Assumptions C75_crash_refuted.

(* it survives once a flush could write everything *)
Theorem C75_crash_partial : forall es2 io4 io6 es1 d p r u h1 h2,
  lives WriteAhead (es2 ++ DFlush io4 io6 :: es1) d -> written io4 -> written io6 ->
  calls_in es1 = h1 ++ Insert p r u :: h2 ->
  (forall r' u', In (Insert p r' u') (calls_in es2 ++ h1) -> key_of r' <> key_of r) ->
  survives d p r.
Proof. exact write_ahead_survives. Qed.
Print Assumptions C75_crash_partial.

(* and nothing survives that was not inserted *)
Theorem C75_survivors : forall es d p r,
  lives WriteAhead es d -> survives d p r ->
  exists u, In (Insert p r u) (calls_in es).
Proof. exact write_ahead_survivors. Qed.
Print Assumptions C75_survivors.

Definition C75_history : list devent :=
  [DCall (Insert some8 (act 1 2 [3]) None)] ++ DFlush (FSome true true) (FSome true true) :: two_inserts.
Example C75_example : let d := lived WriteAhead C75_history in
  lives WriteAhead C75_history d /\ survives d some8 (act 1 1 [1]) /\ survives d some32 (act 2 1 [2]) /\
  ~ survives d some8 (act 1 2 [3]) /\ on_disk (d_st d) some8 (act 1 2 [3]).
Proof.
  cbv zeta. split; [living|]. split; [vm_compute; left; reflexivity|]. split; [vm_compute; left; reflexivity|].
  split; [vm_compute; intros [E|[]]; discriminate E|]. vm_compute. right. left. reflexivity.
Qed.

(* ---------- C76: a new store with the same configuration finds what was persisted ---------- *)

(* every store makes a directory of its own *)
Theorem C76_reopen_refuted :
  ~ (forall s fs u1 u2 st p r, open s fs u2 = Ok st ->
     In (Some (p, r)) (records_in (fst p) (dir fs (u1, fst p))) -> on_disk st p r).
Proof. exact next_process_starts_empty. Qed.
Print Assumptions C76_reopen_refuted.

(* so it is always the empty store, whatever is on disk *)
Theorem C76_fresh_partial : forall s fs uuid,
  (forall f, dir fs (uuid, f) = []) -> open s fs uuid = new_with_config s.
Proof. exact open_fresh. Qed.
Print Assumptions C76_fresh_partial.

(* only a store that draws the same characters finds it *)
Theorem C76_same_partial : forall s fs uuid st p r,
  open s fs uuid = Ok st -> s <> MemoryOnly ->
  (on_disk st p r <-> In (Some (p, r)) (records_in (fst p) (dir fs (uuid, fst p)))).
Proof. exact open_same. Qed.
Print Assumptions C76_same_partial.

Example C76_same_example :
  In (Some (some8, act 1 1 [1])) (records_in IPv4 (dir left_behind ([97], IPv4))) /\
  match open WriteAhead left_behind [97] with
  | Ok st => on_disk st some8 (act 1 1 [1])
  | _ => False
  end.
Proof. split; vm_compute; left; reflexivity. Qed.
Example C76_example :
  In (Some (some8, act 1 1 [1])) (records_in IPv4 (dir left_behind ([97], IPv4))) /\
  (forall f, dir left_behind ([98], f) = []) /\
  match open WriteAhead left_behind [98] with
  | Ok st => get_records_for_prefix st some8 None true = Ok (ROk None) /\
             rb_lsm (st_v4 st) = Some []
  | _ => False
  end.
Proof.
  split; [vm_compute; left; reflexivity|]. split; [intros []; vm_compute; reflexivity|].
  vm_compute. split; reflexivity.
Qed.
