(* What the theorems about stable storage are stated with. *)
From Coq Require Import Arith NArith List Bool.
From Verif Require Import Word Af Maps Tree MultiMap PrefixCht Lsm RecordSet Rib StarCast HistSpec PropSpec Durable.
Import ListNotations.
Local Open Scope N_scope.

Inductive devent : Type := DCall (o : op) | DFlush (io4 io6 : flush_io).

(* flush_active_memtable says that there is nothing only if there is nothing *)
Definition io_ok (io : flush_io) (rb : rib) (d : lsm) : Prop :=
  match io with FNone => match rb_lsm rb with Some l => l = d | None => True end | _ => True end.

(* the process after a history of calls and flushes, the latest first *)
Inductive lives (s : strategy) : list devent -> dstate -> Prop :=
| li_new st : new_with_config s = Ok st -> lives s [] (D st [] [])
| li_call es d o st' x : lives s es d -> wf_op o -> exec (d_st d) o = Ok (st', x) ->
    lives s (DCall o :: es) (D st' (d_v4 d) (d_v6 d))
| li_flush es d io4 io6 : lives s es d -> io_ok io4 (st_v4 (d_st d)) (d_v4 d) ->
    io_ok io6 (st_v6 (d_st d)) (d_v6 d) ->
    lives s (DFlush io4 io6 :: es) (fst (flush io4 io6 d)).

Definition calls_in (es : list devent) : list op :=
  flat_map (fun e => match e with DCall o => [o] | _ => [] end) es.

(* the records in a directory *)
Definition records_in (f : af) (l : lsm) : list (option (prefix * record)) :=
  List.map (fun kv => option_map (fun x => ((f, fst x), snd x)) (zc_record f (fst kv ++ snd kv))) l.
(* what is there after a crash *)
Definition survives (d : dstate) (p : prefix) (r : record) : Prop :=
  In (Some (p, r)) (records_in (fst p) match fst p with IPv4 => d_v4 d | IPv6 => d_v6 d end).

(* the crate wrote everything *)
Definition written (io : flush_io) : Prop := io = FNone \/ io = FSome true true.
