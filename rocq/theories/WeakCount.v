(* The counter of the routes in memory on a weak memory, beside the prefix table
   of WeakTable.v.

   upsert_prefix adds one to it, with a Relaxed fetch_add (types/stats.rs:176-178),
   when the critical section has replaced no record (prefix_cht/cht.rs:619-625 and
   658-662); routes_count, 172-174 and cht.rs:827, is a Relaxed load.  A fetch_add takes the last
   value in the order in which the counter changes, a load may take an old one, but
   none older than one that the thread knows: of its own fetch_adds and loads, and
   of those of the threads that it was told by.  The fetch_add and the end of the
   call are one step: the rest of the call is its thread's business.  What the lock
   of the records passes on is left out, which allows more. *)
From Coq Require Import Arith NArith List Bool.
From Verif Require Import Word Af BitSpan Maps ChtMath Cht MultiMap PrefixCht Conc ConcStore ConcTable WeakTable.
Import ListNotations.
Local Open Scope N_scope.

Record rthread : Type := RThread {
  rt_view : nat;                (* the latest value of the counter that it knows *)
  rt_got : option nat;          (* what it has just been given *)
  (* for the statements only: the routes whose counting happened before *)
  rt_past : list (pid * N)
}.
Record rconf : Type := RConf {
  rc_tab : aconf;
  rc_adds : list (nat * (pid * N));   (* the fetch_adds, of which thread for which route: their number is the counter *)
  rc_ths : list rthread               (* thread i is thread i of the table *)
}.

(* an upsert that is about to count a route *)
Definition new_route (t : athread) : option (pid * N) :=
  match at_run t with Some (p, AUp r, ADone _ (RUp _ None)) => Some (p, r_mui r) | _ => None end.

Inductive rstep (f : af) (x : rconf) : rconf -> Prop :=
| rs_spawn :
    rstep f x (RConf (AConf (ac_mem (rc_tab x)) (ac_ths (rc_tab x) ++ [AThread [] None [] [] 0]))
                     (rc_adds x) (rc_ths x ++ [RThread 0 None []]))
| rs_table i t m t' u : nth_error (ac_ths (rc_tab x)) i = Some t -> nth_error (rc_ths x) i = Some u ->
    atstep f i (ac_mem (rc_tab x)) t m t' -> new_route t = None \/ at_run t' <> None ->
    rstep f x (RConf (AConf m (set_nth i t' (ac_ths (rc_tab x)))) (rc_adds x)
                     (set_nth i (RThread (rt_view u) None (rt_past u)) (rc_ths x)))
| rs_count i t m t' u p mui : nth_error (ac_ths (rc_tab x)) i = Some t -> nth_error (rc_ths x) i = Some u ->
    atstep f i (ac_mem (rc_tab x)) t m t' -> new_route t = Some (p, mui) -> at_run t' = None ->
    rstep f x (RConf (AConf m (set_nth i t' (ac_ths (rc_tab x)))) (rc_adds x ++ [(i, (p, mui))])
                     (set_nth i (RThread (S (length (rc_adds x))) None ((p, mui) :: rt_past u)) (rc_ths x)))
| rs_load i t u k : nth_error (ac_ths (rc_tab x)) i = Some t -> nth_error (rc_ths x) i = Some u -> at_run t = None ->
    (rt_view u <= k <= length (rc_adds x))%nat ->
    rstep f x (RConf (rc_tab x) (rc_adds x) (set_nth i (RThread k (Some k) (rt_past u)) (rc_ths x)))
| rs_told i j ti tj ui uj : nth_error (ac_ths (rc_tab x)) i = Some ti -> nth_error (ac_ths (rc_tab x)) j = Some tj ->
    at_run ti = None -> at_run tj = None -> nth_error (rc_ths x) i = Some ui -> nth_error (rc_ths x) j = Some uj ->
    rstep f x (RConf (AConf (ac_mem (rc_tab x)) (set_nth j (atold ti tj) (ac_ths (rc_tab x)))) (rc_adds x)
                     (set_nth j (RThread (Nat.max (rt_view ui) (rt_view uj)) None (rt_past ui ++ rt_past uj)) (rc_ths x))).

Inductive rexec (f : af) (x : rconf) : rconf -> Prop :=
| re_here : rexec f x x
| re_step y z : rexec f x y -> rstep f y z -> rexec f x z.
Definition rreach (f : af) (x : rconf) : Prop := rexec f (RConf (AConf (TMem [] []) []) [] []) x.
