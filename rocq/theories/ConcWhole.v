(* The whole store under concurrent calls: the two address families of
   rib/starcast.rs:57-64 side by side, with the calls of ConcStore.v on each, and
   the global marks of a mui (rib/starcast.rs:713-784) as in ConcMarks.v.  The set
   of globally withdrawn muis is that of ConcMarks.v; the field t_withdrawn of the
   two trees is not used. *)
From Coq Require Import Arith NArith List Bool.
From Verif Require Import Word Af Maps Cht Tree MultiMap PrefixCht Lsm Rib StarCast HistSpec
  Conc ConcTree ConcStore ConcMarks.
Import ListNotations.
Local Open Scope N_scope.

Record wstate : Type := WState { w_v4 : sstate; w_v6 : sstate; w_m4 : gstate; w_m6 : gstate }.
Definition fam (s : wstate) (f : af) : sstate := match f with IPv4 => w_v4 s | IPv6 => w_v6 s end.
Definition marks (s : wstate) (f : af) : gstate := match f with IPv4 => w_m4 s | IPv6 => w_m6 s end.
Definition set_fam (s : wstate) (f : af) (x : sstate) : wstate :=
  match f with
  | IPv4 => WState x (w_v6 s) (w_m4 s) (w_m6 s)
  | IPv6 => WState (w_v4 s) x (w_m4 s) (w_m6 s)
  end.
Definition set_marks (s : wstate) (f : af) (x : gstate) : wstate :=
  match f with
  | IPv4 => WState (w_v4 s) (w_v6 s) x (w_m6 s)
  | IPv6 => WState (w_v4 s) (w_v6 s) (w_m4 s) x
  end.

(* a RIB with the given set behind tree_bitmap.withdrawn_muis_bmin *)
Definition with_marks (rb : rib) (bmin : nset) : rib :=
  set_tree rb (Tree (t_heap (rb_tree rb)) bmin (t_nodes (rb_tree rb)) (t_default (rb_tree rb))).
(* the store as the sequential code has it *)
Definition rib_now (s : wstate) (f : af) : rib := with_marks (ss_rib (fam s f)) (g_set (marks s f)).
Definition store_now (s : wstate) : store := Store (rib_now s IPv4) (rib_now s IPv6).

Inductive wcall : Type :=
| WStore (f : af) (c : scall)
| WGlobal (f : af) (withdrawn : bool) (mui : N) (* mark_mui_as_withdrawn_v4, _v6, mark_mui_as_active_v4, _v6 *)
| WBoth (mui : N).                              (* mark_mui_as_withdrawn, starcast.rs:774-784 *)

Inductive wpc : Type :=
| WRun (l : cpc)
(* get_value, rib/starcast_af_query.rs:33-84: the set of withdrawn muis is loaded
   first, as an argument (49 and 81); then the records are looked up, with
   PersistOnly on disk and in one step *)
| WAsk
| WLook (bmin : nset) (pc : ConcStore.gpc)
| WGot (r : result (option (list record)))
| WPanic
| WMark (g : ConcMarks.gpc)
| WMark2 (f : af) (g : ConcMarks.gpc). (* starcast.rs:780 for IPv4, then 781 for IPv6 *)

Definition wstart (c : wcall) : wpc :=
  match c with
  | WStore _ (CRecords _ _ _) => WAsk
  | WStore _ c => WRun (cstart c)
  | WGlobal _ _ _ => WMark GLoad
  | WBoth _ => WMark2 IPv4 GLoad
  end.

Definition wlook (f : af) (s : sstate) (p : pid) (mui : option N) (iw : bool) (bmin : nset)
    (pc : ConcStore.gpc) : wpc :=
  match rb_strat (ss_rib s) with
  | PersistOnly =>
    match rib_get_value f (with_marks (ss_rib s) bmin) p mui iw with
    | Ok r => WGot r
    | _ => WPanic
    end
  | _ =>
    match vstep f (ConcStore.set_rib s (with_marks (ss_rib s) bmin)) p mui iw pc with
    | Some (_, VDone o) => WGot (ROk o)
    | Some (_, VPanic) | None => WPanic
    | Some (_, pc') => WLook bmin pc'
    end
  end.

Definition wstep (ov : bool) (i : nat) (s : wstate) (c : wcall) (l : wpc) : option (wstate * wpc) :=
  match c, l with
  | WStore f c', WRun l' =>
    match ststep f ov i (fam s f) c' l' with
    | Some (x, l1) => Some (set_fam s f x, WRun l1)
    | None => None
    end
  | WStore f (CRecords p mui iw), WAsk => Some (s, WLook (g_set (marks s f)) VStart)
  | WStore f (CRecords p mui iw), WLook bmin pc => Some (s, wlook f (fam s f) p mui iw bmin pc)
  | WGlobal f wd mui, WMark g =>
    match gstep i (marks s f) (wd, mui) g with
    | Some (x, g') => Some (set_marks s f x, WMark g')
    | None => None
    end
  | WBoth mui, WMark2 f g =>
    match gstep i (marks s f) (true, mui) g with
    | Some (x, g') =>
      Some (set_marks s f x, match f, g' with IPv4, GDone => WMark2 IPv6 GLoad | _, _ => WMark2 f g' end)
    | None => None
    end
  | _, _ => None
  end.

Definition wlegal (c : wcall) : Prop :=
  match c with WStore f c => slegal f c | _ => True end.

Definition wexec (ov : bool) := exec wstart wlegal (wstep ov).
Definition wplay (ov : bool) := play wstart (wstep ov).
Definition wconf0 (rb4 rb6 : rib) : conf wstate wcall wpc :=
  Conf (WState (SState rb4 [] [] [] []) (SState rb6 [] [] [] []) ginit ginit) [].
