(** Specification only: a map whose updates may be lost to a concurrent erase of their key. *)
From Coq Require Import NArith Bool List.
From Verif Require Import Words MapSpec LinSpec.
Import ListNotations.
Open Scope N_scope.

Definition updates (o : mop) : bool :=
  match o with MUpdate _ _ _ | MUpdateB _ _ _ | MInsertOrUpdate _ _ _ _ => true | _ => false end.
Definition erases (o : mop) : bool := match o with MErase _ | MEraseIf _ _ => true | _ => false end.

(** What an update reports if it finds value [v]. *)
Definition reported (o : mop) (v : N) : N :=
  match o with MUpdate _ _ r | MUpdateB _ _ r | MInsertOrUpdate _ _ _ r => r v | _ => v end.

(** What a thread is doing; [hit]: its key has been erased since the call began. *)
Inductive wstat := WIdle | WPend (o : mop) (hit : bool) | WDone (r : mres).
Record wobj := WObj { wst : amap; wth : N -> wstat }.

(** The erasure of [k] as seen by the other calls. *)
Definition hits (r : mres) (k : N) (x : wstat) : wstat :=
  match r, x with
  | RErased, WPend o h => WPend o (h || (mop_key o =? k))
  | _, _ => x
  end.

(** As [astep] of [LinSpec].  In addition a call that updates a value, and whose key was
    erased meanwhile, may report success, as if on any value, and have no effect. *)
Inductive wstep (spec : amap -> mop -> amap -> mres -> Prop) : wobj -> option (event mop mres) -> wobj -> Prop :=
| w_inv m th t o :
    th t = WIdle -> wstep spec (WObj m th) (Some (EInv t o)) (WObj m (fupd th t (WPend o false)))
| w_lin m th t o h m' r :
    th t = WPend o h -> spec m o m' r ->
    wstep spec (WObj m th) None (WObj m' (fupd (fun u => hits r (mop_key o) (th u)) t (WDone r)))
| w_lost m th t o v :
    th t = WPend o true -> updates o = true ->
    wstep spec (WObj m th) None (WObj m (fupd th t (WDone (RUpdated (reported o v)))))
| w_ret m th t r :
    th t = WDone r -> wstep spec (WObj m th) (Some (ERet t r)) (WObj m (fupd th t WIdle)).

(** All calls happen at one moment, but for updates lost to a concurrent erase of their key. *)
Definition atomic_but_lost (spec : amap -> mop -> amap -> mres -> Prop) (tr : list (event mop mres)) : Prop :=
  exists w, lts_steps (wstep spec) (WObj amap_empty (fun _ => WIdle)) tr w.

(** *** Histories in which no update overlaps an erase of its key *)

(** The calls that have begun and not ended after a history. *)
Definition opened (th : N -> option mop) (e : event mop mres) : N -> option mop :=
  match e with EInv t o => fupd th t (Some o) | ERet t _ => fupd th t None end.
Definition open_after (tr : list (event mop mres)) : N -> option mop := fold_left opened tr (fun _ => None).

Definition no_overlap (tr : list (event mop mres)) : Prop :=
  forall tr1 tr2 t u o o', tr = tr1 ++ tr2 -> open_after tr1 t = Some o -> open_after tr1 u = Some o' ->
    updates o = true -> erases o' = true -> mop_key o <> mop_key o'.
