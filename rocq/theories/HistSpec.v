(** Specification only: vocabulary for statements about histories of calls on a
    map (lists of invocation and response events). *)
From Coq Require Import NArith Bool List.
From Verif Require Import Words MapSpec LinSpec.
Import ListNotations.
Open Scope N_scope.

Definition ev := event mop mres.

(** The thread of an event. *)
Definition ev_tid (e : ev) : N := match e with EInv t _ => t | ERet t _ => t end.

(** The call each thread has in progress, after one event / a history. *)
Definition pend1 (p : N -> option mop) (e : ev) : N -> option mop :=
  match e with EInv t o => fupd p t (Some o) | ERet t _ => fupd p t None end.
Definition pending (tr : list ev) : N -> option mop := fold_left pend1 tr (fun _ => None).

(** Calls that can remove key [k]. *)
Definition erases (k : N) (o : mop) : Prop :=
  match o with MErase k' | MEraseIf k' _ => k' = k | _ => False end.

(** Calls that can change the value of key [k]. *)
Definition updates (k : N) (o : mop) : Prop :=
  match o with MUpdate k' _ _ | MUpdateB k' _ _ | MInsertOrUpdate k' _ _ _ => k' = k | _ => False end.

(** Calls that add [k] if it is absent, with value [d]. *)
Definition inserts (k d : N) (o : mop) : Prop :=
  match o with MInsert k' d' | MInsertOrUpdate k' d' _ _ => k' = k /\ d' = d | _ => False end.

(** The calls invoked in a history. *)
Definition invoked (tr : list ev) (o : mop) : Prop := exists t, In (EInv t o) tr.

(** Counting calls on key [k]: additive updates, and insert_or_update calls whose
    insert value is the amount they add; besides that only lookups. *)
Definition counting (k : N) (o : mop) : Prop :=
  match o with
  | MFind _ => True
  | MUpdate k' f _ | MUpdateB k' f _ => k' = k -> forall v, f v = v + f 0
  | MInsertOrUpdate k' d f _ => k' = k -> d = f 0 /\ forall v, f v = v + f 0
  | MInsert k' _ | MErase k' | MEraseIf k' _ => k' <> k
  end.
Definition amount (o : mop) : N :=
  match o with
  | MUpdate _ f _ | MUpdateB _ f _ | MInsertOrUpdate _ _ f _ => f 0
  | _ => 0
  end.
Definition acknowledged (r : mres) : bool :=
  match r with RInserted | RUpdated _ => true | _ => false end.

(** Total amount of the acknowledged counting calls on [k] in a history. *)
Fixpoint acked_from (k : N) (p : N -> option mop) (tr : list ev) : N :=
  match tr with
  | [] => 0
  | e :: tr =>
      match e with
      | ERet t r =>
          match p t with
          | Some o => if (mop_key o =? k) && acknowledged r then amount o else 0
          | None => 0
          end
      | EInv _ _ => 0
      end + acked_from k (pend1 p e) tr
  end.
Definition acked (k : N) (tr : list ev) : N := acked_from k (fun _ => None) tr.

(** Calls that may add a key, and their number in a history. *)
Definition adds_op (o : mop) : bool :=
  match o with MInsert _ _ | MInsertOrUpdate _ _ _ _ => true | _ => false end.
Fixpoint adds (tr : list ev) : nat :=
  match tr with
  | [] => O
  | EInv _ o :: tr => (if adds_op o then 1 else 0) + adds tr
  | _ :: tr => adds tr
  end%nat.
