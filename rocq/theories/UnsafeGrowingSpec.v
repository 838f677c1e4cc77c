(** Specification only: unsafe updates on growing tables, used with care. *)
From Coq Require Import NArith Bool List.
From Verif Require Import Words Slot Mapper MapSpec LinSpec Base TableSpec Migrate Growing GrowingSpec Unsafe UnsafeGrowing.
Import ListNotations.
Open Scope N_scope.

(** While an unsafe update of a key is in progress, nobody else is in a call
    that can replace or remove the value of that key (as [UnsafeSpec.apart]). *)
Definition ug_apart (x : ugsys) : Prop :=
  forall u w o o' p p', u <> w -> gthr (fst x) u = Some (o, p) -> gthr (fst x) w = Some (o', p') ->
    snd x u <> UOff -> updating o' \/ erasing o' -> op_key o <> op_key o'.

(** Synchronised growing (GrowingSpec.v), used with that care. *)
Definition ug_sync_step (c : tcfg) (B : N) (client : call -> Prop)
  (x : ugsys) (l : option (event mop mres)) (x' : ugsys) : Prop :=
  ug_step c B client x l x' /\ exclusive (fst x') /\ room c (fst x) (fst x') /\ ug_apart x /\ ug_apart x'.
