(** Specification only: growing tables used through one handle. *)
From Coq Require Import NArith ZArith Bool List.
From Verif Require Import Words Slot Mapper MapSpec LinSpec Base TableSpec Growing GrowOom OneHandle.
Import ListNotations.
Open Scope N_scope.

(** Whatever happens from [s] on, after finitely many steps the call in progress
    returns [r]. *)
Inductive will_return {St : Type} (step : St -> option (event mop mres) -> St -> Prop) (r : mres) : St -> Prop :=
| wr_now s :
    (exists s', step s (Some (ERet 0 r)) s') ->
    (forall l s', step s l s' -> l = Some (ERet 0 r)) -> will_return step r s
| wr_later s :
    (exists s', step s None s') ->
    (forall l s', step s l s' -> l = None /\ will_return step r s') -> will_return step r s.

(** The table has counted exactly as many elements as its limit says. *)
Definition at_limit (c : tcfg) (s : hsys) : Prop := hs_el s = limit c (hs_g s).

(** Executions that never have a table at its limit. *)
Definition off_limit_step (c : tcfg) (B : N) (bo : bool) (client : op -> Prop)
  (s : hsys) (l : option (event mop mres)) (s' : hsys) : Prop :=
  one_step c B bo client s l s' /\ ~ at_limit c s'.

(** Calls that a user may make: legal keys, functions with consistent variants. *)
Definition legal (sc : scfg) (client : op -> Prop) : Prop := forall o, client o -> admissible sc o.
