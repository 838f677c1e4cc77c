(** Specification only: growing tables whose handles come and go. *)
From Coq Require Import NArith ZArith Bool List.
From Verif Require Import Words Slot Mapper MapSpec LinSpec Base TableSpec Growing GrowOom OneHandle OneHandleSpec ManyHandles HandleLife.
Import ListNotations.
Open Scope N_scope.

(** Whatever happens from [s] on, after finitely many steps, none of which is visible, [Q] holds. *)
Inductive will_be {St Ev : Type} (step : St -> option Ev -> St -> Prop) (Q : St -> Prop) (s : St) : Prop :=
| wb_now : Q s -> will_be step Q s
| wb_later :
    (exists s', step s None s') ->
    (forall l s', step s l s' -> l = None /\ will_be step Q s') -> will_be step Q s.

(** Every call that the user may make can begin. *)
Definition ready {St : Type} (sc : scfg) (client : op -> Prop) (step : St -> option (event mop mres) -> St -> Prop) (s : St) : Prop :=
  forall o, client o -> exists s', step s (Some (EInv 0 (spec_op sc o))) s'.

(** Executions that never have a table at its limit. *)
Definition off_limit_life (c : tcfg) (B : N) (bo : bool) (client : op -> Prop) (n : N)
  (s : mhsys) (l : option (event mop mres)) (s' : mhsys) : Prop :=
  life_step c B bo client n s l s' /\ ~ at_limit c (mh_s s').
