(** Specification only: restriction on executions of the synchronised growing
    table with circular probing. *)
From Coq Require Import NArith Bool List.
From Verif Require Import Words Slot Mapper MapSpec LinSpec Base TableSpec Migrate Growing Sync SyncTable.
Import ListNotations.
Open Scope N_scope.

(** Circular probing: when the successor of version [v] is published, [v] has a
    vacant cell. *)
Definition t_room (c : tcfg) (maps : N -> mapper) (s s' : tst) : Prop :=
  cprob (tmc c) = true ->
  forall v, s_tab (t_p s) = TNull -> s_tab (t_p s') = TTab (v + 1) ->
  exists p, vacant (tsc c) (total_slots (tmc c) (maps v)) (t_mem s v) p.

Definition ttab_roomy (c : tcfg) (B : N) (maps : N -> mapper) (slot : N -> N) (client : op -> Prop)
  (s : tst) (l : option (event mop mres)) (s' : tst) : Prop :=
  ttab_step c B maps slot client s l s' /\ t_room c maps s s'.
