(** Specification only: restrictions on executions of the asynchronous growing
    table. *)
From Coq Require Import NArith Bool List.
From Verif Require Import Words Slot Mapper MapSpec LinSpec Base TableSpec Migrate Growing SyncTable Async AsyncTable.
Import ListNotations.
Open Scope N_scope.

(** Circular probing: when the successor of a version is announced, the version
    has a vacant cell. *)
Definition a_room (c : tcfg) (maps : N -> mapper) (s s' : atst) : Prop :=
  cprob (tmc c) = true -> y_epoch (a_p s') <> y_epoch (a_p s) ->
  let v := y_epoch (a_p s) in
  exists p, vacant (tsc c) (total_slots (tmc c) (maps v)) (a_mem s v) p.

(** No call changes a cell that a helper has loaded but not yet marked in the
    second loop of migrate (marking is allowed). *)
Definition a_undisturbed (c : tcfg) (maps : N -> mapper) (s s' : atst) : Prop :=
  forall i v b j curr, y_pc (a_p s) i = AMig5 v b -> a_h s i = H2Mark j curr ->
    let p := remap (tmc c) (maps v) j in
    a_mem s' v p = a_mem s v p \/ a_mem s' v p = option_map (mark_slot (tsc c)) (a_mem s v p).

Definition atab_calm (c : tcfg) (B : N) (maps : N -> mapper) (client : op -> Prop)
  (s : atst) (l : option (event mop mres)) (s' : atst) : Prop :=
  atab_step c B maps client s l s' /\ a_undisturbed c maps s s' /\ a_room c maps s s'.
