(** Specification only: restrictions on executions of growing tables of pointer
    cells (those of GrowingSpec.v) and what is said about their elements. *)
From Coq Require Import NArith Bool List.
From Verif Require Import Words Slot Mapper ReturnCode MapSpec LinSpec Base Migrate Ptr PtrSpec PtrGrowing.
Import ListNotations.
Open Scope N_scope.

(** Circular probing: when a migration ends, its source has an empty cell. *)
Definition pg_room (c : pcfg) (s s' : pgsys) : Prop :=
  cprob (pmc c) = true -> pgver s' <> pgver s ->
  exists p w, p < total_slots (pmc c) (pgmap s (pgver s)) /\
    pgmem s (pgver s) p = Some w /\ w_empty (pmk c) w = true.

(** While the table is migrated no call looks at its cells. *)
Definition pg_exclusive (s : pgsys) : Prop :=
  pgmig s <> None -> forall tid o u pc, pgthr s tid = Some (o, u, pc) -> off_table pc.

(** No call changes a cell that a helper has loaded but not yet marked in the
    second loop of migrate (marking is allowed). *)
Definition pg_undisturbed (c : pcfg) (s s' : pgsys) : Prop :=
  forall k h tid i curr, pgmig s = Some (k, h) -> h tid = Some (H2Mark i curr) ->
    let p := remap (pmc c) (pgmap s (pgver s)) i in
    pgmem s' (pgver s) p = pgmem s (pgver s) p \/
    pgmem s' (pgver s) p = option_map w_set_mark (pgmem s (pgver s) p).

(** Synchronised growing; asynchronous growing without the disturbance of C18. *)
Definition pg_sync_step (c : pcfg) (B : N) (alloc : N -> Prop) (client : pop -> Prop)
  (s : pgsys) (l : option (event mop mres)) (s' : pgsys) : Prop :=
  pgstep c B alloc client s l s' /\ pg_exclusive s' /\ pg_room c s s'.
Definition pg_async_step (c : pcfg) (B : N) (alloc : N -> Prop) (client : pop -> Prop)
  (s : pgsys) (l : option (event mop mres)) (s' : pgsys) : Prop :=
  pgstep c B alloc client s l s' /\ pg_undisturbed c s s' /\ pg_room c s s'.

(** A call uses or frees an element that is not allocated, or accesses a cell
    that does not exist. *)
Definition pg_bad (s : pgsys) : Prop := exists tid o u, pgthr s tid = Some (o, u, QBad).

(** No call is running. *)
Definition pg_quiet (s : pgsys) : Prop := forall tid, pgthr s tid = None.

(** Cell [p] of the published version points to the element at [a]. *)
Definition pg_points (c : pcfg) (s : pgsys) (p a : N) : Prop :=
  p < total_slots (pmc c) (pgmap s (pgver s)) /\
  exists w, pgmem s (pgver s) p = Some w /\ w_ptr w = a /\ a <> 0.

(** The table is destroyed: the cells of the published version are cleaned up
    (estrat_async.hpp:118-131). *)
Definition pg_destroy (c : pcfg) (s : pgsys) : option heap :=
  destroy c (pgmap s (pgver s)) (pgmem s (pgver s)) (pgheap s).

(** The elements are accounted for: no call uses or frees an
    element that is not allocated; cells of all versions, also of replaced ones,
    point to allocated elements; no element is in two cells and no key in two
    elements of the published version; if no call is running, the allocated
    elements are those in the published version, and destroying the table frees
    all of them and none twice. *)
Definition elements_ok (c : pcfg) (s : pgsys) : Prop :=
  ~ pg_bad s /\
  (forall u p w, pgmem s u p = Some w -> w_ptr w <> 0 -> pgheap s (w_ptr w) <> None) /\
  (forall p q a, pg_points c s p a -> pg_points c s q a -> p = q) /\
  (forall p q a b k d e, pg_points c s p a -> pg_points c s q b ->
     pgheap s a = Some (k, d) -> pgheap s b = Some (k, e) -> p = q) /\
  (pg_quiet s ->
    (forall a, pgheap s a <> None <-> exists p, pg_points c s p a) /\
    exists hp, pg_destroy c s = Some hp /\ forall a, hp a = None).
