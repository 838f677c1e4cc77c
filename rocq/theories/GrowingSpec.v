(** Specification only: restrictions on executions of growing tables, and
    executions by a single thread. *)
From Coq Require Import NArith Bool List.
From Verif Require Import Words Slot Mapper MapSpec LinSpec Base TableSpec Migrate Growing.
Import ListNotations.
Open Scope N_scope.

(** Circular probing: when a migration ends, its source has a vacant cell. *)
Definition room (c : tcfg) (s s' : gsys) : Prop :=
  cprob (tmc c) = true -> gver s' <> gver s ->
  exists p, vacant (tsc c) (total_slots (tmc c) (gmap s (gver s))) (gmem s (gver s)) p.

(** While the table is migrated no call runs on it (C22: the synchronised
    strategy sees to that; so does a single thread, which migrates between two
    attempts of its call). *)
Definition exclusive (s : gsys) : Prop :=
  gmig s <> None ->
  forall tid o v pc, gthr s tid = Some (o, GRun v pc) -> exists r, pc = PDone r.

(** No call changes a cell that a helper has loaded but not yet marked in the
    second loop of migrate (marking is allowed). *)
Definition g_undisturbed (c : tcfg) (s s' : gsys) : Prop :=
  forall k h tid i curr, gmig s = Some (k, h) -> h tid = Some (H2Mark i curr) ->
    let p := remap (tmc c) (gmap s (gver s)) i in
    gmem s' (gver s) p = gmem s (gver s) p \/
    gmem s' (gver s) p = option_map (mark_slot (tsc c)) (gmem s (gver s) p).

(** Synchronised growing. *)
Definition sync_step (c : tcfg) (B : N) (client : op -> Prop)
  (s : gsys) (l : option (event mop mres)) (s' : gsys) : Prop :=
  gsys_step c B client s l s' /\ exclusive s' /\ room c s s'.

(** Asynchronous growing without the disturbance of C18. *)
Definition async_step (c : tcfg) (B : N) (client : op -> Prop)
  (s : gsys) (l : option (event mop mres)) (s' : gsys) : Prop :=
  gsys_step c B client s l s' /\ g_undisturbed c s s' /\ room c s s'.

(** The events of thread [t] making the calls in [l] one after the other, each
    with its result. *)
Fixpoint in_turn (t : N) (l : list (mop * mres)) : list (event mop mres) :=
  match l with
  | [] => []
  | (o, r) :: l => EInv t o :: ERet t r :: in_turn t l
  end.

(** A sequential map answers the calls in [l] with these results. *)
Inductive answers : amap -> list (mop * mres) -> amap -> Prop :=
| an_nil m : answers m [] m
| an_call m o r m' l m'' :
    mspec false false m o m' r -> answers m' l m'' -> answers m ((o, r) :: l) m''.

(** No call is in progress. *)
Definition at_rest (s : gsys) : Prop := forall tid, gthr s tid = None.

(** Calls that may add their key to the table. *)
Definition inserting (o : op) : Prop :=
  match o with OInsert _ _ | OIou _ _ _ => True | _ => False end.
