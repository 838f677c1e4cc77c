(** Specification only: vocabulary for tables that grow. *)
From Coq Require Import NArith Bool List.
From Verif Require Import Words Slot Mapper MapSpec LinSpec Base TableSpec Migrate.
Import ListNotations.
Open Scope N_scope.

(** No cell carries the migration mark. *)
Definition unmarked (sc : scfg) (tot : N) (t : mem) : Prop :=
  forall p x, p < tot -> t p = Some x -> is_marked sc x = false.

(** No cell is the trace of an erased element. *)
Definition no_tombstone (sc : scfg) (tot : N) (t : mem) : Prop :=
  forall p, p < tot -> ~ exists x, t p = Some x /\ word_is sc x (2 ^ (sc_w sc - 1) - 1).

(** Every key is in at most one cell. *)
Definition no_duplicate (sc : scfg) (tot : N) (t : mem) : Prop :=
  forall k p q d e, user_key sc k -> holds sc tot t p k d -> holds sc tot t q k e -> p = q.

(** Every element is on its probe sequence, with no vacant cell before it: a
    lookup that stops at the first vacant cell finds it. *)
Definition findable (sc : scfg) (mc : mcfg) (hash : N -> N) (lg : N) (t : mem) : Prop :=
  forall k p d, user_key sc k -> holds sc (cells_of mc lg) t p k d ->
    exists n, probe_of mc lg (w64 (hash k)) n = p /\
      forall j, j < n -> ~ vacant sc (cells_of mc lg) t (probe_of mc lg (w64 (hash k)) j).

(** No user call changes a cell that a helper has loaded but not yet marked in
    the second loop of migrate (marking is allowed). *)
Definition undisturbed (c : tcfg) (ms : mapper) (s s' : msys) : Prop :=
  forall tid i curr, mhlp s tid = Some (H2Mark i curr) ->
    let p := remap (tmc c) ms i in
    msrc s' p = msrc s p \/ msrc s' p = option_map (mark_slot (tsc c)) (msrc s p).

(** Migration steps in which that holds. *)
Definition calm_step (c : tcfg) (ms mt : mapper) (B : N) (client : op -> Prop)
  (s : msys) (l : option (event mop mres)) (s' : msys) : Prop :=
  msys_step c ms mt B client s l s' /\ undisturbed c ms s s'.

Definition nobody : op -> Prop := fun _ => False.
Definition idle {A} : N -> option A := fun _ => None.

(** Life of a table: [life c client lg m t] says that a table object with mapper
    [m] (2^lg addressable slots) and cell contents [t] can come about by
    - constructing it,
    - using it for a while, by any number of threads making calls allowed by
      [client] in any interleaving, up to a moment when no call is running,
    - migrating it, with any number of helpers, any counters passed to resize and
      any block size, to a successor while no call runs, or
    - migrating marking cells while calls run on the source, undisturbed.
    Circular probing: some cell is still vacant when the migration ends. *)
Inductive life (c : tcfg) (client : op -> Prop) : N -> mapper -> mem -> Prop :=
| life_new lg :
    1 <= lg <= 63 -> life c client lg (sized (tmc c) lg 0) (fresh_mem c (sized (tmc c) lg 0))
| life_use lg m t tr s :
    life c client lg m t ->
    lts_steps (bsys_step c m client) (BSys t idle) tr s ->
    (forall tid, bthr s tid = None) -> unmarked (tsc c) (cells_of (tmc c) lg) (bmem s) ->
    life c client lg m (bmem s)
| life_move lg lg' m t ins del B tr s :
    life c client lg m t -> lg <= 31 -> 0 < B <= 2 ^ 31 ->
    addressable_slots (tmc c) (resize (tmc c) m ins del) = 2 ^ lg' ->
    lts_steps (msys_step c m (resize (tmc c) m ins del) B nobody)
      (msys_init c (resize (tmc c) m ins del) t idle) tr s ->
    finished s ->
    (cprob (tmc c) = true -> exists p, vacant (tsc c) (cells_of (tmc c) lg) t p) ->
    life c client lg' (resize (tmc c) m ins del) (mtgt s)
| life_move_busy lg lg' m t ins del B tr s :
    life c client lg m t -> lg <= 31 -> 0 < B <= 2 ^ 31 -> sc_mark (tsc c) = true ->
    addressable_slots (tmc c) (resize (tmc c) m ins del) = 2 ^ lg' ->
    lts_steps (calm_step c m (resize (tmc c) m ins del) B client)
      (msys_init c (resize (tmc c) m ins del) t idle) tr s ->
    finished s ->
    (cprob (tmc c) = true -> exists p, vacant (tsc c) (cells_of (tmc c) lg) (msrc s) p) ->
    life c client lg' (resize (tmc c) m ins del) (mtgt s).

(** The block handed out by a step: only a claim moves the block counter. *)
Definition handed (c : tcfg) (ms : mapper) (B : N) (s s' : msys) : list (N * N) :=
  if mctr s =? mctr s' then []
  else if mctr s <? addressable_slots (tmc c) ms
       then [(mctr s, block_end B (addressable_slots (tmc c) ms) (mctr s))] else [].

(** The blocks [start, end) handed out during a migration, latest first. *)
Inductive claims (c : tcfg) (ms mt : mapper) (B : N) (client : op -> Prop)
  : msys -> list (N * N) -> msys -> Prop :=
| cl_nil s : claims c ms mt B client s [] s
| cl_step s l s1 e s2 :
    claims c ms mt B client s l s1 -> msys_step c ms mt B client s1 e s2 ->
    claims c ms mt B client s (handed c ms B s1 s2 ++ l) s2.
