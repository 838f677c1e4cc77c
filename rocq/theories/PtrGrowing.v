(** Model of the growing table of pointer cells whose calls run while it is
    migrated: the calls of Ptr.v (migration_table.hpp:544-630, 632-674, 799-843,
    924-954 around base_linear.hpp and element_types/complex_slot.hpp) on all
    versions of the table, the helpers of Ptr.v ([phstep]) and the switch of
    strategies/estrat_async.hpp and strategies/estrat_sync.hpp, put together as in
    Growing.v.  The elements are shared by all versions; only cells are copied. *)
From Coq Require Import NArith Bool List.
From Verif Require Import Words Slot Mapper ReturnCode MapSpec LinSpec Base Migrate Ptr.
Import ListNotations.
Open Scope N_scope.

(** As [Growing.gsys], with the elements in memory ([pgheap]) and words as cells.
    A thread has its call, the version it is running on (meaningless before the
    first attempt) and its program point.  Versions are not reclaimed here
    (Reclaim.v); the elements are not theirs: a table inside a growing table does
    not clean up its cells (base_linear.hpp:50-52, 440-450: only in tables that do
    not grow). *)
Record pgsys := PGSys {
  pgver : N; pgmap : N -> mapper; pgmem : N -> wmem;
  pgmig : option (N * (N -> option hpc)); pgheap : heap;
  pgthr : N -> option (pop * N * ppc) }.

(** A new attempt runs on the published version (migration_table.hpp:328-351
    execute), everything else on the version of the attempt. *)
Definition on_version (v u : N) (pc : ppc) : N := match pc with QTry _ => v | _ => u end.

(** Steps, as in [Growing.gsys_step]: [pg_inv], [pg_run], [pg_ret]: a call begins,
    makes a step (an allocation gets an address that is not in use), returns.
    After FULL and INVALID a call is at [QTry] again ([Ptr.wrap_add],
    [Ptr.wrap_update]) and may start over at any time.  [pg_grow], [pg_join],
    [pg_help], [pg_publish]: as g_grow, g_join, g_help, g_publish. *)
Inductive pgstep (c : pcfg) (B : N) (alloc : N -> Prop) (client : pop -> Prop)
  : pgsys -> option (event mop mres) -> pgsys -> Prop :=
| pg_inv v mp me mg hp th tid o :
    th tid = None -> client o ->
    pgstep c B alloc client (PGSys v mp me mg hp th) (Some (EInv tid (pspec_op o)))
      (PGSys v mp me mg hp (fupd th tid (Some (o, v, pstart c (mp v) o))))
| pg_run v mp me mg hp th tid o u pc a hp' t' pc' :
    th tid = Some (o, u, pc) -> (forall r, pc <> QDone r) ->
    (pc = QAlloc -> alloc a /\ hp a = None) ->
    qstep c (mp (on_version v u pc)) hp (me (on_version v u pc)) a o pc = (hp', t', pc') ->
    pgstep c B alloc client (PGSys v mp me mg hp th) None
      (PGSys v mp (fupd me (on_version v u pc) t') mg hp'
         (fupd th tid (Some (o, on_version v u pc, pc'))))
| pg_ret v mp me mg hp th tid o u r :
    th tid = Some (o, u, QDone r) ->
    pgstep c B alloc client (PGSys v mp me mg hp th) (Some (ERet tid r))
      (PGSys v mp me mg hp (fupd th tid None))
| pg_grow v mp me hp th ins del :
    addressable_slots (pmc c) (mp v) < 2 ^ 32 ->
    pgstep c B alloc client (PGSys v mp me None hp th) None
      (PGSys v (fupd mp (v + 1) (resize (pmc c) (mp v) ins del))
         (fupd me (v + 1) (ptarget (pmc c) (resize (pmc c) (mp v) ins del)))
         (Some (0, fun _ => None)) hp th)
| pg_join v mp me k h hp th tid :
    h tid = None \/ h tid = Some HEnd ->
    pgstep c B alloc client (PGSys v mp me (Some (k, h)) hp th) None
      (PGSys v mp me (Some (k, fupd h tid (Some HClaim))) hp th)
| pg_help v mp me k h hp th tid pc s' t' k' pc' :
    h tid = Some pc ->
    phstep c (mp v) (mp (v + 1)) B hp (me v) (me (v + 1)) k pc = (s', t', k', pc') ->
    pgstep c B alloc client (PGSys v mp me (Some (k, h)) hp th) None
      (PGSys v mp (fupd (fupd me v s') (v + 1) t') (Some (k', fupd h tid (Some pc'))) hp th)
| pg_publish v mp me k h hp th :
    (exists tid, h tid = Some HEnd) ->
    (forall tid pc, h tid = Some pc -> pc = HEnd \/ pc = HClaim) ->
    pgstep c B alloc client (PGSys v mp me (Some (k, h)) hp th) None
      (PGSys (v + 1) mp me None hp th).

(** A new table with 2^lg slots; nothing is allocated. *)
Definition pg_init (c : pcfg) (lg : N) : pgsys :=
  let m := mk_mapper (pmc c) (2 ^ lg) 0 in
  PGSys 0 (fun _ => m) (fun _ => pfresh c m) None (fun _ => None) (fun _ => None).
