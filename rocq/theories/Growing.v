(** Model of the growing table: the retry loops of
    /repo/data-structures/migration_table.hpp around the calls of base_linear,
    together with all versions of the table and their migrations.  It puts
    together Base.v (calls on one version), Migrate.v (moving one version into
    the next) and the switch of strategies/estrat_async.hpp and
    strategies/estrat_sync.hpp. *)
From Coq Require Import NArith Bool List.
From Verif Require Import Words Slot Mapper ReturnCode MapSpec LinSpec Base Migrate.
Import ListNotations.
Open Scope N_scope.

(** A call through a handle: about to get the current table, or running on
    version [v] (migration_table.hpp:328-351 execute). *)
Inductive gpc :=
| GGet
| GRun (v : N) (pc : bpc).

(** [gver]: the published version.  [gmap], [gmem]: mapper and cells of each
    version.  [gmig]: the block counter and the helpers of the migration of
    [gver] into [gver + 1], if one has started.  Old versions stay as they are:
    reclamation is not modelled (a call holds a reference to its version). *)
Record gsys := GSys {
  gver : N; gmap : N -> mapper; gmem : N -> mem;
  gmig : option (N * (N -> option hpc)); gthr : N -> option (op * gpc) }.

(** The switch statements of insert_intern (592-630), update (632-674),
    update_with_backoff (676-722), insert_or_update_intern (799-843), find
    (924-954), erase (956-990), erase_if (992-1027): the codes after which the
    call starts over. *)
Definition retries (o : op) (r : bret) : bool :=
  match o with
  | OFind _ => false
  | OErase _ | OEraseIf _ _ => rcode r =? RC_INVALID
  | _ => (rcode r =? RC_INVALID) || (rcode r =? RC_FULL)
  end.

(** What is returned otherwise; codes without a case of their own get the
    [default] case, which reports that nothing was found. *)
Definition gobs (o : op) (r : bret) : mres :=
  match obs o r with
  | RFull | RInvalid => RAbsent
  | x => x
  end.

(** Steps.
    [g_inv], [g_ret]: a call begins and returns.
    [g_get]: get_table (estrat_async.hpp:207-214, estrat_sync.hpp:265-294)
      yields the published version; the call starts on it.
    [g_run]: one access of a running call to a cell of its version.
    [g_retry]: FULL or INVALID; the call starts over.  In the code it first helps
      to grow and waits; here it may start over at any time.
    [g_grow]: somebody (after FULL, or from update_numbers, 1084-1117) calls
      grow: estrat_async.hpp:216-239, estrat_sync.hpp:301-368.  The counters passed to
      resize are arbitrary.  Tables of 2^32 slots and more are left out
      (C15_large_table_refuted).
    [g_join], [g_help]: a thread takes part in the migration, possibly again.
    [g_publish]: all blocks have been handed out and no helper works on one (it
      has returned or is about to ask for another block); the next version is published
      (end_grow, estrat_async.hpp:321-351; estrat_sync.hpp:301-368). *)
Inductive gsys_step (c : tcfg) (B : N) (client : op -> Prop)
  : gsys -> option (event mop mres) -> gsys -> Prop :=
| g_inv v mp me mg th tid o :
    th tid = None -> client o ->
    gsys_step c B client (GSys v mp me mg th) (Some (EInv tid (spec_op (tsc c) o)))
      (GSys v mp me mg (fupd th tid (Some (o, GGet))))
| g_get v mp me mg th tid o :
    th tid = Some (o, GGet) ->
    gsys_step c B client (GSys v mp me mg th) None
      (GSys v mp me mg (fupd th tid (Some (o, GRun v (start c (mp v) o)))))
| g_run v mp me mg th tid o u pc b t' pc' :
    th tid = Some (o, GRun u pc) -> (forall r, pc <> PDone r) ->
    bstep c (mp u) (me u) b o pc = (t', pc') ->
    gsys_step c B client (GSys v mp me mg th) None
      (GSys v mp (fupd me u t') mg (fupd th tid (Some (o, GRun u pc'))))
| g_retry v mp me mg th tid o u r :
    th tid = Some (o, GRun u (PDone r)) -> retries o r = true ->
    gsys_step c B client (GSys v mp me mg th) None
      (GSys v mp me mg (fupd th tid (Some (o, GGet))))
| g_ret v mp me mg th tid o u r :
    th tid = Some (o, GRun u (PDone r)) -> retries o r = false ->
    gsys_step c B client (GSys v mp me mg th) (Some (ERet tid (gobs o r)))
      (GSys v mp me mg (fupd th tid None))
| g_grow v mp me th ins del :
    addressable_slots (tmc c) (mp v) < 2 ^ 32 ->
    gsys_step c B client (GSys v mp me None th) None
      (GSys v (fupd mp (v + 1) (resize (tmc c) (mp v) ins del))
         (fupd me (v + 1) (target_mem (tmc c) (resize (tmc c) (mp v) ins del)))
         (Some (0, fun _ => None)) th)
| g_join v mp me k h th tid :
    h tid = None \/ h tid = Some HEnd ->
    gsys_step c B client (GSys v mp me (Some (k, h)) th) None
      (GSys v mp me (Some (k, fupd h tid (Some HClaim))) th)
| g_help v mp me k h th tid pc s' t' k' pc' :
    h tid = Some pc ->
    hstep c (mp v) (mp (v + 1)) B (me v) (me (v + 1)) k pc = (s', t', k', pc') ->
    gsys_step c B client (GSys v mp me (Some (k, h)) th) None
      (GSys v mp (fupd (fupd me v s') (v + 1) t') (Some (k', fupd h tid (Some pc'))) th)
| g_publish v mp me k h th :
    (exists tid, h tid = Some HEnd) ->
    (forall tid pc, h tid = Some pc -> pc = HEnd \/ pc = HClaim) ->
    gsys_step c B client (GSys v mp me (Some (k, h)) th) None
      (GSys (v + 1) mp me None th).

(** A new table with 2^lg slots. *)
Definition gsys_init (c : tcfg) (lg : N) : gsys :=
  let m := mk_mapper (tmc c) (2 ^ lg) 0 in
  GSys 0 (fun _ => m) (fun _ => fresh_mem c m) None (fun _ => None).
