(** The growing table with the synchronised strategy as one machine, at the
    granularity of single accesses: the handshake of strategies/estrat_sync.hpp
    (Sync.v, sequentially consistent memory), the calls on the cells (Base.v), the
    migration of blocks (Migrate.v) and the retry loops of migration_table.hpp.
    Nothing is assumed about when migrations run.

    [maps v]: the mapper of version [v].  It is a parameter so that the number of
    blocks of each version is known to the handshake; opening a migration checks
    that it is the result of resize. *)
From Coq Require Import NArith Bool List.
From Verif Require Import Words Slot Mapper ReturnCode MapSpec LinSpec Base Migrate Growing Sync.
Import ListNotations.
Open Scope N_scope.

(** A call through a handle: it has no table, it runs on the table the handle
    holds, or its result is known. *)
Inductive cpc := CWait | CRun (pc : bpc) | CFin (r : bret).

(** [t_p]: the handshake.  [t_mem]: the cells of each version.  [t_call]: the call
    of each thread.  [t_h]: what a thread does inside the block it moves. *)
Record tst := TSt {
  t_p : sst; t_mem : N -> mem; t_call : N -> option (op * cpc); t_h : N -> hpc }.

(** Number of blocks: estrat_sync.hpp:428-446, one per fetch_add below capacity. *)
Definition blocks (mc : mcfg) (B : N) (m : mapper) : N := (addressable_slots mc m + B - 1) / B.


Section Machine.
Context (c : tcfg) (B : N) (maps : N -> mapper) (slot : N -> N) (client : op -> Prop).
Notation mc := (tmc c).

Definition nblk (v : N) : N := blocks mc B (maps v).
(** One access of the handshake. *)
Definition go (p : sst) (l : slabel) : option sst := sync_run1 false nblk slot p l.

(** Accesses of the handshake that need nothing else. *)
Definition plain (x : spc) : bool :=
  match x with
  | PGet3 _ | POp _ | PGrow7 _ | PMig4 _ _ _ | PMig5 _ _ _ _ => false
  | _ => true
  end.

(** A call that got table [v] starts on it (migration_table.hpp:328-351). *)
Definition begun (v : N) (x : option (op * cpc)) : option (op * cpc) :=
  match x with
  | Some (o, CWait) => Some (o, CRun (start c (maps v) o))
  | x => x
  end.

(** A call that is about to release its table: FULL and INVALID make it start
    over.  [None]: the call is not finished. *)
Definition finish (x : option (op * cpc)) : option (option (op * cpc)) :=
  match x with
  | Some (o, CRun (PDone r)) => Some (Some (o, if retries o r then CWait else CFin r))
  | Some (_, CRun _) => None
  | x => Some x
  end.

(** Steps.
    [tt_inv], [tt_ret]: a call begins and returns.
    [tt_go]: an access of the handshake.  Between the invocation and the response
      a thread may also take and release the table without using it, as
      update_numbers does (migration_table.hpp:1084-1117).
    [tt_get]: get_table has loaded _table a second time (estrat_sync.hpp:286).
    [tt_run]: one access of a call to a cell of the table its handle holds.
    [tt_leave]: the call is done with the table; rls_table follows, and grow if it
      got FULL or if update_numbers says so.
    [tt_open]: estrat_sync.hpp:333-342: the new table (its size depends on the
      counters, which are arbitrary here) is published for migration.  Its
      construction (333-338) is part of this step: no other thread sees it before.
    [tt_claim]: estrat_sync.hpp:438/445 fetch_add: the thread gets a block or not.
    [tt_move]: one access of migrate (base_linear.hpp:1108-1185) on that block.
    [tt_moved]: the block is finished.
    [tt_destroy]: the handle is destroyed. *)
Inductive ttab_step : tst -> option (event mop mres) -> tst -> Prop :=
| tt_inv p me ca h i o :
    s_pc p i = PIdle -> ca i = None -> client o ->
    ttab_step (TSt p me ca h) (Some (EInv i (spec_op (tsc c) o)))
      (TSt p me (fupd ca i (Some (o, CWait))) h)
| tt_ret p me ca h i o r :
    s_pc p i = PIdle -> ca i = Some (o, CFin r) ->
    ttab_step (TSt p me ca h) (Some (ERet i (gobs o r))) (TSt p me (fupd ca i None) h)
| tt_go p me ca h i p' :
    plain (s_pc p i) = true -> go p (SGo i) = Some p' ->
    ttab_step (TSt p me ca h) None (TSt p' me ca h)
| tt_get p me ca h i v p' :
    s_pc p i = PGet3 v -> go p (SGo i) = Some p' ->
    ttab_step (TSt p me ca h) None
      (TSt p' me (match s_pc p' i with POp _ => fupd ca i (begun v (ca i)) | _ => ca end) h)
| tt_run p me ca h i v o pc b t' pc' :
    s_pc p i = POp v -> ca i = Some (o, CRun pc) -> (forall r, pc <> PDone r) ->
    bstep c (maps v) (me v) b o pc = (t', pc') ->
    ttab_step (TSt p me ca h) None (TSt p (fupd me v t') (fupd ca i (Some (o, CRun pc'))) h)
| tt_leave p me ca h i v l p' x :
    s_pc p i = POp v -> l = SGo i \/ l = SWant i -> finish (ca i) = Some x -> go p l = Some p' ->
    ttab_step (TSt p me ca h) None (TSt p' me (fupd ca i x) h)
| tt_open p me ca h i v ins del p' :
    s_pc p i = PGrow7 v -> addressable_slots mc (maps v) < 2 ^ 32 ->
    maps (v + 1) = resize mc (maps v) ins del -> go p (SGo i) = Some p' ->
    ttab_step (TSt p me ca h) None
      (TSt p' (fupd me (v + 1) (target_mem mc (maps (v + 1)))) ca h)
| tt_claim p me ca h i k v g p' :
    s_pc p i = PMig4 k v g -> go p (SGo i) = Some p' ->
    ttab_step (TSt p me ca h) None
      (TSt p' me ca
         (match s_pc p' i with
          | PMig5 _ _ b _ =>
              fupd h i (enter c (maps v) (maps (v + 1)) (b * B)
                          (block_end B (addressable_slots mc (maps v)) (b * B)))
          | _ => h
          end))
| tt_move p me ca h i k v b g s' t' k' pc' :
    s_pc p i = PMig5 k v b g -> h i <> HClaim ->
    hstep c (maps v) (maps (v + 1)) B (me v) (me (v + 1)) 0 (h i) = (s', t', k', pc') ->
    ttab_step (TSt p me ca h) None
      (TSt p (fupd (fupd me v s') (v + 1) t') ca (fupd h i pc'))
| tt_moved p me ca h i k v b g p' :
    s_pc p i = PMig5 k v b g -> h i = HClaim -> go p (SGo i) = Some p' ->
    ttab_step (TSt p me ca h) None (TSt p' me ca h)
| tt_destroy p me ca h i p' :
    ca i = None -> go p (SDestroy i) = Some p' ->
    ttab_step (TSt p me ca h) None (TSt p' me ca h).

(** A new table; no handle exists yet. *)
Definition ttab_init : tst :=
  TSt sync_init (fun _ => fresh_mem c (maps 0)) (fun _ => None) (fun _ => HEnd).

End Machine.
