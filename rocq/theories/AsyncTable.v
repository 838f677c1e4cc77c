(** The growing table with the asynchronous strategy as one machine, at the
    granularity of single accesses: the handshake of strategies/estrat_async.hpp
    (Async.v), the calls on the cells (Base.v), the migration of blocks (Migrate.v)
    and the retry loops of migration_table.hpp.  Calls run on a table while it is
    being migrated.  Which calls are in progress, where they are and when
    migrations run is not restricted.

    [maps v]: the mapper of version [v], as in SyncTable.v. *)
From Coq Require Import NArith Bool List.
From Verif Require Import Words Slot Mapper ReturnCode MapSpec LinSpec Base Migrate Growing SyncTable Async.
Import ListNotations.
Open Scope N_scope.

(** [a_p]: the handshake.  [a_mem]: the cells of each version.  [a_call]: the call
    of each thread.  [a_h]: what a thread does inside the block it moves. *)
Record atst := ATSt {
  a_p : ast_; a_mem : N -> mem; a_call : N -> option (op * cpc); a_h : N -> hpc }.

(** The call holds a result; the strategy is told to grow (FULL), to help
    (INVALID) or neither: the switch statements of migration_table.hpp:592-1027. *)
Definition wants_help (x : option (op * cpc)) : bool :=
  match x with Some (o, CRun (PDone r)) => retries o r && (rcode r =? RC_INVALID) | _ => false end.
Definition wants_grow (x : option (op * cpc)) : bool :=
  match x with Some (o, CRun (PDone r)) => retries o r && negb (rcode r =? RC_INVALID) | _ => false end.

Section Machine.
Context (c : tcfg) (B : N) (maps : N -> mapper) (client : op -> Prop).
Notation mc := (tmc c).

Definition anblk (v : N) : N := blocks mc B (maps v).
(** One access of the handshake. *)
Definition ago (p : ast_) (i : N) : option ast_ := async_go anblk p i.

(** Accesses of the handshake that need nothing else. *)
Definition aplain (x : apc) : bool :=
  match x with
  | AIdle | AWait true | AOp | AGrow | AMig4 _ | AMig5 _ _ => false
  | _ => true
  end.

(** Steps.
    [at_inv], [at_ret]: a call begins and returns.
    [at_go]: an access of the handshake.
    [at_get]: get_table (estrat_async.hpp:207-214) compares the epochs, or has
      loaded a table (310-318) and compares its version with the epoch; if it
      returns a table, the call starts on it.  A thread may also take the table
      without a call, as update_numbers does (migration_table.hpp:1084-1117).
    [at_run]: one access of a call to a cell of the table its handle holds.
    [at_leave]: the call is done with the table (neither FULL nor INVALID).
    [at_want]: it got FULL, or update_numbers (1084-1117) asks for a growth step.
    [at_help]: it got INVALID and calls help_grow (241-246).
    [at_open]: grow, 222-229: the new table (its size depends on the counters, which
      are arbitrary here) becomes the successor.  Its construction is part of this
      step: no other thread sees it before.  Tables of 2^32 slots and more are left
      out (C15_large_table_refuted).
    [at_lost]: 229-233: there is a successor already, the new table is deleted.
    [at_claim]: 297/305 fetch_add: the thread gets a block or not.
    [at_move]: one access of migrate (base_linear.hpp:1108-1185) on that block.
    [at_moved]: the block is finished.
    [at_destroy]: the handle is destroyed. *)
Inductive atab_step : atst -> option (event mop mres) -> atst -> Prop :=
| at_inv p me ca h i o :
    y_pc p i = AIdle -> ca i = None -> client o ->
    atab_step (ATSt p me ca h) (Some (EInv i (spec_op (tsc c) o)))
      (ATSt p me (fupd ca i (Some (o, CWait))) h)
| at_ret p me ca h i o r :
    y_pc p i = AIdle -> ca i = Some (o, CFin r) ->
    atab_step (ATSt p me ca h) (Some (ERet i (gobs o r))) (ATSt p me (fupd ca i None) h)
| at_go p me ca h i p' :
    aplain (y_pc p i) = true -> ago p i = Some p' ->
    atab_step (ATSt p me ca h) None (ATSt p' me ca h)
| at_get p me ca h i p' :
    y_pc p i = AIdle \/ y_pc p i = AWait true -> ago p i = Some p' ->
    atab_step (ATSt p me ca h) None
      (ATSt p' me (match y_pc p' i with AOp => fupd ca i (begun c maps (y_loc p' i) (ca i)) | _ => ca end) h)
| at_run p me ca h i o pc b t' pc' :
    y_pc p i = AOp -> ca i = Some (o, CRun pc) -> (forall r, pc <> PDone r) ->
    bstep c (maps (y_loc p i)) (me (y_loc p i)) b o pc = (t', pc') ->
    atab_step (ATSt p me ca h) None
      (ATSt p (fupd me (y_loc p i) t') (fupd ca i (Some (o, CRun pc'))) h)
| at_leave p me ca h i p' x :
    y_pc p i = AOp -> finish (ca i) = Some x -> wants_help (ca i) = false -> wants_grow (ca i) = false ->
    ago p i = Some p' ->
    atab_step (ATSt p me ca h) None (ATSt p' me (fupd ca i x) h)
| at_want p me ca h i x :
    y_pc p i = AOp -> finish (ca i) = Some x -> wants_help (ca i) = false ->
    atab_step (ATSt p me ca h) None (ATSt (with_pc p i AGrow) me (fupd ca i x) h)
| at_help p me ca h i x :
    y_pc p i = AOp -> finish (ca i) = Some x -> wants_help (ca i) = true ->
    atab_step (ATSt p me ca h) None (ATSt (with_pc p i AMig1) me (fupd ca i x) h)
| at_open p me ca h i v ins del p' :
    y_pc p i = AGrow -> v = y_loc p i -> y_next p v = false ->
    addressable_slots mc (maps v) < 2 ^ 32 ->
    maps (v + 1) = resize mc (maps v) ins del -> ago p i = Some p' ->
    atab_step (ATSt p me ca h) None
      (ATSt p' (fupd me (v + 1) (target_mem mc (maps (v + 1)))) ca h)
| at_lost p me ca h i p' :
    y_pc p i = AGrow -> y_next p (y_loc p i) = true -> ago p i = Some p' ->
    atab_step (ATSt p me ca h) None (ATSt p' me ca h)
| at_claim p me ca h i v p' :
    y_pc p i = AMig4 v -> ago p i = Some p' ->
    atab_step (ATSt p me ca h) None
      (ATSt p' me ca
         (match y_pc p' i with
          | AMig5 _ b =>
              fupd h i (enter c (maps v) (maps (v + 1)) (b * B)
                          (block_end B (addressable_slots mc (maps v)) (b * B)))
          | _ => h
          end))
| at_move p me ca h i v b s' t' k' pc' :
    y_pc p i = AMig5 v b -> h i <> HClaim ->
    hstep c (maps v) (maps (v + 1)) B (me v) (me (v + 1)) 0 (h i) = (s', t', k', pc') ->
    atab_step (ATSt p me ca h) None
      (ATSt p (fupd (fupd me v s') (v + 1) t') ca (fupd h i pc'))
| at_moved p me ca h i v b p' :
    y_pc p i = AMig5 v b -> h i = HClaim -> ago p i = Some p' ->
    atab_step (ATSt p me ca h) None (ATSt p' me ca h)
| at_destroy p me ca h i :
    ca i = None -> y_pc p i = AIdle ->
    atab_step (ATSt p me ca h) None (ATSt (with_pc p i AUnreg) me ca h).

(** A new table; no handle exists yet. *)
Definition atab_init : atst :=
  ATSt async_init (fun _ => fresh_mem c (maps 0)) (fun _ => None) (fun _ => HEnd).

End Machine.
