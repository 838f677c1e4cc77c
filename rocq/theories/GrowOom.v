(** Calls of the growing table (asynchronous strategy) when memory may run out.

    A call makes a growth step in two places: when the table version it got has no
    room for its key, before it has had an effect, and when it counts an insertion or
    erasure, after it has had its effect.  If the allocation of the new table fails
    then std::bad_alloc leaves the call; nothing is undone.

    After a failed allocation the synchronised strategy never completes a call again
    (C63), so it is left out here. *)
From Coq Require Import NArith ZArith Bool List.
From Verif Require Import Words Slot Mapper ReturnCode MapSpec LinSpec Base TableSpec Migrate Growing GrowingSpec
  Count OomSpec.
Import ListNotations.
Open Scope N_scope.

(** [os_el], [os_du]: _elements and _dummies (migration_table.hpp:147-148); [os_loc]: the
    local counts of each thread's handle: _updates, _inserted, _deleted (389-426). *)
Record osys := OSys { os_g : gsys; os_el : Z; os_du : Z; os_loc : N -> Z * Z * Z }.

Definition osys_init (c : tcfg) (lg : N) : osys := OSys (gsys_init c lg) 0 0 (fun _ => (0, 0, 0)%Z).

(** migration_table.hpp:592-630, 632-674, 676-722, 799-843: the calls that make a
    growth step on FULL. *)
Definition grows_on_full (o : op) : bool :=
  match o with
  | OInsert _ _ | OUpdate _ _ | OUpdateB _ _ | OIou _ _ _ => true
  | OFind _ | OErase _ | OEraseIf _ _ => false
  end.

(** migration_table.hpp:1119-1146, up to the test of _updates. *)
Definition count1 (r : mres) (l : Z * Z * Z) : Z * Z * Z :=
  let '(u, i, d) := l in
  match r with
  | RInserted => (u + 1, i + 1, d)%Z
  | RErased => (u + 1, i, d + 1)%Z
  | _ => l
  end.

(** migration_table.hpp:1103: the limit of the published table. *)
Definition limit (c : tcfg) (g : gsys) : Z := thresh (total_slots (tmc c) (gmap g (gver g))).

(** Steps.
    [o_quiet]: accesses of calls, growth steps; publishing a version corrects the
      counters (estrat_async.hpp:339-340).
    [o_inv], [o_ret]: a call begins; a call that counts nothing returns.
    [o_count]: a call counts and returns.
    [o_flush]: a call counts, adds the counts to the global counters (1084-1117) and
      returns, possibly after a growth step of its own.
    [o_thrown_count]: it has to make a growth step and gets bad_alloc: 1110 is left by
      the exception, so that 1111 does not reset the counts.
    [o_thrown_full]: bad_alloc at 621, 665, 712 or 834.
    Simplification: update_numbers is one step (its interleavings are in [Count]). *)
Inductive ostep (c : tcfg) (B : N) (client : op -> Prop) : osys -> option oevent -> osys -> Prop :=
| o_quiet g e d l g' :
    async_step c B client g None g' ->
    ostep c B client (OSys g e d l) None
      (OSys g' (if gver g' =? gver g then e else (e - d)%Z) (if gver g' =? gver g then d else 0%Z) l)
| o_inv g e d l g' t o :
    async_step c B client g (Some (EInv t o)) g' ->
    ostep c B client (OSys g e d l) (Some (OCall (EInv t o))) (OSys g' e d l)
| o_ret g e d l g' t r :
    async_step c B client g (Some (ERet t r)) g' -> r <> RInserted -> r <> RErased ->
    ostep c B client (OSys g e d l) (Some (OCall (ERet t r))) (OSys g' e d l)
| o_count g e d l g' t r u i x :
    async_step c B client g (Some (ERet t r)) g' -> r = RInserted \/ r = RErased ->
    count1 r (l t) = (u, i, x) -> (u <= 64)%Z ->
    ostep c B client (OSys g e d l) (Some (OCall (ERet t r))) (OSys g' e d (fupd l t (u, i, x)))
| o_flush g e d l g' t r u i x :
    async_step c B client g (Some (ERet t r)) g' -> r = RInserted \/ r = RErased ->
    count1 r (l t) = (u, i, x) -> (64 < u)%Z ->
    ostep c B client (OSys g e d l) (Some (OCall (ERet t r)))
      (OSys g' (e + i)%Z (d + x)%Z (fupd l t (0, 0, 0)%Z))
| o_thrown_count g e d l g' t r u i x :
    async_step c B client g (Some (ERet t r)) g' -> r = RInserted \/ r = RErased ->
    count1 r (l t) = (u, i, x) -> (64 < u)%Z -> crosses e i (limit c g) = true ->
    ostep c B client (OSys g e d l) (Some (OThrow t))
      (OSys g' (e + i)%Z (d + x)%Z (fupd l t (0%Z, i, x)))
| o_thrown_full v mp me mg th e d l t o u r :
    th t = Some (o, GRun u (PDone r)) -> grows_on_full o = true -> rcode r = RC_FULL ->
    ostep c B client (OSys (GSys v mp me mg th) e d l) (Some (OThrow t))
      (OSys (GSys v mp me mg (fupd th t None)) e d l).
