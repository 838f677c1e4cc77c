(** Model of a growing table that several threads use at the same time, each through a handle
    of its own, with the element counters that decide when the table grows:
    /repo/data-structures/migration_table.hpp:592-1027 (calls), 1084-1146 (counting), with user
    threads as workers.  [sync] = true: synchronised growing (estrat_sync.hpp), false:
    asynchronous growing (estrat_async.hpp).  Single accesses of calls and of migrations are
    interleaved in every way; what [OneHandle] does for one thread. *)
From Coq Require Import NArith ZArith Bool List.
From Verif Require Import Words Slot Mapper ReturnCode MapSpec LinSpec Base Migrate Growing Count GrowOom OneHandle.
Import ListNotations.
Open Scope N_scope.

(** Where the thread of a handle is.  [KCall]: in a call or between two calls.  [KWant u d]: it
    has released table [u] and is about to call grow ([d] = true: from update_numbers, the call
    has had its effect; false: after FULL).  [KIn u d]: in grow or help_grow, waiting for the
    successor of [u] and helping to make it. *)
Inductive kph := KCall | KWant (u : N) (d : bool) | KIn (u : N) (d : bool).

(** [k_el], [k_du]: _elements and _dummies (migration_table.hpp:147-148).  [k_loc]: _updates,
    _inserted and _deleted of each handle (389-426). *)
Record ksys := KSys { k_g : gsys; k_el : Z; k_du : Z; k_loc : N -> Z * Z * Z; k_ph : N -> kph }.

Definition ksys_init (c : tcfg) (lg : N) : ksys :=
  KSys (gsys_init c lg) 0 0 (fun _ => (0, 0, 0)%Z) (fun _ => KCall).

(** No thread uses a cell of a table: what wait_for_table_op (estrat_sync.hpp:470-486) waits for. *)
Definition no_operation (n : N) (th : N -> option (op * gpc)) : Prop :=
  forall t, t < n -> match th t with Some (_, GRun _ pc) => exists r, pc = PDone r | _ => True end.

(** Steps with threads 0 to [n] - 1.
    [kc_inv], [kc_get], [kc_run]: a call begins, gets the published table (synchronised
      growing: not while it is being migrated), accesses a cell.
    [kc_invalid]: INVALID (asynchronous growing): help_grow.
    [kc_full]: FULL: grow.
    [kc_ret]: the call returns without counting.
    [kc_count], [kc_flush]: it counts, and publishes its counts if these are more than 64.
    [kc_cross]: it publishes them and has to grow the table.
    [kc_start]: grow makes the new table (estrat_async.hpp:222-233, estrat_sync.hpp:305-342).
    [kc_late]: somebody else has started this growth step.
    [kc_join], [kc_help]: the thread takes part in the migration.
    [kc_wait]: synchronised growing: a thread that finds the table marked helps (get_table,
      estrat_sync.hpp:271-275).
    [kc_publish]: the next version is published, the counters are corrected
      (estrat_async.hpp:321-351, estrat_sync.hpp:350-364).
    [kc_waited], [kc_again], [kc_done]: grow or help_grow returns; the call goes on, starts over
      or returns.
    Simplifications: update_numbers is one step; the counters are read by resize when the
    migration opens; tables of 2^32 slots and more do not grow, as in Growing.v. *)
Inductive crowd_step (sync : bool) (c : tcfg) (B n : N) (client : op -> Prop) : ksys -> option (event mop mres) -> ksys -> Prop :=
| kc_inv v mp me mg th e d l p t o :
    t < n -> th t = None -> p t = KCall -> client o ->
    crowd_step sync c B n client (KSys (GSys v mp me mg th) e d l p) (Some (EInv t (spec_op (tsc c) o)))
      (KSys (GSys v mp me mg (fupd th t (Some (o, GGet)))) e d l p)
| kc_get v mp me mg th e d l p t o :
    t < n -> th t = Some (o, GGet) -> p t = KCall -> (sync = true -> mg = None) ->
    crowd_step sync c B n client (KSys (GSys v mp me mg th) e d l p) None
      (KSys (GSys v mp me mg (fupd th t (Some (o, GRun v (start c (mp v) o))))) e d l p)
| kc_run v mp me mg th e d l p t o u pc b t' pc' :
    t < n -> th t = Some (o, GRun u pc) -> p t = KCall -> (forall r, pc <> PDone r) ->
    bstep c (mp u) (me u) b o pc = (t', pc') ->
    crowd_step sync c B n client (KSys (GSys v mp me mg th) e d l p) None
      (KSys (GSys v mp (fupd me u t') mg (fupd th t (Some (o, GRun u pc')))) e d l p)
| kc_invalid v mp me mg th e d l p t o u r :
    t < n -> th t = Some (o, GRun u (PDone r)) -> p t = KCall -> retries o r = true -> rcode r = RC_INVALID ->
    crowd_step sync c B n client (KSys (GSys v mp me mg th) e d l p) None
      (KSys (GSys v mp me mg th) e d l (fupd p t (KIn u false)))
| kc_full v mp me mg th e d l p t o u r :
    t < n -> th t = Some (o, GRun u (PDone r)) -> p t = KCall -> retries o r = true -> rcode r <> RC_INVALID ->
    crowd_step sync c B n client (KSys (GSys v mp me mg th) e d l p) None
      (KSys (GSys v mp me mg th) e d l (fupd p t (KWant u false)))
| kc_ret v mp me mg th e d l p t o u r :
    t < n -> th t = Some (o, GRun u (PDone r)) -> p t = KCall -> retries o r = false ->
    gobs o r <> RInserted -> gobs o r <> RErased ->
    crowd_step sync c B n client (KSys (GSys v mp me mg th) e d l p) (Some (ERet t (gobs o r)))
      (KSys (GSys v mp me mg (fupd th t None)) e d l p)
| kc_count v mp me mg th e d l p t o u r m i x :
    t < n -> th t = Some (o, GRun u (PDone r)) -> p t = KCall -> retries o r = false ->
    gobs o r = RInserted \/ gobs o r = RErased ->
    count1 (gobs o r) (l t) = (m, i, x) -> (m <= 64)%Z ->
    crowd_step sync c B n client (KSys (GSys v mp me mg th) e d l p) (Some (ERet t (gobs o r)))
      (KSys (GSys v mp me mg (fupd th t None)) e d (fupd l t (m, i, x)) p)
| kc_flush v mp me mg th e d l p t o u r m i x :
    t < n -> th t = Some (o, GRun u (PDone r)) -> p t = KCall -> retries o r = false ->
    gobs o r = RInserted \/ gobs o r = RErased -> (sync = true -> mg = None) ->
    count1 (gobs o r) (l t) = (m, i, x) -> (64 < m)%Z ->
    crosses e i (thresh (total_slots (tmc c) (mp v))) = false ->
    crowd_step sync c B n client (KSys (GSys v mp me mg th) e d l p) (Some (ERet t (gobs o r)))
      (KSys (GSys v mp me mg (fupd th t None)) (e + i) (d + x) (fupd l t (0, 0, 0)%Z) p)
| kc_cross v mp me mg th e d l p t o u r m i x :
    t < n -> th t = Some (o, GRun u (PDone r)) -> p t = KCall -> retries o r = false ->
    gobs o r = RInserted \/ gobs o r = RErased -> (sync = true -> mg = None) ->
    count1 (gobs o r) (l t) = (m, i, x) -> (64 < m)%Z ->
    crosses e i (thresh (total_slots (tmc c) (mp v))) = true ->
    crowd_step sync c B n client (KSys (GSys v mp me mg th) e d l p) None
      (KSys (GSys v mp me mg th) (e + i) (d + x) (fupd l t (0%Z, i, x)) (fupd p t (KWant v true)))
| kc_start v mp me th e d l p t w :
    t < n -> p t = KWant v w -> (sync = true -> no_operation n th) ->
    addressable_slots (tmc c) (mp v) < 2 ^ 32 ->
    crowd_step sync c B n client (KSys (GSys v mp me None th) e d l p) None
      (KSys (begin_grow c v mp me th e d) e d l (fupd p t (KIn v w)))
| kc_late v mp me mg th e d l p t u w :
    t < n -> p t = KWant u w -> u <> v \/ mg <> None ->
    crowd_step sync c B n client (KSys (GSys v mp me mg th) e d l p) None
      (KSys (GSys v mp me mg th) e d l (fupd p t (KIn u w)))
| kc_wait v mp me k h th e d l p t o :
    sync = true -> t < n -> th t = Some (o, GGet) -> p t = KCall ->
    crowd_step sync c B n client (KSys (GSys v mp me (Some (k, h)) th) e d l p) None
      (KSys (GSys v mp me (Some (k, h)) th) e d l (fupd p t (KIn v false)))
| kc_join v mp me k h th e d l p t u w :
    t < n -> p t = KIn u w -> h t = None ->
    crowd_step sync c B n client (KSys (GSys v mp me (Some (k, h)) th) e d l p) None
      (KSys (GSys v mp me (Some (k, fupd h t (Some HClaim))) th) e d l p)
| kc_help v mp me k h th e d l p t pc s' t' k' pc' :
    t < n -> h t = Some pc -> pc <> HEnd ->
    hstep c (mp v) (mp (v + 1)) B (me v) (me (v + 1)) k pc = (s', t', k', pc') ->
    crowd_step sync c B n client (KSys (GSys v mp me (Some (k, h)) th) e d l p) None
      (KSys (GSys v mp (fupd (fupd me v s') (v + 1) t') (Some (k', fupd h t (Some pc'))) th) e d l p)
| kc_publish v mp me k h th e d l p :
    (exists t, t < n /\ h t = Some HEnd) ->
    (forall t pc, t < n -> h t = Some pc -> pc = HEnd) ->
    crowd_step sync c B n client (KSys (GSys v mp me (Some (k, h)) th) e d l p) None
      (KSys (GSys (v + 1) mp me None th) (e - d) 0 l p)
| kc_waited v mp me mg th e d l p t o u :
    t < n -> p t = KIn u false -> u < v -> th t = Some (o, GGet) ->
    crowd_step sync c B n client (KSys (GSys v mp me mg th) e d l p) None
      (KSys (GSys v mp me mg th) e d l (fupd p t KCall))
| kc_again v mp me mg th e d l p t o g r u :
    t < n -> p t = KIn u false -> u < v -> th t = Some (o, GRun g (PDone r)) ->
    crowd_step sync c B n client (KSys (GSys v mp me mg th) e d l p) None
      (KSys (GSys v mp me mg (fupd th t (Some (o, GGet)))) e d l (fupd p t KCall))
| kc_done v mp me mg th e d l p t o g u r :
    t < n -> p t = KIn u true -> u < v -> th t = Some (o, GRun g (PDone r)) ->
    crowd_step sync c B n client (KSys (GSys v mp me mg th) e d l p) (Some (ERet t (gobs o r)))
      (KSys (GSys v mp me mg (fupd th t None)) e d (fupd l t (0, 0, 0)%Z) (fupd p t KCall)).
