(** Model of a growing table that is used through a single handle by one thread,
    with the element counters that decide when the table grows:
    /repo/data-structures/migration_table.hpp:592-1027 (calls), 1084-1146 (counting), with
    user threads as workers (wstrat_user.hpp).  The same for both strategies: the calling
    thread makes the whole growth step by itself. *)
From Coq Require Import NArith ZArith Bool List.
From Verif Require Import Words Slot Mapper ReturnCode MapSpec LinSpec Base Migrate Growing Count GrowOom.
Import ListNotations.
Open Scope N_scope.

(** [HCall]: making a call, or between two calls.  [HGrow d]: in grow, called from
    update_numbers ([d] = true: the call has had its effect) or after FULL ([d] = false).
    [HBack d]: grow has returned. *)
Inductive hphase := HCall | HGrow (d : bool) | HBack (d : bool).

(** [hs_el], [hs_du]: _elements and _dummies (migration_table.hpp:147-148); [hs_loc]: _updates,
    _inserted and _deleted of the handle (389-426).  The thread has number 0. *)
Record hsys := HSys { hs_g : gsys; hs_el : Z; hs_du : Z; hs_loc : Z * Z * Z; hs_ph : hphase }.

Definition hsys_init (c : tcfg) (lg : N) : hsys := HSys (gsys_init c lg) 0 0 (0, 0, 0)%Z HCall.

(** An int passed as size_t. *)
Definition as_size (z : Z) : N := Z.to_N (z mod 2 ^ 64).

(** grow: the new table (estrat_async.hpp:216-239, estrat_sync.hpp:325-339), as [Growing.g_grow]. *)
Definition begin_grow (c : tcfg) (v : N) (mp : N -> mapper) (me : N -> mem) (th : N -> option (op * gpc)) (e d : Z) : gsys :=
  let m := resize (tmc c) (mp v) (as_size e) (as_size d) in
  GSys v (fupd mp (v + 1) m) (fupd me (v + 1) (target_mem (tmc c) m)) (Some (0, fun _ => None)) th.

(** Steps.
    [h_inv], [h_get], [h_run]: a call begins, gets the table, accesses a cell.  [bo] is the
      answer of the back-off function; [client o] restricts which calls are made.
    [h_invalid]: INVALID; help_grow finds nothing to do; the call starts over.
    [h_full]: FULL; grow.
    [h_ret]: the call returns without counting.
    [h_count]: it counts, fewer than 65 updates so far (1119-1146).
    [h_flush]: update_numbers without growing (1084-1117).
    [h_cross]: update_numbers with growing (1110); _updates has been reset.
    [h_join], [h_help], [h_publish]: the migration; then the counters are corrected
      (estrat_async.hpp:339-340, estrat_sync.hpp:353-355).
    [h_again]: after FULL the call starts over.
    [h_done]: line 1111, and the call returns.
    Simplification: tables of 2^32 slots and more do not grow here, as in Growing.v. *)
Inductive one_step (c : tcfg) (B : N) (bo : bool) (client : op -> Prop) : hsys -> option (event mop mres) -> hsys -> Prop :=
| h_inv v mp me th e d l o :
    th 0 = None -> client o ->
    one_step c B bo client (HSys (GSys v mp me None th) e d l HCall) (Some (EInv 0 (spec_op (tsc c) o)))
      (HSys (GSys v mp me None (fupd th 0 (Some (o, GGet)))) e d l HCall)
| h_get v mp me th e d l o :
    th 0 = Some (o, GGet) ->
    one_step c B bo client (HSys (GSys v mp me None th) e d l HCall) None
      (HSys (GSys v mp me None (fupd th 0 (Some (o, GRun v (start c (mp v) o))))) e d l HCall)
| h_run v mp me th e d l o u pc t' pc' :
    th 0 = Some (o, GRun u pc) -> (forall r, pc <> PDone r) ->
    bstep c (mp u) (me u) bo o pc = (t', pc') ->
    one_step c B bo client (HSys (GSys v mp me None th) e d l HCall) None
      (HSys (GSys v mp (fupd me u t') None (fupd th 0 (Some (o, GRun u pc')))) e d l HCall)
| h_invalid v mp me th e d l o u r :
    th 0 = Some (o, GRun u (PDone r)) -> retries o r = true -> rcode r = RC_INVALID ->
    one_step c B bo client (HSys (GSys v mp me None th) e d l HCall) None
      (HSys (GSys v mp me None (fupd th 0 (Some (o, GGet)))) e d l HCall)
| h_full v mp me th e d l o u r :
    th 0 = Some (o, GRun u (PDone r)) -> retries o r = true -> rcode r <> RC_INVALID ->
    addressable_slots (tmc c) (mp v) < 2 ^ 32 ->
    one_step c B bo client (HSys (GSys v mp me None th) e d l HCall) None
      (HSys (begin_grow c v mp me th e d) e d l (HGrow false))
| h_ret v mp me th e d l o u r :
    th 0 = Some (o, GRun u (PDone r)) -> retries o r = false ->
    gobs o r <> RInserted -> gobs o r <> RErased ->
    one_step c B bo client (HSys (GSys v mp me None th) e d l HCall) (Some (ERet 0 (gobs o r)))
      (HSys (GSys v mp me None (fupd th 0 None)) e d l HCall)
| h_count v mp me th e d l o u r n i x :
    th 0 = Some (o, GRun u (PDone r)) -> retries o r = false ->
    gobs o r = RInserted \/ gobs o r = RErased ->
    count1 (gobs o r) l = (n, i, x) -> (n <= 64)%Z ->
    one_step c B bo client (HSys (GSys v mp me None th) e d l HCall) (Some (ERet 0 (gobs o r)))
      (HSys (GSys v mp me None (fupd th 0 None)) e d (n, i, x) HCall)
| h_flush v mp me th e d l o u r n i x :
    th 0 = Some (o, GRun u (PDone r)) -> retries o r = false ->
    gobs o r = RInserted \/ gobs o r = RErased ->
    count1 (gobs o r) l = (n, i, x) -> (64 < n)%Z ->
    crosses e i (thresh (total_slots (tmc c) (mp v))) = false ->
    one_step c B bo client (HSys (GSys v mp me None th) e d l HCall) (Some (ERet 0 (gobs o r)))
      (HSys (GSys v mp me None (fupd th 0 None)) (e + i) (d + x) (0, 0, 0)%Z HCall)
| h_cross v mp me th e d l o u r n i x :
    th 0 = Some (o, GRun u (PDone r)) -> retries o r = false ->
    gobs o r = RInserted \/ gobs o r = RErased ->
    count1 (gobs o r) l = (n, i, x) -> (64 < n)%Z ->
    crosses e i (thresh (total_slots (tmc c) (mp v))) = true ->
    addressable_slots (tmc c) (mp v) < 2 ^ 32 ->
    one_step c B bo client (HSys (GSys v mp me None th) e d l HCall) None
      (HSys (begin_grow c v mp me th (e + i) (d + x)) (e + i) (d + x) (0%Z, i, x) (HGrow true))
| h_join v mp me k h th e d l dn :
    h 0 = None ->
    one_step c B bo client (HSys (GSys v mp me (Some (k, h)) th) e d l (HGrow dn)) None
      (HSys (GSys v mp me (Some (k, fupd h 0 (Some HClaim))) th) e d l (HGrow dn))
| h_help v mp me k h th e d l dn pc s' t' k' pc' :
    h 0 = Some pc -> pc <> HEnd ->
    hstep c (mp v) (mp (v + 1)) B (me v) (me (v + 1)) k pc = (s', t', k', pc') ->
    one_step c B bo client (HSys (GSys v mp me (Some (k, h)) th) e d l (HGrow dn)) None
      (HSys (GSys v mp (fupd (fupd me v s') (v + 1) t') (Some (k', fupd h 0 (Some pc'))) th) e d l (HGrow dn))
| h_publish v mp me k h th e d l dn :
    h 0 = Some HEnd ->
    one_step c B bo client (HSys (GSys v mp me (Some (k, h)) th) e d l (HGrow dn)) None
      (HSys (GSys (v + 1) mp me None th) (e - d) 0 l (HBack dn))
| h_again v mp me th e d l o u r :
    th 0 = Some (o, GRun u (PDone r)) ->
    one_step c B bo client (HSys (GSys v mp me None th) e d l (HBack false)) None
      (HSys (GSys v mp me None (fupd th 0 (Some (o, GGet)))) e d l HCall)
| h_done v mp me th e d l o u r :
    th 0 = Some (o, GRun u (PDone r)) ->
    one_step c B bo client (HSys (GSys v mp me None th) e d l (HBack true)) (Some (ERet 0 (gobs o r)))
      (HSys (GSys v mp me None (fupd th 0 None)) e d (0, 0, 0)%Z HCall).
