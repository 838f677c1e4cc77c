(** Model: unsafe updates on growing tables.  migration_table.hpp:724-762 [update_unsafe] and
    845-919 [insert_or_update_unsafe] are the retry loops of [update] and
    [insert_or_update] (Growing.v) around the calls of Unsafe.v. *)
From Coq Require Import NArith Bool List.
From Verif Require Import Words Slot Mapper ReturnCode MapSpec LinSpec Base TableSpec Migrate GrowSpec
  Growing GrowingSpec Tso Unsafe.
Import ListNotations.
Open Scope N_scope.

(** Beside the growing table of Growing.v: is the call of a thread unsafe, and has it read
    the value it is going to replace ([curr] as in Unsafe.v)? *)
Inductive umode := UOff | UOn | URead (curr : slot).
Definition ugsys := (gsys * (N -> umode))%type.

Definition mode_of (q : call) : umode := match q with Safe _ => UOff | _ => UOn end.

(** Steps: a call begins; everything else as in Growing.v, except for unsafe calls that
    have found their key; they read (simple_slot.hpp:459-462) and they write (461-464). *)
Inductive ug_step (c : tcfg) (B : N) (client : call -> Prop)
  : ugsys -> option (event mop mres) -> ugsys -> Prop :=
| ug_inv v mp me mg th kd u q :
    th u = None -> client q ->
    ug_step c B client (GSys v mp me mg th, kd) (Some (EInv u (spec_op (tsc c) (as_safe q))))
      (GSys v mp me mg (fupd th u (Some (as_safe q, GGet))), fupd kd u (mode_of q))
| ug_base s kd l s' :
    gsys_step c B nobody s l s' ->
    (forall u o v i y, gthr s u = Some (o, GRun v (PUpd i y)) -> kd u <> UOff -> gthr s' u = gthr s u) ->
    ug_step c B client (s, kd) l (s', kd)
| ug_read s kd u o v i y curr :
    gthr s u = Some (o, GRun v (PUpd i y)) -> kd u = UOn ->
    rd c (gmap s v) (gmem s v) (remap (tmc c) (gmap s v) i) = Some curr ->
    ug_step c B client (s, kd) None (s, fupd kd u (URead curr))
| ug_store v mp me mg th kd u o w i y curr :
    th u = Some (o, GRun w (PUpd i y)) -> kd u = URead curr ->
    ug_step c B client (GSys v mp me mg th, kd) None
      (GSys v mp (fupd me w (store_word (me w) (remap (tmc c) (mp w) i, fn (op_fun o) (sdata curr)))) mg
         (fupd th u (Some (o, GRun w (PDone (BRet RC_SUCCESS_UP
            (fst (non_atomic_update (tsc c) curr (op_fun o))) (Some (remap (tmc c) (mp w) i))))))),
       fupd kd u UOn).

Definition ug_init (c : tcfg) (lg : N) : ugsys := (gsys_init c lg, fun _ => UOff).
