(** Tables that hold keys and values in place, when the function given to update,
    update_with_backoff or insert_or_update throws. *)
From Coq Require Import NArith Bool List.
From Verif Require Import Words Slot Mapper MapSpec LinSpec Base Migrate Growing.
Import ListNotations.
Open Scope N_scope.

(** An event of a call, or the end of the call of a thread by an exception. *)
Inductive uevent := UCall (e : event mop mres) | UThrow (t : N).

(** The function changes the value in its cell: "f.atomic" (simple_slot.hpp:386-400,
    single_word_slot.hpp:380-395).  In all other cases it gets a copy
    (simple_slot.hpp:416-418, 437-438). *)
Definition in_place (sc : scfg) (o : op) : bool :=
  negb (sc_mark sc) && match fat (op_fun o) with Some _ => true | None => false end.

(** The function of a call on a table of fixed size throws: no function of the table
    catches the exception, and the call is over.
    [bt_early]: the cell has not changed.  [bt_late]: a function that works in place has
    done its work before it throws (partial changes of a value are not modelled). *)
Inductive base_throws (late : bool) (c : tcfg) (m : mapper) : bsys -> N -> bsys -> Prop :=
| bt_early t th tid o i curr :
    th tid = Some (o, PUpd i curr) -> base_throws late c m (BSys t th) tid (BSys t (fupd th tid None))
| bt_late t th tid o i curr b t' r :
    late = true -> th tid = Some (o, PUpd i curr) -> in_place (tsc c) o = true ->
    bstep c m t b o (PUpd i curr) = (t', PDone r) ->
    base_throws late c m (BSys t th) tid (BSys t' (fupd th tid None)).

(** The same on a growing table.  What the exception leaves behind in the handshake
    (C69) only makes growth steps wait. *)
Inductive grow_throws (late : bool) (c : tcfg) : gsys -> N -> gsys -> Prop :=
| gt_early v mp me mg th tid o u i curr :
    th tid = Some (o, GRun u (PUpd i curr)) ->
    grow_throws late c (GSys v mp me mg th) tid (GSys v mp me mg (fupd th tid None))
| gt_late v mp me mg th tid o u i curr b t' r :
    late = true -> th tid = Some (o, GRun u (PUpd i curr)) -> in_place (tsc c) o = true ->
    bstep c (mp u) (me u) b o (PUpd i curr) = (t', PDone r) ->
    grow_throws late c (GSys v mp me mg th) tid (GSys v mp (fupd me u t') mg (fupd th tid None)).

(** A system with calls that throw. *)
Inductive or_throws {S} (step : S -> option (event mop mres) -> S -> Prop) (throws : S -> N -> S -> Prop)
  : S -> option uevent -> S -> Prop :=
| ot_step s e s' : step s e s' -> or_throws step throws s (option_map UCall e) s'
| ot_throw s t s' : throws s t s' -> or_throws step throws s (Some (UThrow t)) s'.
