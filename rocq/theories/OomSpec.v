(** Specification only: a map whose calls may end with an exception. *)
From Coq Require Import NArith Bool List.
From Verif Require Import Words MapSpec LinSpec.
Import ListNotations.
Open Scope N_scope.

(** [OThrow t]: the call of thread [t] ends with std::bad_alloc. *)
Inductive oevent := OCall (e : event mop mres) | OThrow (t : N).

(** Calls that may need room for their key. *)
Definition may_need_room (o : mop) : bool :=
  match o with
  | MInsert _ _ | MInsertOrUpdate _ _ _ _ | MUpdate _ _ _ | MUpdateB _ _ _ => true
  | MFind _ | MErase _ | MEraseIf _ _ => false
  end.

(** The atomic map of [LinSpec], where a call may also end with an exception: a call
    that may need room before it has had an effect, and a call that has added or
    removed a key afterwards. *)
Inductive tstep : aobj amap mop mres -> option oevent -> aobj amap mop mres -> Prop :=
| t_call x e y : astep (mspec false false) x e y -> tstep x (option_map OCall e) y
| t_before m th t o :
    th t = APend o -> may_need_room o = true -> tstep (AObj m th) (Some (OThrow t)) (AObj m (fupd th t AIdle))
| t_after m th t r :
    th t = ADone r -> r = RInserted \/ r = RErased ->
    tstep (AObj m th) (Some (OThrow t)) (AObj m (fupd th t AIdle)).

(** Every call happens at one moment between its beginning and its end, or, if it
    ends with an exception, at one such moment or not at all. *)
Definition at_most_once (tr : list oevent) : Prop :=
  exists x, lts_steps tstep (AObj amap_empty (fun _ => AIdle)) tr x.
