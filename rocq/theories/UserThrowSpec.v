(** Specification only: a map whose calls may end with an exception of the function they
    were given. *)
From Coq Require Import NArith Bool List.
From Verif Require Import Words MapSpec LinSpec UserThrow.
Import ListNotations.
Open Scope N_scope.

Definition takes_function (o : mop) : bool :=
  match o with MUpdate _ _ _ | MUpdateB _ _ _ | MInsertOrUpdate _ _ _ _ => true | _ => false end.

(** The atomic map of [LinSpec], where a call with a function may also end with an
    exception: before it has happened, and if [late] also after it has updated a value. *)
Inductive dropping (late : bool) {St} (spec : St -> mop -> St -> mres -> Prop)
  : aobj St mop mres -> option uevent -> aobj St mop mres -> Prop :=
| dr_call x e y : astep spec x e y -> dropping late spec x (option_map UCall e) y
| dr_before m th t o :
    th t = APend o -> takes_function o = true ->
    dropping late spec (AObj m th) (Some (UThrow t)) (AObj m (fupd th t AIdle))
| dr_after m th t d :
    late = true -> th t = ADone (RUpdated d) ->
    dropping late spec (AObj m th) (Some (UThrow t)) (AObj m (fupd th t AIdle)).

(** Calls that throw do not happen ([late = false]), or happen or not; the others happen
    at one moment. *)
Definition atomic_but_thrown (late : bool) {St} (spec : St -> mop -> St -> mres -> Prop) (m0 : St) (tr : list uevent) : Prop :=
  exists x, lts_steps (dropping late spec) (AObj m0 (fun _ => AIdle)) tr x.

(** *** The same in terms of histories *)

Definition of_thread (t : N) (e : event mop mres) : bool :=
  match e with EInv u _ => u =? t | ERet u _ => u =? t end.

(** The next event of thread [t] is an exception. *)
Fixpoint throws_next (t : N) (tr : list uevent) : bool :=
  match tr with
  | [] => false
  | UThrow u :: tr => if u =? t then true else throws_next t tr
  | UCall e :: tr => if of_thread t e then false else throws_next t tr
  end.

(** The history without the calls that end with an exception. *)
Fixpoint without_thrown (tr : list uevent) : list (event mop mres) :=
  match tr with
  | [] => []
  | UThrow _ :: tr => without_thrown tr
  | UCall (EInv t o) :: tr => if throws_next t tr then without_thrown tr else EInv t o :: without_thrown tr
  | UCall (ERet t r) :: tr => ERet t r :: without_thrown tr
  end.
