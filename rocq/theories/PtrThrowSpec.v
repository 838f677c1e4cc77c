(** Specification only: which exceptions leave memory behind, and a map whose calls may
    end with an exception. *)
From Coq Require Import NArith Bool List.
From Verif Require Import Words Mapper MapSpec LinSpec Ptr PtrThrow.
Import ListNotations.
Open Scope N_scope.

(** The exceptions after which a block of memory is lost. *)
Definition leaves_memory (e : tevent) : bool :=
  match e with
  | TThrow _ _ ElementThrew | TThrow _ (QIou _ _ _) FunctionThrew => true
  | _ => false
  end.
Definition lost (tr : list tevent) : nat := length (filter leaves_memory tr).

(** The atomic map of [LinSpec] (calls may fail where [spec] says so), where a call may
    also end with an exception if it has not happened. *)
Inductive throwing {St} (spec : St -> mop -> St -> mres -> Prop)
  : aobj St mop mres -> option tevent -> aobj St mop mres -> Prop :=
| tw_call x e y : astep spec x e y -> throwing spec x (option_map TCall e) y
| tw_throw m th t o w :
    th t = APend (pspec_op o) ->
    throwing spec (AObj m th) (Some (TThrow t o w)) (AObj m (fupd th t AIdle)).

(** Every call that returns happens at one moment in between; a call that ends with an
    exception does not happen. *)
Definition happens_unless_thrown {St} (spec : St -> mop -> St -> mres -> Prop) (m0 : St) (tr : list tevent) : Prop :=
  exists x, lts_steps (throwing spec) (AObj m0 (fun _ => AIdle)) tr x.
