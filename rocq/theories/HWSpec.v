(** Specification only: linearizability in the words of Herlihy and Wing, for an
    arbitrary sequential specification.  A history is a list of invocation and
    response events.  A call is named by the position of its invocation. *)
From Coq Require Import NArith List.
From Verif Require Import LinSpec.
Import ListNotations.
Open Scope nat_scope.

Section HW.
Context {St Op Res : Type} (spec : St -> Op -> St -> Res -> Prop).

Definition thread_of (e : event Op Res) : N := match e with EInv t _ | ERet t _ => t end.

(** The call invoked at position [i] returns [r] at position [j]: no event of its
    thread lies between. *)
Definition responds (h : list (event Op Res)) (i j : nat) (r : Res) : Prop :=
  exists t o, nth_error h i = Some (EInv t o) /\ nth_error h j = Some (ERet t r) /\ i < j /\
    forall k e, i < k < j -> nth_error h k = Some e -> thread_of e <> t.

(** Every thread has one call at a time, and every response belongs to a call. *)
Definition well_formed (h : list (event Op Res)) : Prop :=
  (forall i j t o o', nth_error h i = Some (EInv t o) -> nth_error h j = Some (EInv t o') -> i < j ->
     exists k r, i < k < j /\ nth_error h k = Some (ERet t r)) /\
  (forall j t r, nth_error h j = Some (ERet t r) -> exists i, responds h i j r).

(** A sequential history: calls with their results, one after the other. *)
Inductive legal : St -> list (nat * Op * Res) -> St -> Prop :=
| lg_nil s : legal s [] s
| lg_cons s i o r s' l s'' : spec s o s' r -> legal s' l s'' -> legal s ((i, o, r) :: l) s''.

Definition call_at (x : nat * Op * Res) : nat := fst (fst x).

(** [i] comes before [k] in [l]. *)
Definition precedes (l : list (nat * Op * Res)) (i k : nat) : Prop :=
  exists l1 l2, l = l1 ++ l2 /\ In i (map call_at l1) /\ In k (map call_at l2).

(** There is a legal sequential history [l] of calls of [h] that contains every
    call that has returned, with the result it returned (and possibly calls that
    have not returned yet), such that a call that returned before another one was
    invoked comes before it. *)
Definition hw_linearizable (s0 : St) (h : list (event Op Res)) : Prop :=
  well_formed h /\
  exists l s', legal s0 l s' /\ NoDup (map call_at l) /\
    (forall i o r, In (i, o, r) l -> exists t, nth_error h i = Some (EInv t o)) /\
    (forall i j r, responds h i j r -> exists o, In (i, o, r) l) /\
    (forall i j r k, responds h i j r -> j < k -> In k (map call_at l) -> precedes l i k).

End HW.
