(** Specification only: which answers come with an element. *)
From Coq Require Import NArith.
From Verif Require Import MapSpec.

(** The call found, stored or changed an element, and so the iterator it returns is
    not end(). *)
Definition shows_element (r : mres) : Prop :=
  match r with RInserted | RPresent _ | RFound _ | RUpdated _ => True | _ => False end.

(** Two tables occupy different memory. *)
Definition disjoint_memory (base : N -> N) (size : N) (v n v' n' : N) : Prop :=
  (forall p q, p < n -> q < n' -> base v + size * p <> base v' + size * q)%N.
