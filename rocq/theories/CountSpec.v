(** Vocabulary for the theorems on the element counters. *)
From Coq Require Import ZArith List Bool.
From Verif Require Import Count.
Import ListNotations.
Open Scope Z_scope.

Definition reachable (lim : Z) (s : cstate) : Prop := exists tr, csteps (cinit lim) tr s.

(** No handle is inside of a call. *)
Definition at_rest (h : handle) : Prop := h_flush h = FNone /\ h_reset h = RNone.
Definition quiescent (s : cstate) : Prop := forall h, In (Some h) (g_handles s) -> at_rest h.

(** What a handle has counted and not published. *)
Definition unpublished (h : handle) : Z := h_ins h - h_del h.

(** The same inside of a call: what is still to be added to "elements - tombstones". *)
Definition owed (h : handle) : Z :=
  match h_flush h with
  | FNone | FTable | FDummies _ => h_ins h - h_del h
  | FElems _ => h_ins h
  | FGrow => 0
  end +
  match h_reset h with
  | RNone | RSync _ => 0
  | RAsync tmp => - tmp
  | RSync2 r => r
  end.

Fixpoint total (f : handle -> Z) (l : list (option handle)) : Z :=
  match l with
  | [] => 0
  | Some h :: l => f h + total f l
  | None :: l => total f l
  end.

Fixpoint live (l : list (option handle)) : Z :=
  match l with [] => 0 | Some _ :: l => 1 + live l | None :: l => live l end.

(** No table is published during the trace. *)
Definition one_version (tr : list cevent) : Prop := ~ In CPublish tr.
