(** Vocabulary for the theorems on the asynchronous growing strategy. *)
From Coq Require Import NArith Bool List.
From Verif Require Import Words Async.
Import ListNotations.
Open Scope N_scope.

(** Thread [i] executes an operation on table [w]. *)
Definition working (s : ast_) (i w : N) : Prop := y_pc s i = AOp /\ y_loc s i = w.

(** Thread [i] is moving block [b] of table [v] into table [v+1]. *)
Definition shifting (s : ast_) (i v b : N) : Prop := y_pc s i = AMig5 v b.

(** All blocks of [v] have been moved completely. *)
Definition migrated (nblocks : N -> N) (s : ast_) (v : N) : Prop :=
  (forall b, b < nblocks v -> y_moved s v b = true) /\ forall i b, ~ shifting s i v b.

(** Thread [i] waits for version [w] to be announced. *)
Definition awaiting (s : ast_) (i w : N) : Prop := (exists o, y_pc s i = AWait o) /\ y_loc s i = w.

(** Executions with the versions published by them, in order. *)
Definition published (s s' : ast_) : list N := if y_tab s =? y_tab s' then [] else [y_tab s'].

Inductive publications (nblocks : N -> N) : list N -> ast_ -> Prop :=
| pb_init : publications nblocks [] async_init
| pb_step h s l s' : publications nblocks h s -> async_run1 nblocks s l = Some s' ->
    publications nblocks (h ++ published s s') s'.

(** 1, 2, ..., n. *)
Definition first_successors (n : nat) : list N := map N.of_nat (seq 1 n).

(** [later s s']: [s'] can be reached from [s]. *)
Inductive later (nblocks : N -> N) (s : ast_) : ast_ -> Prop :=
| la_here : later nblocks s s
| la_step s1 s2 : later nblocks s s1 -> async_step nblocks s1 s2 -> later nblocks s s2.
