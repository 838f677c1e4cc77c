(** Vocabulary for the theorems on pool threads. *)
From Coq Require Import NArith Bool List.
From Verif Require Import Words Pool.
Import ListNotations.
Open Scope N_scope.

(** The thread of handle [i] executes an operation on table [w]. *)
Definition uses (s : pst) (i w : N) : Prop := p_upc s i = UOp /\ p_loc s i = w.

(** All blocks of [v] have been moved completely. *)
Definition carried_out (nblocks : N -> N) (s : pst) (v : N) : Prop :=
  (forall b, b < nblocks v -> p_moved s v b = true) /\ forall i b, p_ppc s i <> PMig5 v b.

(** The thread of handle [i] sleeps until the migration of [v] is over. *)
Definition sleeps (s : pst) (i v : N) : Prop := p_upc s i = UAsleep /\ p_loc s i = v.

(** A thread is woken although the counter it waits for has not changed; pool
    threads that are told to finish do not count. *)
Definition stale_wake (s s' : pst) : Prop :=
  (exists i, p_ppc s i = PAsleep /\ p_ppc s' i <> PAsleep /\ p_gw s = p_pep s i /\ p_fin s i = 0) \/
  (exists i, p_upc s i = UAsleep /\ p_upc s' i <> UAsleep /\ p_uw s = p_lep s i).

(** A pool thread starts on the migration of a version other than the one it counted. *)
Definition out_of_turn (s s' : pst) : Prop :=
  exists i v, p_ppc s i = PMig3 v /\ p_ppc s' i = PMig4 v /\ p_pep s i <> v.

(** Executions without either. *)
Inductive orderly (nblocks : N -> N) : pst -> Prop :=
| od_init : orderly nblocks pool_init
| od_step s s' : orderly nblocks s -> pool_step nblocks s s' ->
    ~ stale_wake s s' -> ~ out_of_turn s s' -> orderly nblocks s'.

(** The pool thread of handle [i] is running. *)
Definition pool_awake (s : pst) (i : N) : Prop :=
  p_ppc s i <> PNone /\ p_ppc s i <> PAsleep /\ p_ppc s i <> PStop /\ p_ppc s i <> PDone.
