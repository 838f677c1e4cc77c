(** Specification only: progress of the calls on a table of fixed size. *)
From Coq Require Import NArith Bool List.
From Verif Require Import Words Slot Mapper MapSpec LinSpec Base BaseExec.
Import ListNotations.
Open Scope N_scope.

(** The turns in a schedule: accesses of calls in progress. *)
Fixpoint turns (ls : list blabel) : list N :=
  match ls with
  | [] => []
  | LRun tid _ :: ls => tid :: turns ls
  | _ :: ls => turns ls
  end.

(** The call of thread [tid] has its result. *)
Definition finished (s : bsys) (tid : N) : Prop := exists o r, bthr s tid = Some (o, PDone r).

(** A call of thread [tid] has not got its result yet. *)
Definition unfinished (s : bsys) (tid : N) : Prop :=
  exists o pc, bthr s tid = Some (o, pc) /\ forall r, pc <> PDone r.

(** During the schedule [ls] from [s] on, some call gets its result. *)
Definition some_call_finishes (c : tcfg) (m : mapper) (s : bsys) (ls : list blabel) : Prop :=
  exists ls1 tid b ls2 tr1 s1,
    ls = ls1 ++ LRun tid b :: ls2 /\ exec c m s (ls1 ++ [LRun tid b]) = Some (tr1, s1) /\ finished s1 tid.

(** A schedule is a list of steps to be attempted one after the other; what cannot be
    done, or would begin a new call, is skipped. *)
Definition turn (c : tcfg) (m : mapper) (s : bsys) (l : blabel) : bsys :=
  match l with
  | LInv _ _ => s
  | _ => match exec1 c m s l with Some (_, s') => s' | None => s end
  end.
Definition take_turns (c : tcfg) (m : mapper) (ls : list blabel) (s : bsys) : bsys :=
  fold_left (turn c m) ls s.

