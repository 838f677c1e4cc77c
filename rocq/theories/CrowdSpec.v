(** Specification only: restrictions on the executions of [Crowd]. *)
From Coq Require Import NArith ZArith Bool List.
From Verif Require Import Words Slot Mapper MapSpec LinSpec Base TableSpec Migrate Growing GrowingSpec OneHandle Crowd.
Import ListNotations.
Open Scope N_scope.

(** When a migration ends, its source has a vacant cell (circular probing), and
    asynchronous growing: no call changes a cell between the load and the mark of a helper's second loop. *)
Definition roomy_step (sync : bool) (c : tcfg) (B n : N) (client : op -> Prop)
  (s : ksys) (l : option (event mop mres)) (s' : ksys) : Prop :=
  crowd_step sync c B n client s l s' /\ room c (k_g s) (k_g s') /\
  (sync = false -> g_undisturbed c (k_g s) (k_g s')).

(** A thread has found the published table too full and is about to grow it. *)
Definition wanted (n : N) (s : ksys) : Prop := exists t w, t < n /\ k_ph s t = KWant (gver (k_g s)) w.

(** No call begins to use the table when a thread is about to grow it. *)
Definition closed_step (sync : bool) (c : tcfg) (B n : N) (client : op -> Prop)
  (s : ksys) (l : option (event mop mres)) (s' : ksys) : Prop :=
  crowd_step sync c B n client s l s' /\
  (forall t o u pc, gthr (k_g s) t = Some (o, GGet) -> gthr (k_g s') t = Some (o, GRun u pc) -> ~ wanted n s).

(** The step is the beginning of a call. *)
Definition begins (l : option (event mop mres)) : bool := match l with Some (EInv _ _) => true | _ => false end.

(** Whatever the threads do next, as long as no further call begins: after finitely many steps there is a state in [Q]. *)
Inductive inevitable (step : ksys -> option (event mop mres) -> ksys -> Prop) (Q : ksys -> Prop) (s : ksys) : Prop :=
| in_now : Q s -> inevitable step Q s
| in_later :
    (exists l s', step s l s' /\ begins l = false) ->
    (forall l s', step s l s' -> begins l = false -> inevitable step Q s') ->
    inevitable step Q s.
