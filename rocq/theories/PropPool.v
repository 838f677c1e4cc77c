(** C44: the asynchronous growing strategy with pool threads. *)
From Coq Require Import NArith Bool List Lia.
From Verif Require Import Words BaseInv Pool PoolSpec PoolInv PoolFacts.
Import ListNotations.
Open Scope N_scope.

Definition ug (i : N) (n : nat) : list zlabel := repeat (ZUser i) n.
Definition pg (i : N) (n : nat) : list zlabel := repeat (ZPool i) n.
Definition two_blocks (_ : N) : N := 2.

(** One handle.  The user raises the growth counter, its pool thread migrates table 0
    and goes to sleep; only then the user calls wake.  The pool thread makes another
    round and raises the counter of the users a second time.  At the next growth the
    user does not wait: it operates on table 2 while no block of table 1 has been
    moved. *)
Definition early_run : list zlabel :=
  ug 0 5 ++ [ZWant 0] ++ ug 0 2 ++ pg 0 14 ++ ug 0 1 ++ pg 0 9 ++ ug 0 8 ++ [ZWant 0] ++ ug 0 11.

Theorem C44_resumes_early_refuted :
  exists s, pool_reachable two_blocks s /\ uses s 0 2 /\
    (forall j, j <> 0 -> p_upc s j = UUnreg) /\ (forall b, p_moved s 1 b = false).
Proof.
  assert (H : exists s, pool_run two_blocks pool_init early_run = Some s /\ uses s 0 2 /\
    (forall j, j <> 0 -> p_upc s j = UUnreg) /\ (forall b, p_moved s 1 b = false)).
  { eexists. split; [vm_compute; reflexivity|]. split; [split; vm_compute; reflexivity|].
    split; [|intros b; reflexivity]. intros [|p] NE; [congruence|reflexivity]. }
  destruct H as (s & R & H). exists s. split; [|exact H]. eapply prun_reachable; [apply pr_init|exact R].
Qed.
Print Assumptions C44_resumes_early_refuted.

(** A handle grew the table and is gone.  The pool thread of the next handle starts
    with epoch 0, takes part in the migration of table 1 at once, does not raise the
    counter of the users and sleeps; then its user falls asleep.  No thread of an
    existing handle can make a step any more. *)
Definition stuck_run : list zlabel :=
  ug 0 5 ++ [ZWant 0] ++ ug 0 3 ++ pg 0 14 ++ ug 0 7 ++ [ZDestroy 0] ++ ug 0 3 ++ pg 0 2 ++ ug 0 1 ++
  ug 1 5 ++ [ZWant 1] ++ ug 1 3 ++ pg 1 14 ++ ug 1 1.

Theorem C44_sleeps_forever_refuted :
  exists s, pool_reachable two_blocks s /\ sleeps s 1 1 /\
    user_go s 1 = None /\ pool_go two_blocks s 1 = None /\
    forall j, j <> 1 -> p_upc s j = UUnreg /\ pool_go two_blocks s j = None.
Proof.
  assert (H : exists s, pool_run two_blocks pool_init stuck_run = Some s /\ sleeps s 1 1 /\
    user_go s 1 = None /\ pool_go two_blocks s 1 = None /\
    forall j, j <> 1 -> p_upc s j = UUnreg /\ pool_go two_blocks s j = None).
  { eexists. split; [vm_compute; reflexivity|]. split; [split; vm_compute; reflexivity|].
    split; [vm_compute; reflexivity|]. split; [vm_compute; reflexivity|]. intros [|[p|p|]] NE;
    [split; vm_compute; reflexivity|split; reflexivity|split; reflexivity|congruence]. }
  destruct H as (s & R & H). exists s. split; [|exact H]. eapply prun_reachable; [apply pr_init|exact R].
Qed.
Print Assumptions C44_sleeps_forever_refuted.

(** In executions without wake-ups of threads whose counter has not changed, in
    which pool threads only start on the migration they counted: an operation is
    executed on a table only after every earlier table was migrated completely. *)
Theorem C44_resumes_after_migration_partial :
  forall nblocks s, orderly nblocks s ->
    forall i w, uses s i w -> forall v, v < w -> carried_out nblocks s v.
Proof.
  intros nb s O i w [P L] v LT. pose proof (orderly_pinv nb s O) as G.
  pose proof (pi_u _ _ G i) as (U & _). destruct (pi_prev _ _ G v) as [_ (_ & D)]; [lia|]. exact D.
Qed.
Print Assumptions C44_resumes_after_migration_partial.

(** In the same executions no sleeping user is forgotten: steps of the threads that
    are awake, without any further call, wake it.  Missing for C44: that fair
    schedules take such steps, and the executions refuted above. *)
Theorem C44_woken_partial :
  forall nblocks s, orderly nblocks s -> forall i v, sleeps s i v ->
    (exists j k s', pool_run nblocks s (repeat (ZPool j) k) = Some s' /\ ~ sleeps s' i v) \/
    (exists j s1 k s', p_upc s j = UWake /\ user_go s j = Some s1 /\
       pool_run nblocks s1 (repeat (ZPool i) k) = Some s' /\ ~ sleeps s' i v).
Proof.
  intros nb s O i v S. destruct (sleeper nb s i v O S) as [(j & k & s' & R & A)|(j & s1 & A & B & _ & k & s' & R & C)].
  - left. exists j, k, s'. split; auto. intros [X _]. auto.
  - right. exists j, s1, k, s'. repeat split; auto. intros [X _]. auto.
Qed.
Print Assumptions C44_woken_partial.

(** ** Cases *)

(** Two handles and two growth steps, each migrated by both pool threads; first user
    0 sleeps, then user 1 operates on table 2. *)
Definition orderly_labels : list zlabel :=
  ug 0 5 ++ ug 1 5 ++ pg 0 1 ++ pg 1 1 ++
  [ZWant 0] ++ ug 0 4 ++ [ZWant 1] ++ ug 1 3 ++
  pg 0 5 ++ pg 1 5 ++ pg 0 1 ++ pg 1 1 ++ pg 0 1 ++ pg 1 1 ++ pg 0 3 ++ pg 1 3 ++
  pg 0 1 ++ pg 1 1 ++ ug 0 7 ++ ug 1 6 ++ [ZWant 0] ++ ug 0 4.
Definition orderly_rest : list zlabel :=
  pg 0 5 ++ pg 1 5 ++ pg 0 1 ++ pg 1 1 ++ pg 0 1 ++ pg 1 1 ++ pg 0 3 ++ pg 1 3 ++
  pg 0 1 ++ pg 1 1 ++ ug 0 6 ++ ug 1 4.
Example C44_case :
  (exists s, orderly two_blocks s /\ sleeps s 0 1) /\
  (exists s, orderly two_blocks s /\ uses s 1 2).
Proof.
  assert (R : forall ls s, orderly_run two_blocks [0; 1] pool_init ls = Some s -> orderly two_blocks s).
  { intros ls s. apply orderly_run_sound; [constructor|]. intros j _. split; reflexivity. }
  assert (H1 : exists s, orderly_run two_blocks [0; 1] pool_init orderly_labels = Some s /\ sleeps s 0 1).
  { eexists. split; [vm_compute; reflexivity|split; vm_compute; reflexivity]. }
  assert (H2 : exists s, orderly_run two_blocks [0; 1] pool_init (orderly_labels ++ orderly_rest) = Some s /\ uses s 1 2).
  { eexists. split; [vm_compute; reflexivity|split; vm_compute; reflexivity]. }
  destruct H1 as (s1 & A1 & B1), H2 as (s2 & A2 & B2).
  split; [exists s1|exists s2]; split; auto; eapply R; eauto.
Qed.
