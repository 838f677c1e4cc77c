(** C62: growing with the synchronised strategy never gets stuck. *)
From Coq Require Import NArith Bool List Lia.
From Verif Require Import Words BaseInv Sync SyncInv SyncSpec SyncFacts SyncEndSpec SyncEnd PropSync.
Import ListNotations.
Open Scope N_scope.

(** As long as an operation is in progress, the access of some thread, or a store
    that leaves its buffer, changes something: the threads never all wait for each
    other.  For accesses that are immediately visible ([tso = false]) and with store
    buffers ([tso = true]). *)
Theorem C62_somebody_can_go :
  forall tso nblocks slot s, own_flags slot -> sync_reachable tso nblocks slot s ->
    ~ crashed s -> (exists i, ~ resting s i) ->
    exists l s', busy s l = true /\ sync_run1 tso nblocks slot s l = Some s' /\ s' <> s.
Proof. intros tso nb sl s INJ R. now apply somebody_can_go. Qed.
Print Assumptions C62_somebody_can_go.

(** The operations in progress cannot keep each other busy forever: how many
    steps other than waiting they can make is bounded. *)
Theorem C62_work_bounded :
  forall tso nblocks slot s, own_flags slot -> sync_reachable tso nblocks slot s ->
    exists M, forall n s', works tso nblocks slot s n s' -> n <= M.
Proof. intros tso nb sl s INJ R. now apply work_bounded. Qed.
Print Assumptions C62_work_bounded.

(** Hence every wait ends: after enough rounds in each of which everybody has a turn,
    all operations in progress have returned and all stores are visible. *)
Theorem C62_fair_schedules_finish :
  forall tso nblocks slot s, own_flags slot -> sync_reachable tso nblocks slot s ->
    exists M, forall rs, (M <= length rs)%nat -> Forall (fair_round s) rs ->
      crashed (attempts tso nblocks slot (concat rs) s) \/
      forall i, resting (attempts tso nblocks slot (concat rs) s) i.
Proof. intros tso nb sl s INJ R. now apply rounds_finish. Qed.
Print Assumptions C62_fair_schedules_finish.

(** Thread 1 organises a growth step, thread 0 helps, and thread 2 operates on the table;
    the organiser waits for thread 2.  Forty rounds later all of them have returned. *)
Definition wait_run : list slabel :=
  go 0 2 ++ go 1 2 ++ go 2 2 ++ go 2 4 ++ go 1 4 ++ [SWant 1] ++ go 1 9 ++ go 0 5.
Definition round3 : list slabel :=
  [SGo 0; SGo 1; SGo 2; SFlush 0; SFlush 1; SFlush 2].
Example C62_case :
  own_flags self /\
  exists s, sync_run false two self sync_init wait_run = Some s /\
    organising s 1 0 /\ operating s 2 0 /\ ~ crashed s /\ (exists i, ~ resting s i) /\
    sync_run1 false two self s (SGo 1) = Some s /\ sync_run1 false two self s (SGo 0) = Some s /\
    fair_round s round3 /\
    (forall i, resting (attempts false two self (concat (repeat round3 40)) s) i) /\
    s_tab (attempts false two self (concat (repeat round3 40)) s) = TTab 1.
Proof.
  split; [intros i j E; exact E|].
  assert (X : exists s, sync_run false two self sync_init wait_run = Some s) by (eexists; vm_compute; reflexivity).
  destruct X as [s X]. exists s. split; [exact X|].
  assert (Q : forall i, i <> 0 -> i <> 1 -> i <> 2 ->
    resting s i /\ resting (attempts false two self (concat (repeat round3 40)) s) i).
  { vm_compute in X. injection X as <-. intros [|[[]|[]|]] A B C; try lia; split; split; reflexivity. }
  assert (NC : forall i v, s_pc s i <> PFault v).
  { intros i v P. destruct (N.eq_dec i 0) as [->|A]; [vm_compute in X; injection X as <-; discriminate P|].
    destruct (N.eq_dec i 1) as [->|B]; [vm_compute in X; injection X as <-; discriminate P|].
    destruct (N.eq_dec i 2) as [->|C]; [vm_compute in X; injection X as <-; discriminate P|].
    destruct (Q i A B C) as [[H _] _]. rewrite P in H. discriminate. }
  split; [vm_compute in X; injection X as <-; vm_compute; reflexivity|].
  split; [vm_compute in X; injection X as <-; vm_compute; reflexivity|].
  split; [intros (i & v & P); now apply (NC i v)|].
  split; [exists 2; intros [H _]; vm_compute in X; injection X as <-; discriminate H|].
  split; [apply wait_same; vm_compute in X; injection X as <-; vm_compute; reflexivity|].
  split; [apply wait_same; vm_compute in X; injection X as <-; vm_compute; reflexivity|].
  split; [|split].
  - intros i H. destruct (N.eq_dec i 0) as [->|A]; [split; cbn; auto 10|].
    destruct (N.eq_dec i 1) as [->|B]; [split; cbn; auto 10|].
    destruct (N.eq_dec i 2) as [->|C]; [split; cbn; auto 10|]. destruct H. now apply Q.
  - intros i. destruct (N.eq_dec i 0) as [->|A]; [vm_compute in X; injection X as <-; split; vm_compute; reflexivity|].
    destruct (N.eq_dec i 1) as [->|B]; [vm_compute in X; injection X as <-; split; vm_compute; reflexivity|].
    destruct (N.eq_dec i 2) as [->|C]; [vm_compute in X; injection X as <-; split; vm_compute; reflexivity|].
    now apply Q.
  - vm_compute in X; injection X as <-; vm_compute; reflexivity.
Qed.

(** Fairness is needed: growing is blocking.  A thread that is stopped within an
    operation keeps the organiser and the helpers from returning forever. *)
Theorem C62_stopped_thread_blocks :
  exists s, sync_reachable false two self s /\ operating s 2 0 /\
    forall ls, (forall l, In l ls -> actor l <> 2) ->
      ~ resting (attempts false two self ls s) 1 /\ ~ resting (attempts false two self ls s) 0 /\
      s_tab (attempts false two self ls s) = TMarked 0.
Proof.
  assert (X : exists s, sync_run false two self sync_init wait_run = Some s /\ operating s 2 0 /\ s_tab s = TMarked 0 /\
     waiting s 0 = true /\ waiting s 1 = true /\ quiet (s_pc s 0) = false /\ quiet (s_pc s 1) = false /\
     s_buf s 0 = [] /\ s_buf s 1 = [] /\
     forall i, i <> 0 -> i <> 1 -> i <> 2 -> resting s i).
  { eexists. split; [vm_compute; reflexivity|]. repeat (split; [vm_compute; reflexivity|]).
    intros [|[[]|[]|]] A B C; try lia; split; reflexivity. }
  destruct X as (s & R & O & T & W0 & W1 & Q0 & Q1 & B0 & B1 & RS). exists s.
  split; [eapply run_reachable; [apply sr_init|exact R]|]. split; [exact O|].
  assert (ST : forall l, actor l <> 2 -> attempt false two self s l = s).
  { intros l NE. unfold attempt. destruct (busy s l) eqn:BU; auto.
    destruct l as [i|i|i|i]; cbn [actor] in NE; try discriminate BU.
    all: destruct (N.eq_dec i 0) as [->|N0]; [|destruct (N.eq_dec i 1) as [->|N1]].
    - now rewrite (wait_same false two self s 0 W0).
    - now rewrite (wait_same false two self s 1 W1).
    - cbn in BU. rewrite (proj1 (RS i N0 N1 NE)) in BU. discriminate.
    - cbn. unfold waiting in W0. destruct (s_pc s 0); auto; discriminate.
    - cbn. unfold waiting in W1. destruct (s_pc s 1); auto; discriminate.
    - cbn. pose proof (proj1 (RS i N0 N1 NE)) as Q. destruct (s_pc s i); auto; discriminate.
    - cbn. now rewrite B0.
    - cbn. now rewrite B1.
    - cbn. now rewrite (proj2 (RS i N0 N1 NE)). }
  intros ls H. assert (E : attempts false two self ls s = s).
  { induction ls as [|l ls IH]; [reflexivity|]. change (attempts false two self (l :: ls) s) with (attempts false two self ls (attempt false two self s l)).
    rewrite ST by (apply H; now left). apply IH. intros l' I. apply H. now right. }
  rewrite E. split; [intros [Q _]; congruence|]. split; [intros [Q _]; congruence|exact T].
Qed.
Print Assumptions C62_stopped_thread_blocks.
