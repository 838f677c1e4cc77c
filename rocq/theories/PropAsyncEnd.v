(** C65: growing with the asynchronous strategy gets stuck only as in C21. *)
From Coq Require Import NArith Bool List Lia.
From Verif Require Import Words BaseInv SyncEnd Async AsyncInv AsyncSpec AsyncFacts AsyncEndSpec AsyncEnd PropAsync.
Import ListNotations.
Open Scope N_scope.

(** As long as an operation is in progress that does not wait for a version which has
    been replaced already, the access of some thread changes something. *)
Theorem C65_somebody_can_go :
  forall nblocks s, async_reachable nblocks s -> (exists i, ~ aresting s i /\ ~ missed s i) ->
    exists l s', abusy s l = true /\ async_run1 nblocks s l = Some s' /\ s' <> s.
Proof. exact asomebody_can_go. Qed.
Print Assumptions C65_somebody_can_go.

(** How many steps other than waiting the operations in progress can make is bounded. *)
Theorem C65_work_bounded :
  forall nblocks s, async_reachable nblocks s -> exists M, forall n s', aworks nblocks s n s' -> n <= M.
Proof. exact awork_bounded. Qed.
Print Assumptions C65_work_bounded.

(** After enough rounds in each of which everybody has a turn, every operation in progress has
    returned, but those that wait for a version which has been replaced already. *)
Theorem C65_fair_schedules_finish :
  forall nblocks s, async_reachable nblocks s ->
    exists M, forall rs, (M <= length rs)%nat -> Forall (afair_round s) rs ->
      forall i, aresting (aattempts nblocks (concat rs) s) i \/ missed (aattempts nblocks (concat rs) s) i.
Proof. exact arounds_finish. Qed.
Print Assumptions C65_fair_schedules_finish.

(** Two threads move a block each, one of them waits for the announcement; forty rounds
    later they have returned and the new table is announced. *)
Definition around2 : list alabel := [YGo 0; YGo 1].
Example C65_case :
  exists s, async_run two async_init (grow_run ++ go 0 3) = Some s /\
    y_pc s 0 = AEnd1 /\ shifting s 1 0 1 /\ afair_round s around2 /\
    (forall i, aresting (aattempts two (concat (repeat around2 40)) s) i) /\
    y_tab (aattempts two (concat (repeat around2 40)) s) = 1 /\
    y_epoch (aattempts two (concat (repeat around2 40)) s) = 1.
Proof.
  assert (X : exists s, async_run two async_init (grow_run ++ go 0 3) = Some s) by (eexists; vm_compute; reflexivity).
  destruct X as [s X]. exists s. split; [exact X|].
  split; [vm_compute in X; injection X as <-; vm_compute; reflexivity|].
  split; [vm_compute in X; injection X as <-; vm_compute; reflexivity|].
  split.
  - intros i H. destruct (N.eq_dec i 0) as [->|A]; [cbn; auto|]. destruct (N.eq_dec i 1) as [->|B]; [cbn; auto|].
    exfalso. apply H. right. vm_compute in X. injection X as <-. destruct i as [|[]]; try lia; reflexivity.
  - split; [|split; vm_compute in X; injection X as <-; vm_compute; reflexivity].
    intros i. vm_compute in X. injection X as <-. destruct i as [|[[]|[]|]]; first [left; vm_compute; reflexivity|right; vm_compute; reflexivity].
Qed.

(** A thread that is stopped while it moves elements keeps the others from returning
    forever: growing is blocking. *)
Theorem C65_stopped_helper_blocks :
  exists s, async_reachable two s /\ shifting s 1 0 1 /\
    forall ls, (forall l, In l ls -> aactor l <> 1) ->
      ~ aresting (aattempts two ls s) 0 /\ y_tab (aattempts two ls s) = 0.
Proof.
  assert (X : exists s, async_run two async_init (grow_run ++ go 0 3) = Some s /\ shifting s 1 0 1 /\
     awaits s 0 = true /\ y_pc s 0 = AEnd1 /\ y_tab s = 0 /\ forall i, i <> 0 -> i <> 1 -> y_pc s i = AUnreg).
  { eexists. split; [vm_compute; reflexivity|]. repeat (split; [vm_compute; reflexivity|]).
    intros [|[[]|[]|]] A B; try lia; reflexivity. }
  destruct X as (s & R & S & W & P & T & RS). exists s.
  split; [eapply arun_reachable; [apply ar_init|exact R]|]. split; [exact S|].
  assert (ST : forall l, aactor l <> 1 -> aattempt two s l = s).
  { intros l NE. unfold aattempt. destruct (abusy s l) eqn:BU; auto.
    destruct l as [i|i|i|i]; cbn [aactor] in NE; try discriminate BU; (destruct (N.eq_dec i 0) as [->|N0]).
    - now rewrite (awaits_same two s 0 W).
    - cbn in BU. rewrite (RS i N0 NE) in BU. discriminate.
    - cbn. now rewrite P.
    - cbn. now rewrite (RS i N0 NE).
    - cbn. now rewrite P.
    - cbn. now rewrite (RS i N0 NE). }
  intros ls H. assert (E : aattempts two ls s = s).
  { induction ls as [|l ls IH]; [reflexivity|]. change (aattempts two (l :: ls) s) with (aattempts two ls (aattempt two s l)).
    rewrite ST by (apply H; now left). apply IH. intros l' I. apply H. now right. }
  rewrite E. split; [intros [Q|Q]; congruence|exact T].
Qed.
Print Assumptions C65_stopped_helper_blocks.
