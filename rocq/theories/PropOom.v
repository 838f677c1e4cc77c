(** C63: growing when memory runs out. *)
From Coq Require Import NArith Bool List Lia.
From Verif Require Import Words BaseInv Sync SyncInv SyncSpec SyncFacts Async AsyncInv AsyncSpec Oom OomFacts PropSync.
Import ListNotations.
Open Scope N_scope.

(** Thread [i] has begun a call and has not protected a table yet. *)
Definition entering (s : sst) (i : N) : Prop := s_pc s i = PGet1.
(** No call of thread [i] is in progress. *)
Definition returned (s : sst) (i : N) : Prop := s_pc s i = PIdle.

(** Synchronised growing: whenever the allocation of the new table throws, whatever
    happens afterwards and however much memory there is then, the table stays marked
    as growing, no thread gets to operate on it again, and no call that begins
    returns. *)
Theorem C63_sync_failure_is_fatal :
  forall tso nblocks slot s i v s1, own_flags slot -> sync_reachable tso nblocks slot s ->
    s_pc s i = PGrow5 v -> sync_fail s i = Some s1 ->
    forall s2, sync_later tso nblocks slot s1 s2 ->
      s_tab s2 = TMarked v /\
      (forall j w, operating s2 j w -> operating s1 j w) /\
      (forall j s3, entering s2 j -> sync_later tso nblocks slot s2 s3 -> ~ returned s3 j).
Proof.
  intros tso nb sl s i v s1 INJ R P F s2 L. pose proof (fail_dead tso nb sl INJ s i v s1 R P F) as D.
  destruct (later_dead tso nb sl INJ v s1 s2 D L) as [D2 H].
  split; [apply (de_tab _ _ D2)|]. split; [intros j w; apply (H j)|].
  intros j s3 E L2. destruct (later_dead tso nb sl INJ v s2 s3 D2 L2) as [_ H3]. destruct (H3 j) as [_ X].
  unfold returned. destruct (X E) as [Y|[Y|[Y|[g Y]]]]; rewrite Y; discriminate.
Qed.
Print Assumptions C63_sync_failure_is_fatal.

(** So a table is lost although nobody is using it: two handles, one of them wants to
    grow the table and gets an exception; then both are idle, and no call of either
    ever returns. *)
Theorem C63_sync_usable_after_failure_refuted :
  exists s s1, sync_reachable false two self s /\ sync_fail s 1 = Some s1 /\
    returned s1 0 /\ returned s1 1 /\
    (forall s2, sync_later false two self s1 s2 -> forall j w, ~ operating s2 j w) /\
    (forall s2 s3 j, sync_later false two self s1 s2 -> entering s2 j -> sync_later false two self s2 s3 -> ~ returned s3 j).
Proof.
  assert (H : exists s, sync_run false two self sync_init (go 0 2 ++ go 1 2 ++ go 1 4 ++ [SWant 1] ++ go 1 5) = Some s /\
    s_pc s 1 = PGrow5 0 /\ returned s 0 /\ (forall j w, ~ operating s j w)).
  { eexists. split; [vm_compute; reflexivity|]. split; [vm_compute; reflexivity|]. split; [vm_compute; reflexivity|].
    intros [|[[]|[]|]] w O; discriminate O. }
  destruct H as (s & R & P & I0 & NO).
  assert (RE : sync_reachable false two self s) by (eapply run_reachable; [apply sr_init|exact R]).
  assert (F : sync_fail s 1 = Some (set_pc s 1 PIdle)) by (unfold sync_fail; now rewrite P).
  exists s, (set_pc s 1 PIdle). split; [exact RE|]. split; [exact F|].
  assert (INJ : own_flags self) by (intros i j E; exact E).
  split; [unfold returned; cbn; now rewrite fupd_neq by discriminate|].
  split; [unfold returned; cbn; apply fupd_eq|].
  split.
  - intros s2 L j w O. destruct (C63_sync_failure_is_fatal false two self s 1 0 _ INJ RE P F s2 L) as (_ & X & _).
    apply X in O. unfold operating in O. cbn in O. unfold fupd in O. destruct (j =? 1); [discriminate|]. now apply (NO j w).
  - intros s2 s3 j L E L2. destruct (C63_sync_failure_is_fatal false two self s 1 0 _ INJ RE P F s2 L) as (_ & _ & X). now apply (X j s3).
Qed.
Print Assumptions C63_sync_usable_after_failure_refuted.

(** Asynchronous growing: the exception leaves everything as it was; the handle can
    be used again. *)
Theorem C63_async_failure_changes_nothing :
  forall s i s', async_fail s i = Some s' ->
    y_tab s' = y_tab s /\ y_epoch s' = y_epoch s /\ y_help s' = y_help s /\ y_next s' = y_next s /\
    y_block s' = y_block s /\ y_moved s' = y_moved s /\ y_loc s' = y_loc s /\ y_lep s' = y_lep s /\
    y_pc s' i = AIdle /\ forall j, j <> i -> y_pc s' j = y_pc s j.
Proof.
  intros s i s' F. unfold async_fail in F. destruct (y_pc s i); try discriminate. injection F as <-. cbn.
  repeat (split; [reflexivity|]). split; [apply fupd_eq|]. intros j NE. now apply fupd_neq.
Qed.
Print Assumptions C63_async_failure_changes_nothing.

(** With any number of failed allocations, operations are executed only on tables
    whose predecessors have been migrated completely, and a published pointer is not
    null. *)
Theorem C63_async_failures_keep_tables :
  forall nblocks s, async_reachable_oom nblocks s ->
    (forall i w, working s i w -> forall v, v < w -> migrated nblocks s v) /\
    (forall i, y_pc s i = AEnd2 -> y_next s (y_loc s i) = true).
Proof.
  intros nb s R. pose proof (areach_oom_inv nb s R) as G. split.
  - intros i w [P L] v LT. pose proof (ai_th _ _ G i) as [T _]. destruct (ai_prev _ _ G v) as [_ (_ & D1 & D2)]; [lia|].
    split; [exact D1|]. exact D2.
  - intros i P. pose proof (ai_th _ _ G i) as [_ T]. rewrite P in T. apply T.
Qed.
Print Assumptions C63_async_failures_keep_tables.

(** Thread 0 fails to grow; then thread 1 grows the table, and thread 0 operates on the new one. *)
Definition ago (i : N) (n : nat) : list alabel := repeat (YGo i) n.
Example C63_async_case :
  exists s s1 s2, async_run PropSync.two async_init (ago 0 4 ++ ago 1 4 ++ [YWant 0]) = Some s /\
    async_fail s 0 = Some s1 /\
    async_run PropSync.two s1 ([YWant 1] ++ ago 1 16 ++ ago 0 3) = Some s2 /\ working s2 0 1.
Proof.
  do 3 eexists. split; [vm_compute; reflexivity|]. split; [vm_compute; reflexivity|]. split; [vm_compute; reflexivity|].
  split; vm_compute; reflexivity.
Qed.

(** An allocator that reports failure by returning null: no constructor throws, and
    each of them stores through null or makes a table without memory; a first table of
    at least one cell always does the former. *)
Theorem C63_null_is_reported_refuted :
  forall first par_init cyclic total addressable,
    (construct GotNull first par_init cyclic total addressable = NullStore \/
     construct GotNull first par_init cyclic total addressable = ConstructedNull) /\
    (0 < total -> construct GotNull true par_init cyclic total addressable = NullStore).
Proof.
  intros f p c t a. unfold construct. split.
  - destruct (_ =? 0); auto.
  - intros H. cbn. destruct (N.eqb_spec t 0); [lia|reflexivity].
Qed.
Print Assumptions C63_null_is_reported_refuted.
