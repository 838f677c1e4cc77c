(** C22 - C24, C45: the synchronised growing strategy. *)
From Coq Require Import NArith Bool List Lia.
From Verif Require Import Words BaseInv Sync SyncInv SyncSpec SyncFacts Handles HandlesFacts.
Import ListNotations.
Open Scope N_scope.

(** ** C22 *)

(** With accesses that are atomic and immediately visible: while a thread moves
    elements, no thread is inside of an operation, on whichever table. *)
Theorem C22_exclusion :
  forall nblocks slot s, own_flags slot -> sync_reachable false nblocks slot s ->
    forall i v b, moving s i v b -> forall j w, ~ operating s j w.
Proof.
  intros nb sl s INJ R i v b (k & g & E) j w O.
  destruct (reach_inv false nb sl INJ s R) as (c & o & G).
  pose proof (gi_th _ _ _ _ _ _ G i) as [_ T]. rewrite E in T. destruct T as (_ & _ & (-> & _ & _) & NX & _).
  pose proof (gi_th _ _ _ _ _ _ G j) as [_ T]. unfold operating in O. rewrite O in T.
  destruct T as (_ & T). destruct (T eq_refl) as (-> & _ & OP).
  destruct (gi_next _ _ _ _ _ _ G c NX) as [L|[_ ST]]; [lia|].
  destruct (opc s o) as [p|]; [|destruct ST]. destruct p; cbn in *; contradiction.
Qed.
Print Assumptions C22_exclusion.

(** At every moment at most one thread organises a growth step, and over every
    execution each version is grown once: the growth steps started are those of
    version 0, 1, 2, ... *)
Theorem C22_one_organiser :
  forall tso nblocks slot s, own_flags slot -> sync_reachable tso nblocks slot s ->
    forall i v j w, organising s i v -> organising s j w -> i = j /\ v = w.
Proof.
  intros tso nb sl s INJ R i v j w A B. apply organising_orgof in A, B.
  destruct (reach_inv tso nb sl INJ s R) as (c & o & G).
  destruct (is_org _ _ _ c o s i v G A) as (-> & -> & _). destruct (is_org _ _ _ c _ s j w G B) as ([= ->] & -> & _).
  auto.
Qed.
Print Assumptions C22_one_organiser.

Theorem C22_versions_in_order :
  forall tso nblocks slot h s, own_flags slot -> history tso nblocks slot h s ->
    h = first_versions (length h).
Proof.
  intros tso nb sl h s INJ H. rewrite (history_epoch tso nb sl INJ h s H) at 1. f_equal.
  rewrite (history_epoch tso nb sl INJ h s H). unfold first_versions. now rewrite map_length, seq_length.
Qed.
Print Assumptions C22_versions_in_order.

(** A thread inside of an operation on a table: all elements of all earlier tables
    have been moved, and none of this table's elements. *)
Theorem C22_resume_after_migration :
  forall nblocks slot s, own_flags slot -> sync_reachable false nblocks slot s ->
    forall i w, operating s i w ->
      (forall v, v < w -> all_moved nblocks s v) /\ untouched s w /\ s_deleted s w = false.
Proof.
  intros nb sl s INJ R i w O. destruct (reach_inv false nb sl INJ s R) as (c & o & G).
  pose proof (gi_th _ _ _ _ _ _ G i) as [_ T]. unfold operating in O. rewrite O in T.
  destruct T as (_ & T). destruct (T eq_refl) as (-> & _ & OP).
  split; [|split].
  - intros v L. exact (proj2 (gi_old _ _ _ _ _ _ G v L)).
  - intros b. apply (untouched_inv false nb sl INJ s R).
    destruct (s_next s c) eqn:NX; auto. destruct (gi_next _ _ _ _ _ _ G c NX) as [L|[_ ST]]; [lia|].
    destruct (opc s o) as [p|]; [|destruct ST]. destruct p; cbn in *; contradiction.
  - destruct (s_deleted s c) eqn:D; auto. pose proof (gi_del _ _ _ _ _ _ G c D). lia.
Qed.
Print Assumptions C22_resume_after_migration.

(** [n] accesses of thread [i]. *)
Definition go (i : N) (n : nat) : list slabel := repeat (SGo i) n.
Definition two (_ : N) : N := 2.
Definition self (i : N) : N := i.

(** Two handles; the second grows the table while the first helps; both move one of
    the two blocks.  Then the first operates on the new table. *)
Definition help_run : list slabel :=
  go 0 2 ++ go 1 2 ++ go 1 4 ++ [SWant 1] ++ go 1 14 ++ go 0 6.
Definition help_end : list slabel := go 1 3 ++ go 0 3 ++ go 1 7 ++ go 0 4.
Example C22_case :
  own_flags self /\
  (exists s, sync_run false two self sync_init help_run = Some s /\
     moving s 1 0 0 /\ moving s 0 0 1 /\ organising s 1 0) /\
  (exists s, sync_run false two self sync_init (help_run ++ help_end) = Some s /\ operating s 0 1 /\
     all_moved two s 0).
Proof.
  split; [intros i j E; exact E|]. split.
  - eexists. split; [vm_compute; reflexivity|]. split; [|split; [|vm_compute; reflexivity]]; do 2 eexists; vm_compute; reflexivity.
  - eexists. split; [vm_compute; reflexivity|]. split; [vm_compute; reflexivity|].
    intros b L. assert (B : b = 0 \/ b = 1) by (unfold two in L; lia). destruct B as [->| ->]; vm_compute; reflexivity.
Qed.

(** Handles 0 and 1 share their flags: 0 was made from 1 by moving it.  The
    destructor of 1 withdraws the flag that protects the operation of 0
    (migration_table.hpp:522-538 calls get_table and rls_table in update_numbers for
    handles that were moved from, too), and 2 moves elements meanwhile. *)
Definition moved_flags (i : N) : N := if i =? 2 then 1 else 0.
Theorem C22_moved_handle_refuted :
  exists s, sync_reachable false two moved_flags s /\ operating s 0 0 /\ moving s 2 0 0.
Proof.
  assert (H : exists s, sync_run false two moved_flags sync_init
    (go 1 2 ++ go 0 2 ++ go 2 2 ++ go 0 4 ++ go 1 6 ++ go 2 4 ++ [SWant 2] ++ go 2 14) = Some s /\
    operating s 0 0 /\ moving s 2 0 0).
  { eexists. split; [vm_compute; reflexivity|]. split; [vm_compute; reflexivity|]. do 2 eexists. vm_compute. reflexivity. }
  destruct H as (s & R & H). exists s. split; [|exact H].
  eapply run_reachable; [apply sr_init|exact R].
Qed.
Print Assumptions C22_moved_handle_refuted.

(** ** C23 *)

(** With store buffers the exclusion fails: thread 0 operates on table 0 while
    thread 1 moves its elements, and still after the table was deleted. *)
Definition tso_run : list slabel :=
  go 0 2 ++ go 1 2 ++ go 1 4 ++ [SWant 1] ++ go 1 2 ++ [SFlush 1; SFlush 1] ++ go 0 4 ++
  go 1 11 ++ [SFlush 1] ++ go 1 1.
Definition tso_end : list slabel := go 1 5 ++ [SFlush 1] ++ go 1 7.
Theorem C23_exclusion_refuted :
  own_flags self /\
  exists s s', sync_reachable true two self s /\ operating s 0 0 /\ moving s 1 0 0 /\
    sync_reachable true two self s' /\ operating s' 0 0 /\ all_moved two s' 0 /\ s_deleted s' 0 = true.
Proof.
  split; [intros i j E; exact E|].
  assert (H : exists s, sync_run true two self sync_init tso_run = Some s /\ operating s 0 0 /\ moving s 1 0 0).
  { eexists. split; [vm_compute; reflexivity|]. split; [vm_compute; reflexivity|]. do 2 eexists. vm_compute. reflexivity. }
  destruct H as (s & R & A & B).
  assert (H : exists s', sync_run true two self sync_init (tso_run ++ tso_end) = Some s' /\ operating s' 0 0 /\
    all_moved two s' 0 /\ s_deleted s' 0 = true).
  { eexists. split; [vm_compute; reflexivity|]. split; [vm_compute; reflexivity|]. split; [|vm_compute; reflexivity].
    intros b L. assert (X : b = 0 \/ b = 1) by (unfold two in L; lia). destruct X as [->| ->]; vm_compute; reflexivity. }
  destruct H as (s' & R' & H'). exists s, s'.
  split; [eapply run_reachable; [apply sr_init|exact R]|]. split; [exact A|]. split; [exact B|].
  split; [eapply run_reachable; [apply sr_init|exact R']|exact H'].
Qed.
Print Assumptions C23_exclusion_refuted.

(** What remains of C22 with store buffers: one organiser (C22_one_organiser,
    C22_versions_in_order), and an operation works on a table all of whose
    predecessors have been moved completely. *)
Theorem C23_resume_after_migration_partial :
  forall tso nblocks slot s, own_flags slot -> sync_reachable tso nblocks slot s ->
    forall i w, operating s i w -> forall v, v < w -> all_moved nblocks s v.
Proof.
  intros tso nb sl s INJ R i w O v L. destruct (reach_inv tso nb sl INJ s R) as (c & o & G).
  pose proof (gi_th _ _ _ _ _ _ G i) as [_ T]. unfold operating in O. rewrite O in T. destruct T as (T & _).
  refine (proj2 (gi_old _ _ _ _ _ _ G v _)). lia.
Qed.
Print Assumptions C23_resume_after_migration_partial.

Example C23_case :
  exists s, sync_run true two self sync_init (tso_run ++ tso_end ++ go 0 2 ++ [SFlush 0; SFlush 0] ++ go 0 4) = Some s /\
    operating s 0 1.
Proof. eexists. split; vm_compute; reflexivity. Qed.

(** ** C24 *)

(** Thread 0 helps, is delayed before it announces so, and then reads from the table
    the organiser has deleted. *)
Theorem C24_freed_table_refuted :
  own_flags self /\
  exists s, sync_reachable false two self s /\ s_deleted s 0 = true /\ s_pc s 0 = PFault 0.
Proof.
  split; [intros i j E; exact E|].
  assert (H : exists s, sync_run false two self sync_init
    (go 0 2 ++ go 1 2 ++ go 1 4 ++ [SWant 1] ++ go 1 12 ++ go 0 3 ++ go 1 14 ++ go 0 2) = Some s /\
    s_deleted s 0 = true /\ s_pc s 0 = PFault 0).
  { eexists. split; [vm_compute; reflexivity|]. split; vm_compute; reflexivity. }
  destruct H as (s & R & H). exists s. split; [|exact H]. eapply run_reachable; [apply sr_init|exact R].
Qed.
Print Assumptions C24_freed_table_refuted.

(** All other accesses are to tables that exist: those of operations, of the
    organiser, and of helpers that announced themselves while the table was still
    marked as growing.  Missing for C24: the late helpers, see
    C24_freed_table_refuted. *)
Theorem C24_existing_tables_partial :
  forall nblocks slot s, own_flags slot -> sync_reachable false nblocks slot s ->
    forall i v, uses (s_pc s i) v -> ~ late (s_pc s i) -> s_deleted s v = false.
Proof.
  intros nb sl s INJ R i v U NL. destruct (reach_inv false nb sl INJ s R) as (c & o & G).
  assert (D : c <= v -> s_deleted s v = false).
  { intros L. destruct (s_deleted s v) eqn:D; auto. pose proof (gi_del _ _ _ _ _ _ G v D). lia. }
  apply D. pose proof (gi_th _ _ _ _ _ _ G i) as [_ T].
  assert (K : forall w, orgof (s_pc s i) = Some w -> w = c) by (intros w Hw; now destruct (is_org _ _ _ c o s i w G Hw) as (_ & -> & _)).
  destruct (s_pc s i) as [ | | | | | | |w| | | | | | | | | | | | | | | |k w g|k w g|k w b g|k w g| | ] eqn:P;
    cbn in U; try contradiction.
  - subst v. destruct T as (_ & T). destruct (T eq_refl). lia.
  - subst v. destruct T as (_ & T1 & _ & T2). destruct k as [x|]; [rewrite <- (T1 x eq_refl), (K x eq_refl); lia|].
    destruct g; [destruct (T2 eq_refl eq_refl); lia|]. exfalso. now apply NL.
  - subst v. destruct T as (_ & T1 & _ & T2 & _). destruct k as [x|]; [rewrite <- (T1 x eq_refl), (K x eq_refl); lia|].
    destruct g; [destruct (T2 eq_refl eq_refl); lia|]. exfalso. now apply NL.
  - destruct T as (_ & _ & (-> & _) & _). lia.
  - subst v. destruct T as (_ & T1 & T2). destruct k as [x|]; [rewrite <- (T1 x eq_refl), (K x eq_refl); lia|].
    destruct g; [destruct (T2 eq_refl eq_refl); lia|]. exfalso. now apply NL.
Qed.
Print Assumptions C24_existing_tables_partial.

(** No thread, late or not, moves elements out of or into a deleted table, also with
    store buffers. *)
Theorem C24_moves_in_existing_tables :
  forall tso nblocks slot s, own_flags slot -> sync_reachable tso nblocks slot s ->
    forall i v b, moving s i v b -> s_deleted s v = false /\ s_deleted s (v + 1) = false.
Proof.
  intros tso nb sl s INJ R i v b (k & g & E). destruct (reach_inv tso nb sl INJ s R) as (c & o & G).
  pose proof (gi_th _ _ _ _ _ _ G i) as [_ T]. rewrite E in T. destruct T as (_ & _ & (-> & _ & _) & _).
  split.
  - destruct (s_deleted s c) eqn:D; auto. pose proof (gi_del _ _ _ _ _ _ G c D). lia.
  - destruct (s_deleted s (c + 1)) eqn:D; auto. pose proof (gi_del _ _ _ _ _ _ G _ D). lia.
Qed.
Print Assumptions C24_moves_in_existing_tables.

Example C24_case :
  exists s, sync_run false two self sync_init help_run = Some s /\
    uses (s_pc s 0) 0 /\ ~ late (s_pc s 0) /\ uses (s_pc s 0) 1.
Proof.
  eexists. split; [vm_compute; reflexivity|]. split; [left; vm_compute; reflexivity|].
  split; [vm_compute; auto|right; vm_compute; reflexivity].
Qed.

(** ** C45 *)

(** Live handles with valid flags never share them: there are at most 256. *)
Theorem C45_distinct_flags_partial :
  forall s, hsys_reachable s ->
    (forall t i, h_obj s t = HHas i -> i < max_handles) /\
    (forall t u i, h_obj s t = HHas i -> h_obj s u = HHas i -> t = u).
Proof.
  intros s R. destruct (hinv_reach s R) as [A _ C _]. split; [|exact C].
  intros t i E. now apply (A t).
Qed.
Print Assumptions C45_distinct_flags_partial.

(** A constructor that is not disturbed takes the first free flags. *)
Theorem C45_undisturbed_constructor :
  forall s t i, hsys_reachable s -> h_obj s t = HScan 0 -> i < max_handles ->
    (forall j, j < i -> exists u, h_obj s u = HHas j) -> (forall u, h_obj s u <> HHas i) ->
    exists n s', hsys_run s (repeat (HGo t) n) = Some s' /\ h_obj s' t = HHas i.
Proof.
  intros s t i R E L U F. pose proof (hinv_reach s R) as I. exists (N.to_nat i + 2)%nat.
  destruct (scan_free (N.to_nat i) s t 0 E) as (s' & R' & O); rewrite ?N2Nat.id, ?N.add_0_l in *; auto.
  - intros j [_ Lj]. destruct (U j Lj) as [u Hu]. now apply (hv_has _ I u).
  - destruct (h_used s i) eqn:X; auto. destruct (hv_used _ I i X) as [u Hu]. now destruct (F u).
  - eauto.
Qed.
Print Assumptions C45_undisturbed_constructor.

(** If 256 handles are alive, the next constructor returns a handle whose flags lie
    outside of the array, without an error; and this happens. *)
Theorem C45_too_many_refuted :
  (forall s t, hsys_reachable s -> h_obj s t = HScan 0 ->
     (forall j, j < max_handles -> exists u, h_obj s u = HHas j) ->
     exists n s', hsys_run s (repeat (HGo t) n) = Some s' /\ h_obj s' t = HBad) /\
  (exists s, hsys_reachable s /\ h_obj s 256 = HScan 0 /\
     forall j, j < max_handles -> exists u, h_obj s u = HHas j).
Proof.
  split.
  - intros s t R E U. pose proof (hinv_reach s R) as I. exists (256 + 1)%nat.
    destruct (scan_full 256 s t 0 E) as (s' & R' & O & _); auto.
    + intros j [_ Lj]. destruct (U j Lj) as [u Hu]. now apply (hv_has _ I u).
    + eauto.
  - destruct (creations_run 256) as (s & R & H1 & H2 & H3); [reflexivity|].
    assert (N : h_obj s 256 = HNone) by (apply H2; cbn; lia).
    exists (put s 256 (HScan 0)). split; [|split].
    + exists (creations 256 ++ [HCreate 256]). rewrite hsys_run_app, R. cbn. rewrite N. reflexivity.
    + reflexivity.
    + intros j L. exists j. cbn. rewrite fupd_neq by (unfold max_handles in L; lia). apply H1. cbn. unfold max_handles in L. lia.
Qed.
Print Assumptions C45_too_many_refuted.

(** Two handles created at the same time, one destroyed, a third takes its flags. *)
Example C45_case :
  exists s, hsys_run hsys_init [HCreate 0; HCreate 1; HGo 0; HGo 1; HGo 0; HGo 1; HGo 1; HGo 1; HGo 1;
                                HDestroy 0; HCreate 2; HGo 2; HGo 2; HMove 1 3] = Some s /\
    h_obj s 2 = HHas 0 /\ h_obj s 3 = HHas 1.
Proof. eexists. split; [vm_compute; reflexivity|]. split; vm_compute; reflexivity. Qed.
