(** Theorems C61: the asynchronous growing table as one machine. *)
From Coq Require Import NArith Bool List Lia.
From Verif Require Import Words Slot SlotFacts Mapper MapperFacts ReturnCode MapSpec LinSpec HWSpec HWFacts Base BaseInv
  BaseLin TableSpec BaseFacts LinCheck HistSpec TraceSpec TraceFacts Migrate Growing GrowingSpec GrowingFacts SyncTable
  Async AsyncInv AsyncSpec AsyncTable AsyncTableSpec AsyncTableInv AsyncTableExec PropBase PropGrowing PropSyncTable
  PropAsync.
Import ListNotations.
Open Scope N_scope.

(** ** C61 *)

(** The handshake of the asynchronous strategy, the calls, the retry loops and the
    migration, interleaved access by access: linearizable, and no call reports a
    full or a migrated table, as long as no call changes a cell between the load
    and the mark in a helper's second loop (otherwise: C61_lost_insert_refuted).
    [maps]: the mapper of each version, the first one having 2^lg slots and every
    other being what resize made of its predecessor. *)
Theorem C61_whole_table_linearizable_partial :
  forall sc mc hash lg B maps (client : op -> Prop),
    cell_type sc -> fair sc client -> (cmap mc = false \/ cprob mc = true) -> sc_mark sc = true ->
    1 <= lg <= 63 -> 0 < B <= 2 ^ 31 -> maps 0 = mk_mapper mc (2 ^ lg) 0 ->
    linearizable (mspec false false) (atab_calm (TCfg sc mc hash) B maps client)
      (atab_init (TCfg sc mc hash) maps) amap_empty.
Proof.
  intros. eapply atab_linearizable; eauto. apply fair_ok; auto. now apply cell_type_wf.
Qed.
Print Assumptions C61_whole_table_linearizable_partial.

(** The guarantees of C54 and C55 in the whole table. *)
Theorem C61_inserts_stay_partial :
  forall sc mc hash lg B maps (client : op -> Prop),
    cell_type sc -> fair sc client -> (cmap mc = false \/ cprob mc = true) -> sc_mark sc = true ->
    1 <= lg <= 63 -> 0 < B <= 2 ^ 31 -> maps 0 = mk_mapper mc (2 ^ lg) 0 ->
    let step := atab_calm (TCfg sc mc hash) B maps client in
    let init := atab_init (TCfg sc mc hash) maps in
    keeps_keys step init /\ keeps_values step init /\ one_winner step init /\ counts_exactly step init.
Proof.
  intros. assert (L : linearizable (mspec false false) step init amap_empty)
    by (eapply C61_whole_table_linearizable_partial; eauto).
  split; [|split; [|split]]; [eapply lin_keys|eapply lin_values|eapply lin_winner|eapply lin_counts]; exact L.
Qed.
Print Assumptions C61_inserts_stay_partial.

Theorem C61_herlihy_wing_partial :
  forall sc mc hash lg B maps (client : op -> Prop) h s,
    cell_type sc -> fair sc client -> (cmap mc = false \/ cprob mc = true) -> sc_mark sc = true ->
    1 <= lg <= 63 -> 0 < B <= 2 ^ 31 -> maps 0 = mk_mapper mc (2 ^ lg) 0 ->
    lts_steps (atab_calm (TCfg sc mc hash) B maps client) (atab_init (TCfg sc mc hash) maps) h s ->
    hw_linearizable (mspec false false) amap_empty h.
Proof.
  intros sc mc hash lg B maps client h s CT F MP MK LG HB M0 ST. apply hw_iff.
  eapply C61_whole_table_linearizable_partial; eauto.
Qed.
Print Assumptions C61_herlihy_wing_partial.

(** The handshake of the whole table is the one of C20 and C21, whose model
    leaves out the cells: a call that meets a marked cell finds the migration it is
    to help with.  So a call never runs on a table before all its predecessors
    have been moved completely. *)
Theorem C61_handshake_partial :
  forall sc mc hash lg B maps (client : op -> Prop) h s,
    cell_type sc -> fair sc client -> (cmap mc = false \/ cprob mc = true) -> sc_mark sc = true ->
    1 <= lg <= 63 -> 0 < B <= 2 ^ 31 -> maps 0 = mk_mapper mc (2 ^ lg) 0 ->
    lts_steps (atab_calm (TCfg sc mc hash) B maps client) (atab_init (TCfg sc mc hash) maps) h s ->
    let nblocks := anblk (TCfg sc mc hash) B maps in
    async_reachable nblocks (a_p s) /\
    (forall i, wants_help (a_call s i) = true -> y_next (a_p s) (y_loc (a_p s) i) = true) /\
    (forall i o pc w, a_call s i = Some (o, CRun pc) -> y_loc (a_p s) i = w ->
       forall v, v < w -> migrated nblocks (a_p s) v).
Proof.
  intros sc mc hash lg B maps client h s CT F MP MK LG HB M0 ST nblocks.
  edestruct (atab_run (TCfg sc mc hash) B maps client) as (g & _ & R); eauto; [apply fair_ok; auto; now apply cell_type_wf|].
  pose proof (ae_reach _ _ _ _ _ R) as AR. split; [exact AR|]. split; [exact (ae_bad _ _ _ _ _ R)|].
  intros i o pc w E W v L. apply (C20_published_complete nblocks _ AR i w); auto.
  split; auto. pose proof (ae_thr _ _ _ _ _ R i) as T. rewrite E in T. apply T.
Qed.
Print Assumptions C61_handshake_partial.

(** Threads 0 and 2 get the table before thread 1 opens a migration.  Thread 0's
    update meets a marked cell, helps (both threads move a block of two cells),
    announces the new table and starts over on it; thread 3 erases key 1 from the new table;
    thread 2's lookup then reads the old one. *)
Definition l61 : list rlabel :=
  [RRuns 0 3; RRuns 1 3; RRuns 2 3; RRuns 3 3;
   RInv 1 (OInsert 1 10); RRuns 1 4; RRet 1; RInv 1 (OInsert 2 20); RRuns 1 4; RRet 1;
   RInv 2 (OFind 1); RRuns 2 1; RInv 0 (OUpdate 2 (incr 1)); RRuns 0 1;
   RInv 1 (OInsert 3 30); RRuns 1 3; RWant 1; ROpen 1 4 0; RRuns 1 28; RRuns 0 7] ++
  [RRuns 1 3; RRuns 0 60; RRuns 1 3; RRuns 0 20; RRet 0; RInv 3 (OErase 1); RRuns 3 6; RRet 3; RRuns 2 2; RRet 2;
   RRuns 1 4; RRet 1].
Example C61_case :
  fair (simple_slot true) (fun o => In o (rops_of l61)) /\
  maps53 0 = mk_mapper (MCfg false false) (2 ^ 2) 0 /\
  (exists s, lts_steps (atab_calm c47 2 maps53 (fun o => In o (rops_of l61))) (atab_init c47 maps53)
    [EInv 1 (MInsert 1 10); ERet 1 RInserted; EInv 1 (MInsert 2 20); ERet 1 RInserted; EInv 2 (MFind 1);
     EInv 0 (spec_op (simple_slot true) (OUpdate 2 (incr 1))); EInv 1 (MInsert 3 30); ERet 0 (RUpdated 21);
     EInv 3 (MErase 1); ERet 3 RErased; ERet 2 (RFound 10); ERet 1 RInserted] s /\ y_epoch (a_p s) = 1) /\
  shifting (a_p (rfinal c47 2 maps53 true 4 (firstn 20 l61))) 0 0 1 /\
  shifting (a_p (rfinal c47 2 maps53 true 4 (firstn 20 l61))) 1 0 0 /\
  working (a_p (rfinal c47 2 maps53 true 4 (firstn 28 l61))) 2 0.
Proof.
  split; [split; [admits|now left]|]. split; [reflexivity|]. split.
  - exists (rfinal c47 2 maps53 true 4 l61). split; [|vm_compute; reflexivity].
    exact (rruns_sound c47 2 maps53 true 4 l61 eq_refl ltac:(vm_compute; reflexivity)).
  - split; [|split; [|split]]; vm_compute; reflexivity.
Qed.

(** Without the restriction an acknowledged insert is lost: thread 0, moving the
    block, has loaded the empty cell behind its last one; thread 2 inserts key 2
    there; thread 0 marks the cell and stops.  After the growth step the key is
    not found. *)
Definition maps61 (v : N) : mapper :=
  N.iter v (fun m => resize (MCfg false false) m 400 0) (mk_mapper (MCfg false false) (2 ^ 9) 0).
Definition l61b : list rlabel :=
  [RRuns 0 3; RRuns 1 3; RRuns 2 3; RInv 1 (OInsert 1 10); RRuns 1 4; RRet 1; RInv 2 (OInsert 2 20); RRuns 2 2;
   RRuns 0 1; RWant 0; ROpen 0 400 0; RRuns 0 2057; RRuns 2 3; RRet 2; RRuns 0 13; RInv 1 (OFind 2); RRuns 1 6; RRet 1].
Theorem C61_lost_insert_refuted :
  exists sc mc hash lg maps (client : op -> Prop) tr s,
    cell_type sc /\ sc_mark sc = true /\ fair sc client /\ cmap mc = false /\ cprob mc = false /\ 1 <= lg <= 63 /\
    maps 0 = mk_mapper mc (2 ^ lg) 0 /\
    lts_steps (atab_step (TCfg sc mc hash) migration_block_size maps client) (atab_init (TCfg sc mc hash) maps) tr s /\
    (forall o, client o -> ~ erasing o) /\
    (exists k d t t' tr', tr = tr' ++ [EInv t' (MFind k); ERet t' RAbsent] /\
       In (EInv t (MInsert k d)) tr' /\ In (ERet t RInserted) tr') /\
    ~ linearizable_trace (mspec false false) amap_empty tr.
Proof.
  exists (simple_slot true), (MCfg false false), (fun _ => 2 ^ 64 - 1), 9, maps61, (fun o => In o (rops_of l61b)),
    (rtrace c48 4096 maps61 false 4 l61b), (rfinal c48 4096 maps61 false 4 l61b).
  split; [exists true; auto|]. split; [reflexivity|]. split; [split; [admits|now left]|].
  split; [reflexivity|]. split; [reflexivity|]. split; [lia|]. split; [reflexivity|].
  split; [exact (rruns_sound c48 4096 maps61 false 4 l61b eq_refl ltac:(vm_compute; reflexivity))|].
  split. { intros o H; cbn in H; repeat destruct H as [<-|H]; try contradiction; cbn; auto. }
  assert (E : rtrace c48 4096 maps61 false 4 l61b =
    [EInv 1 (MInsert 1 10); ERet 1 RInserted; EInv 2 (MInsert 2 20); ERet 2 RInserted] ++
    [EInv 1 (MFind 2); ERet 1 RAbsent]) by (vm_compute; reflexivity).
  rewrite E. split.
  - exists 2, 20, 2, 1. eexists. split; [reflexivity|]. cbn. auto 10.
  - apply not_linearizable. vm_compute. reflexivity.
Qed.
Print Assumptions C61_lost_insert_refuted.
