(** Theorems C53-C55: the synchronised growing table as one machine, and what
    users of growing tables rely on. *)
From Coq Require Import NArith Bool List Lia.
From Verif Require Import Words Slot SlotFacts Mapper MapperFacts ReturnCode MapSpec LinSpec Base BaseInv BaseLin
  TableSpec BaseFacts HistSpec TraceSpec TraceFacts Migrate Growing GrowingSpec GrowingFacts GrowingExec Sync SyncSpec
  SyncTable SyncTableSpec SyncTableInv SyncTableExec PropBase PropGrowing.
Import ListNotations.
Open Scope N_scope.

(** ** C53 *)

(** The handshake of the synchronised strategy, the calls, the retry loops and the
    migration, interleaved access by access: linearizable, and no call reports a
    full or a migrated table.  [maps]: the mapper of each version, the first one
    having 2^lg slots and every other being what resize made of its predecessor. *)
Theorem C53_whole_table_linearizable_partial :
  forall sc mc hash lg B maps slot (client : op -> Prop),
    cell_type sc -> fair sc client -> (cmap mc = false \/ cprob mc = true) -> own_flags slot ->
    1 <= lg <= 63 -> 0 < B <= 2 ^ 31 -> maps 0 = mk_mapper mc (2 ^ lg) 0 ->
    linearizable (mspec false false) (ttab_roomy (TCfg sc mc hash) B maps slot client)
      (ttab_init (TCfg sc mc hash) maps) amap_empty.
Proof.
  intros. eapply synctab_linearizable; eauto. apply fair_ok; auto. now apply cell_type_wf.
Qed.
Print Assumptions C53_whole_table_linearizable_partial.

(** Linear probing needs no restriction on the executions. *)
Theorem C53_linear_probing :
  forall sc hash lg B maps slot (client : op -> Prop),
    let mc := MCfg false false in
    cell_type sc -> fair sc client -> own_flags slot ->
    1 <= lg <= 63 -> 0 < B <= 2 ^ 31 -> maps 0 = mk_mapper mc (2 ^ lg) 0 ->
    linearizable (mspec false false) (ttab_step (TCfg sc mc hash) B maps slot client)
      (ttab_init (TCfg sc mc hash) maps) amap_empty.
Proof.
  intros sc hash lg B maps slot client mc CT FR OW LG HB M0 tr s ST.
  eapply (C53_whole_table_linearizable_partial sc mc hash lg B maps slot client); eauto.
  clear -ST. induction ST; [constructor|eapply ls_tau|eapply ls_vis]; eauto;
    split; auto; intros E; discriminate E.
Qed.
Print Assumptions C53_linear_probing.

(** Thread 1 asks for a growth step while thread 0 is erasing the key thread 1 has
    just inserted; thread 2's lookup meets the marked table and helps: threads 1
    and 2 move one block of two cells each at the same time. *)
Definition maps53 (v : N) : mapper :=
  N.iter v (fun m => resize (MCfg false false) m 4 0) (mk_mapper (MCfg false false) (2 ^ 2) 0).
Definition l53 : list tlabel :=
  [TRuns 0 2; TRuns 1 2; TRuns 2 2; TInv 0 (OInsert 1 10); TRuns 0 8; TRet 0;
   TInv 1 (OInsert 3 30); TRuns 1 6; TInv 0 (OErase 3); TRuns 0 4; TWant 1; TRuns 1 7;
   TInv 2 (OFind 1); TRuns 2 3;
   TRuns 0 4; TRet 0; TRuns 1 4; TOpen 1 4 0; TRuns 1 5; TRuns 2 4] ++
  [TRuns 1 3; TRuns 2 3; TRuns 1 1; TRuns 2 40; TRuns 1 26; TRuns 2 7; TRet 2; TRet 1].
Example C53_case :
  fair (simple_slot true) (fun o => In o (tops_of l53)) /\ own_flags (fun i => i) /\
  maps53 0 = mk_mapper (MCfg false false) (2 ^ 2) 0 /\
  (exists s, lts_steps (ttab_step c47 2 maps53 (fun i => i) (fun o => In o (tops_of l53))) (ttab_init c47 maps53)
    [EInv 0 (MInsert 1 10); ERet 0 RInserted; EInv 1 (MInsert 3 30); EInv 0 (MErase 3); EInv 2 (MFind 1);
     ERet 0 RErased; ERet 2 (RFound 10); ERet 1 RInserted] s /\ s_tab (t_p s) = TTab 1) /\
  moving (t_p (tfinal c47 2 maps53 (fun i => i) (firstn 20 l53))) 1 0 0 /\
  moving (t_p (tfinal c47 2 maps53 (fun i => i) (firstn 20 l53))) 2 0 1.
Proof.
  split; [split; [admits|now left]|]. split; [intros i j E; exact E|]. split; [reflexivity|]. split.
  - exists (tfinal c47 2 maps53 (fun i => i) l53). split; [|vm_compute; reflexivity].
    pose proof (truns_sound c47 2 maps53 (fun i => i) l53 eq_refl ltac:(vm_compute; reflexivity)) as S.
    replace (ttrace c47 2 maps53 (fun i => i) l53) with
      [EInv 0 (MInsert 1 10); ERet 0 RInserted; EInv 1 (MInsert 3 30); EInv 0 (MErase 3); EInv 2 (MFind 1);
       ERet 0 RErased; ERet 2 (RFound 10); ERet 1 RInserted] in S by (vm_compute; reflexivity).
    clear -S. induction S as [|? ? ? ? [H _]|? ? ? ? ? [H _]]; [constructor|eapply ls_tau|eapply ls_vis]; eauto.
  - split; do 2 eexists; vm_compute; reflexivity.
Qed.

(** ** C54 *)

(** Synchronised growing: an acknowledged insert survives all growth steps. *)
Theorem C54_synchronised_inserts_stay_partial :
  forall sc mc hash lg B maps slot (client : op -> Prop),
    cell_type sc -> fair sc client -> (cmap mc = false \/ cprob mc = true) -> own_flags slot ->
    1 <= lg <= 63 -> 0 < B <= 2 ^ 31 -> maps 0 = mk_mapper mc (2 ^ lg) 0 ->
    let step := ttab_roomy (TCfg sc mc hash) B maps slot client in
    let init := ttab_init (TCfg sc mc hash) maps in
    keeps_keys step init /\ keeps_values step init /\ one_winner step init.
Proof.
  intros. assert (L : linearizable (mspec false false) step init amap_empty)
    by (eapply C53_whole_table_linearizable_partial; eauto).
  split; [|split]; [eapply lin_keys|eapply lin_values|eapply lin_winner]; exact L.
Qed.
Print Assumptions C54_synchronised_inserts_stay_partial.

(** Asynchronous growing: if no call changes a cell between the load and the mark
    of a helper's second loop (otherwise: C48_lost_insert_refuted). *)
Theorem C54_asynchronous_inserts_stay_partial :
  forall sc mc hash lg B (client : op -> Prop),
    cell_type sc -> fair sc client -> (cmap mc = false \/ cprob mc = true) -> sc_mark sc = true ->
    1 <= lg <= 63 -> 0 < B <= 2 ^ 31 ->
    let step := async_step (TCfg sc mc hash) B client in
    let init := gsys_init (TCfg sc mc hash) lg in
    keeps_keys step init /\ keeps_values step init /\ one_winner step init.
Proof.
  intros. assert (L : linearizable (mspec false false) step init amap_empty)
    by (eapply C48_asynchronous_growing_linearizable_partial; eauto).
  split; [|split]; [eapply lin_keys|eapply lin_values|eapply lin_winner]; exact L.
Qed.
Print Assumptions C54_asynchronous_inserts_stay_partial.

(** The history of C53_case, with a lookup after the growth step; in the history of
    C48_case, the insert of key 2 is found (and updated) after the growth step. *)
Example C54_case :
  later_call 1 10 (fun o => erases 1 o \/ updates 1 o) 0 (MFind 1) (RFound 10) 2 (MInsert 1 10)
    ([EInv 0 (MInsert 1 10); ERet 0 RInserted; EInv 1 (MInsert 3 30); EInv 0 (MErase 3); EInv 2 (MFind 1);
      ERet 0 RErased; ERet 2 (RFound 10)]).
Proof.
  exists [], [], [EInv 1 (MInsert 3 30); EInv 0 (MErase 3)], [ERet 0 RErased].
  split; [reflexivity|]. split; [cbn; auto|]. split; [discriminate|].
  split; [|split; [intros e []|intros e [<-|[]]; discriminate]].
  intros o [t [E|[E|[E|[]]]]]; try discriminate; injection E as _ <-; intros [H|H]; cbn in H; (lia || contradiction).
Qed.

(** ** C55 *)

Theorem C55_synchronised_counts_partial :
  forall sc mc hash lg B maps slot (client : op -> Prop),
    cell_type sc -> fair sc client -> (cmap mc = false \/ cprob mc = true) -> own_flags slot ->
    1 <= lg <= 63 -> 0 < B <= 2 ^ 31 -> maps 0 = mk_mapper mc (2 ^ lg) 0 ->
    counts_exactly (ttab_roomy (TCfg sc mc hash) B maps slot client) (ttab_init (TCfg sc mc hash) maps).
Proof. intros. eapply lin_counts. eapply C53_whole_table_linearizable_partial; eauto. Qed.
Print Assumptions C55_synchronised_counts_partial.

Theorem C55_asynchronous_counts_partial :
  forall sc mc hash lg B (client : op -> Prop),
    cell_type sc -> fair sc client -> (cmap mc = false \/ cprob mc = true) -> sc_mark sc = true ->
    1 <= lg <= 63 -> 0 < B <= 2 ^ 31 ->
    counts_exactly (async_step (TCfg sc mc hash) B client) (gsys_init (TCfg sc mc hash) lg).
Proof. intros. eapply lin_counts. eapply C48_asynchronous_growing_linearizable_partial; eauto. Qed.
Print Assumptions C55_asynchronous_counts_partial.

(** Thread 0 adds 10, thread 1 adds 20 and asks for a growth step, thread 0 begins
    to add 30 before it, meets the marked table and helps; the lookup shows 60. *)
Definition l55 : list tlabel :=
  [TRuns 0 2; TRuns 1 2; TInv 0 (OIou 5 10 (add_to 10)); TRuns 0 8; TRet 0;
   TInv 1 (OIou 5 20 (add_to 20)); TRuns 1 6; TWant 1; TInv 0 (OIou 5 30 (add_to 30)); TRuns 1 8;
   TRuns 0 3; TRuns 1 1; TOpen 1 4 0; TRuns 0 60; TRuns 1 24; TRuns 0 8; TRet 0; TRet 1;
   TInv 1 (OFind 5); TRuns 1 7; TRet 1].
Definition answers_of (tr : list ev) : list (N * mres) :=
  flat_map (fun e => match e with ERet t r => [(t, r)] | EInv _ _ => [] end) tr.
(** Asynchronous growing: thread 4's update runs into the migration and starts over. *)
Definition l55a : list glabel :=
  gcall 1 (OIou 2 10 (add_to 10)) 2 ++
  [GInv 4 (OUpdate 2 (add_to 5)); GGets 4; GGrow 4 0; GJoin 9; GHelps 9 200; GRuns 4 1; GPublish] ++
  [GRetry 4; GGets 4; GRuns 4 2; GRet 4] ++ gcall 1 (OFind 2) 1.
Example C55_case :
  (forall o, In o (tops_of l55) -> counting 5 (spec_op (simple_slot true) o)) /\
  (forall o, In o (gops_of l55a) -> counting 2 (spec_op (simple_slot true) o)) /\
  truns c47 4096 maps53 (fun i => i) l55 = true /\
  answers_of (ttrace c47 4096 maps53 (fun i => i) l55) = [(0, RInserted); (0, RUpdated 60); (1, RUpdated 30); (1, RFound 60)] /\
  gruns c47 4096 MAsync 2 l55a = true /\
  answers_of (gtrace c47 4096 MAsync 2 l55a) = [(1, RInserted); (4, RUpdated 15); (1, RFound 15)].
Proof.
  split; [|split].
  1,2: intros o H; cbn in H; repeat destruct H as [<-|H]; try contradiction; cbn; auto;
       intros _; try split; try reflexivity; intros v; lia.
  split; [vm_compute; reflexivity|]. split; [vm_compute; reflexivity|]. split; vm_compute; reflexivity.
Qed.
