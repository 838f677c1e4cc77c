(** Theorems C85: updates that race an erase of their key on cells that cannot be marked. *)
From Coq Require Import NArith Bool List Lia.
From Verif Require Import Words Slot SlotFacts Mapper MapperFacts ReturnCode MapSpec LinSpec
  Base BaseInv BaseLin TableSpec BaseFacts BaseExec HistSpec Hist LinCheck Migrate Growing GrowingSpec GrowingInv
  GrowingFacts GrowingExec Sync SyncSpec SyncTable SyncTableSpec SyncTableInv SyncTableExec
  TraceSpec LoseHist LoseSpec LoseFacts LoseBase LoseLin LoseGrow PropBase PropGrowing PropSyncTable.
Import ListNotations.
Open Scope N_scope.

Lemma all_ok sc (client : op -> Prop) :
  wf_scfg sc -> (forall o, client o -> admissible sc o) -> forall o, client o -> op_ok sc o.
Proof.
  intros W A o C. destruct (A o C) as [K F]. split; [now apply user_key_valid|].
  destruct o; cbn; try (intros g x; discriminate); exact F.
Qed.

(** ** C85 *)

(** Tables of fixed size, any mix of calls: all calls happen at one moment, except that an
    update may report success without any effect if an erase of its key succeeded between
    its invocation and its response. *)
Theorem C85_updates_lost_only_to_erases_fixed :
  forall sc mc hash lg gh (client : op -> Prop) tr s,
    cell_type sc -> sc_mark sc = false -> 1 <= lg <= 63 ->
    (forall o, client o -> admissible sc o) ->
    lts_steps (bsys_step (TCfg sc mc hash) (sized mc lg gh) client)
      (bsys_init (TCfg sc mc hash) (sized mc lg gh)) tr s ->
    atomic_but_lost (mspec false (negb (cprob mc))) tr.
Proof.
  intros sc mc hash lg gh client tr s CT SM LG A ST.
  eapply (base_lose (TCfg sc mc hash) (sized mc lg gh) lg (cell_type_wf _ CT) (wf_mk mc lg gh LG) SM client); eauto.
  apply all_ok; auto. now apply cell_type_wf.
Qed.
Print Assumptions C85_updates_lost_only_to_erases_fixed.

(** Tables that grow by the synchronised strategy.  Left out: circular mapping with linear
    probing (C16), circular tables without a vacant cell (C15). *)
Theorem C85_updates_lost_only_to_erases_synchronised_partial :
  forall sc mc hash lg B maps slot (client : op -> Prop) tr s,
    cell_type sc -> sc_mark sc = false -> (cmap mc = false \/ cprob mc = true) -> own_flags slot ->
    1 <= lg <= 63 -> 0 < B <= 2 ^ 31 -> maps 0 = mk_mapper mc (2 ^ lg) 0 ->
    (forall o, client o -> admissible sc o) ->
    lts_steps (ttab_roomy (TCfg sc mc hash) B maps slot client) (ttab_init (TCfg sc mc hash) maps) tr s ->
    atomic_but_lost (mspec false false) tr.
Proof.
  intros sc mc hash lg B maps slot client tr s CT SM CF OW LG HB M0 A ST.
  destruct (sims (TCfg sc mc hash) B maps slot client OW ltac:(lia) _ _ _ _
    (rel_init (TCfg sc mc hash) B maps slot OW ltac:(lia) lg M0) ST) as (g & L & _).
  eapply (sync_lose (TCfg sc mc hash) B client (cell_type_wf _ CT) SM); eauto.
  apply all_ok; auto. now apply cell_type_wf.
Qed.
Print Assumptions C85_updates_lost_only_to_erases_synchronised_partial.

(** Linear probing needs no restriction on the executions. *)
Theorem C85_updates_lost_only_to_erases_linear_probing :
  forall sc hash lg B maps slot (client : op -> Prop) tr s,
    let mc := MCfg false false in
    cell_type sc -> sc_mark sc = false -> own_flags slot ->
    1 <= lg <= 63 -> 0 < B <= 2 ^ 31 -> maps 0 = mk_mapper mc (2 ^ lg) 0 ->
    (forall o, client o -> admissible sc o) ->
    lts_steps (ttab_step (TCfg sc mc hash) B maps slot client) (ttab_init (TCfg sc mc hash) maps) tr s ->
    atomic_but_lost (mspec false false) tr.
Proof.
  intros sc hash lg B maps slot client tr s mc CT SM OW LG HB M0 A ST.
  eapply (C85_updates_lost_only_to_erases_synchronised_partial sc mc hash lg B maps slot client); eauto.
  clear -ST. induction ST; [constructor|eapply ls_tau|eapply ls_vis]; eauto;
    split; auto; intros E; discriminate E.
Qed.
Print Assumptions C85_updates_lost_only_to_erases_linear_probing.

(** If no update overlaps an erase of its key nothing is lost: the history is one of an
    atomic map, whatever else runs concurrently. *)
Theorem C85_without_overlap_linearizable_fixed :
  forall sc mc hash lg gh (client : op -> Prop) tr s,
    cell_type sc -> sc_mark sc = false -> 1 <= lg <= 63 ->
    (forall o, client o -> admissible sc o) ->
    lts_steps (bsys_step (TCfg sc mc hash) (sized mc lg gh) client)
      (bsys_init (TCfg sc mc hash) (sized mc lg gh)) tr s ->
    no_overlap tr -> linearizable_trace (mspec false (negb (cprob mc))) amap_empty tr.
Proof.
  intros sc mc hash lg gh client tr s CT SM LG A ST NO. apply lost_only_on_overlap; auto.
  eapply C85_updates_lost_only_to_erases_fixed; eauto.
Qed.
Print Assumptions C85_without_overlap_linearizable_fixed.

Theorem C85_without_overlap_linearizable_synchronised_partial :
  forall sc mc hash lg B maps slot (client : op -> Prop) tr s,
    cell_type sc -> sc_mark sc = false -> (cmap mc = false \/ cprob mc = true) -> own_flags slot ->
    1 <= lg <= 63 -> 0 < B <= 2 ^ 31 -> maps 0 = mk_mapper mc (2 ^ lg) 0 ->
    (forall o, client o -> admissible sc o) ->
    lts_steps (ttab_roomy (TCfg sc mc hash) B maps slot client) (ttab_init (TCfg sc mc hash) maps) tr s ->
    no_overlap tr -> linearizable_trace (mspec false false) amap_empty tr.
Proof.
  intros sc mc hash lg B maps slot client tr s CT SM CF OW LG HB M0 A ST NO. apply lost_only_on_overlap; auto.
  eapply C85_updates_lost_only_to_erases_synchronised_partial; eauto.
Qed.
Print Assumptions C85_without_overlap_linearizable_synchronised_partial.

(** What clients that mix all calls can still count on: an inserted key that nobody erases is
    found, with its value if nobody updates it; it is inserted once; a counter that nobody
    erases shows all acknowledged increments (see TraceSpec.v). *)
Theorem C85_keys_nobody_erases_fixed :
  forall sc mc hash lg gh (client : op -> Prop),
    cell_type sc -> sc_mark sc = false -> 1 <= lg <= 63 ->
    (forall o, client o -> admissible sc o) ->
    let step := bsys_step (TCfg sc mc hash) (sized mc lg gh) client in
    let init := bsys_init (TCfg sc mc hash) (sized mc lg gh) in
    keeps_keys step init /\ keeps_values step init /\ one_winner step init /\ counts_exactly step init.
Proof.
  intros sc mc hash lg gh client CT SM LG A step init.
  assert (L : forall tr s, lts_steps step init tr s -> atomic_but_lost (mspec false (negb (cprob mc))) tr).
  { intros tr s. now apply C85_updates_lost_only_to_erases_fixed. }
  split; [eapply lose_keys; eauto|]. split; [eapply lose_values; eauto|]. split; [eapply lose_winner; eauto|eapply lose_counts; eauto].
Qed.
Print Assumptions C85_keys_nobody_erases_fixed.

Theorem C85_keys_nobody_erases_synchronised_partial :
  forall sc mc hash lg B maps slot (client : op -> Prop),
    cell_type sc -> sc_mark sc = false -> (cmap mc = false \/ cprob mc = true) -> own_flags slot ->
    1 <= lg <= 63 -> 0 < B <= 2 ^ 31 -> maps 0 = mk_mapper mc (2 ^ lg) 0 ->
    (forall o, client o -> admissible sc o) ->
    let step := ttab_roomy (TCfg sc mc hash) B maps slot client in
    let init := ttab_init (TCfg sc mc hash) maps in
    keeps_keys step init /\ keeps_values step init /\ one_winner step init /\ counts_exactly step init.
Proof.
  intros sc mc hash lg B maps slot client CT SM CF OW LG HB M0 A step init.
  assert (L : forall tr s, lts_steps step init tr s -> atomic_but_lost (mspec false false) tr).
  { intros tr s. now apply (C85_updates_lost_only_to_erases_synchronised_partial sc mc hash lg). }
  split; [eapply lose_keys; eauto|]. split; [eapply lose_values; eauto|]. split; [eapply lose_winner; eauto|eapply lose_counts; eauto].
Qed.
Print Assumptions C85_keys_nobody_erases_synchronised_partial.

(** At any moment the cells hold the map of the history, every key in one cell, where its
    probe sequence finds it. *)
Theorem C85_content_fixed :
  forall sc mc hash lg gh (client : op -> Prop) tr s,
    cell_type sc -> sc_mark sc = false -> 1 <= lg <= 63 ->
    (forall o, client o -> admissible sc o) ->
    lts_steps (bsys_step (TCfg sc mc hash) (sized mc lg gh) client)
      (bsys_init (TCfg sc mc hash) (sized mc lg gh)) tr s ->
    (exists w, lts_steps (wstep (mspec false (negb (cprob mc)))) (WObj amap_empty (fun _ => WIdle)) tr w /\
       stored sc (cells_of mc lg) (bmem s) (wst w)) /\
    (forall k p q d e, user_key sc k ->
       holds sc (cells_of mc lg) (bmem s) p k d -> holds sc (cells_of mc lg) (bmem s) q k e -> p = q) /\
    (forall k p d, user_key sc k -> holds sc (cells_of mc lg) (bmem s) p k d ->
       exists n, probe_of mc lg (w64 (hash k)) n = p /\
         forall j, j < n -> ~ vacant sc (cells_of mc lg) (bmem s) (probe_of mc lg (w64 (hash k)) j)).
Proof.
  intros sc mc hash lg gh client tr s CT SM LG A ST.
  eapply (lose_content sc mc hash lg gh CT LG SM client); eauto.
  apply all_ok; auto. now apply cell_type_wf.
Qed.
Print Assumptions C85_content_fixed.

(** An update that finds the key is overtaken by an erase and reports success, as if on the
    data of the deleted cell. *)
Definition ls85 : list blabel :=
  call 1 (OInsert 5 7) 2 ++
  [LInv 2 (OUpdate 5 (incr_atomic 1)); LRun 2 true; LInv 3 (OErase 5); LRun 3 true; LRun 3 true; LRet 3;
   LRun 2 true; LRet 2] ++ call 1 (OInsert 5 8) 3 ++ call 3 (OFind 5) 2.
Example C85_case_lost :
  (forall o, In o (ops_of ls85) -> admissible (simple_slot false) o) /\
  exists tr s, lts_steps (bsys_step ex_plain (sized (MCfg false false) 9 0) (fun o => In o (ops_of ls85)))
    (bsys_init ex_plain (sized (MCfg false false) 9 0)) tr s /\
    rets tr = [(1, RInserted); (3, RErased); (2, RUpdated 0); (1, RInserted); (3, RFound 8)] /\
    ~ linearizable_trace (mspec false true) amap_empty tr /\ ~ no_overlap tr.
Proof.
  split.
  { intros o H. cbn in H. repeat destruct H as [<-|H]; try contradiction;
      (split; [apply key_ok_plain; cbn; lia|cbn; auto]). intros g x [= <-]. reflexivity. }
  destruct (exec ex_plain (sized (MCfg false false) 9 0)
              (bsys_init ex_plain (sized (MCfg false false) 9 0)) ls85) as [[tr s]|] eqn:E.
  2: { vm_compute in E. discriminate. }
  exists tr, s. split; [eapply exec_sound; [|exact E]; auto|].
  assert (NL : ~ linearizable_trace (mspec false true) amap_empty tr).
  { vm_compute in E. injection E as <- _. apply not_linearizable. vm_compute. reflexivity. }
  split; [vm_compute in E; injection E as <- _; reflexivity|]. split; [exact NL|].
  intros NO. apply NL.
  eapply (C85_without_overlap_linearizable_fixed (simple_slot false) (MCfg false false) ex_hash 9 0 (fun o => In o (ops_of ls85)) tr s);
    auto; try lia; [exists false; auto| |].
  { intros o H. cbn in H. repeat destruct H as [<-|H]; try contradiction;
      (split; [apply key_ok_plain; cbn; lia|cbn; auto]). intros g x [= <-]. reflexivity. }
  eapply exec_sound; [|exact E]; auto.
Qed.

(** A history in which an update is lost although nothing was erased is excluded. *)
Example C85_not_vacuous :
  ~ atomic_but_lost (mspec false true)
      (in_turn 1 [(MInsert 5 0, RInserted); (spec_op (simple_slot false) (OUpdate 5 (incr 1)), RUpdated 1); (MFind 5, RFound 0)]).
Proof.
  intros H. apply lost_only_on_overlap in H; [|apply in_turn_no_overlap]. revert H.
  apply not_linearizable. vm_compute. reflexivity.
Qed.

(** A counter that nobody erases, next to a lost update of another key. *)
Definition ls85c : list blabel :=
  call 2 (OIou 9 1 (add_to 1)) 2 ++ call 1 (OInsert 5 7) 3 ++
  [LInv 2 (OUpdate 5 (incr_atomic 1)); LRun 2 true; LRun 2 true; LInv 3 (OErase 5); LRun 3 true; LRun 3 true; LRun 3 true; LRet 3;
   LRun 2 true; LRet 2] ++ call 1 (OInsert 5 8) 4 ++ call 2 (OIou 9 1 (add_to 1)) 2 ++ call 3 (OFind 5) 3 ++ call 1 (OFind 9) 1.
Example C85_case_counter :
  (forall x, In x (ops_of ls85c) -> counting 9 (spec_op (simple_slot false) x)) /\
  run ex_plain (sized (MCfg false false) 9 0) ls85c
  = Some [(2, RInserted); (1, RInserted); (3, RErased); (2, RUpdated 0); (1, RInserted); (2, RUpdated 2);
          (3, RFound 8); (1, RFound 2)].
Proof.
  split; [|vm_compute; reflexivity].
  intros x H. cbn in H. repeat destruct H as [<-|H]; try contradiction; cbn; try discriminate; auto;
    intros _; (split; [reflexivity|intros v; lia]).
Qed.

(** The same race on a table that grows afterwards, with the data of the lost update still in
    the deleted cell. *)
Definition c85 : tcfg := TCfg (simple_slot false) (MCfg false false) (fun k => k * 2 ^ 62).
Definition l85 : list tlabel :=
  [TRuns 0 2; TRuns 1 2; TRuns 2 2; TInv 0 (OInsert 1 10); TRuns 0 8; TRet 0;
   TInv 1 (OUpdate 1 (incr_atomic 5)); TRuns 1 5; TInv 0 (OErase 1); TRuns 0 8; TRet 0; TRuns 1 3; TRet 1;
   TInv 1 (OInsert 3 30); TRuns 1 6; TWant 1; TRuns 1 10; TOpen 1 4 0; TRuns 1 63; TRet 1;
   TInv 2 (OFind 1); TRuns 2 7; TRet 2].
Example C85_case_synchronised :
  (forall o, In o (tops_of l85) -> admissible (simple_slot false) o) /\ own_flags (fun i => i) /\
  maps53 0 = mk_mapper (MCfg false false) (2 ^ 2) 0 /\
  exists tr s, lts_steps (ttab_step c85 2 maps53 (fun i => i) (fun o => In o (tops_of l85))) (ttab_init c85 maps53) tr s /\
    rets tr = [(0, RInserted); (0, RErased); (1, RUpdated 0); (1, RInserted); (2, RAbsent)] /\
    s_tab (t_p s) = TTab 1 /\ ~ linearizable_trace (mspec false false) amap_empty tr.
Proof.
  split.
  { intros o H. cbn in H. repeat destruct H as [<-|H]; try contradiction;
      (split; [apply key_ok_plain; cbn; lia|cbn; auto]). intros g x [= <-]. reflexivity. }
  split; [intros i j E; exact E|]. split; [reflexivity|].
  exists (ttrace c85 2 maps53 (fun i => i) l85), (tfinal c85 2 maps53 (fun i => i) l85).
  pose proof (truns_sound c85 2 maps53 (fun i => i) l85 eq_refl ltac:(vm_compute; reflexivity)) as S.
  split; [|split; [vm_compute; reflexivity|split; [vm_compute; reflexivity|]]].
  - clear -S. induction S as [|? ? ? ? [H _]|? ? ? ? ? [H _]]; [constructor|eapply ls_tau|eapply ls_vis]; eauto.
  - apply not_linearizable. vm_compute. reflexivity.
Qed.

(** An erase and an update of different keys overlap, and an update of the erased key comes
    after the erase. *)
Definition ls85b : list blabel :=
  call 1 (OInsert 5 7) 2 ++ call 1 (OInsert 6 3) 3 ++
  [LInv 2 (OUpdate 6 (incr 1)); LRun 2 true; LInv 3 (OErase 5); LRun 3 true; LInv 1 (OFind 5); LRun 3 true; LRun 2 true;
   LRun 2 true; LRun 1 true; LRun 1 true; LRun 1 true; LRet 3; LRet 2; LRet 1] ++ call 3 (OUpdate 5 (incr 1)) 3.
Ltac overlaps E :=
  repeat match type of E with
         | _ = _ :: _ => fail 1
         | ?a :: ?l = ?tr1 ++ ?tr2 => destruct tr1 as [|? tr1]; cbn in E; [clear E|injection E as <- E]
         | [] = ?tr1 ++ ?tr2 => destruct tr1; [clear E|discriminate E]
         end.
Example C85_case_overlap :
  (forall o, In o (ops_of ls85b) -> admissible (simple_slot false) o) /\
  exists tr s, lts_steps (bsys_step ex_plain (sized (MCfg false false) 9 0) (fun o => In o (ops_of ls85b)))
    (bsys_init ex_plain (sized (MCfg false false) 9 0)) tr s /\
    rets tr = [(1, RInserted); (1, RInserted); (3, RErased); (2, RUpdated 4); (1, RAbsent); (3, RAbsent)] /\ no_overlap tr.
Proof.
  split.
  { intros o H. cbn in H. repeat destruct H as [<-|H]; try contradiction;
      (split; [apply key_ok_plain; cbn; lia|cbn; auto]); intros g x [= <-]; reflexivity. }
  destruct (exec ex_plain (sized (MCfg false false) 9 0)
              (bsys_init ex_plain (sized (MCfg false false) 9 0)) ls85b) as [[tr s]|] eqn:E.
  2: { vm_compute in E. discriminate. }
  exists tr, s. split; [eapply exec_sound; [|exact E]; auto|].
  vm_compute in E. injection E as <- _. split; [reflexivity|].
  intros tr1 tr2 t u o o' X. unfold open_after. overlaps X; cbn; unfold fupd;
    repeat match goal with |- context [?a =? ?b] => destruct (N.eqb_spec a b) end;
    intros A B U V; try discriminate A; try discriminate B; injection A as <-; injection B as <-;
    solve [discriminate U|discriminate V|cbn; congruence].
Qed.

(** ** C47, with erase and update together on all cells *)

(** One thread, any admissible calls; see C47_one_thread_is_a_map_partial for what is left
    out. *)
Theorem C47_erase_and_update_partial :
  forall sc mc hash lg B (client : op -> Prop) t l s,
    cell_type sc -> (forall o, client o -> admissible sc o) -> (cmap mc = false \/ cprob mc = true) ->
    1 <= lg <= 63 -> 0 < B <= 2 ^ 31 ->
    lts_steps (GrowingSpec.sync_step (TCfg sc mc hash) B client) (gsys_init (TCfg sc mc hash) lg) (in_turn t l) s ->
    exists m, answers amap_empty l m.
Proof.
  intros sc mc hash lg B client t l s CT AD CF LG HB ST. destruct (sc_mark sc) eqn:SM.
  { eapply C47_one_thread_is_a_map_partial; eauto. split; auto. }
  destruct (lost_only_on_overlap false false (in_turn t l)) as (x & A).
  - eapply (sync_lose (TCfg sc mc hash) B client (cell_type_wf _ CT) SM); eauto.
    apply all_ok; auto. now apply cell_type_wf.
  - apply in_turn_no_overlap.
  - destruct (in_turn_answers _ _ _ _ _ (fun _ => eq_refl) A) as [AN _]. eauto.
Qed.
Print Assumptions C47_erase_and_update_partial.

Definition l47b : list glabel :=
  gcall 1 (OInsert 1 10) 2 ++ gcall 1 (OUpdate 1 (incr 5)) 2 ++ gcall 1 (OErase 1) 2 ++
  migrate_by 9 4 0 1000 ++ gcall 1 (OUpdate 1 (incr 5)) 1 ++ gcall 1 (OInsert 1 20) 2 ++ gcall 1 (OFind 1) 1.
Example C47_case_erase_and_update :
  (forall o, In o (gops_of l47b) -> admissible (simple_slot false) o) /\
  (exists s, lts_steps (GrowingSpec.sync_step c85 4096 (fun o => In o (gops_of l47b))) (gsys_init c85 2)
    (in_turn 1
      [(MInsert 1 10, RInserted); (spec_op (simple_slot false) (OUpdate 1 (incr 5)), RUpdated 15); (MErase 1, RErased);
       (spec_op (simple_slot false) (OUpdate 1 (incr 5)), RAbsent); (MInsert 1 20, RInserted); (MFind 1, RFound 20)]) s /\
    gver s = 1).
Proof.
  split.
  { intros o H. cbn in H. repeat destruct H as [<-|H]; try contradiction;
      (split; [apply key_ok_plain; cbn; lia|cbn; auto]); intros g x [= <-]; reflexivity. }
  exists (gfinal c85 4096 MSync 2 l47b). split; [|vm_compute; reflexivity].
  pose proof (gruns_sound c85 4096 MSync 2 l47b eq_refl ltac:(vm_compute; reflexivity)) as S.
  exact S.
Qed.
