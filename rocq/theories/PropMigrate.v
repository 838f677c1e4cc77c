(** C15 - C19: migration of a table into its successor. *)
From Coq Require Import NArith Bool List Lia.
From Verif Require Import Words Slot SlotFacts Mapper MapperFacts ReturnCode MapSpec LinSpec
  Base BaseExec TableSpec BaseFacts Migrate MigrateExec GrowSpec GrowFacts MigrateFacts PropBase.
Import ListNotations.
Open Scope N_scope.

(** ** C15 *)

(** While nobody uses the table, any number of helpers in any interleaving
    leave in the target exactly the map of the source. *)
Theorem C15_migration_exact :
  forall sc mc hash (client : op -> Prop) lg lg' m t a ins del B tr s,
    cell_type sc -> fair sc client -> (cmap mc = false \/ cprob mc = true) ->
    life (TCfg sc mc hash) client lg m t -> lg <= 31 -> 0 < B <= 2 ^ 31 ->
    addressable_slots mc (resize mc m ins del) = 2 ^ lg' ->
    stored sc (cells_of mc lg) t a ->
    (cprob mc = true -> exists p, vacant sc (cells_of mc lg) t p) ->
    lts_steps (msys_step (TCfg sc mc hash) m (resize mc m ins del) B nobody)
      (msys_init (TCfg sc mc hash) (resize mc m ins del) t idle) tr s ->
    finished s ->
    stored sc (cells_of mc lg') (mtgt s) a /\ no_duplicate sc (cells_of mc lg') (mtgt s) /\
    findable sc mc hash lg' (mtgt s) /\ unmarked sc (cells_of mc lg') (mtgt s) /\
    no_tombstone sc (cells_of mc lg') (mtgt s).
Proof. intros. eapply move_quiet_ok; eauto. Qed.
Print Assumptions C15_migration_exact.

(** A table with any history of use and migrations stores some map, and calls
    on it are linearizable from that map on. *)
Theorem C15_life_linearizable :
  forall sc mc hash (client : op -> Prop) lg m t,
    cell_type sc -> fair sc client -> (cmap mc = false \/ cprob mc = true) ->
    life (TCfg sc mc hash) client lg m t ->
    exists a, stored sc (cells_of mc lg) t a /\
      linearizable (mspec (sc_mark sc) (negb (cprob mc)))
        (bsys_step (TCfg sc mc hash) m client) (BSys t idle) a.
Proof.
  intros sc mc hash client lg m t CT F CF L.
  destruct (life_stored sc mc hash client CT F CF lg m t L) as [a A].
  exists a. split; auto. eapply life_linearizable; eauto.
Qed.
Print Assumptions C15_life_linearizable.

(** Keys 4j .. 4j+3 start at slot j of 512 slots. *)
Definition ex_mig : tcfg := TCfg (simple_slot true) (MCfg false false) (fun k => k / 4 * 2 ^ 55).
Definition m9 : mapper := sized (MCfg false false) 9 0.
Definition mt9 : mapper := resize (MCfg false false) m9 400 0.
Definition ops15 : list blabel :=
  call 1 (OInsert 252 10) 2 ++ call 1 (OInsert 253 20) 3 ++ call 2 (OInsert 254 30) 4 ++
  call 1 (OErase 253) 3 ++ call 2 (OInsert 8 40) 2.
Definition t15 : mem := mem_after ex_mig m9 (fresh_mem ex_mig m9) ops15.
Definition ls15 : list mlabel :=
  [MJoin 1; MJoin 2; MHelp 1 5; MHelp 2 7; MHelp 1 300; MHelp 2 2100; MHelp 1 2000; MHelp 2 1].

(** Keys 252 and 254 sit in cells 63 and 65 with an erased cell between them; the
    block of the second helper starts at cell 64, in the middle of that cluster.
    After the migration to 1024 slots they are in cells 126 and 127. *)
Example C15_case :
  life ex_mig (fun o => In o (ops_of ops15)) 9 m9 t15 /\ fair (simple_slot true) (fun o => In o (ops_of ops15)) /\
  (t15 2, t15 63, t15 64, t15 65) =
    (Some (Slot 8 40), Some (Slot 252 10), Some (deleted_slot (simple_slot true)), Some (Slot 254 30)) /\
  (let s := moved ex_mig m9 mt9 64 t15 ls15 in
   lts_steps (msys_step ex_mig m9 mt9 64 nobody) (msys_init ex_mig mt9 t15 idle)
     (events_of ex_mig m9 mt9 64 t15 ls15) s /\ finished s /\
   (mtgt s 4, mtgt s 126, mtgt s 127, mtgt s 128) =
     (Some (Slot 8 40), Some (Slot 252 10), Some (Slot 254 30), Some empty_slot)).
Proof.
  split; [apply exec_life; [apply (life_new ex_mig _ 9); lia|auto|vm_compute; reflexivity]|].
  split.
  { split; [|now left]. intros o H. cbn in H.
    repeat destruct H as [<-|H]; try contradiction; (split; [apply key_ok_mark; cbn; lia|exact Logic.I]). }
  split; [vm_compute; reflexivity|]. cbv zeta.
  assert (C : completes ex_mig m9 mt9 64 t15 ls15 = true) by (vm_compute; reflexivity).
  assert (N : forall o, In o (mops_of ls15) -> nobody o) by (intros o []).
  destruct (moved_steps ex_mig m9 mt9 64 t15 ls15 nobody C N) as [S F].
  split; [exact S|]. split; [exact F|]. vm_compute. reflexivity.
Qed.

(** Tables of 2^32 slots and more: the block ends are truncated to 32 bits, so no
    block is ever moved.  Whatever the source holds, the target stays empty. *)
Theorem C15_large_table_refuted :
  forall sc mc hash lg gh t ins del B tr s tot p k d,
    32 <= lg <= 62 ->
    lts_steps (msys_step (TCfg sc mc hash) (sized mc lg gh) (resize mc (sized mc lg gh) ins del) B nobody)
      (msys_init (TCfg sc mc hash) (resize mc (sized mc lg gh) ins del) t idle) tr s ->
    user_key sc k ->
    ~ holds sc tot (mtgt s) p k d.
Proof.
  intros sc mc hash lg gh t ins del B tr s tot p k d LG ST U (_ & x & E & W & _).
  apply (big_run _ _ _ lg) in ST; [|apply wf_mk; lia|lia]. rewrite ST in E. unfold target_mem in E.
  destruct (_ && _ && _); [|discriminate]. injection E as <-.
  unfold word_is, user_key in *. cbn in W. destruct (sc_mark sc); [|lia].
  destruct W as [W|[_ W]]; lia.
Qed.
Print Assumptions C15_large_table_refuted.

(** A table of 2^31 slots grows to 2^32 slots, so such tables come about. *)
Example C15_large_reached :
  addressable_slots (MCfg false false) (resize (MCfg false false) (sized (MCfg false false) 31 1) (2 ^ 30) 0) = 2 ^ 32.
Proof. vm_compute. reflexivity. Qed.

(** Circular probing without a vacant cell: no helper finds the start of a
    cluster, and nothing is moved. *)
Theorem C15_full_circular_refuted :
  forall sc mc hash (client : op -> Prop) lg m t ins del B tr s tot p k d,
    cell_type sc -> fair sc client -> cprob mc = true ->
    life (TCfg sc mc hash) client lg m t ->
    (forall q, q < cells_of mc lg -> ~ vacant sc (cells_of mc lg) t q) ->
    lts_steps (msys_step (TCfg sc mc hash) m (resize mc m ins del) B nobody)
      (msys_init (TCfg sc mc hash) (resize mc m ins del) t idle) tr s ->
    ~ holds sc tot (mtgt s) p k d.
Proof.
  intros sc mc hash client lg m t ins del B tr s tot p k d CT F CP L NV ST (_ & x & E & _).
  destruct (life_inv _ _ _ _ CT F (or_intror CP) _ _ _ L) as (W & _).
  apply (full_run (TCfg sc mc hash) _ _ lg B t W CP) in ST.
  - rewrite ST in E. unfold target_mem in E. cbn [tmc] in E. rewrite CP in E. discriminate.
  - intros q Lq. cbn [tsc]. assert (q < cells_of mc lg) by (unfold cells_of; now rewrite CP).
    eapply life_occupied; eauto.
Qed.
Print Assumptions C15_full_circular_refuted.

Definition m9c : mapper := sized (MCfg true true) 9 0.
(** Such a table: 512 inserts into 512 slots. *)
Example C15_full_circular_case :
  life ex_circ (fun o => exists k, o = OInsert k 1) 9 m9c (mem_after ex_circ m9c (fresh_mem ex_circ m9c) (fill 512)) /\
  (let t := mem_after ex_circ m9c (fresh_mem ex_circ m9c) (fill 512) in
   forallb (fun p => match t p with Some x => negb (skey x =? 0) | None => false end) (nseq 0 512) = true).
Proof.
  split; [|vm_compute; reflexivity].
  apply exec_life; [apply (life_new ex_circ _ 9); lia| |vm_compute; reflexivity].
  intros o H. unfold fill in H. induction (seq 1 512) as [|i l IH]; [contradiction|].
  cbn in H. destruct H as [<-|H]; eauto.
Qed.

(** ** C16: circular mapping with linear probing *)

Definition c16 : tcfg := TCfg (simple_slot false) (MCfg true false) (fun _ => 8191).
Definition m16 : mapper := sized (MCfg true false) 13 0.
Definition mt16 : mapper := resize (MCfg true false) m16 4000 0.
Definition ops16 : list blabel := call 1 (OInsert 1 10) 2 ++ call 1 (OInsert 2 20) 3.
Definition t16 : mem := mem_after c16 m16 (fresh_mem c16 m16) ops16.

(** An element that overflowed past the end of the source is put into target
    cells which another block has not initialised yet. *)
Theorem C16_circular_mapping_refuted :
  exists sc mc hash (client : op -> Prop) lg m t ins del tr s tid,
    cell_type sc /\ fair sc client /\ cmap mc = true /\ cprob mc = false /\
    life (TCfg sc mc hash) client lg m t /\ lg <= 31 /\
    lts_steps (msys_step (TCfg sc mc hash) m (resize mc m ins del) migration_block_size nobody)
      (msys_init (TCfg sc mc hash) (resize mc m ins del) t idle) tr s /\
    mhlp s tid = Some HBad.
Proof.
  pose (ls := [MJoin 1; MHelp 1 1; MJoin 2; MHelp 2 16400]).
  assert (X : match mexec c16 m16 mt16 4096 (msys_init c16 mt16 t16 idle) ls with
              | Some (_, s) => mhlp s 2 | None => None end = Some HBad) by (vm_compute; reflexivity).
  destruct (mexec c16 m16 mt16 4096 (msys_init c16 mt16 t16 idle) ls) as [[tr s]|] eqn:E; [|discriminate].
  exists (simple_slot false), (MCfg true false), (fun _ => 8191), (fun o => In o (ops_of ops16)),
    13, m16, t16, 4000, 0, tr, s, 2.
  split; [exists false; auto|]. split.
  { split; [|right; left]; intros o H; cbn in H; repeat destruct H as [<-|H]; try contradiction; cbn; auto.
    all: split; [apply key_ok_plain; cbn; lia|exact Logic.I]. }
  split; [reflexivity|]. split; [reflexivity|]. split.
  { apply exec_life; [apply (life_new c16 _ 13); lia|auto|vm_compute; reflexivity]. }
  split; [lia|]. split.
  - apply (mexec_sound c16 m16 mt16 4096 nobody _ ls); [intros o []|exact E].
  - exact X.
Qed.
Print Assumptions C16_circular_mapping_refuted.

(** ** C17 *)

(** Linear probing: over the whole life of a table no element is stored beyond
    cell 2^lg + 300 of the 2^lg + 1024 cells, and no call accesses a cell outside
    of the table or a cell that was not initialised. *)
Theorem C17_overflow_area :
  forall sc mc hash (client : op -> Prop) lg m t tr s,
    cell_type sc -> fair sc client -> (cmap mc = false \/ cprob mc = true) ->
    life (TCfg sc mc hash) client lg m t ->
    lts_steps (bsys_step (TCfg sc mc hash) m client) (BSys t idle) tr s ->
    (cprob mc = false -> forall p x, p < cells_of mc lg -> 2 ^ lg + 300 < p ->
       bmem s p = Some x -> word_is sc x 0) /\
    (forall tid o pc, bthr s tid = Some (o, pc) -> pc <> PBad /\
       forall i, next_access pc = Some i ->
         remap mc m i < cells_of mc lg /\ bmem s (remap mc m i) <> None).
Proof. intros. eapply life_overflow; eauto. Qed.
Print Assumptions C17_overflow_area.

(** Neither does a helper, in a migration without and with concurrent calls. *)
Theorem C17_migration_in_bounds :
  forall sc mc hash (client : op -> Prop) lg lg' m t ins del B tr s tid,
    cell_type sc -> fair sc client -> (cmap mc = false \/ cprob mc = true) ->
    life (TCfg sc mc hash) client lg m t -> lg <= 31 -> 0 < B <= 2 ^ 31 ->
    addressable_slots mc (resize mc m ins del) = 2 ^ lg' ->
    lts_steps (msys_step (TCfg sc mc hash) m (resize mc m ins del) B nobody)
      (msys_init (TCfg sc mc hash) (resize mc m ins del) t idle) tr s \/
    (sc_mark sc = true /\
     lts_steps (calm_step (TCfg sc mc hash) m (resize mc m ins del) B client)
      (msys_init (TCfg sc mc hash) (resize mc m ins del) t idle) tr s) ->
    mhlp s tid <> Some HBad.
Proof.
  intros sc mc hash client lg lg' m t ins del B tr s tid CT F CF L LG HB E [ST|[SM ST]] H.
  - eapply helpers_quiet; eauto.
  - eapply helpers_busy; eauto.
Qed.
Print Assumptions C17_migration_in_bounds.

(** All keys hash to the last slot: they fill the overflow area up to cell 812 and
    the next insert reports that the table is full. *)
Definition c17 : tcfg := TCfg (simple_slot false) (MCfg false false) (fun _ => 2 ^ 64 - 1).
Definition ops17 (n : nat) : list blabel :=
  flat_map (fun i => call 1 (OInsert (N.of_nat i) 1) (S i)) (seq 1 n).
Example C17_case :
  match exec c17 m9 (BSys (fresh_mem c17 m9) idle) (ops17 302) with
  | Some (_, s) => let t := bmem s in
      (t 511, t 812, t 813, option_map (fun x => rets (fst x)) (exec c17 m9 (BSys t idle) (call 1 (OInsert 303 1) 303))) =
      (Some (Slot 1 1), Some (Slot 302 1), Some empty_slot, Some [(1, RFull)])
  | None => False
  end.
Proof. vm_compute. reflexivity. Qed.

(** After growing, such cells start at 1023. *)
Example C17_moved_case :
  let t := mem_after c17 m9 (fresh_mem c17 m9) (ops17 20) in
  let s := moved c17 m9 mt9 4096 t [MJoin 1; MHelp 1 60000] in
  (settles c17 m9 1536 (fresh_mem c17 m9) (ops17 20), t 511, t 530, t 531, completes c17 m9 mt9 4096 t [MJoin 1; MHelp 1 60000],
   mtgt s 1023, mtgt s 1042, mtgt s 1043) =
  (true, Some (Slot 1 1), Some (Slot 20 1), Some empty_slot, true, Some (Slot 1 1), Some (Slot 20 1), Some empty_slot).
Proof. vm_compute. reflexivity. Qed.

(** ** C18 *)

(** Calls that run while marking cells are migrated.  As long as no call changes
    a cell between the load and the mark in a helper's second loop, the calls are
    linearizable (a call that hits a marked cell reports so and has no effect),
    and the target ends up with exactly the map they leave. *)
Theorem C18_operations_during_migration_partial :
  forall sc mc hash (client : op -> Prop) lg lg' m t a ins del B tr s,
    cell_type sc -> fair sc client -> (cmap mc = false \/ cprob mc = true) -> sc_mark sc = true ->
    life (TCfg sc mc hash) client lg m t -> lg <= 31 -> 0 < B <= 2 ^ 31 ->
    addressable_slots mc (resize mc m ins del) = 2 ^ lg' ->
    stored sc (cells_of mc lg) t a ->
    lts_steps (calm_step (TCfg sc mc hash) m (resize mc m ins del) B client)
      (msys_init (TCfg sc mc hash) (resize mc m ins del) t idle) tr s ->
    exists x, asteps (mspec true (negb (cprob mc))) (AObj a (fun _ => AIdle)) tr x /\
     (finished s ->
      (cprob mc = true -> exists p, vacant sc (cells_of mc lg) (msrc s) p) ->
      stored sc (cells_of mc lg') (mtgt s) (ast x) /\ no_duplicate sc (cells_of mc lg') (mtgt s) /\
      findable sc mc hash lg' (mtgt s) /\ unmarked sc (cells_of mc lg') (mtgt s) /\
      no_tombstone sc (cells_of mc lg') (mtgt s)).
Proof. intros. eapply move_busy_ok; eauto. Qed.
Print Assumptions C18_operations_during_migration_partial.

(** An insert that finishes before its cell is marked and an erase that comes
    too late. *)
Definition ls18 : list mlabel :=
  [MInv 1 (OInsert 40 7); MRun 1 true; MJoin 9; MHelp 9 1030; MRun 1 true; MRet 1; MHelp 9 20;
   MInv 2 (OErase 40); MRun 2 true; MRet 2; MHelp 9 2000].
Example C18_case :
  lts_steps (calm_step ex_mig m9 mt9 4096 (fun o => In o (mops_of ls18)))
    (msys_init ex_mig mt9 (fresh_mem ex_mig m9) idle)
    (events_of ex_mig m9 mt9 4096 (fresh_mem ex_mig m9) ls18)
    (moved ex_mig m9 mt9 4096 (fresh_mem ex_mig m9) ls18) /\
  finished (moved ex_mig m9 mt9 4096 (fresh_mem ex_mig m9) ls18) /\
  events_of ex_mig m9 mt9 4096 (fresh_mem ex_mig m9) ls18 =
    [EInv 1 (MInsert 40 7); ERet 1 RInserted; EInv 2 (MErase 40); ERet 2 RInvalid] /\
  mtgt (moved ex_mig m9 mt9 4096 (fresh_mem ex_mig m9) ls18) 20 = Some (Slot 40 7).
Proof.
  assert (C : completes ex_mig m9 mt9 4096 (fresh_mem ex_mig m9) ls18 = true) by (vm_compute; reflexivity).
  split; [|split; [|split; vm_compute; reflexivity]].
  - apply (moved_calm _ _ _ _ _ _ [9]); [exact C|vm_compute; reflexivity|auto|cbn; auto].
  - exact (proj2 (moved_steps ex_mig m9 mt9 4096 (fresh_mem ex_mig m9) ls18 (fun _ => True) C (fun _ _ => Logic.I))).
Qed.

(** Without that restriction an acknowledged insert is lost: the helper has
    loaded the still empty overflow cell, the insert goes through, the mark fails,
    and migrate (base_linear.hpp:1180-1190) ends its loop with the outdated copy. *)
Definition ls18b : list mlabel :=
  [MInv 1 (OInsert 1 10); MRun 1 true; MRun 1 true; MRet 1; MInv 2 (OInsert 2 20); MRun 2 true;
   MJoin 9; MHelp 9 2054; MRun 2 true; MRun 2 true; MRet 2; MHelp 9 2].
Definition c18 : tcfg := TCfg (simple_slot true) (MCfg false false) (fun _ => 2 ^ 64 - 1).

Theorem C18_operations_during_migration_refuted :
  exists sc mc hash (client : op -> Prop) lg m t ins del tr s k d,
    cell_type sc /\ fair sc client /\ cmap mc = false /\ sc_mark sc = true /\
    (forall o, client o -> ~ erasing o) /\
    life (TCfg sc mc hash) client lg m t /\
    lts_steps (msys_step (TCfg sc mc hash) m (resize mc m ins del) migration_block_size client)
      (msys_init (TCfg sc mc hash) (resize mc m ins del) t idle) tr s /\
    finished s /\
    (exists tid, In (EInv tid (MInsert k d)) tr /\ In (ERet tid RInserted) tr) /\
    forall p e, ~ holds sc (cells_of mc (lg + 1)) (mtgt s) p k e.
Proof.
  assert (C : completes c18 m9 mt9 4096 (fresh_mem c18 m9) ls18b = true) by (vm_compute; reflexivity).
  exists (simple_slot true), (MCfg false false), (fun _ => 2 ^ 64 - 1), (fun o => In o (mops_of ls18b)),
    9, m9, (fresh_mem c18 m9), 400, 0, (events_of c18 m9 mt9 4096 (fresh_mem c18 m9) ls18b),
    (moved c18 m9 mt9 4096 (fresh_mem c18 m9) ls18b), 2, 20.
  split; [exists true; auto|]. split.
  { split; [|now left]. intros o H; cbn in H; repeat destruct H as [<-|H]; try contradiction.
    all: split; [apply key_ok_mark; cbn; lia|exact Logic.I]. }
  split; [reflexivity|]. split; [reflexivity|]. split.
  { intros o H; cbn in H; repeat destruct H as [<-|H]; try contradiction; cbn; auto. }
  split; [apply (life_new c18 _ 9); lia|].
  destruct (moved_steps c18 m9 mt9 4096 (fresh_mem c18 m9) ls18b (fun o => In o (mops_of ls18b)) C (fun _ H => H))
    as [S F].
  split; [exact S|]. split; [exact F|]. split.
  { exists 2. vm_compute. tauto. }
  intros p e (L & x & E & W & _).
  assert (X : let s := moved c18 m9 mt9 4096 (fresh_mem c18 m9) ls18b in
     forallb (fun p => match mtgt s p with
     | Some x => negb (skey x =? 2) && negb (skey x =? 2 + 2 ^ 63) | None => true end)
     (nseq 0 (N.to_nat (cells_of (MCfg false false) (9 + 1)))) = true) by (vm_compute; reflexivity).
  cbv zeta in X. rewrite forallb_forall in X. specialize (X p (in_nseq0 _ _ L)).
  change (mtgt (moved c18 m9 mt9 4096 (fresh_mem c18 m9) ls18b) p = Some x) in E. rewrite E in X.
  apply andb_true_iff in X. destruct X as [X1 X2].
  apply negb_true_iff, N.eqb_neq in X1. apply negb_true_iff, N.eqb_neq in X2.
  destruct W as [W|[_ W]]; [congruence|]. apply X2. exact W.
Qed.
Print Assumptions C18_operations_during_migration_refuted.

(** ** C19 *)

(** At every moment of a migration the blocks handed out are non-empty, lie
    inside the table and are disjoint; together they are the slots below the
    block counter, and when a helper has returned, all slots. *)
Theorem C19_blocks_partition :
  forall c ms mt lg B (client : op -> Prop) src l s,
    wf_mapper (tmc c) ms lg -> lg <= 31 -> 0 < B <= 2 ^ 31 ->
    claims c ms mt B client (msys_init c mt src idle) l s ->
    (forall a e, In (a, e) l -> a < e /\ e <= 2 ^ lg) /\
    (forall p, p < 2 ^ lg ->
       (length (filter (fun b => (fst b <=? p) && (p <? snd b)) l) <= 1)%nat) /\
    ((exists tid, mhlp s tid = Some HEnd) -> forall p, p < 2 ^ lg ->
       length (filter (fun b => (fst b <=? p) && (p <? snd b)) l) = 1%nat).
Proof.
  intros c ms mt lg B client src l s W LG [B0 BL] C.
  destruct (claims_inv c ms mt lg B client W LG B0 BL src l s C) as [H1 H2].
  split; [intros a e I; destruct (H1 _ I); tauto|]. split.
  - intros p L. specialize (H2 p L). unfold covers in H2. rewrite H2. destruct (p <? mctr s); lia.
  - intros [tid E] p L. specialize (H2 p L). unfold covers in H2. rewrite H2.
    pose proof (claims_end c ms mt lg B client W LG B0 BL src l s C tid E).
    destruct (N.ltb_spec p (mctr s)); [reflexivity|lia].
Qed.
Print Assumptions C19_blocks_partition.

(** The run of C15_case: eight blocks of 64 slots, two helpers, both at the end. *)
Example C19_case :
  wf_mapper (MCfg false false) m9 9 /\
  (exists l, claims ex_mig m9 mt9 64 nobody (msys_init ex_mig mt9 t15 idle) l (moved ex_mig m9 mt9 64 t15 ls15)) /\
  mhlp (moved ex_mig m9 mt9 64 t15 ls15) 1 = Some HEnd.
Proof.
  split; [apply wf_mk; lia|]. split; [|vm_compute; reflexivity].
  destruct C15_case as (_ & _ & _ & S & _). eapply claims_exist. exact S.
Qed.

(** From 2^32 slots on no handed-out block contains any slot. *)
Theorem C19_large_table_refuted :
  forall c ms lg B, wf_mapper (tmc c) ms lg -> 32 <= lg ->
    forall s s' a e, In (a, e) (handed c ms B s s') -> ~ a < e.
Proof.
  intros c ms lg B W L s s' a e. unfold handed. destruct (_ =? _); [intros []|].
  destruct (_ <? _); [|intros []]. intros [[= <- <-]|[]]. rewrite (addressable_val _ _ _ W).
  unfold block_end. rewrite w32_big by exact L. lia.
Qed.
Print Assumptions C19_large_table_refuted.
