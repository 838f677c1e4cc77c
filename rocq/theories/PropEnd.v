(** C60: a migration ends. *)
From Coq Require Import NArith Bool List Lia.
From Verif Require Import Words Slot SlotFacts Mapper MapperFacts ReturnCode MapSpec LinSpec
  Base BaseExec TableSpec BaseFacts BaseLin Migrate MigrateExec GrowSpec GrowFacts MigrateFacts MigrateSys
  EndSpec MigrateEnd PropBase PropMigrate.
Import ListNotations.
Open Scope N_scope.

(** Counting leaves no run out and adds none. *)
Theorem C60_all_runs_counted :
  forall c ms mt B (client : op -> Prop) s0 s,
    (exists tr, lts_steps (calm_step c ms mt B client) s0 tr s) <->
    (exists n j u, counted c ms mt B client s0 n j u s).
Proof.
  intros c ms mt B client s0 s. split.
  - intros [tr ST]. eapply run_counted; eauto.
  - intros (n & j & u & CT). eapply counted_run; eauto.
Qed.
Print Assumptions C60_all_runs_counted.

(** Nobody uses the table: however many helpers join, however often, and however
    they are scheduled, those that have not returned make a number of steps that
    depends on the capacity only, plus one per helper. *)
Theorem C60_migration_ends :
  forall sc mc hash (client : op -> Prop) lg lg' m t ins del B n j u s,
    cell_type sc -> fair sc client -> (cmap mc = false \/ cprob mc = true) ->
    life (TCfg sc mc hash) client lg m t -> lg <= 31 -> 0 < B <= 2 ^ 31 ->
    addressable_slots mc (resize mc m ins del) = 2 ^ lg' ->
    counted (TCfg sc mc hash) m (resize mc m ins del) B nobody
      (msys_init (TCfg sc mc hash) (resize mc m ins del) t idle) n j u s ->
    u = 0 /\ n <= 20 * (2 ^ lg + 256) ^ 3 + j.
Proof.
  intros sc mc hash client lg lg' m t ins del B n j u s CT F CF L LG [B0 BL] E C.
  destruct (life_inv sc mc hash client CT F CF lg m t L) as (W & ct & a & I & A).
  pose proof (cell_type_wf _ CT) as Hsc.
  destruct (resize_migr (TCfg sc mc hash) m lg lg' ins del W LG CF E) as (g & -> & MG).
  pose proof (minit _ m _ lg g B MG Hsc B0 LG BL t ct a nobody I A) as R0.
  assert (U : u = 0 /\ forall t, mthr s t = None).
  { clear -C. induction C; cbn in *; auto; try (destruct IHC as [-> IH]; auto);
      try match goal with H : nobody _ |- _ => destruct H end;
      match goal with H : _ = Some (_, _) |- _ => rewrite IH in H; discriminate end. }
  split; [apply U|].
  pose proof (count_bound _ m _ lg g B MG Hsc B0 LG BL nobody _ n j u s C (fun _ => eq_refl) eq_refl) as X.
  destruct U as [-> _]. rewrite N.mul_0_r, N.add_0_r in X. apply X; eauto.
  eapply fair_ok; eauto. split; [intros o []|]. right. right. intros o [].
Qed.
Print Assumptions C60_migration_ends.

(** Calls run meanwhile on marking cells (undisturbed, see C18): each of their
    steps delays each helper by at most two steps.  Missing: runs with calls that
    change a cell between the load and the mark in a helper's second loop. *)
Theorem C60_busy_migration_ends_partial :
  forall sc mc hash (client : op -> Prop) lg lg' m t ins del B n j u s,
    cell_type sc -> fair sc client -> (cmap mc = false \/ cprob mc = true) -> sc_mark sc = true ->
    life (TCfg sc mc hash) client lg m t -> lg <= 31 -> 0 < B <= 2 ^ 31 ->
    addressable_slots mc (resize mc m ins del) = 2 ^ lg' ->
    counted (TCfg sc mc hash) m (resize mc m ins del) B client
      (msys_init (TCfg sc mc hash) (resize mc m ins del) t idle) n j u s ->
    n <= 20 * (2 ^ lg + 256) ^ 3 + j + 2 * j * u.
Proof.
  intros sc mc hash client lg lg' m t ins del B n j u s CT F CF SM L LG [B0 BL] E C.
  destruct (life_inv sc mc hash client CT F CF lg m t L) as (W & ct & a & I & A).
  pose proof (cell_type_wf _ CT) as Hsc.
  destruct (resize_migr (TCfg sc mc hash) m lg lg' ins del W LG CF E) as (g & -> & MG).
  pose proof (minit _ m _ lg g B MG Hsc B0 LG BL t ct a client I A) as R0.
  eapply (count_bound _ m _ lg g B MG Hsc B0 LG BL client); eauto.
  eapply fair_ok; eauto.
Qed.
Print Assumptions C60_busy_migration_ends_partial.

(** From every reachable moment at which some thread has joined, steps of the
    helpers alone finish the migration: nobody waits for anybody else. *)
Theorem C60_helpers_finish :
  forall sc mc hash (client : op -> Prop) lg lg' m t ins del B tr s,
    cell_type sc -> fair sc client -> (cmap mc = false \/ cprob mc = true) ->
    life (TCfg sc mc hash) client lg m t -> lg <= 31 -> 0 < B <= 2 ^ 31 ->
    addressable_slots mc (resize mc m ins del) = 2 ^ lg' ->
    (lts_steps (calm_step (TCfg sc mc hash) m (resize mc m ins del) B nobody)
       (msys_init (TCfg sc mc hash) (resize mc m ins del) t idle) tr s \/
     sc_mark sc = true /\
     lts_steps (calm_step (TCfg sc mc hash) m (resize mc m ins del) B client)
       (msys_init (TCfg sc mc hash) (resize mc m ins del) t idle) tr s) ->
    (exists tid, mhlp s tid <> None) ->
    exists s', lts_steps (calm_step (TCfg sc mc hash) m (resize mc m ins del) B nobody) s [] s' /\
               finished s' /\ mthr s' = mthr s.
Proof.
  intros sc mc hash client lg lg' m t ins del B tr s CT F CF L LG [B0 BL] E ST EX.
  destruct (life_inv sc mc hash client CT F CF lg m t L) as (W & ct & a & I & A).
  pose proof (cell_type_wf _ CT) as Hsc.
  destruct (resize_migr (TCfg sc mc hash) m lg lg' ins del W LG CF E) as (g & -> & MG).
  assert (X : exists cl : op -> Prop, client_ok sc cl /\ (sc_mark sc = true \/ (forall o, ~ cl o)) /\
     lts_steps (calm_step (TCfg sc mc hash) m (resize mc m ins del) B cl)
       (msys_init (TCfg sc mc hash) (resize mc m ins del) t idle) tr s).
  { destruct ST as [ST|[SM ST]].
    - exists nobody. split; [eapply fair_ok; eauto; split; [intros o []|right; right; intros o []]|]. split; auto.
    - exists client. split; [eapply fair_ok; eauto|]. auto. }
  destruct X as (cl & CO & MD & ST').
  destruct (run_counted _ m _ B cl _ tr s ST') as (n & j & u & C).
  pose proof (minit _ m _ lg g B MG Hsc B0 LG BL t ct a cl I A) as R0.
  destruct (can_finish _ m _ lg g B MG Hsc B0 LG BL cl _ n j u s C (fun _ => eq_refl) eq_refl) as (n' & s' & _ & FI & TH & LT); eauto.
  destruct MD as [MD|MD]; auto.
Qed.
Print Assumptions C60_helpers_finish.

(** The hypotheses of C60 are met: two helpers move a table of 512 slots (C15). *)
Example C60_case :
  life ex_mig (fun o => In o (ops_of ops15)) 9 m9 t15 /\
  (exists n j u, counted ex_mig m9 mt9 64 nobody (msys_init ex_mig mt9 t15 idle) n j u
                   (moved ex_mig m9 mt9 64 t15 ls15)) /\
  finished (moved ex_mig m9 mt9 64 t15 ls15).
Proof.
  assert (C : completes ex_mig m9 mt9 64 t15 ls15 = true) by (vm_compute; reflexivity).
  assert (N : forall o, In o (mops_of ls15) -> nobody o) by (intros o []).
  split; [apply C15_case|]. split; [|exact (proj2 (moved_steps ex_mig m9 mt9 64 t15 ls15 nobody C N))].
  apply (run_counted ex_mig m9 mt9 64 nobody _ (events_of ex_mig m9 mt9 64 t15 ls15)).
  apply (moved_calm _ _ _ _ _ _ [1; 2]); [exact C|vm_compute; reflexivity|auto|cbn; tauto].
Qed.
