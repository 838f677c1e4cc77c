(** C87 on tables with synchronised growing. *)
From Coq Require Import NArith Bool List Lia.
From Verif Require Import Words Slot SlotFacts Mapper MapperFacts ReturnCode MapSpec LinSpec
  Base BaseInv BaseLin TableSpec BaseFacts PropBase Migrate Growing GrowingSpec GrowingInv GrowingFacts GrowingExec PropGrowing
  Tso Unsafe UnsafeSpec UnsafeFacts UnsafeGrowing UnsafeGrowingSpec UnsafeGrowingFacts UnsafeGrowingExec.
Import ListNotations.
Open Scope N_scope.

(** Calls run concurrently, growth steps exclude them, and while an unsafe update of a key
    is in progress nobody else is in a call that updates or erases that key: all calls are
    atomic, over any number of growth steps, also growth steps in the middle of the unsafe
    calls.  Left out, as in C51: circular mapping together with linear probing, circular
    tables that are migrated without any vacant cell, and on non-marking cells clients that
    both update and erase. *)
Theorem C87_synchronised_growing_partial :
  forall sc mc hash lg B (client : call -> Prop),
    cell_type sc -> fair_calls sc client -> (cmap mc = false \/ cprob mc = true) ->
    1 <= lg <= 63 -> 0 < B <= 2 ^ 31 ->
    linearizable (mspec false false)
      (ug_sync_step (TCfg sc mc hash) B client) (ug_init (TCfg sc mc hash) lg) amap_empty.
Proof.
  intros sc mc hash lg B client CT F CF LG HB.
  apply (ug_linearizable (TCfg sc mc hash) B client (cell_type_wf _ CT)
    (fair_calls_ok (TCfg sc mc hash) client (cell_type_wf _ CT) F) CF HB lg LG).
Qed.
Print Assumptions C87_synchronised_growing_partial.

(** The operations in these histories are those that the clients called. *)
Theorem C87_growing_calls :
  forall c B (client : call -> Prop) s u e s',
    ug_step c B client s (Some (EInv u e)) s' ->
    exists q, client q /\
      match q with
      | Safe o => e = spec_op (tsc c) o
      | UpdateUnsafe k f => exists r, e = MUpdate k f r
      | IouUnsafe k d f => exists r, e = MInsertOrUpdate k d f r
      end.
Proof.
  intros c B client s u e s' H. inversion H as [? ? ? ? ? ? ? q T K|? ? ? ? C| |]; subst; [|inversion C; contradiction].
  exists q. split; [exact K|]. destruct q; cbn; eauto.
Qed.
Print Assumptions C87_growing_calls.

(** Thread 1 has begun to increment and thread 2 to insert when the table grows; both
    go on with the new version, where the insert finds the key between the read and the
    write of the increment and an erase of another key is in progress. *)
Definition inc1 (x : N) : N := w64 (x + 1).
Definition ycall (t : N) (q : Unsafe.call) (n : nat) : list ylabel :=
  [YInv t q; YDo (GGets t)] ++ repeat (YDo (GRuns t 1)) n ++ [YDo (GRet t)].
Definition l87g : list ylabel :=
  ycall 1 (IouUnsafe 1 10 inc1) 2 ++ ycall 1 (Safe (OInsert 2 20)) 2 ++
  [YInv 1 (UpdateUnsafe 1 inc1); YInv 2 (Safe (OInsert 1 30)); YDo (GGrow 4 0); YDo (GJoin 9); YHelps 9 400; YDo GPublish;
   YDo (GGets 1); YDo (GGets 2); YInv 3 (Safe (OErase 2)); YDo (GGets 3); YDo (GRuns 1 1); YRead 1;
   YDo (GRuns 2 1); YDo (GRet 2); YDo (GRuns 3 1); YStore 1; YDo (GRuns 3 1); YDo (GRet 3); YDo (GRet 1)] ++
  ycall 2 (Safe (OFind 1)) 1.
Definition t87g : list (event mop mres) :=
  [EInv 1 (MInsertOrUpdate 1 10 inc1 inc1); ERet 1 RInserted; EInv 1 (MInsert 2 20); ERet 1 RInserted;
   EInv 1 (MUpdate 1 inc1 inc1); EInv 2 (MInsert 1 30); EInv 3 (MErase 2); ERet 2 (RPresent 10);
   ERet 3 RErased; ERet 1 (RUpdated 11); EInv 2 (MFind 1); ERet 2 (RFound 11)].
Example C87_growing_case :
  fair_calls (simple_slot true) (fun q => In q (ycalls l87g)) /\
  (exists s, lts_steps (ug_sync_step c47 4096 (fun q => In q (ycalls l87g))) (ug_init c47 2) t87g s /\ gver (fst s) = 1).
Proof.
  split.
  - split; [|now left]. intros q Q. cbn in Q. repeat destruct Q as [<-|Q]; try contradiction;
      (split; [apply key_ok_mark; cbn; lia|first [exact Logic.I|intros ? ?; discriminate]]).
  - assert (X : match yexec c47 4096 (yinit c47 2) l87g with
                | Some (tr, y) => tr = t87g /\ gver (xs (fst y)) = 1 | None => False end) by (vm_compute; split; reflexivity).
    destruct (yexec c47 4096 (yinit c47 2) l87g) as [[tr y]|] eqn:E; [|destruct X]. destruct X as [<- G].
    exists (ysys y). split; [|exact G]. apply (yexec_init c47 4096 eq_refl _ 2 l87g); auto.
Qed.
