(** C59: linearizability in the words of Herlihy and Wing.  The other
    theorems state it with an atomic object whose calls take effect in one step
    between invocation and response; both say the same about every history. *)
From Coq Require Import NArith Arith Bool List Lia.
From Verif Require Import Words Slot SlotFacts Mapper ReturnCode MapSpec LinSpec HWSpec HWFacts Base BaseInv BaseLin
  TableSpec BaseFacts BaseExec LinCheck Growing GrowingSpec GrowingFacts Sync SyncSpec SyncTable SyncTableSpec
  PropBase PropGrowing PropSyncTable.
Import ListNotations.
Open Scope N_scope.

(** ** C59 *)
Theorem C59_same_histories :
  forall (St Op Res : Type) (spec : St -> Op -> St -> Res -> Prop) s0 h,
    linearizable_trace spec s0 h <-> hw_linearizable spec s0 h.
Proof. intros. apply hw_iff. Qed.
Print Assumptions C59_same_histories.

(** Tables that do not grow: every client on marking cells, clients that do not
    use both erase and update on the other cells. *)
Theorem C59_fixed_size_partial :
  forall sc mc hash lg gh (client : op -> Prop) h s,
    cell_type sc -> fair sc client -> 1 <= lg <= 63 ->
    lts_steps (bsys_step (TCfg sc mc hash) (sized mc lg gh) client)
      (bsys_init (TCfg sc mc hash) (sized mc lg gh)) h s ->
    hw_linearizable (mspec (sc_mark sc) (negb (cprob mc))) amap_empty h.
Proof.
  intros sc mc hash lg gh client h s CT F LG ST. apply hw_iff.
  pose proof (linearizable_fair sc mc hash lg gh) as L. eapply L; eauto.
Qed.
Print Assumptions C59_fixed_size_partial.

(** Tables with the synchronised strategy, linear probing. *)
Theorem C59_synchronised_growing_partial :
  forall sc hash lg B maps slot (client : op -> Prop) h s,
    let mc := MCfg false false in
    cell_type sc -> fair sc client -> own_flags slot ->
    1 <= lg <= 63 -> 0 < B <= 2 ^ 31 -> maps 0 = mk_mapper mc (2 ^ lg) 0 ->
    lts_steps (ttab_step (TCfg sc mc hash) B maps slot client) (ttab_init (TCfg sc mc hash) maps) h s ->
    hw_linearizable (mspec false false) amap_empty h.
Proof.
  intros sc hash lg B maps slot client h s mc CT F OW LG HB M0 ST. apply hw_iff.
  eapply C53_linear_probing; eauto.
Qed.
Print Assumptions C59_synchronised_growing_partial.

(** Tables with the asynchronous strategy, as long as no call changes a cell
    between the load and the mark in a helper's second loop. *)
Theorem C59_asynchronous_growing_partial :
  forall sc mc hash lg B (client : op -> Prop) h s,
    cell_type sc -> fair sc client -> (cmap mc = false \/ cprob mc = true) -> sc_mark sc = true ->
    1 <= lg <= 63 -> 0 < B <= 2 ^ 31 ->
    lts_steps (async_step (TCfg sc mc hash) B client) (gsys_init (TCfg sc mc hash) lg) h s ->
    hw_linearizable (mspec false false) amap_empty h.
Proof.
  intros sc mc hash lg B client h s CT F MP MK LG HB ST. apply hw_iff.
  eapply C48_asynchronous_growing_linearizable_partial; eauto.
Qed.
Print Assumptions C59_asynchronous_growing_partial.

(** On non-marking cells with erase and update the table produces histories that
    have no linearization. *)
Theorem C59_fixed_size_refuted :
  exists sc mc hash lg gh (client : op -> Prop) h s,
    cell_type sc /\ 1 <= lg <= 63 /\ (forall o, client o -> admissible sc o) /\
    lts_steps (bsys_step (TCfg sc mc hash) (sized mc lg gh) client)
      (bsys_init (TCfg sc mc hash) (sized mc lg gh)) h s /\
    ~ hw_linearizable (mspec (sc_mark sc) (negb (cprob mc))) amap_empty h.
Proof.
  destruct C03_update_vs_erase_if_refuted as (sc & mc & hash & lg & gh & client & h & s & CT & M & LG & CL & ST & NL).
  exists sc, mc, hash, lg, gh, client, h, s. repeat (split; [assumption|]).
  rewrite M. now rewrite <- hw_iff.
Qed.
Print Assumptions C59_fixed_size_refuted.

(** Threads 1 and 2 add the same key at the same time and thread 2 wins; thread 3
    starts after both have returned and reads thread 2's value; thread 1's second
    call has not returned yet.  Reading the other value is not a linearizable
    answer. *)
Definition h59 (v : N) : list (event mop mres) :=
  [EInv 1 (MInsert 5 7); EInv 2 (MInsert 5 1); ERet 2 RInserted; ERet 1 (RPresent 1);
   EInv 1 (MInsert 6 6); EInv 3 (MFind 5); ERet 3 (RFound v)].
Example C59_case :
  let client o := In o [OInsert 5 7; OInsert 5 1; OInsert 6 6; OFind 5] in
  fair (simple_slot false) client /\
  (exists s, lts_steps (bsys_step ex_plain (sized (MCfg false false) 9 0) client)
               (bsys_init ex_plain (sized (MCfg false false) 9 0)) (h59 1) s) /\
  ~ hw_linearizable (mspec false true) amap_empty (h59 7) /\
  responds (h59 1) 1 2 RInserted /\ responds (h59 1) 0 3 (RPresent 1) /\
  precedes [(1%nat, MInsert 5 1, RInserted); (0%nat, MInsert 5 7, RPresent 1); (5%nat, MFind 5, RFound 1)] 0 5.
Proof.
  split; [|split; [|split; [|split; [|split]]]].
  - split; [|right; left].
    + intros o [<-|[<-|[<-|[<-|[]]]]]; (split; [apply key_ok_plain; cbn; lia|exact Logic.I]).
    + intros o [<-|[<-|[<-|[<-|[]]]]]; cbn; tauto.
  - pose (ls := [LInv 1 (OInsert 5 7); LInv 2 (OInsert 5 1); LRun 1 true; LRun 2 true;
      LRun 2 true; LRun 1 true; LRun 1 true; LRet 2; LRet 1; LInv 1 (OInsert 6 6); LRun 1 true;
      LInv 3 (OFind 5); LRun 3 true; LRet 3]).
    destruct (exec ex_plain (sized (MCfg false false) 9 0)
                (bsys_init ex_plain (sized (MCfg false false) 9 0)) ls) as [[tr s]|] eqn:E.
    2: { vm_compute in E. discriminate. }
    exists s. replace (h59 1) with tr.
    + eapply exec_sound; [|exact E]. intros o H. cbn in H. cbn. tauto.
    + vm_compute in E. injection E as <- _. reflexivity.
  - rewrite <- hw_iff. apply not_linearizable. vm_compute. reflexivity.
  - exists 2, (MInsert 5 1). repeat split; auto. intros k e L. lia.
  - exists 1, (MInsert 5 7). repeat split; auto with arith. intros k e L H.
    assert (K : k = 1%nat \/ k = 2%nat) by lia. destruct K as [-> | ->]; cbn in H; injection H as <-; discriminate.
  - exists [(1%nat, MInsert 5 1, RInserted); (0%nat, MInsert 5 7, RPresent 1)], [(5%nat, MFind 5, RFound 1)].
    cbn. auto.
Qed.
