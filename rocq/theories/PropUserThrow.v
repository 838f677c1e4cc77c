(** C84: the function given to an update throws; cells that hold the values in place. *)
From Coq Require Import NArith Bool List Lia.
From Verif Require Import Words Slot SlotFacts Mapper MapperFacts MapSpec LinSpec LinCheck Base BaseExec BaseFacts TableSpec
  Migrate Growing GrowingSpec GrowingExec PtrFacts UserThrow UserThrowSpec UserThrowFacts UserThrowExec PropBase PropGrowing.
Import ListNotations.
Open Scope N_scope.

(** ** Functions that throw before they change the value

    The history without the calls that threw is that of the atomic map: these calls did
    not happen. *)
Theorem C84_thrown_calls_do_not_happen_fixed :
  forall sc mc hash lg gh (client : op -> Prop) tr s,
    cell_type sc -> fair sc client -> 1 <= lg <= 63 ->
    lts_steps (or_throws (bsys_step (TCfg sc mc hash) (sized mc lg gh) client)
                         (base_throws false (TCfg sc mc hash) (sized mc lg gh)))
      (bsys_init (TCfg sc mc hash) (sized mc lg gh)) tr s ->
    linearizable_trace (mspec (sc_mark sc) (negb (cprob mc))) amap_empty (without_thrown tr).
Proof.
  intros sc mc hash lg gh client tr s CT FR LG ST. apply without_lin. pose proof (cell_type_wf _ CT) as W.
  eapply (base_throw_lin false (TCfg sc mc hash) (sized mc lg gh) lg); eauto using fair_ok. now apply wf_mk.
Qed.
Print Assumptions C84_thrown_calls_do_not_happen_fixed.

Theorem C84_thrown_calls_do_not_happen_synchronised_partial :
  forall sc mc hash lg B (client : op -> Prop) tr s,
    cell_type sc -> fair sc client -> (cmap mc = false \/ cprob mc = true) -> 1 <= lg <= 63 -> 0 < B <= 2 ^ 31 ->
    lts_steps (or_throws (sync_step (TCfg sc mc hash) B client) (grow_throws false (TCfg sc mc hash)))
      (gsys_init (TCfg sc mc hash) lg) tr s ->
    linearizable_trace (mspec false false) amap_empty (without_thrown tr).
Proof.
  intros sc mc hash lg B client tr s CT FR CF LG HB ST. apply without_lin.
  eapply (sync_throw_lin (TCfg sc mc hash) B client); eauto using cell_type_wf, fair_ok.
Qed.
Print Assumptions C84_thrown_calls_do_not_happen_synchronised_partial.

(** Asynchronous growing: with any function, for it gets a copy. *)
Theorem C84_thrown_calls_do_not_happen_asynchronous_partial :
  forall sc mc hash lg B (client : op -> Prop) late tr s,
    cell_type sc -> fair sc client -> (cmap mc = false \/ cprob mc = true) -> sc_mark sc = true -> 1 <= lg <= 63 -> 0 < B <= 2 ^ 31 ->
    lts_steps (or_throws (async_step (TCfg sc mc hash) B client) (grow_throws late (TCfg sc mc hash)))
      (gsys_init (TCfg sc mc hash) lg) tr s ->
    linearizable_trace (mspec false false) amap_empty (without_thrown tr).
Proof.
  intros sc mc hash lg B client late tr s CT FR CF SM LG HB ST. apply without_lin.
  eapply (async_throw_lin (TCfg sc mc hash) B client); eauto using cell_type_wf, fair_ok.
  destruct late; [|exact ST]. clear - ST SM.
  assert (ONE : forall s e s', or_throws (async_step (TCfg sc mc hash) B client) (grow_throws true (TCfg sc mc hash)) s e s' ->
    or_throws (async_step (TCfg sc mc hash) B client) (grow_throws false (TCfg sc mc hash)) s e s').
  { intros s0 e s1 St. inversion St; subst; [constructor; assumption|constructor; apply late_marked; assumption]. }
  induction ST as [s|s s1 s2 tr St ST IH|s e s1 s2 tr St ST IH].
  - apply ls_nil.
  - eapply ls_tau; eauto.
  - eapply ls_vis; eauto.
Qed.
Print Assumptions C84_thrown_calls_do_not_happen_asynchronous_partial.

(** ** Functions that work in place

    A call that threw happens at one moment or not at all; the others happen. *)
Theorem C84_in_place_at_most_once_fixed :
  forall sc mc hash lg gh (client : op -> Prop) tr s,
    cell_type sc -> fair sc client -> 1 <= lg <= 63 ->
    lts_steps (or_throws (bsys_step (TCfg sc mc hash) (sized mc lg gh) client)
                         (base_throws true (TCfg sc mc hash) (sized mc lg gh)))
      (bsys_init (TCfg sc mc hash) (sized mc lg gh)) tr s ->
    atomic_but_thrown true (mspec (sc_mark sc) (negb (cprob mc))) amap_empty tr.
Proof.
  intros sc mc hash lg gh client tr s CT FR LG ST. pose proof (cell_type_wf _ CT) as W.
  eapply (base_throw_lin true (TCfg sc mc hash) (sized mc lg gh) lg); eauto using fair_ok. now apply wf_mk.
Qed.
Print Assumptions C84_in_place_at_most_once_fixed.

Theorem C84_in_place_at_most_once_synchronised_partial :
  forall sc mc hash lg B (client : op -> Prop) tr s,
    cell_type sc -> fair sc client -> (cmap mc = false \/ cprob mc = true) -> 1 <= lg <= 63 -> 0 < B <= 2 ^ 31 ->
    lts_steps (or_throws (sync_step (TCfg sc mc hash) B client) (grow_throws true (TCfg sc mc hash)))
      (gsys_init (TCfg sc mc hash) lg) tr s ->
    atomic_but_thrown true (mspec false false) amap_empty tr.
Proof. intros. eapply (sync_throw_lin (TCfg sc mc hash) B client); eauto using cell_type_wf, fair_ok. Qed.
Print Assumptions C84_in_place_at_most_once_synchronised_partial.

(** Thread 2's function throws; thread 3's call on the same key is not disturbed. *)
Definition l84 : list (part blabel) :=
  [Go (call 1 (OInsert 5 7) 2 ++ [LInv 2 (OUpdate 5 (incr 1)); LInv 3 (OIou 5 0 (incr 10)); LRun 2 true; LRun 3 true]);
   Throw 2 false; Go ([LRun 3 true; LRet 3; LInv 2 (OUpdate 6 (incr 1)); LRun 2 true; LRun 2 true; LRet 2] ++ call 1 (OFind 5) 1)].
Example C84_fixed_case :
  fair (simple_slot false) (fun o => In o (uops l84)) /\
  exists tr s,
    lts_steps (or_throws (bsys_step ex_plain (sized (MCfg false false) 9 0) (fun o => In o (uops l84)))
                         (base_throws false ex_plain (sized (MCfg false false) 9 0)))
      (bsys_init ex_plain (sized (MCfg false false) 9 0)) tr s /\
    existsb (fun e => match e with UThrow 2 => true | _ => false end) tr = true /\
    rets (without_thrown tr) = [(1, RInserted); (3, RUpdated 17); (2, RAbsent); (1, RFound 17)] /\
    length (without_thrown tr) = 8%nat.
Proof.
  split; [split; [admits|right; left]|].
  { intros o H. cbn in H. repeat destruct H as [<-|H]; try contradiction; cbn; tauto. }
  destruct (uexec ex_plain (sized (MCfg false false) 9 0) (bsys_init ex_plain (sized (MCfg false false) 9 0)) l84) as [[tr s]|] eqn:E;
    [|vm_compute in E; discriminate].
  exists tr, s. split; [eapply uexec_sound; [| |exact E]; [intros o H; exact H|intros H; discriminate]|].
  vm_compute in E. injection E as <- _. repeat split; reflexivity.
Qed.

(** During an asynchronous migration, and on an old version after it. *)
Definition l84a : list (part glabel) :=
  [Go (gcall 1 (OInsert 1 10) 2 ++ gcall 1 (OInsert 2 20) 2 ++
       [GInv 4 (OUpdate 2 (incr 1)); GGets 4; GRuns 4 1; GInv 5 (OUpdate 1 (incr 1)); GGets 5; GRuns 5 1; GGrow 4 0; GJoin 9; GHelps 9 50]);
   Throw 4 false;
   Go [GHelps 9 150; GPublish]; Throw 5 false; Go (gcall 4 (OFind 2) 1 ++ gcall 5 (OUpdate 1 (incr 5)) 2)].
Example C84_asynchronous_case :
  fair (simple_slot true) (fun o => In o (ugops l84a)) /\
  exists tr s,
    lts_steps (or_throws (async_step c47 4096 (fun o => In o (ugops l84a))) (grow_throws false c47)) (gsys_init c47 2) tr s /\
    gver s = 1 /\ rets (without_thrown tr) = [(1, RInserted); (1, RInserted); (4, RFound 20); (5, RUpdated 15)].
Proof.
  split; [split; [admits|now left]|].
  assert (R : option_map (fun p => (rets (without_thrown (fst p)), gver (xs (snd p)))) (ugexec c47 4096 MAsync (ginit c47 2) l84a) =
    Some ([(1, RInserted); (1, RInserted); (4, RFound 20); (5, RUpdated 15)], 1)) by (vm_compute; reflexivity).
  destruct (ugexec c47 4096 MAsync (ginit c47 2) l84a) as [[tr x]|] eqn:E; [|discriminate R].
  exists tr, (xs x). split; [exact (ugexec_sound c47 4096 MAsync eq_refl 2 false l84a tr x (fun H => H) E)|].
  injection R as R1 R2. split; assumption.
Qed.

(** The call that threw has happened: a later lookup finds the new value. *)
Definition l84b : list (part blabel) :=
  [Go (call 1 (OInsert 5 7) 2 ++ [LInv 2 (OUpdate 5 (incr_atomic 1)); LRun 2 true]); Throw 2 true; Go (call 3 (OFind 5) 1)].
Theorem C84_in_place_does_not_happen_refuted :
  exists sc mc hash lg gh (client : op -> Prop) tr s,
    cell_type sc /\ fair sc client /\ 1 <= lg <= 63 /\
    lts_steps (or_throws (bsys_step (TCfg sc mc hash) (sized mc lg gh) client)
                         (base_throws true (TCfg sc mc hash) (sized mc lg gh)))
      (bsys_init (TCfg sc mc hash) (sized mc lg gh)) tr s /\
    ~ linearizable_trace (mspec (sc_mark sc) (negb (cprob mc))) amap_empty (without_thrown tr).
Proof.
  destruct (uexec ex_plain (sized (MCfg false false) 9 0) (bsys_init ex_plain (sized (MCfg false false) 9 0)) l84b) as [[tr s]|] eqn:E;
    [|vm_compute in E; discriminate].
  exists (simple_slot false), (MCfg false false), ex_hash, 9, 0, (fun o => In o (uops l84b)), tr, s.
  split; [exists false; auto|]. split; [split; [|right; left]|split; [lia|]].
  { intros o [<-|[<-|[<-|[]]]]; (split; [apply key_ok_plain; cbn; lia|]); cbn; auto. intros g x [= <-]. reflexivity. }
  { intros o [<-|[<-|[<-|[]]]]; cbn; tauto. }
  split; [eapply uexec_sound; [| |exact E]; auto|].
  vm_compute in E. injection E as <- _. apply not_linearizable. vm_compute. reflexivity.
Qed.
Print Assumptions C84_in_place_does_not_happen_refuted.

(** On a growing table: the update that threw is found after a migration, and happened once. *)
Definition l84s : list (part glabel) :=
  [Go (gcall 1 (OInsert 1 10) 2 ++ [GInv 2 (OUpdate 1 (incr_atomic 1)); GGets 2; GRuns 2 1]); Throw 2 true;
   Go (migrate_by 9 4 0 1000 ++ gcall 3 (OFind 1) 1)].
Definition c84 : tcfg := TCfg (simple_slot false) (MCfg false false) (fun k => k * 2 ^ 62).
Example C84_in_place_synchronised_case :
  fair (simple_slot false) (fun o => In o (ugops l84s)) /\
  exists tr s,
    lts_steps (or_throws (sync_step c84 4096 (fun o => In o (ugops l84s))) (grow_throws true c84)) (gsys_init c84 2) tr s /\
    gver s = 1 /\ rets (without_thrown tr) = [(1, RInserted); (3, RFound 11)].
Proof.
  split; [split; [|right; left]|].
  { intros o [<-|[<-|[<-|[]]]]; (split; [apply key_ok_plain; cbn; lia|]); cbn; auto. intros g x [= <-]. reflexivity. }
  { intros o [<-|[<-|[<-|[]]]]; cbn; tauto. }
  assert (R : option_map (fun p => (rets (without_thrown (fst p)), gver (xs (snd p)))) (ugexec c84 4096 MSync (ginit c84 2) l84s) =
    Some ([(1, RInserted); (3, RFound 11)], 1)) by (vm_compute; reflexivity).
  destruct (ugexec c84 4096 MSync (ginit c84 2) l84s) as [[tr x]|] eqn:E; [|discriminate R].
  exists tr, (xs x). split; [exact (ugexec_sound c84 4096 MSync eq_refl 2 true l84s tr x (fun H => H) E)|].
  injection R as R1 R2. split; assumption.
Qed.
