(** C74, C75: growing tables of pointer cells whose calls run during migrations. *)
From Coq Require Import NArith Bool List Lia.
From Verif Require Import Words Slot SlotFacts Mapper MapperFacts ReturnCode MapSpec LinSpec LinCheck Base BaseInv
  BaseExec TableSpec Migrate GrowSpec Ptr PtrSpec PtrGrowing PtrGrowingSpec PtrGrowingFacts GrowingExec PtrGrowingExec.
Import ListNotations.
Open Scope N_scope.

(** ** C74 *)

(** Synchronised growing: growth steps exclude accesses to cells (C22).  Any
    number of threads, any calls (insert, emplace, insert_or_update, find,
    update), any number of growth steps with any number of helpers. *)
Theorem C74_synchronised_growing_linearizable_partial :
  forall c B (client : pop -> Prop) lg,
    pgrow c = true -> grows_ok (pmc c) -> 1 <= lg <= 63 -> 0 < B <= 2 ^ 31 ->
    linearizable (mspec false false) (pg_sync_step c B addr_live client) (pg_init c lg) amap_empty.
Proof.
  intros c B client lg PG GO LG HB tr s ST.
  destruct (pg_sync_reach c B addr_live PG (fun a H => H) GO HB client lg tr s LG ST) as (K & kp & g & x & y & A & _).
  exists y. exact A.
Qed.
Print Assumptions C74_synchronised_growing_linearizable_partial.

(** Asynchronous growing of marking cells: calls go on during migrations, on the
    old and the new version, except that no call changes a cell between the load
    and the mark in a helper's second loop. *)
Theorem C74_asynchronous_growing_linearizable_partial :
  forall c B (client : pop -> Prop) lg,
    pgrow c = true -> pmk c = true -> grows_ok (pmc c) -> 1 <= lg <= 63 -> 0 < B <= 2 ^ 31 ->
    linearizable (mspec false false) (pg_async_step c B addr_live client) (pg_init c lg) amap_empty.
Proof.
  intros c B client lg PG MK GO LG HB tr s ST.
  destruct (pg_async_reach c B addr_live PG (fun a H => H) GO HB client lg tr s MK LG ST) as (K & kp & g & x & y & A & _).
  exists y. exact A.
Qed.
Print Assumptions C74_asynchronous_growing_linearizable_partial.

Definition c74 (markable : bool) : pcfg := PCfg markable (MCfg false false) (fun k => k * 2 ^ 62) true.
Ltac live := cbn; intros a H; repeat destruct H as [<-|H]; try contradiction; split; lia.

(** Threads 2 and 3 begin their calls before a growth step, thread 2 has built its
    element; both look at the cells of the new version. *)
Definition l74s : list xlabel :=
  xcall 1 (QInsert 1 10) 4 64 ++ [XInv 2 (QEmplace 1 20); XRuns 2 1 128; XInv 3 (QUpdate 1 (fun d => d + 5))] ++
  xmigrate_by 9 4 0 1000 ++ [XRuns 3 3 64; XRuns 2 2 64; XRet 3; XRuns 2 2 64; XRet 2].
Example C74_synchronised_case :
  exists s, lts_steps (pg_sync_step (c74 false) 4096 addr_live any_call) (pg_init (c74 false) 2)
    [EInv 1 (MInsert 1 10); ERet 1 RInserted; EInv 2 (MInsert 1 20); EInv 3 (MUpdate 1 (fun d => d + 5) (fun _ => 0));
     ERet 3 (RUpdated 0); ERet 2 (RPresent 15)] s /\ pgver s = 1.
Proof.
  exists (xfinal (c74 false) 4096 MSync 2 l74s). split; [|vm_compute; reflexivity].
  exact (xruns_sound (c74 false) 4096 MSync addr_live any_call 2 l74s eq_refl (fun _ _ => Logic.I) ltac:(live)
    ltac:(vm_compute; reflexivity)).
Qed.

(** Thread 2's lookup gets the old version and reads from it after the new one is
    published and the element was updated through the new one; thread 4's insert
    runs into the migration and starts over with its element. *)
Definition l74a : list xlabel :=
  xcall 1 (QInsert 1 10) 4 64 ++ xcall 1 (QInsert 2 20) 4 128 ++
  [XInv 2 (QFind 1); XRuns 2 1 64; XInv 4 (QIou 3 30 (fun d => d + 1)); XRuns 4 2 192;
   XGrow 4 0; XJoin 9; XHelps 9 200; XRuns 4 1 64; XPublish] ++
  xcall 3 (QUpdate 1 (fun d => d + 7)) 3 64 ++ [XRuns 2 2 64; XRuns 4 3 64; XRet 4; XRet 2].
Example C74_asynchronous_case :
  exists s, lts_steps (pg_async_step (c74 true) 4096 addr_live any_call) (pg_init (c74 true) 2)
    [EInv 1 (MInsert 1 10); ERet 1 RInserted; EInv 1 (MInsert 2 20); ERet 1 RInserted;
     EInv 2 (MFind 1); EInv 4 (MInsertOrUpdate 3 30 (fun d => d + 1) (fun _ => 0));
     EInv 3 (MUpdate 1 (fun d => d + 7) (fun _ => 0)); ERet 3 (RUpdated 0); ERet 4 RInserted; ERet 2 (RFound 17)] s /\
    pgver s = 1.
Proof.
  exists (xfinal (c74 true) 4096 MAsync 2 l74a). split; [|vm_compute; reflexivity].
  exact (xruns_sound (c74 true) 4096 MAsync addr_live any_call 2 l74a eq_refl (fun _ _ => Logic.I) ltac:(live)
    ltac:(vm_compute; reflexivity)).
Qed.

(** ** C75 *)

(** [elements_ok] is defined in PtrGrowingSpec.v. *)
Theorem C75_synchronised_elements_partial :
  forall c B (client : pop -> Prop) lg tr s,
    pgrow c = true -> grows_ok (pmc c) -> 1 <= lg <= 63 -> 0 < B <= 2 ^ 31 ->
    lts_steps (pg_sync_step c B addr_live client) (pg_init c lg) tr s -> elements_ok c s.
Proof.
  intros c B client lg tr s PG GO LG HB ST.
  destruct (pg_sync_reach c B addr_live PG (fun a H => H) GO HB client lg tr s LG ST) as (K & kp & g & x & y & _ & R).
  exact (rel_elements c B K kp s g x y R).
Qed.
Print Assumptions C75_synchronised_elements_partial.

Theorem C75_asynchronous_elements_partial :
  forall c B (client : pop -> Prop) lg tr s,
    pgrow c = true -> pmk c = true -> grows_ok (pmc c) -> 1 <= lg <= 63 -> 0 < B <= 2 ^ 31 ->
    lts_steps (pg_async_step c B addr_live client) (pg_init c lg) tr s -> elements_ok c s.
Proof.
  intros c B client lg tr s PG MK GO LG HB ST.
  destruct (pg_async_reach c B addr_live PG (fun a H => H) GO HB client lg tr s MK LG ST) as (K & kp & g & x & y & _ & R).
  exact (rel_elements c B K kp s g x y R).
Qed.
Print Assumptions C75_asynchronous_elements_partial.

(** The executions of C74: at the end three, or one, elements are allocated and the
    losing element of the synchronised one is freed. *)
Example C75_case :
  let a := xfinal (c74 true) 4096 MAsync 2 l74a in let s := xfinal (c74 false) 4096 MSync 2 l74s in
  pg_quiet a /\ pg_quiet s /\
  pgheap a 64 = Some (1, 17) /\ pgheap a 128 = Some (2, 20) /\ pgheap a 192 = Some (3, 30) /\
  pgheap s 64 = Some (1, 15) /\ pgheap s 128 = None /\
  option_map (fun hp => (hp 64, hp 128, hp 192)) (pg_destroy (c74 true) a) = Some (None, None, None).
Proof.
  cbv zeta. split; [|split]; [| |vm_compute; repeat split].
  all: intros [|[[[p|p|]|[p|p|]|]|[[p|p|]|[p|p|]|]|]]; vm_compute; reflexivity.
Qed.

(** Without the restriction on the helpers' second loop: an insert takes the empty
    cell the helper has loaded; marking fails, the helper moves the new element,
    looks at the same cell again and moves it once more.  The element is in two
    cells of the new table and destroying the table frees it twice. *)
Definition c75 : pcfg :=
  PCfg true (MCfg false false) (fun k => if k =? 1 then 511 * 2 ^ 55 else 2 ^ 64 - 1) true.
Definition l75 : list xlabel :=
  xcall 1 (QInsert 1 10) 4 64 ++
  [XInv 2 (QInsert 2 20); XRuns 2 3 128; XGrow 400 0; XJoin 9; XHelps 9 2054; XRuns 2 2 128; XRet 2;
   XHelps 9 20; XPublish].
Theorem C75_freed_twice_refuted :
  exists c lg tr s a p q,
    pgrow c = true /\ pmk c = true /\ grows_ok (pmc c) /\ 1 <= lg <= 63 /\
    lts_steps (pgstep c migration_block_size addr_live any_call) (pg_init c lg) tr s /\
    p <> q /\ pg_points c s p a /\ pg_points c s q a /\ pg_destroy c s = None.
Proof.
  exists c75, 9, (xtrace c75 4096 MAny 9 l75), (xfinal c75 4096 MAny 9 l75), 128, 1023, 1024.
  split; [reflexivity|]. split; [reflexivity|]. split; [now left|]. split; [lia|]. split.
  { exact (xruns_sound c75 4096 MAny addr_live any_call 9 l75 eq_refl (fun _ _ => Logic.I) ltac:(live)
      ltac:(vm_compute; reflexivity)). }
  split; [lia|].
  assert (P : forall p, p = 1023 \/ p = 1024 -> pg_points c75 (xfinal c75 4096 MAny 9 l75) p 128).
  { intros p H. split.
    - apply N.ltb_lt. destruct H as [->| ->]; vm_compute; reflexivity.
    - exists 8454142. destruct H as [->| ->]; (split; [vm_compute; reflexivity|split; [reflexivity|discriminate]]). }
  split; [auto|]. split; [auto|].
  assert (D : match pg_destroy c75 (xfinal c75 4096 MAny 9 l75) with None => true | _ => false end = true)
    by (vm_compute; reflexivity).
  destruct (pg_destroy c75 _); [discriminate|reflexivity].
Qed.
Print Assumptions C75_freed_twice_refuted.
