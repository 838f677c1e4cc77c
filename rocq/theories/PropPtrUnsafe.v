(** C87 on tables of pointer cells. *)
From Coq Require Import NArith Bool List Lia.
From Verif Require Import Words Slot Mapper ReturnCode MapSpec LinSpec Base Migrate
  Ptr PtrSpec PtrInv PtrSys PtrFacts PropPtr PtrGrowing PtrGrowingSpec PtrGrowingFacts GrowingExec PtrGrowingExec PropPtrGrowing
  PtrUnsafe PtrUnsafeFacts PtrUnsafeExec.
Import ListNotations.
Open Scope N_scope.

(** Unsafe updates need no care on tables of pointer cells: with any number of overlapping
    updates of the same key, and while cells are being marked, all calls are atomic.
    (Emplace: see C36.) *)
Theorem C87_pointers_linearizable :
  forall c lg (client : ucall -> Prop),
    pgrow c = false -> 1 <= lg <= 63 -> (forall q, client q -> print_ok c (ucall_pop q)) ->
    linearizable (mspec (pmk c) (negb (cprob (pmc c))))
      (pu_step c addr48 client) (pu_init c lg) amap_empty.
Proof.
  intros c lg client PG L CL tr s ST.
  pose proof (reach_lin c addr48 (pcl client) (fun a H => H)) as X.
  unfold pspec in X. rewrite PG in X. cbn [negb] in X. rewrite !andb_true_r in X.
  refine (X _ lg _ L tr (fst s) (fixed_trace c addr48 client _ _ _ PG (fixed_init c lg) ST)); [discriminate|].
  intros o (q & Q & <-). auto.
Qed.
Print Assumptions C87_pointers_linearizable.

(** Threads 2 and 3 increment the same value: both load the cell a second time before either
    applies its functor.  Both increments count. *)
Definition inc2 (d : N) : N := d + 1.
Definition c87f : pcfg := PCfg false (MCfg false true) (fun k => k * 2 ^ 61) false.
Definition l87f : list flabel :=
  [FInv 1 (UIou 1 10 inc2); FRun 1 64; FRun 1 64; FRun 1 64; FRet 1;
   FInv 2 (UUpdate 1 inc2); FInv 3 (UIou 1 20 inc2); FRun 3 128; FFind 2; FFind 3; FRead 2; FRead 3; FApply 3; FApply 2; FRet 2;
   FRun 3 64; FRet 3; FInv 1 (USafe (QFind 1)); FRun 1 64; FRun 1 64; FRet 1].
Definition t87f : list (event mop mres) :=
  [EInv 1 (MInsertOrUpdate 1 10 inc2 (fun _ => 0)); ERet 1 RInserted; EInv 2 (MUpdate 1 inc2 (fun _ => 0));
   EInv 3 (MInsertOrUpdate 1 20 inc2 (fun _ => 0)); ERet 2 (RUpdated 0); ERet 3 (RUpdated 0); EInv 1 (MFind 1); ERet 1 (RFound 12)].
Example C87_pointers_fixed_case :
  exists s, lts_steps (pu_step c87f addr48 (fun q => print_ok c87f (ucall_pop q))) (pu_init c87f 3) t87f s.
Proof.
  assert (X : match fexec c87f (pu_init c87f 3) l87f with
              | Some (tr, y) => tr = t87f | None => False end) by (vm_compute; reflexivity).
  destruct (fexec c87f (pu_init c87f 3) l87f) as [[tr y]|] eqn:E; [|destruct X]. subst tr.
  exists y. apply (fexec_init c87f addr48 _ 3 l87f); auto.
  repeat constructor; cbn; auto; lia.
Qed.

(** The same on growing tables, also when the table is migrated between the two loads of an
    unsafe update or before its functor is applied.  Left out, as in C74: circular mapping
    with linear probing, circular tables without an empty cell and, for asynchronous growing,
    calls that change a cell a helper has loaded but not marked. *)
Theorem C87_pointers_synchronised_partial :
  forall c B (client : ucall -> Prop) lg,
    pgrow c = true -> grows_ok (pmc c) -> 1 <= lg <= 63 -> 0 < B <= 2 ^ 31 ->
    linearizable (mspec false false) (pug_sync_step c B addr_live client) (pug_init c lg) amap_empty.
Proof.
  intros c B client lg PG GO LG HB tr s ST.
  exact (C74_synchronised_growing_linearizable_partial c B (pcl client) lg PG GO LG HB tr (fst s)
    (sync_trace c addr_live client B _ _ _ (grow_init c lg) ST)).
Qed.
Print Assumptions C87_pointers_synchronised_partial.

Theorem C87_pointers_asynchronous_partial :
  forall c B (client : ucall -> Prop) lg,
    pgrow c = true -> pmk c = true -> grows_ok (pmc c) -> 1 <= lg <= 63 -> 0 < B <= 2 ^ 31 ->
    linearizable (mspec false false) (pug_async_step c B addr_live client) (pug_init c lg) amap_empty.
Proof.
  intros c B client lg PG MK GO LG HB tr s ST.
  exact (C74_asynchronous_growing_linearizable_partial c B (pcl client) lg PG MK GO LG HB tr (fst s)
    (async_trace c addr_live client B _ _ _ (grow_init c lg) ST)).
Qed.
Print Assumptions C87_pointers_asynchronous_partial.

(** The operations in these histories are those that the clients called. *)
Definition called_as (q : ucall) (e : mop) : Prop :=
  match q with
  | USafe o => e = pspec_op o
  | UUpdate k f => exists r, e = MUpdate k f r
  | UIou k d f => exists r, e = MInsertOrUpdate k d f r
  end.

Theorem C87_pointers_calls :
  forall c B alloc (client : ucall -> Prop) u e,
    (forall s s', pu_step c alloc client s (Some (EInv u e)) s' -> exists q, client q /\ called_as q e) /\
    (forall s s', pug_step c B alloc client s (Some (EInv u e)) s' -> exists q, client q /\ called_as q e).
Proof.
  intros c B alloc client u e. split; intros s s' H.
  - inversion H as [? ? ? ? ? ? q T K|? ? ? ? C| | |]; subst; [|inversion C; contradiction].
    exists q. split; [exact K|]. destruct q; cbn; eauto.
  - inversion H as [? ? ? ? ? ? ? ? q T K|? ? ? ? C| | |]; subst; [|inversion C; contradiction].
    exists q. split; [exact K|]. destruct q; cbn; eauto.
Qed.
Print Assumptions C87_pointers_calls.

(** Threads 2 and 3 increment the same value.  Both have found it when the table is migrated;
    thread 2 has loaded the cell a second time before, thread 3 loads it after it was marked.
    Both increments count. *)
Definition zcall (t : N) (q : ucall) (n : nat) (a : N) : list zlabel :=
  ZInv t q :: repeat (ZDo (XRuns t 1 a)) n ++ [ZDo (XRet t)].
Definition l87z : list zlabel :=
  zcall 1 (UIou 1 10 inc2) 4 64 ++
  [ZInv 2 (UUpdate 1 inc2); ZInv 3 (UUpdate 1 inc2); ZDo (XRuns 2 1 64); ZDo (XRuns 3 1 64); ZFind 2; ZFind 3; ZRead 2;
   ZDo (XGrow 4 0); ZDo (XJoin 9); ZHelps 9 300; ZRead 3; ZApply 3; ZDo XPublish; ZDo (XRet 3); ZApply 2; ZDo (XRet 2)] ++
  zcall 1 (USafe (QFind 1)) 3 64.
Definition t87z : list (event mop mres) :=
  [EInv 1 (MInsertOrUpdate 1 10 inc2 (fun _ => 0)); ERet 1 RInserted; EInv 2 (MUpdate 1 inc2 (fun _ => 0));
   EInv 3 (MUpdate 1 inc2 (fun _ => 0)); ERet 3 (RUpdated 0); ERet 2 (RUpdated 0); EInv 1 (MFind 1); ERet 1 (RFound 12)].
Example C87_pointers_case :
  exists s, lts_steps (pug_async_step (c74 true) 4096 addr_live (fun _ => True)) (pug_init (c74 true) 2) t87z s /\
    pgver (fst s) = 1.
Proof.
  assert (X : match zexec (c74 true) 4096 MAsync (zinit (c74 true) 2) l87z with
              | Some (tr, y) => tr = t87z /\ pgver (ps (fst y)) = 1 | None => False end) by (vm_compute; split; reflexivity).
  destruct (zexec (c74 true) 4096 MAsync (zinit (c74 true) 2) l87z) as [[tr y]|] eqn:E; [|destruct X]. destruct X as [<- G].
  exists (zsys y). split; [|exact G].
  apply (zexec_init (c74 true) 4096 MAsync addr_live eq_refl _ 2 l87z); auto.
  repeat constructor; cbn; lia.
Qed.
