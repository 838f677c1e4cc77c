(** C83: tables of pointer cells when the allocator, a constructor of an element or a
    function of the user throws. *)
From Coq Require Import NArith Bool List Lia.
From Verif Require Import Words Mapper MapSpec LinSpec Base Migrate Ptr PtrSpec PtrSys PtrLin PtrFacts
  PtrThrow PtrThrowSpec PtrThrowFacts.
Import ListNotations.
Open Scope N_scope.

Lemma grow_hyp c (alloc : N -> Prop) :
  (pgrow c = true -> grows_ok (pmc c) /\ forall a, alloc a -> a <> 2 ^ 32) ->
  pgrow c = true -> (forall a, alloc a -> a <> 2 ^ 32) /\ (cmap (pmc c) = false \/ cprob (pmc c) = true).
Proof. intros H PG. destruct (H PG). auto. Qed.

(** Whatever throws and whenever, with any number of threads: no call uses memory that is
    not allocated, no element is in two cells, and when all calls have ended the allocated
    memory is that of the elements in the table and one block for each exception of
    [leaves_memory]; destroying the table frees the former and nothing else.  Missing: that
    nothing is lost, which is false (below). *)
Theorem C83_what_is_lost_partial :
  forall c (alloc : N -> Prop) (client : pop -> Prop) lg tr s,
    (forall a, alloc a -> 0 < a < 2 ^ 48) ->
    (pgrow c = true -> grows_ok (pmc c) /\ forall a, alloc a -> a <> 2 ^ 32) ->
    1 <= lg <= 63 -> lts_steps (thr_step c alloc client) (psys_init c lg) tr s ->
    ~ bad_access s /\
    (forall p q a, points_to c s p a -> points_to c s q a -> p = q) /\
    (quiescent s -> exists A, NoDup A /\ length A = lost tr /\
       (forall a, In a A -> ~ exists p, points_to c s p a) /\
       (forall a, pheap s a <> None <-> In a A \/ exists p, points_to c s p a) /\
       exists hp, destroy c (pmap s) (ptab s) (pheap s) = Some hp /\ forall a, hp a <> None <-> In a A).
Proof.
  intros c alloc client lg tr s HA HG L ST. pose proof (grow_hyp c alloc HG) as HG'.
  destruct (thr_safe c alloc client HA HG' lg tr s L ST) as [X Y]. split; [exact X|]. split; [exact Y|].
  intros QS. eapply thr_lost; eauto.
Qed.
Print Assumptions C83_what_is_lost_partial.

(** Fixed-size tables: a call that throws does not happen, and the others are atomic. *)
Theorem C83_thrown_calls_do_not_happen_fixed :
  forall c lg tr s, pgrow c = false -> 1 <= lg <= 63 ->
    lts_steps (thr_step c addr48 (print_ok c)) (psys_init c lg) tr s ->
    happens_unless_thrown (mspec (pmk c) (negb (cprob (pmc c)))) amap_empty tr.
Proof.
  intros c lg tr s PG L ST.
  pose proof (fun HG => thr_lin c addr48 (print_ok c) (fun a H => H) HG lg tr s (fun o H => H) L ST) as X.
  unfold pspec in X. rewrite PG in X. cbn [negb] in X. rewrite !andb_true_r in X. apply X. discriminate.
Qed.
Print Assumptions C83_thrown_calls_do_not_happen_fixed.

(** Growing tables, replaced while no call is looking at the cells. *)
Theorem C83_thrown_calls_do_not_happen_growing :
  forall c lg tr s, pgrow c = true -> grows_ok (pmc c) -> 1 <= lg <= 63 ->
    lts_steps (thr_step c addr_live any_call) (psys_init c lg) tr s ->
    happens_unless_thrown (mspec false false) amap_empty tr.
Proof.
  intros c lg tr s PG GO L ST.
  assert (HC : forall o, any_call o -> print_ok c o) by (intros o _; destruct o; cbn; auto).
  pose proof (fun HG => thr_lin c addr_live any_call (fun a H => proj1 H) HG lg tr s HC L ST) as X.
  unfold pspec in X. rewrite PG in X. cbn [negb] in X. rewrite !andb_false_r in X.
  apply X. intros _. split; [intros a H; apply H|exact GO].
Qed.
Print Assumptions C83_thrown_calls_do_not_happen_growing.

(** The function of an insert_or_update on an existing key throws: the new element is lost.
    A growing table of four slots. *)
Definition tcfg : pcfg := PCfg true (MCfg false true) (fun k => 3 * 2 ^ 32) true.
Definition plus (x : N) : N := x + 1.
Definition before_throw : list plabel :=
  pcall (QInsert 5 50) 4096 4 ++ [PInv 0 (QIou 5 0 plus)] ++ repeat (PRun 0 8192) 3.

Theorem C83_nothing_is_lost_refuted :
  exists s, lts_steps (thr_step tcfg addr_live any_call) (psys_init tcfg 2)
      [TCall (EInv 0 (MInsert 5 50)); TCall (ERet 0 RInserted);
       TCall (EInv 0 (MInsertOrUpdate 5 0 plus (fun _ => 0))); TThrow 0 (QIou 5 0 plus) FunctionThrew] s /\
    quiescent s /\ pheap s 4096 = Some (5, 50) /\ pheap s 8192 = Some (5, 0) /\ ~ exists p, points_to tcfg s p 8192.
Proof.
  destruct (pexec tcfg (psys_init tcfg 2) before_throw) as [[tr [hp m t th]]|] eqn:E; [|vm_compute in E; discriminate].
  assert (X : tr = [EInv 0 (MInsert 5 50); ERet 0 RInserted; EInv 0 (MInsertOrUpdate 5 0 plus (fun _ => 0))] /\
    (exists w curr, th 0 = Some (QIou 5 0 plus, QUpd w curr)) /\ (forall i, i <> 0 -> th i = None) /\
    hp 4096 = Some (5, 50) /\ hp 8192 = Some (5, 0)).
  { vm_compute in E. injection E as <- <- <- <- <-. repeat split; eauto. intros [|i] N'; [now elim N'|reflexivity]. }
  destruct X as (-> & (w & curr & T) & I & H1 & H2).
  assert (ST : lts_steps (thr_step tcfg addr_live any_call) (psys_init tcfg 2)
    [TCall (EInv 0 (MInsert 5 50)); TCall (ERet 0 RInserted);
     TCall (EInv 0 (MInsertOrUpdate 5 0 plus (fun _ => 0))); TThrow 0 (QIou 5 0 plus) FunctionThrew]
    (PSys hp m t (fupd th 0 None))).
  { change (lts_steps (thr_step tcfg addr_live any_call) (psys_init tcfg 2)
      (map TCall [EInv 0 (MInsert 5 50); ERet 0 RInserted; EInv 0 (MInsertOrUpdate 5 0 plus (fun _ => 0))] ++
       [TThrow 0 (QIou 5 0 plus) FunctionThrew]) (PSys hp m t (fupd th 0 None))).
    eapply lts_app.
    - apply lift_steps. eapply pexec_sound; [|exact E]. repeat constructor; cbn; discriminate.
    - eapply ls_vis; [|constructor]. eapply th_fun; eauto. }
  assert (QS : quiescent (PSys hp m t (fupd th 0 None))).
  { intros i. cbn. unfold fupd. destruct (N.eqb_spec i 0); auto. }
  exists (PSys hp m t (fupd th 0 None)). repeat split; auto.
  intros (p & P).
  clear - E P. vm_compute in E. injection E as <- <- <- <-. destruct P as [L (w & W & PW & _)].
  change (p < 4) in L. cbn [ptab] in W.
  assert (LP : p = 0 \/ p = 1 \/ p = 2 \/ p = 3) by lia.
  destruct LP as [->|[->|[->| ->]]]; vm_compute in W; injection W as <-; vm_compute in PW; discriminate.
Qed.
Print Assumptions C83_nothing_is_lost_refuted.

(** Concurrent calls, a function, an allocator and a constructor that throw; one block is
    lost, and the key is found with its old value. *)
Definition case_1 : list plabel := pcall (QInsert 5 50) 4096 4 ++ [PInv 0 (QUpdate 5 plus); PInv 1 (QEmplace 6 60); PRun 0 1; PRun 0 1].
Definition case_3 : list plabel := pcall (QFind 5) 1 3.
Example C83_case :
  exists s tr, lts_steps (thr_step tcfg addr_live any_call) (psys_init tcfg 2) tr s /\ quiescent s /\
    tr = [TCall (EInv 0 (MInsert 5 50)); TCall (ERet 0 RInserted); TCall (EInv 0 (MUpdate 5 plus (fun _ => 0)));
          TCall (EInv 1 (MInsert 6 60)); TThrow 0 (QUpdate 5 plus) FunctionThrew; TThrow 1 (QEmplace 6 60) ElementThrew;
          TCall (EInv 0 (MInsert 7 70)); TThrow 0 (QInsert 7 70) AllocatorThrew;
          TCall (EInv 0 (MFind 5)); TCall (ERet 0 (RFound 50))] /\
    lost tr = 1%nat /\ pheap s 8192 = Some (6, 60).
Proof.
  assert (LO : forall ls, forallb (fun l => match l with PRun _ a => (0 <? a) && (a <? 2 ^ 32) | PGrow _ _ _ _ => false | _ => true end) ls = true ->
    Forall (lab_ok addr_live any_call) ls).
  { intros ls H. apply Forall_forall. intros l I. rewrite forallb_forall in H. specialize (H l I).
    destruct l; cbn; try exact Logic.I; try discriminate. apply andb_prop in H. destruct H as [H1 H2].
    apply N.ltb_lt in H1. apply N.ltb_lt in H2. repeat split; auto; [|lia].
    eapply N.lt_trans; [exact H2|]. reflexivity. }
  destruct (pexec tcfg (psys_init tcfg 2) case_1) as [[tr1 s1]|] eqn:E1; [|vm_compute in E1; discriminate].
  pose proof (lift_steps _ _ _ _ _ _ (pexec_sound tcfg addr_live any_call case_1 _ _ _ (LO case_1 eq_refl) E1)) as S1.
  vm_compute in E1. injection E1 as <- <-.
  match type of S1 with lts_steps _ _ _ (PSys ?h ?m ?t ?f) =>
    set (hp1 := h) in S1; set (m1 := m) in S1; set (t1 := t) in S1; set (f1 := f) in S1 end.
  assert (T0 : exists w curr, f1 0 = Some (QUpdate 5 plus, QUpd w curr)) by (unfold f1; vm_compute; eauto).
  destruct T0 as (w & curr & T0).
  pose proof (th_fun tcfg addr_live any_call hp1 m1 t1 f1 0 _ w curr T0) as S2.
  set (f2 := fupd f1 0 None) in S2.
  assert (T1 : f2 1 = Some (QEmplace 6 60, QAlloc)) by reflexivity.
  assert (A1 : addr_live 8192) by (repeat split; try reflexivity; discriminate).
  pose proof (th_element tcfg addr_live any_call hp1 m1 t1 f2 1 _ 8192 T1 A1 eq_refl) as S3.
  set (f3 := fupd f2 1 None) in S3. set (hp3 := fupd hp1 8192 (Some (pop_key (QEmplace 6 60), pop_data (QEmplace 6 60)))) in S3.
  pose proof (th_run tcfg addr_live any_call _ _ _ (q_inv tcfg addr_live any_call hp3 m1 t1 f3 0 (QInsert 7 70) eq_refl Logic.I)) as S4.
  set (f4 := fupd f3 0 (Some (QInsert 7 70, pstart tcfg m1 (QInsert 7 70)))) in S4.
  pose proof (th_alloc tcfg addr_live any_call hp3 m1 t1 f4 0 (QInsert 7 70) eq_refl) as S5.
  set (f5 := fupd f4 0 None) in S5.
  destruct (pexec tcfg (PSys hp3 m1 t1 f5) case_3) as [[tr6 s6]|] eqn:E6; [|vm_compute in E6; discriminate].
  pose proof (lift_steps _ _ _ _ _ _ (pexec_sound tcfg addr_live any_call case_3 _ _ _ (LO case_3 eq_refl) E6)) as S6.
  exists s6. eexists. split.
  { eapply lts_app; [exact S1|]. eapply ls_vis; [exact S2|]. eapply ls_vis; [exact S3|].
    eapply ls_vis; [exact S4|]. eapply ls_vis; [exact S5|]. exact S6. }
  vm_compute in E6. injection E6 as <- <-. split; [|split; [|split]]; try reflexivity.
  intros [|[i|i|]]; reflexivity.
Qed.
