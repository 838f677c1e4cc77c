(** C81: what concurrent calls leave behind is what an iteration shows afterwards. *)
From Coq Require Import NArith ZArith Bool List Lia.
From Verif Require Import Words Slot SlotFacts Mapper MapperFacts ReturnCode MapSpec LinSpec HistSpec
  Base BaseInv BaseLin BaseExec TableSpec BaseFacts Migrate MigrateExec GrowFacts Growing GrowingSpec GrowingInv GrowingFacts GrowingExec
  Iter IterFacts Count GrowOom OneHandle Crowd CrowdSpec CrowdExec CrowdFacts CrowdCount PropGrowing PropCrowd After AfterSpec AfterFacts.
Import ListNotations.
Open Scope N_scope.

(** Tables of fixed size (cells that do not mark). *)
Theorem C81_fixed_size_partial :
  forall sc mc hash lg gh (client : op -> Prop) tr s,
    cell_type sc -> sc_mark sc = false -> fair sc client -> 1 <= lg <= 63 ->
    let c := TCfg sc mc hash in
    let m := sized mc lg gh in
    lts_steps (bsys_step c m client) (bsys_init c m) tr s -> (forall t, bthr s t = None) ->
    exists l n, walk c m (bmem s) n (it_begin c m (bmem s)) = Walked l /\
      shows_what_is_left (mspec false (negb (cprob mc))) tr l.
Proof.
  intros sc mc hash lg gh client tr s CT SM FR LG c m ST AR. pose proof (cell_type_wf _ CT) as W. pose proof (fair_ok _ _ W FR) as CO.
  pose proof (wf_mk mc lg gh LG) as WM.
  destruct (sim_trace c m lg W WM client _ _ tr s CO (init_rel c m lg W WM client) ST) as (x & A & ct & mk & I & AB & T).
  cbn [tsc tmc c] in A. rewrite SM in A.
  assert (I0 : tinv c m (bmem s) ct (fun _ => false)).
  { destruct I as [I1 I2 I3]. split; auto. intros p L. destruct (I1 p L) as [E O]. cbn [tsc] in *.
    assert (MK : mk p = false). { destruct (mk p); auto. destruct O as [O _]. specialize (O eq_refl). cbn in O. congruence. }
    rewrite MK in *. auto. }
  exists (part ct 0 (total_slots mc m)), (N.to_nat (total_slots mc m)). split; [now apply (walk_begin c m W _ ct I0)|].
  eapply lists_shows; [exact A| |].
  - intros t. specialize (T t). now rewrite AR in T.
  - exact (part_lists c m _ ct _ W I0 AB).
Qed.
Print Assumptions C81_fixed_size_partial.

(** Synchronised growing, under the conditions of C51. *)
Theorem C81_synchronised_partial :
  forall sc mc hash lg B (client : op -> Prop) tr s k,
    cell_type sc -> fair sc client -> (cmap mc = false \/ cprob mc = true) -> 1 <= lg <= 63 -> 0 < B <= 2 ^ 31 ->
    let c := TCfg sc mc hash in
    lts_steps (sync_step c B client) (gsys_init c lg) tr s -> at_rest s -> gmig s = None ->
    exists l n, mit_loop c k (GTab (gver s) (gmap s (gver s)) (gmem s (gver s))) n = Walked l /\
      shows_what_is_left (mspec false false) tr l.
Proof.
  intros sc mc hash lg B client tr s k CT FR CF LG HB c ST AR MG. pose proof (cell_type_wf _ CT) as W. pose proof (fair_ok _ _ W FR) as CO.
  destruct (sync_sim c B client W CO CF HB _ _ tr s (init_exclusive c lg) (ginit_rel c B client W lg LG) ST) as (x & A & R & _).
  eapply growing_after; eauto.
Qed.
Print Assumptions C81_synchronised_partial.

(** Asynchronous growing, under the conditions of C48. *)
Theorem C81_asynchronous_partial :
  forall sc mc hash lg B (client : op -> Prop) tr s k,
    cell_type sc -> fair sc client -> (cmap mc = false \/ cprob mc = true) -> sc_mark sc = true -> 1 <= lg <= 63 -> 0 < B <= 2 ^ 31 ->
    let c := TCfg sc mc hash in
    lts_steps (async_step c B client) (gsys_init c lg) tr s -> at_rest s -> gmig s = None ->
    exists l n, mit_loop c k (GTab (gver s) (gmap s (gver s)) (gmem s (gver s))) n = Walked l /\
      shows_what_is_left (mspec false false) tr l.
Proof.
  intros sc mc hash lg B client tr s k CT FR CF SM LG HB c ST AR MG. pose proof (cell_type_wf _ CT) as W. pose proof (fair_ok _ _ W FR) as CO.
  destruct (async_sim c B client W CO CF HB _ _ tr s SM (ginit_rel c B client W lg LG) ST) as (x & A & R).
  eapply growing_after; eauto.
Qed.
Print Assumptions C81_asynchronous_partial.

(** Several threads, with the counters that decide when the table grows; linear probing, synchronised growing: no
    restriction on executions. *)
Theorem C81_linear_probing :
  forall sc hash lg B n (client : op -> Prop) tr s k,
    cell_type sc -> fair sc client -> 1 <= lg <= 63 -> 0 < B <= 2 ^ 31 ->
    let c := TCfg sc (MCfg false false) hash in
    lts_steps (crowd_step true c B n client) (ksys_init c lg) tr s -> at_rest (k_g s) -> gmig (k_g s) = None ->
    exists l r, mit_loop c k (GTab (gver (k_g s)) (gmap (k_g s) (gver (k_g s))) (gmem (k_g s) (gver (k_g s)))) r = Walked l /\
      shows_what_is_left (mspec false false) tr l.
Proof.
  intros sc hash lg B n client tr s k CT FR LG HB c ST AR MG. pose proof (cell_type_wf _ CT) as W. pose proof (fair_ok _ _ W FR) as CO.
  assert (RS : lts_steps (roomy_step true c B n client) (ksys_init c lg) tr s).
  { clear - ST. induction ST; [constructor|eapply ls_tau|eapply ls_vis]; eauto; (split; [eassumption|]; split; [|discriminate]; intros X; discriminate). }
  destruct (roomy_sim true c B n client W CO (or_introl eq_refl) HB _ _ _ _ (kwf_init true c n lg) ltac:(discriminate)
     (ginit_rel c B client W lg LG) RS) as (x & A & R & _).
  eapply growing_after; eauto.
Qed.
Print Assumptions C81_linear_probing.

(** Circular probing, if no call begins to use the table between the decision to grow and the moment when it is closed
    (C79). *)
Theorem C81_closed_at_once_partial :
  forall sc cm hash lg B n (client : op -> Prop) tr s k,
    cell_type sc -> fair sc client -> (forall o, client o -> ~ erasing o) ->
    9 <= lg <= 32 -> 217 * n <= 2 ^ lg -> 0 < B <= 2 ^ 31 ->
    let c := TCfg sc (MCfg cm true) hash in
    lts_steps (closed_step true c B n client) (ksys_init c lg) tr s -> at_rest (k_g s) -> gmig (k_g s) = None ->
    exists l r, mit_loop c k (GTab (gver (k_g s)) (gmap (k_g s) (gver (k_g s))) (gmem (k_g s) (gver (k_g s)))) r = Walked l /\
      shows_what_is_left (mspec false false) tr l.
Proof.
  intros sc cm hash lg B n client tr s k CT FR NE LG NL HB c ST AR MG. pose proof (cell_type_wf _ CT) as W. pose proof (fair_ok _ _ W FR) as CO.
  assert (NLZ : (217 * Z.of_N n <= 2 ^ Z.of_N lg)%Z).
  { apply N2Z.inj_le in NL. rewrite N2Z.inj_mul, N2Z.inj_pow in NL. exact NL. }
  assert (LG1 : 1 <= lg <= 63) by lia.
  assert (RS : lts_steps (roomy_step true c B n client) (ksys_init c lg) tr s).
  { eapply (closed_steps c B n client W CO NE eq_refl HB); eauto.
    - apply kwf_init.
    - apply (ginit_rel c B client W lg LG1).
    - apply (cinv_init c B n client W HB lg); auto. }
  destruct (roomy_sim true c B n client W CO (or_intror eq_refl) HB _ _ _ _ (kwf_init true c n lg) ltac:(discriminate)
     (ginit_rel c B client W lg LG1) RS) as (x & A & R & _).
  eapply growing_after; eauto.
Qed.
Print Assumptions C81_closed_at_once_partial.

(** Threads 2 and 3 overlap, the table grows in between, key 2 is erased: keys 1 and 3 are left. *)
Definition l81 : list glabel :=
  gcall 1 (OInsert 1 10) 2 ++ gcall 1 (OInsert 2 20) 2 ++ [GInv 2 (OInsert 3 30); GInv 3 (OErase 2)] ++
  migrate_by 9 4 0 1000 ++ [GGets 2; GGets 3; GRuns 3 1; GRuns 2 2; GRuns 3 1; GRet 3; GRet 2].
Example C81_case :
  fair (simple_slot true) (fun o => In o (gops_of l81)) /\
  (exists s, lts_steps (sync_step c47 4096 (fun o => In o (gops_of l81))) (gsys_init c47 2)
    [EInv 1 (MInsert 1 10); ERet 1 RInserted; EInv 1 (MInsert 2 20); ERet 1 RInserted; EInv 2 (MInsert 3 30); EInv 3 (MErase 2);
     ERet 3 RErased; ERet 2 RInserted] s /\ gver s = 1 /\ at_rest s /\ gmig s = None /\
    mit_loop c47 0 (GTab (gver s) (gmap s (gver s)) (gmem s (gver s))) 9 = Walked [(1, 10); (3, 30)]).
Proof.
  split; [split; [admits|now left]|].
  exists (gfinal c47 4096 MSync 2 l81).
  pose proof (gruns_sound c47 4096 MSync 2 l81 eq_refl ltac:(vm_compute; reflexivity)) as S.
  split; [exact S|]. split; [vm_compute; reflexivity|]. split.
  - intros t. destruct t as [|[[]|[]|]]; vm_compute; reflexivity.
  - split; vm_compute; reflexivity.
Qed.

(** ** Circular probing in general *)

(** The run of C79_elements_are_found_refuted up to the growth step. *)
Definition l81r : list clabel := fill79 ++ [CFinish 0].
Lemma in_l81r o : In o (clops l81r) -> client79 o.
Proof. unfold l81r, clops. rewrite flat_map_app, in_app_iff. intros [H|[]]. now apply in_fill. Qed.

Definition lost81 (s : ksys) : bool :=
  match gthr (k_g s) 0, gthr (k_g s) 1, gmig (k_g s) with None, None, None => true | _, _, _ => false end &&
  match mit_begin c79 (GTab (gver (k_g s)) (gmap (k_g s) (gver (k_g s))) (gmem (k_g s) (gver (k_g s)))) with None => true | Some _ => false end.

(** Both strategies: 512 insertions were acknowledged, nothing was erased, all calls have returned and the table is not
    growing; but the iteration reads a cell nobody has written. *)
Theorem C81_what_is_left_is_shown_refuted :
  forall sync : bool, exists tr s,
    fair (simple_slot true) client79 /\ (forall o, client79 o -> ~ erasing o) /\
    lts_steps (crowd_step sync c79 4096 2 client79) (ksys_init c79 9) tr s /\ replies is_inserted tr = 512%nat /\
    at_rest (k_g s) /\ gmig (k_g s) = None /\
    forall k n, mit_loop c79 k (GTab (gver (k_g s)) (gmap (k_g s) (gver (k_g s))) (gmem (k_g s) (gver (k_g s)))) n = WalkBad.
Proof.
  intros sync. assert (HB : 0 < 4096 <= 2 ^ 31) by (split; [reflexivity|discriminate]).
  assert (X : match crowd_run sync c79 4096 2 3000 (ksys_init c79 9) l81r with
              | Some (tr, s) => Nat.eqb (replies is_inserted tr) 512 && lost81 s | None => false end = true) by (destruct sync; vm_compute; reflexivity).
  destruct (crowd_run sync c79 4096 2 3000 (ksys_init c79 9) l81r) as [[tr s]|] eqn:E; [|discriminate].
  apply (crowd_run_sound sync c79 4096 2 client79 3000 l81r _ _ _ in_l81r) in E.
  apply andb_prop in X. destruct X as [A L]. apply Nat.eqb_eq in A. unfold lost81 in L. apply andb_prop in L. destruct L as [L M].
  exists tr, s. split; [apply client79_ok|]. split; [apply client79_ok|]. split; [exact E|]. split; [exact A|].
  destruct (gthr (k_g s) 0) eqn:T0; [discriminate|]. destruct (gthr (k_g s) 1) eqn:T1; [discriminate|].
  split; [|split].
  - intros t. destruct (N.lt_ge_cases t 2) as [LT|GE].
    + assert (t = 0 \/ t = 1) as [->| ->] by lia; auto.
    + assert (K : kwf sync 2 s). { clear - E HB. pose proof (kwf_init sync c79 2 9) as K. induction E as [|? ? ? ? S _ IH|? ? ? ? ? S _ IH]; auto; apply IH; exact (proj1 (crowd_sim sync c79 4096 2 client79 HB _ _ _ K S)). }
      now apply K.
  - destruct (gmig (k_g s)); [discriminate|reflexivity].
  - intros k n. unfold mit_loop. destruct (mit_begin c79 _); [discriminate|reflexivity].
Qed.
Print Assumptions C81_what_is_left_is_shown_refuted.
