(** C72, C73: calls and counters of the growing table when memory runs out. *)
From Coq Require Import NArith ZArith Bool List Lia.
From Verif Require Import Words Slot SlotFacts Mapper MapperFacts ReturnCode MapSpec LinSpec
  Base BaseInv BaseLin TableSpec BaseFacts HistSpec Hist Migrate Growing GrowingSpec GrowingInv GrowingFacts
  PropBase PropGrowing Count CountSpec CountFacts OomSpec GrowOom GrowOomFacts CountOom CountOomFacts.
Import ListNotations.
Open Scope N_scope.

(** ** C72 *)

(** Asynchronous growing of marking cells, with any number of failed allocations: a
    call that returns takes effect once; a call that ends with bad_alloc takes effect
    once before it ends, or never.  The restrictions are those of C48. *)
Theorem C72_thrown_calls_happen_at_most_once_partial :
  forall sc mc hash lg B (client : op -> Prop) tr s,
    cell_type sc -> fair sc client -> (cmap mc = false \/ cprob mc = true) -> sc_mark sc = true ->
    1 <= lg <= 63 -> 0 < B <= 2 ^ 31 ->
    lts_steps (ostep (TCfg sc mc hash) B client) (osys_init (TCfg sc mc hash) lg) tr s ->
    at_most_once tr.
Proof.
  intros sc mc hash lg B client tr s CT FR CF SM LG HB ST.
  destruct (osims (TCfg sc mc hash) B client CT (fair_ok _ _ (cell_type_wf _ CT) FR) CF HB SM _ _ _ ST _
    (ginit_rel (TCfg sc mc hash) B client (cell_type_wf _ CT) lg LG)) as (x & A & _).
  exists x. exact A.
Qed.
Print Assumptions C72_thrown_calls_happen_at_most_once_partial.

Definition c72 : tcfg := TCfg (simple_slot true) (MCfg false true) (fun k => k * 2 ^ 58).
Definition ocall (t : N) (o : op) (n : nat) : list olabel := [LInv t o; LGet t] ++ repeat (LRun t) n ++ [LRet t].
Definition keys (n : nat) : list N := map N.of_nat (seq 1 n).
(** A table of 64 cells: 43 insertions, 21 erasures and one more insertion, which is
    the 65th update and has to grow the table. *)
Definition k72 : list olabel :=
  flat_map (fun k => ocall 1 (OInsert k (k + 100)) 2) (keys 43) ++
  flat_map (fun k => ocall 1 (OErase k) 2) (keys 21).
Definition z72 : list olabel :=
  [LInv 1 (OInsert 50 7); LGet 1; LRun 1; LRun 1; LThrow 1] ++ ocall 1 (OFind 50) 1.

(** A call that ends with bad_alloc may have had its effect: an insertion of a key that
    nobody has used throws, and the key is in the table. *)
Theorem C72_thrown_call_has_no_effect_refuted :
  exists sc mc hash lg (client : op -> Prop) tr s t k d,
    cell_type sc /\ fair sc client /\ cmap mc = false /\ sc_mark sc = true /\ 1 <= lg <= 63 /\
    lts_steps (ostep (TCfg sc mc hash) migration_block_size client) (osys_init (TCfg sc mc hash) lg)
      (tr ++ [OCall (EInv t (MInsert k d)); OThrow t; OCall (EInv t (MFind k)); OCall (ERet t (RFound d))]) s /\
    (forall u o, In (OCall (EInv u o)) tr -> mop_key o <> k) /\ (forall u, ~ In (OThrow u) tr).
Proof.
  exists (simple_slot true), (MCfg false true), (fun k => k * 2 ^ 58), 6, (fun o => In o (oops (k72 ++ z72))).
  assert (H : exists tr s, orun c72 (osys_init c72 6) (k72 ++ z72) =
      Some (tr ++ [OCall (EInv 1 (MInsert 50 7)); OThrow 1; OCall (EInv 1 (MFind 50)); OCall (ERet 1 (RFound 7))], s) /\
    forallb (fun e => match e with OCall (EInv u o) => negb (mop_key o =? 50) | OThrow _ => false | _ => true end) tr = true).
  { destruct (orun c72 (osys_init c72 6) (k72 ++ z72)) as [[tr s]|] eqn:E; [|vm_compute in E; discriminate].
    assert (T : option_map fst (orun c72 (osys_init c72 6) (k72 ++ z72)) = Some tr) by now rewrite E.
    vm_compute in T. injection T as <-.
    match goal with |- context [Some (?l, s)] => exists (firstn (length l - 4) l), s end.
    split; [reflexivity|vm_compute; reflexivity]. }
  destruct H as (tr & s & E & F). exists tr, s, 1, 50, 7.
  split; [exists true; now left|]. split.
  { split; [|now left]. intros o I.
    assert (K : forallb (fun o => match o with
       | OInsert k d => (0 <? k) && (k <? 64) && (d <? 1000)
       | OErase k | OFind k => (0 <? k) && (k <? 64) | _ => false end) (oops (k72 ++ z72)) = true) by (vm_compute; reflexivity).
    rewrite forallb_forall in K. specialize (K o I). destruct o; try discriminate K;
      repeat (apply andb_prop in K; let K' := fresh in destruct K as [K K']);
      repeat match goal with X : (_ <? _) = true |- _ => apply N.ltb_lt in X end;
      (split; [apply key_ok_mark; cbn; lia|try exact Logic.I; intros ? ?; discriminate]). }
  split; [reflexivity|]. split; [reflexivity|]. split; [lia|]. split; [|split].
  - eapply orun_sound; [|exact E]; auto.
  - intros u o I. rewrite forallb_forall in F. specialize (F _ I). cbn in F.
    destruct (N.eqb_spec (mop_key o) 50); [discriminate|auto].
  - intros u I. rewrite forallb_forall in F. now specialize (F _ I).
Qed.
Print Assumptions C72_thrown_call_has_no_effect_refuted.

(** ** C73 *)
Open Scope Z_scope.

(** In every execution with any number of failed allocations, the counters are off by
    exactly the counts of the handles that failed. *)
Theorem C73_counted_again :
  forall lim tr s, costeps (Running (cinit lim)) tr (Running s) ->
    g_elems s - g_dummies s + total owed (g_handles s) = g_inserted s - g_erased s + again_all tr.
Proof.
  intros lim tr s ST. destruct (costeps_bal _ _ _ ST _ _ eq_refl eq_refl) as [_ B].
  - intros h [].
  - unfold bal in B. cbn [cinit g_elems g_dummies g_handles g_inserted g_erased total] in B. lia.
Qed.
Print Assumptions C73_counted_again.

(** If no allocation fails in the handles that count then the count is exact when all
    handles are gone. *)
Theorem C73_exact_partial :
  forall lim tr s, costeps (Running (cinit lim)) tr (Running s) -> live (g_handles s) = 0 ->
    (forall i ins del, ~ In (CFail i ins del) tr) ->
    g_elems s - g_dummies s = g_inserted s - g_erased s.
Proof.
  intros lim tr s ST L NF. pose proof (C73_counted_again lim tr s ST) as C.
  assert (Z1 : total owed (g_handles s) = 0).
  { revert L. clear. generalize (g_handles s) as l.
    assert (P : forall l, 0 <= live l) by (induction l as [|[h|] l IH]; cbn [live]; lia).
    induction l as [|[h|] l IH]; cbn [live total]; intros L; [reflexivity| |auto]. specialize (P l). lia. }
  assert (Z2 : again_all tr = 0).
  { revert NF. clear. induction tr as [|e tr IH]; intros NF; [reflexivity|]. cbn [again_all].
    rewrite IH by (intros i a b I; apply (NF i a b); now right).
    destruct e as [|i a b|]; cbn; try lia. elim (NF i a b). now left. }
  lia.
Qed.
Print Assumptions C73_exact_partial.

Definition flush (i : nat) : list clabel := [KRun i; KRun i; KRun i].

(** One failed allocation: with all handles gone the table reports 130 elements, and
    has 65; another table reports 2^64 - 57, and has 4. *)
Theorem C73_count_after_failure_refuted :
  (exists lim tr s, costeps (Running (cinit lim)) tr (Running s) /\ live (g_handles s) = 0 /\
     g_inserted s - g_erased s = 65 /\ element_count_approx s s = 130) /\
  (exists lim tr s, costeps (Running (cinit lim)) tr (Running s) /\ live (g_handles s) = 0 /\
     g_inserted s - g_erased s = 4 /\ element_count_approx s s = 2 ^ 64 - 57).
Proof.
  split.
  - set (ks := [KNew] ++ repeat (KInsert 0) 65 ++ flush 0).
    set (s1 := CState 65 0 42 false 65 0 [Some (Handle 0 65 0 FNone RNone false)]).
    set (ks2 := [KDestroy 0] ++ flush 0).
    assert (E1 : crun (cinit 42) ks = Some ([CFlush 0 0 65 42 true], CState 65 0 42 false 65 0 [Some (Handle 0 65 0 FGrow RNone false)]))
      by (vm_compute; reflexivity).
    assert (E2 : crun s1 ks2 = Some ([CFlush 0 65 65 42 false], CState 130 0 42 false 65 0 [None])) by (vm_compute; reflexivity).
    exists 42. do 2 eexists. split.
    { eapply costeps_app; [eapply csteps_co, crun_sound; exact E1|].
      eapply cos_vis; [apply co_fail with (i := 0%nat); reflexivity|].
      eapply csteps_co, crun_sound. exact E2. }
    vm_compute. auto.
  - set (ks := [KNew; KNew] ++ repeat (KInsert 0) 65 ++ flush 0 ++ repeat (KInsert 1) 2 ++ repeat (KErase 1) 63 ++ flush 1).
    set (s1 := CState 67 63 66 false 67 63 [Some new_handle; Some (Handle 0 2 63 FNone RNone false)]).
    set (ks2 := [KDestroy 1] ++ flush 1 ++ [KDestroy 0] ++ flush 0).
    assert (E1 : crun (cinit 66) ks = Some ([CFlush 0 0 65 66 false; CFlush 1 65 2 66 true],
      CState 67 63 66 false 67 63 [Some new_handle; Some (Handle 0 2 63 FGrow RNone false)])) by (vm_compute; reflexivity).
    assert (E2 : crun s1 ks2 = Some ([CFlush 1 67 2 66 false; CFlush 0 69 0 66 false],
      CState 69 126 66 false 67 63 [None; None])) by (vm_compute; reflexivity).
    exists 66. do 2 eexists. split.
    { eapply costeps_app; [eapply csteps_co, crun_sound; exact E1|].
      eapply cos_vis; [apply co_fail with (i := 1%nat); reflexivity|].
      eapply csteps_co, crun_sound. exact E2. }
    vm_compute. auto.
Qed.
Print Assumptions C73_count_after_failure_refuted.

(** An execution without failures; with a growth step, the tombstones go. *)
Example C73_case :
  exists tr s, costeps (Running (cinit 42)) tr (Running s) /\ live (g_handles s) = 0 /\
    (forall i a b, ~ In (CFail i a b) tr) /\ g_elems s - g_dummies s = 55 /\ g_dummies s = 0.
Proof.
  set (ks := [KNew] ++ repeat (KInsert 0) 60 ++ repeat (KErase 0) 5 ++ flush 0 ++
             [KAsync 0; KReset 0 85; KRun 0; KDestroy 0] ++ flush 0).
  destruct (crun (cinit 42) ks) as [[tr s]|] eqn:E; [|vm_compute in E; discriminate].
  exists (map CStep tr), s. split; [apply csteps_co, crun_sound with (ks := ks); exact E|].
  split; [vm_compute in E; injection E as _ <-; reflexivity|].
  split; [intros i a b I; apply in_map_iff in I; destruct I as (x & X & _); discriminate|].
  vm_compute in E. injection E as _ <-. split; reflexivity.
Qed.

(** The destructor of a handle may have to grow the table; if there is no memory the
    program is terminated. *)
Theorem C73_destroying_a_handle_is_safe_refuted :
  exists lim tr i, costeps (Running (cinit lim)) (tr ++ [CTerminate i]) Terminated /\
    (forall j a b, ~ In (CFail j a b) tr) /\ exists s, costeps (Running (cinit lim)) tr (Running s) /\ g_inserted s = 50.
Proof.
  set (ks := [KNew] ++ repeat (KInsert 0) 50 ++ [KDestroy 0] ++ flush 0).
  assert (E1 : crun (cinit 42) ks = Some ([CFlush 0 0 50 42 true], CState 50 0 42 false 50 0 [Some (Handle 0 50 0 FGrow RNone true)]))
    by (vm_compute; reflexivity).
  pose proof (csteps_co _ _ _ (crun_sound _ _ _ _ E1)) as S.
  exists 42, (map CStep [CFlush 0 0 50 42 true]), 0%nat. split; [|split].
  - eapply costeps_app; [exact S|]. eapply cos_vis; [apply co_terminate with (i := 0%nat) (h := Handle 0 50 0 FGrow RNone true); reflexivity|constructor].
  - intros j a b [I|[]]. discriminate.
  - eexists. split; [exact S|reflexivity].
Qed.
Print Assumptions C73_destroying_a_handle_is_safe_refuted.
