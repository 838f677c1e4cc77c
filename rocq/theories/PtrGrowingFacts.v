(** Growing tables of pointer cells: executions from the start. *)
From Coq Require Import NArith Bool List Lia.
From Verif Require Import Words Slot SlotFacts Mapper MapperFacts ReturnCode MapSpec LinSpec Base
  BaseInv BaseLin TableSpec BaseFacts Migrate Growing GrowingSpec GrowingInv GrowingFacts Ptr PtrSpec PtrWords
  PtrInv PtrLin PtrGrowing PtrGrowingSpec PtrGrowingImg PtrGrowingInv PtrGrowingRel PtrGrowingStep PtrGrowingSim.
Import ListNotations.
Open Scope N_scope.

(** *** Keys of an execution are bounded *)

Lemma pgstep_client c B alloc (cl cl' : pop -> Prop) s e s' :
  (forall o, cl o -> cl' o) -> pgstep c B alloc cl s e s' -> pgstep c B alloc cl' s e s'.
Proof. intros H S. destruct S; econstructor; eauto. Qed.

Lemma pgstep_bound c B alloc cl s e s' : pgstep c B alloc cl s e s' ->
  exists K, pgstep c B alloc (fun o => pop_key o < K) s e s'.
Proof.
  intros S. destruct S as [? ? ? ? ? ? ? o| | | | | |].
  1: exists (pop_key o + 1); constructor; auto; lia.
  all: exists 0; econstructor; eauto.
Qed.

Section Bound.
Context (c : pcfg) (B : N) (alloc : N -> Prop) (P Q : pgsys -> pgsys -> Prop).
Definition rstep (cl : pop -> Prop) (s : pgsys) (e : option (event mop mres)) (s' : pgsys) : Prop :=
  pgstep c B alloc cl s e s' /\ P s s' /\ Q s s'.

Lemma rsteps_client (cl cl' : pop -> Prop) s tr s' :
  (forall o, cl o -> cl' o) -> lts_steps (rstep cl) s tr s' -> lts_steps (rstep cl') s tr s'.
Proof.
  intros H ST. induction ST as [|? ? ? ? (S & X) ? IH|? ? ? ? ? (S & X) ? IH];
    [constructor|eapply ls_tau|eapply ls_vis]; eauto; (split; [eapply pgstep_client; eauto|auto]).
Qed.

Lemma rsteps_bound cl s tr s' : lts_steps (rstep cl) s tr s' ->
  exists K, lts_steps (rstep (fun o => pop_key o < K)) s tr s'.
Proof.
  intros ST. induction ST as [s|s s1 s2 tr (S & X) ST (K & IH)|s e s1 s2 tr (S & X) ST (K & IH)];
    [exists 0; constructor| |]; destruct (pgstep_bound _ _ _ _ _ _ _ S) as (K1 & S1);
    exists (N.max K K1); [eapply ls_tau|eapply ls_vis].
  1, 3: split; [eapply pgstep_client; [|exact S1]; cbn; intros; lia|exact X].
  all: eapply rsteps_client; [|exact IH]; cbn; intros; lia.
Qed.
End Bound.

Section Facts.
Context (c : pcfg) (B : N) (alloc : N -> Prop).
Context (PG : pgrow c = true) (HA : forall a, alloc a -> 0 < a < 2 ^ 48 /\ a <> 2 ^ 32).
Context (CF : cmap (pmc c) = false \/ cprob (pmc c) = true) (HB : 0 < B <= 2 ^ 31).
Notation mk := (pmk c).
Notation mc := (pmc c).
Notation spec := (mspec false false).
Notation aobj' := (aobj amap mop mres).
Notation ainit := (AObj amap_empty (fun _ => @AIdle mop mres)).

Lemma pg_init_rel K lg : 1 <= lg <= 63 ->
  rel c K B (fun _ => None) (pg_init c lg) (gsys_init (acfg c K) lg) ainit ainit.
Proof.
  intros LG. split; cbn [pgver pgmap pgmem pgmig pgheap pgthr pg_init gsys_init gver gmap gmem gmig gthr ast ath];
    try discriminate; auto.
  - intros u. apply amr_fresh.
  - exact Logic.I.
  - intros a k. split; discriminate.
  - split; cbn; auto; discriminate.
  - intros tid. reflexivity.
  - apply (ginit_rel (acfg c K) B (acl K) (asc_wf c K)). exact LG.
Qed.

Lemma pg_init_exclusive lg : pg_exclusive (pg_init c lg).
Proof. intros H. now elim H. Qed.

Lemma pg_async_sim K kp s g x (y : aobj') (client : pop -> Prop) tr s' :
  mk = true -> (forall o, client o -> pop_key o < K) -> rel c K B kp s g x y ->
  lts_steps (pg_async_step c B alloc client) s tr s' ->
  exists kp1 g1 x1 y1, asteps spec y tr y1 /\ rel c K B kp1 s' g1 x1 y1.
Proof.
  intros SM CL R ST. revert kp g x y R.
  induction ST as [s|s s1 s2 tr (S & U & RM) ST IH|s e s1 s2 tr (S & U & RM) ST IH]; intros kp g x y R.
  - exists kp, g, x, y. split; [apply as_nil|auto].
  - destruct (step_sim c K B alloc PG HA CF HB _ _ _ _ _ client _ _ CL R S (or_introl (conj SM U)) RM)
      as (kp1 & g1 & x1 & y1 & A1 & R1).
    destruct (IH _ _ _ _ R1) as (kp2 & g2 & x2 & y2 & A2 & R2). exists kp2, g2, x2, y2. split; auto.
    change tr with ([] ++ tr). eapply asteps_trans; eauto.
  - destruct (step_sim c K B alloc PG HA CF HB _ _ _ _ _ client _ _ CL R S (or_introl (conj SM U)) RM)
      as (kp1 & g1 & x1 & y1 & A1 & R1).
    destruct (IH _ _ _ _ R1) as (kp2 & g2 & x2 & y2 & A2 & R2). exists kp2, g2, x2, y2. split; auto.
    change (e :: tr) with ([e] ++ tr). eapply asteps_trans; eauto.
Qed.

Lemma pg_sync_sim K kp s g x (y : aobj') (client : pop -> Prop) tr s' :
  (forall o, client o -> pop_key o < K) -> pg_exclusive s -> rel c K B kp s g x y ->
  lts_steps (pg_sync_step c B alloc client) s tr s' ->
  exists kp1 g1 x1 y1, asteps spec y tr y1 /\ rel c K B kp1 s' g1 x1 y1.
Proof.
  intros CL X R ST. revert kp g x y X R.
  induction ST as [s|s s1 s2 tr (S & U & RM) ST IH|s e s1 s2 tr (S & U & RM) ST IH]; intros kp g x y X R.
  - exists kp, g, x, y. split; [apply as_nil|auto].
  - destruct (step_sim c K B alloc PG HA CF HB _ _ _ _ _ client _ _ CL R S (or_intror X) RM)
      as (kp1 & g1 & x1 & y1 & A1 & R1).
    destruct (IH _ _ _ _ U R1) as (kp2 & g2 & x2 & y2 & A2 & R2). exists kp2, g2, x2, y2. split; auto.
    change tr with ([] ++ tr). eapply asteps_trans; eauto.
  - destruct (step_sim c K B alloc PG HA CF HB _ _ _ _ _ client _ _ CL R S (or_intror X) RM)
      as (kp1 & g1 & x1 & y1 & A1 & R1).
    destruct (IH _ _ _ _ U R1) as (kp2 & g2 & x2 & y2 & A2 & R2). exists kp2, g2, x2, y2. split; auto.
    change (e :: tr) with ([e] ++ tr). eapply asteps_trans; eauto.
Qed.

(** Every execution is one of the atomic map, and leads to a related state. *)
Lemma pg_async_reach client lg tr s :
  mk = true -> 1 <= lg <= 63 -> lts_steps (pg_async_step c B alloc client) (pg_init c lg) tr s ->
  exists K kp g x y, asteps spec ainit tr y /\ rel c K B kp s g x y.
Proof.
  intros SM LG ST.
  destruct (rsteps_bound c B alloc (pg_undisturbed c) (pg_room c) client _ _ _ ST) as (K & ST').
  destruct (pg_async_sim K _ _ _ _ _ (fun o => pop_key o < K) _ _ SM (fun o H => H) (pg_init_rel K lg LG) ST')
    as (kp & g & x & y & H). exists K, kp, g, x, y. exact H.
Qed.

Lemma pg_sync_reach client lg tr s :
  1 <= lg <= 63 -> lts_steps (pg_sync_step c B alloc client) (pg_init c lg) tr s ->
  exists K kp g x y, asteps spec ainit tr y /\ rel c K B kp s g x y.
Proof.
  intros LG ST.
  destruct (rsteps_bound c B alloc (fun _ s' => pg_exclusive s') (pg_room c) client _ _ _ ST) as (K & ST').
  destruct (pg_sync_sim K _ _ _ _ _ (fun o => pop_key o < K) _ _ (fun o H => H) (pg_init_exclusive lg)
    (pg_init_rel K lg LG) ST') as (kp & g & x & y & H). exists K, kp, g, x, y. exact H.
Qed.

(** *** Elements *)

End Facts.

Section El.
Context (c : pcfg) (B : N).
Notation mk := (pmk c).
Notation mc := (pmc c).
Notation aobj' := (aobj amap mop mres).
Context (K : N) (kp : N -> option N) (s : pgsys) (g : gsys) (x y : aobj') (R : rel c K B kp s g x y).
Notation tot := (total_slots mc (pgmap s (pgver s))).

Lemma rel_not_bad : ~ pg_bad s.
Proof. intros (tid & o & u & E). destruct (r_tok _ _ _ _ _ _ _ _ R _ _ _ _ E) as [_ []]. Qed.

(** Cells of all versions, also of those that are no longer published. *)
Lemma rel_allocated u p w : pgmem s u p = Some w -> w_ptr w <> 0 ->
  exists k d, pgheap s (w_ptr w) = Some (k, d) /\ w_fp mk w = fingerprint mk (phk c k).
Proof.
  intros E NZ. pose proof (r_mem _ _ _ _ _ _ _ _ R u p) as M. rewrite E in M. destruct M as [_ (_ & _ & _ & G)].
  destruct (G NZ) as (k & Ek & _ & F). destruct (r_hp _ _ _ _ _ _ _ _ R _ _ Ek) as [d Ed]. exists k, d. auto.
Qed.

Lemma rel_cells :
  exists ct m, tinv (acfg c K) (pgmap s (pgver s)) (gmem g (pgver s)) ct m /\
    absr (acfg c K) (pgmap s (pgver s)) ct (ast x) /\
    (exists lg, wf_mapper mc (pgmap s (pgver s)) lg) /\
    forall p, p < tot -> exists w, pgmem s (pgver s) p = Some w /\ wgood c K kp w /\ wcont kp w = ct p.
Proof.
  pose proof (r_g _ _ _ _ _ _ _ _ R) as (ct & m & l & CI & A & _).
  pose proof (r_ver _ _ _ _ _ _ _ _ R) as EV. pose proof (r_map _ _ _ _ _ _ _ _ R) as EM.
  pose proof (cur_tinv _ _ _ _ _ CI) as TI. destruct (cur_wf _ _ _ _ _ CI) as (lg & W).
  rewrite EV, EM in *. exists ct, m. sp; eauto.
  intros p Lp. destruct (ti_cell _ _ _ _ _ TI p Lp) as [EC OK].
  pose proof (r_mem _ _ _ _ _ _ _ _ R (pgver s) p) as M.
  destruct (pgmem s (pgver s) p) as [w|]; [|congruence]. destruct M as [M G]. exists w. sp; auto.
  rewrite EC in M. injection M as M. symmetry.
  exact (proj1 (enc_inj (asc c K) (asc_wf c K) _ _ _ _ OK (wgood_ok c K kp w G) M)).
Qed.

Lemma rel_points a : (exists p, pg_points c s p a) <-> exists k, kp a = Some k.
Proof.
  destruct rel_cells as (ct & m & TI & A & _ & CE). split.
  - intros (p & Lp & w & E & <- & NZ). destruct (CE p Lp) as (w' & E' & (_ & _ & _ & G) & _).
    rewrite E in E'. injection E' as <-. destruct (G NZ) as (k & Ek & _). eauto.
  - intros (k & Ek). pose proof Ek as X. apply (r_kp _ _ _ _ _ _ _ _ R) in X. apply A in X.
    destruct X as (p & Lp & Ep). exists p. split; [exact Lp|]. destruct (CE p Lp) as (w & E & G & C).
    exists w. rewrite Ep in C. unfold wcont in C. destruct (N.eqb_spec (w_ptr w) 0) as [|NZ]; [discriminate|].
    destruct (kp (w_ptr w)); [|discriminate]. injection C as _ <-. auto.
Qed.

Lemma rel_inj p q a : pg_points c s p a -> pg_points c s q a -> p = q.
Proof.
  destruct rel_cells as (ct & m & TI & A & (lg & W) & CE).
  intros (Lp & w & E & <- & NZ) (Lq & v & E' & EQ & _).
  destruct (CE p Lp) as (w' & X & (_ & _ & _ & G) & C). rewrite E in X. injection X as <-.
  destruct (CE q Lq) as (v' & X & _ & D). rewrite E' in X. injection X as <-.
  destruct (G NZ) as (k & Ek & _). unfold wcont in C, D. rewrite EQ in D.
  destruct (N.eqb_spec (w_ptr w) 0); [contradiction|]. rewrite Ek in C, D.
  symmetry in C, D. exact (live_unique _ _ _ _ _ _ _ _ _ _ TI Lp Lq C D).
Qed.

(** Two elements in the table have different keys. *)
Lemma rel_keys p q a b k d e : pg_points c s p a -> pg_points c s q b ->
  pgheap s a = Some (k, d) -> pgheap s b = Some (k, e) -> p = q.
Proof.
  intros Pa Pb Ha Hb.
  destruct (proj1 (rel_points a) (ex_intro _ p Pa)) as (i & Ei).
  destruct (proj1 (rel_points b) (ex_intro _ q Pb)) as (j & Ej).
  destruct (r_hp _ _ _ _ _ _ _ _ R _ _ Ei) as [d1 E1]. destruct (r_hp _ _ _ _ _ _ _ _ R _ _ Ej) as [d2 E2].
  assert (i = k) as -> by congruence. assert (j = k) as -> by congruence.
  apply (r_kp _ _ _ _ _ _ _ _ R) in Ei, Ej. assert (a = b) as <- by congruence. eapply rel_inj; eauto.
Qed.

Lemma rel_quiet a : pg_quiet s -> (pgheap s a <> None <-> exists p, pg_points c s p a).
Proof.
  intros Q. split.
  - intros H. apply rel_points. destruct (r_acc _ _ _ _ _ _ _ _ R a H) as [H'|(t & H')].
    + destruct (kp a) as [k|]; [eauto|now elim H'].
    + rewrite (Q t) in H'. discriminate.
  - intros P. apply rel_points in P. destruct P as (k & Ek). destruct (r_hp _ _ _ _ _ _ _ _ R _ _ Ek) as [d ->].
    discriminate.
Qed.

Lemma rel_destroy : pg_quiet s -> exists hp, pg_destroy c s = Some hp /\ forall a, hp a = None.
Proof.
  intros Q. unfold pg_destroy, destroy.
  destruct rel_cells as (ct & m & TI & A & _ & CE).
  destruct (cleanup_ok (pgmem s (pgver s)) (N.to_nat tot) 0 (pgheap s)) as (hp' & E & X).
  - intros q Lq. rewrite N2Nat.id in Lq. destruct (CE q) as (w & E & G & _); [lia|].
    exists w. split; auto. intros NZ. destruct (rel_allocated _ _ _ E NZ) as (k & d & -> & _). discriminate.
  - intros q r a Lq Lr C D. rewrite N2Nat.id in *. eapply (rel_inj q r a); (split; [lia|assumption]).
  - exists hp'. split; auto. intros a. destruct (hp' a) eqn:Ea; auto. exfalso.
    assert (Y : hp' a <> None) by congruence. apply X in Y. destruct Y as [Y1 Y2].
    apply (rel_quiet a Q) in Y1. destruct Y1 as (q & Lq & C). apply (Y2 q); auto. rewrite N2Nat.id. lia.
Qed.

Lemma rel_elements : elements_ok c s.
Proof.
  split; [exact rel_not_bad|]. split.
  { intros u p w E NZ. destruct (rel_allocated u p w E NZ) as (k & d & -> & _). discriminate. }
  split; [exact rel_inj|]. split; [exact rel_keys|]. intros Q. split; [|exact (rel_destroy Q)].
  intros a. exact (rel_quiet a Q).
Qed.

End El.
