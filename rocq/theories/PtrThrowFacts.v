(** Tables of pointer cells when code of the user throws: a call that threw is kept as a
    call of a thread that never moves again. *)
From Coq Require Import NArith Bool List Lia.
From Verif Require Import Words Slot Mapper MapperFacts ReturnCode MapSpec LinSpec Base BaseInv
  Migrate Ptr PtrSpec PtrWords PtrInv PtrMove PtrGrow PtrSys PtrLin PtrFacts PtrThrow PtrThrowSpec.
Import ListNotations.
Open Scope N_scope.

Local Ltac sp := repeat match goal with |- _ /\ _ => split end.

Lemma dbl_inj i j : 2 * i = 2 * j -> i = j.
Proof. lia. Qed.
Lemma parity i : (exists j, i = 2 * j) \/ (exists j, i = 2 * j + 1).
Proof. destruct (N.Even_or_Odd i) as [[j E]|[j E]]; eauto. Qed.
Lemma fupd_dbl {A} (f : N -> A) t v i : fupd f (2 * t) v (2 * i) = if i =? t then v else f (2 * i).
Proof.
  unfold fupd. destruct (N.eqb_spec (2 * i) (2 * t)), (N.eqb_spec i t); auto; lia.
Qed.
Lemma fupd_odd {A} (f : N -> A) t v j : fupd f (2 * t) v (2 * j + 1) = f (2 * j + 1).
Proof. apply fupd_neq. lia. Qed.

(** *** The atomic map *)

Definition dbl (e : event mop mres) : event mop mres :=
  match e with EInv t o => EInv (2 * t) o | ERet t r => ERet (2 * t) r end.

Section Abs.
Context {St : Type} (spec : St -> mop -> St -> mres -> Prop).

(** The even threads. *)
Definition half (x y : aobj St mop mres) : Prop :=
  ast y = ast x /\ forall i, ath y i = ath x (2 * i).

Definition odd_open (x : aobj St mop mres) : Prop := forall j r, ath x (2 * j + 1) <> ADone r.

Lemma half_steps x l x' : asteps spec x l x' ->
  forall tr, l = map dbl tr -> odd_open x' ->
  odd_open x /\
  forall y, half x y -> exists y', lts_steps (throwing spec) y (map TCall tr) y' /\ half x' y'.
Proof.
  induction 1 as [x|x x1 x2 l S ST IH|x e x1 x2 l S ST IH]; intros tr E OO.
  - destruct tr; [|discriminate]. split; auto. intros y Hy. exists y. split; auto. constructor.
  - destruct (IH tr E OO) as [O1 IH1]. inversion S as [|s th t o s' r TH SP|]; subst.
    destruct (parity t) as [[j ->]|[j ->]].
    + split.
      * intros i r'. specialize (O1 i r'). cbn [ath] in *. now rewrite fupd_odd in O1.
      * intros [ys yt] [Y1 Y2]. cbn in Y1, Y2. subst ys.
        destruct (IH1 (AObj s' (fupd yt j (ADone r)))) as (y' & T & Hy').
        { split; auto. intros i. cbn. rewrite fupd_dbl. unfold fupd. destruct (i =? j); auto. }
        exists y'. split; auto. eapply ls_tau; [|exact T].
        apply (tw_call spec _ None). eapply a_lin; eauto. now rewrite Y2.
    + elim (O1 j r). cbn. apply fupd_eq.
  - destruct tr as [|e' tr]; [discriminate|]. cbn in E. injection E as -> E.
    destruct (IH tr E OO) as [O1 IH1]. destruct e' as [t o|t r]; cbn [dbl] in S; inversion S; subst.
    + split.
      * intros i r'. specialize (O1 i r'). cbn [ath] in *. now rewrite fupd_odd in O1.
      * intros [ys yt] [Y1 Y2]. cbn in Y1, Y2. subst ys.
        destruct (IH1 (AObj s (fupd yt t (APend o)))) as (y' & T & Hy').
        { split; auto. intros i. cbn. rewrite fupd_dbl. unfold fupd. destruct (i =? t); auto. }
        exists y'. split; auto. cbn [map]. eapply ls_vis; [|exact T].
        apply (tw_call spec _ (Some (EInv t o))). apply a_inv. now rewrite Y2.
    + split.
      * intros i r'. specialize (O1 i r'). cbn [ath] in *. now rewrite fupd_odd in O1.
      * intros [ys yt] [Y1 Y2]. cbn in Y1, Y2. subst ys.
        destruct (IH1 (AObj s (fupd yt t AIdle))) as (y' & T & Hy').
        { split; auto. intros i. cbn. rewrite fupd_dbl. unfold fupd. destruct (i =? t); auto. }
        exists y'. split; auto. cbn [map]. eapply ls_vis; [|exact T].
        apply (tw_call spec _ (Some (ERet t r))). apply a_ret. now rewrite Y2.
Qed.
End Abs.

(** *** The table *)

Section Sys.
Context (c : pcfg) (alloc : N -> Prop) (client : pop -> Prop) (gb : bool).
Notation good := (gb = true).
Context (HA : forall a, alloc a -> 0 < a < 2 ^ 48).
Context (HG : pgrow c = true ->
  (forall a, alloc a -> a <> 2 ^ 32) /\ (cmap (pmc c) = false \/ cprob (pmc c) = true)).
Context (HC : good -> forall o, client o -> print_ok c o).

(** [q] is [s] with its threads at even numbers and the calls [L] that threw at odd numbers. *)
Definition parked (s : psys) (L : list (pop * ppc)) (q : psys) : Prop :=
  pheap q = pheap s /\ pmap q = pmap s /\ ptab q = ptab s /\
  (forall i, pthr q (2 * i) = pthr s i) /\
  (forall j, pthr q (2 * j + 1) = nth_error L (N.to_nat j)).

(** A call that threw owns its memory and waits. *)
Definition dead (x : pop * ppc) : Prop :=
  let '(o, pc) := x in
  pop_adds o = true /\ (exists w, pslot pc = Some w) /\ (forall r, pstat o pc <> ADone r) /\
  (pgrow c = true -> off_table pc).

Lemma parked_step s L q e s' : parked s L q -> Forall dead L -> psys_step c alloc client s e s' ->
  exists q', psys_step c alloc client q (option_map dbl e) q' /\ parked s' L q'.
Proof.
  intros (P1 & P2 & P3 & P4 & P5) D S. destruct q as [qh qm qt qth]. cbn in P1, P2, P3, P4, P5.
  destruct S as [hp m t th tid o E CL|hp m t th tid o pc a0 hp' t' pc' E ND AL ST|hp m t th p w MK NG LT E
    |hp m t th ins del lg B s PG OFF LGE LG BB MS FIN V|hp m t th tid o r E];
    cbn [pheap pmap ptab pthr] in *; subst qh qm qt.
  - eexists. split; [cbn; apply (q_inv c alloc client hp m t qth (2 * tid) o); auto; now rewrite P4|].
    unfold parked; sp; auto; intros j; cbn.
    + rewrite fupd_dbl. unfold fupd. destruct (j =? tid); auto.
    + now rewrite fupd_odd.
  - eexists. split; [cbn; eapply (q_run c alloc client hp m t qth (2 * tid)); eauto; now rewrite P4|].
    unfold parked; sp; auto; intros j; cbn.
    + rewrite fupd_dbl. unfold fupd. destruct (j =? tid); auto.
    + now rewrite fupd_odd.
  - eexists. split; [cbn; eapply (q_mark c alloc client hp m t qth); eauto|]. unfold parked; sp; auto.
  - eexists. split.
    + cbn. eapply (q_grow c alloc client hp m t qth ins del lg B s); eauto.
      intros i o pc Ei. destruct (parity i) as [[j ->]|[j ->]].
      * rewrite P4 in Ei. eauto.
      * rewrite P5 in Ei. apply nth_error_In in Ei. rewrite Forall_forall in D.
        destruct (D _ Ei) as (_ & _ & _ & X). auto.
    + unfold parked; sp; auto.
  - eexists. split; [cbn; eapply (q_ret c alloc client hp m t qth (2 * tid)); rewrite P4; exact E|].
    unfold parked; sp; auto; intros j; cbn.
    + rewrite fupd_dbl. unfold fupd. destruct (j =? tid); auto.
    + now rewrite fupd_odd.
Qed.

(** A thread takes over a call of another one. *)
Lemma qinv_move hp m t th i j o pc :
  qinv c alloc gb (PSys hp m t th) -> th i = Some (o, pc) -> th j = None -> i <> j ->
  qinv c alloc gb (PSys hp m t (fupd (fupd th i None) j (Some (o, pc)))).
Proof.
  intros [Q1 Q2 Q3 Q4 Q5] Ei Ej NE. cbn [pheap pmap ptab pthr] in *.
  pose (back := fun n => if n =? j then i else n).
  assert (B : forall n v, fupd (fupd th i None) j (Some (o, pc)) n = Some v -> n <> i /\ th (back n) = Some v).
  { intros n v. unfold back, fupd. destruct (N.eqb_spec n j) as [->|NJ].
    - intros [= <-]. auto.
    - destruct (N.eqb_spec n i); [discriminate|auto]. }
  split; cbn [pheap pmap ptab pthr]; auto.
  - intros n o' pc' E. destruct (B n _ E). eauto.
  - intros n n' o1 pc1 o2 pc2 a E E' O1 O2. destruct (B n _ E) as [X F], (B n' _ E') as [X' F'].
    pose proof (Q4 _ _ _ _ _ _ _ F F' O1 O2) as Y. unfold back in Y.
    destruct (N.eqb_spec n j), (N.eqb_spec n' j); congruence.
  - intros a X. destruct (Q5 a X) as [A [C|(n & o' & pc' & E & O)]]; split; auto.
    right. destruct (N.eq_dec n i) as [->|NI].
    + exists j, o', pc'. rewrite fupd_eq. split; auto. congruence.
    + exists n, o', pc'. split; auto. rewrite !fupd_neq; auto. congruence.
Qed.

(** A call that owns nothing is gone. *)
Lemma qinv_gone hp m t th i o pc :
  qinv c alloc gb (PSys hp m t th) -> th i = Some (o, pc) -> (forall a, ~ owns o pc a) ->
  qinv c alloc gb (PSys hp m t (fupd th i None)).
Proof.
  intros [Q1 Q2 Q3 Q4 Q5] Ei NO. cbn [pheap pmap ptab pthr] in *.
  assert (B : forall n v, fupd th i None n = Some v -> n <> i /\ th n = Some v).
  { intros n v. unfold fupd. destruct (N.eqb_spec n i); [discriminate|auto]. }
  split; cbn [pheap pmap ptab pthr]; auto.
  - intros n o' pc' E. destruct (B n _ E). eauto.
  - intros n n' o1 pc1 o2 pc2 a E E' O1 O2. destruct (B n _ E) as [X F], (B n' _ E') as [X' F']. eauto.
  - intros a X. destruct (Q5 a X) as [A [C|(n & o' & pc' & E & O)]]; split; auto.
    right. exists n, o', pc'. split; auto. rewrite fupd_neq; auto. intros ->.
    rewrite Ei in E. injection E as <- <-. exact (NO a O).
Qed.

(** *** Executions *)

Definition trel (s : psys) (L : list (pop * ppc)) (y : aobj amap mop mres) : Prop :=
  exists q x, parked s L q /\ Forall dead L /\ qrel c alloc gb q x /\ (good -> half x y).

Lemma dead_open s L q x : parked s L q -> Forall dead L -> qrel c alloc gb q x -> good -> odd_open x.
Proof.
  intros P D [_ G] g j r E. destruct (G g) as [_ G2]. rewrite G2 in E.
  destruct P as (_ & _ & _ & _ & P5). rewrite P5 in E.
  destruct (nth_error L (N.to_nat j)) as [[o pc]|] eqn:N'; [|discriminate].
  apply nth_error_In in N'. rewrite Forall_forall in D. destruct (D _ N') as (_ & _ & X & _). eapply X; eauto.
Qed.

Lemma parked_more hp m t th L qth tid o pc x y :
  parked (PSys hp m t th) L (PSys hp m t qth) ->
  Forall dead L -> dead (o, pc) -> qth (2 * tid) = Some (o, pc) ->
  qrel c alloc gb (PSys hp m t qth) x -> (good -> half x y) ->
  trel (PSys hp m t (fupd th tid None)) (L ++ [(o, pc)]) (AObj (ast y) (fupd (ath y) tid AIdle)).
Proof.
  intros (_ & _ & _ & P4 & P5) D DX E [Q G] Hy. cbn [pthr] in *.
  set (n := 2 * N.of_nat (length L) + 1).
  assert (NN : qth n = None).
  { specialize (P5 (N.of_nat (length L))). rewrite Nat2N.id in P5. fold n in P5. rewrite P5.
    apply nth_error_None. lia. }
  exists (PSys hp m t (fupd (fupd qth (2 * tid) None) n (Some (o, pc)))).
  exists (AObj (ast x) (fupd (fupd (ath x) (2 * tid) AIdle) n (APend (pspec_op o)))).
  sp.
  - unfold parked; sp; auto; cbn [pthr].
    + intros i. rewrite fupd_neq by (unfold n; lia). rewrite fupd_dbl. unfold fupd. destruct (i =? tid); auto.
    + intros j. unfold fupd at 1. destruct (N.eqb_spec (2 * j + 1) n) as [EQ|NE].
      * assert (j = N.of_nat (length L)) as -> by (unfold n in EQ; lia).
        rewrite Nat2N.id, nth_error_app2 by lia. now rewrite PeanoNat.Nat.sub_diag.
      * rewrite fupd_odd, P5. destruct (Compare_dec.le_lt_dec (length L) (N.to_nat j)) as [LE|LT].
        -- rewrite nth_error_app2 by lia. assert (N.to_nat j <> length L) by (intros X; apply NE; unfold n; lia).
           destruct (N.to_nat j - length L)%nat as [|k] eqn:K; [lia|]. cbn. rewrite (proj2 (nth_error_None L _)); [|lia].
           destruct k; auto.
        -- now rewrite nth_error_app1.
  - apply Forall_app. auto.
  - split.
    + apply qinv_move; auto. unfold n. lia.
    + cbn [pheap pmap ptab pthr ast ath]. intros g. destruct (G g) as [G1 G2]. split; auto.
      intros i. unfold fupd at 1 3. destruct (i =? n).
      * destruct DX as (_ & _ & X & _). unfold pstat in X |- *. destruct pc; auto; try (elim (X _ eq_refl));
          destruct out; auto; elim (X _ eq_refl).
      * unfold fupd. destruct (i =? 2 * tid); auto.
  - intros g. destruct (Hy g) as [Y1 Y2]. split; auto. intros i. cbn.
    rewrite (fupd_neq _ n _ (2 * i)) by (unfold n; lia). rewrite fupd_dbl. unfold fupd. destruct (i =? tid); auto.
Qed.


Lemma trel_ext hp m t th th' L y : (forall i, th' i = th i) -> trel (PSys hp m t th) L y -> trel (PSys hp m t th') L y.
Proof.
  intros E (q & x & (P1 & P2 & P3 & P4 & P5) & D & R & Hy). exists q, x. sp; auto. unfold parked. sp; auto.
  intros i. cbn. rewrite E. apply P4.
Qed.

Lemma trel_run s L y e s' : trel s L y -> psys_step c alloc client s e s' ->
  exists y', trel s' L y' /\
    (good -> lts_steps (throwing (pspec c)) y (map TCall (match e with Some v => [v] | None => [] end)) y').
Proof.
  intros (q & x & P & D & R & Hy) S.
  destruct (parked_step _ _ _ _ _ P D S) as (q' & SQ & P').
  destruct (rel_step c alloc client gb HA HG HC _ _ _ _ R SQ) as (x' & R' & AS).
  assert (EX : exists y', (good -> half x' y' /\
     lts_steps (throwing (pspec c)) y (map TCall (match e with Some v => [v] | None => [] end)) y')).
  { destruct gb eqn:GB; [|exists y; discriminate].
    assert (OO : odd_open x') by (eapply dead_open; eauto; rewrite GB; eauto).
    destruct (half_steps (pspec c) _ _ _ (AS eq_refl) (match e with Some v => [v] | None => [] end)) as [_ H].
    - now destruct e.
    - exact OO.
    - destruct (H y (Hy eq_refl)) as (y' & T & Hy'). exists y'. auto. }
  destruct EX as (y' & EX). exists y'. split; [|intros g; now apply EX].
  exists q', x'. sp; auto. intros g. now apply EX.
Qed.

Lemma trel_step s L y e s' : trel s L y -> thr_step c alloc client s e s' ->
  exists L' y', trel s' L' y' /\
    length L' = (lost (match e with Some v => [v] | None => [] end) + length L)%nat /\
    (good -> lts_steps (throwing (pspec c)) y (match e with Some v => [v] | None => [] end) y').
Proof.
  intros T S. destruct S as [s e s' S|hp m t th tid o E|hp m t th tid o a E A FR|hp m t th tid o w curr E].
  - destruct (trel_run _ _ _ _ _ T S) as (y' & T' & ST). exists L, y'. sp; auto; destruct e; auto.
  - destruct T as (q & x & P & D & [Q G] & Hy). destruct q as [qh qm qt qth].
    pose proof P as (P1 & P2 & P3 & P4 & P5). cbn in P1, P2, P3, P4, P5. subst qh qm qt.
    assert (EQ : qth (2 * tid) = Some (o, QAlloc)) by now rewrite P4.
    exists L, (AObj (ast y) (fupd (ath y) tid AIdle)). sp; auto.
    + exists (PSys hp m t (fupd qth (2 * tid) None)), (AObj (ast x) (fupd (ath x) (2 * tid) AIdle)). sp; auto.
      * unfold parked. sp; auto; cbn; intros i.
        -- rewrite fupd_dbl. unfold fupd. destruct (i =? tid); auto.
        -- now rewrite fupd_odd.
      * split.
        -- eapply qinv_gone; eauto. intros a (_ & w & X & _). discriminate.
        -- cbn [pheap pmap ptab pthr ast ath]. intros g. destruct (G g) as [G1 G2]. split; auto.
           intros i. unfold fupd. destruct (i =? 2 * tid); auto.
      * intros g. destruct (Hy g) as [Y1 Y2]. split; auto. intros i. cbn. rewrite fupd_dbl.
        unfold fupd. destruct (i =? tid); auto.
    + now destruct o.
    + intros g. destruct (Hy g) as [Y1 Y2]. destruct (G g) as [_ G2]. cbn [pthr] in G2.
      destruct y as [ys yt]. cbn in *. eapply ls_vis; [|constructor]. apply tw_throw. now rewrite Y2, G2, EQ.
  - pose proof T as T0.
    assert (S : psys_step c alloc client (PSys hp m t th) None
      (PSys (fupd hp a (Some (pop_key o, pop_data o))) m t
         (fupd th tid (Some (o, if pgrow c then QTry (build c o a) else QLoad (phome c m (pop_key o)) (build c o a)))))).
    { eapply (q_run c alloc client hp m t th tid o QAlloc a); auto; discriminate. }
    destruct (trel_run _ _ _ _ _ T S) as (y1 & (q & x & P & D & R & Hy) & ST).
    set (pc' := if pgrow c then QTry (build c o a) else QLoad (phome c m (pop_key o)) (build c o a)) in *.
    set (hp' := fupd hp a (Some (pop_key o, pop_data o))) in *.
    destruct q as [qh qm qt qth]. pose proof P as (P1 & P2 & P3 & P4 & P5). cbn in P1, P2, P3, P4, P5. subst qh qm qt.
    assert (EQ : qth (2 * tid) = Some (o, pc')) by (rewrite P4; apply fupd_eq).
    assert (AD : pop_adds o = true).
    { destruct T0 as (q0 & x0 & (X1 & X2 & X3 & X4 & X5) & _ & [Q0 _] & _).
      specialize (X4 tid). cbn in X4. rewrite E in X4. destruct (qi_thr _ _ _ _ Q0 _ _ _ X4) as [X _]. exact X. }
    assert (DX : dead (o, pc')).
    { unfold dead, pc'. sp; auto; destruct (pgrow c); cbn; eauto; try discriminate. }
    exists (L ++ [(o, pc')]), (AObj (ast y1) (fupd (ath y1) tid AIdle)). sp.
    + eapply trel_ext; [|eapply parked_more; eauto]. intros i. unfold fupd. destruct (i =? tid); auto.
    + rewrite app_length. destruct o; cbn; lia.
    + intros g. specialize (ST g). cbn [map] in ST. change [TThrow tid o ElementThrew] with ([] ++ [TThrow tid o ElementThrew]).
      eapply lts_app; [exact ST|]. destruct R as [_ G]. destruct (Hy g) as [Y1 Y2]. destruct (G g) as [_ G2]. cbn [pthr] in G2.
      destruct y1 as [ys yt]. cbn in *. eapply ls_vis; [|constructor]. apply tw_throw. rewrite Y2, G2, EQ.
      unfold pc'. destruct (pgrow c); reflexivity.
  - destruct T as (q & x & P & D & R & Hy). destruct q as [qh qm qt qth].
    pose proof P as (P1 & P2 & P3 & P4 & P5). cbn in P1, P2, P3, P4, P5. subst qh qm qt.
    assert (EQ : qth (2 * tid) = Some (o, QUpd w curr)) by now rewrite P4.
    pose proof R as [Q G]. destruct (qi_thr _ _ _ _ Q _ _ _ EQ) as [(_ & _ & UO) _].
    assert (LS : good -> lts_steps (throwing (pspec c)) y [TThrow tid o FunctionThrew] (AObj (ast y) (fupd (ath y) tid AIdle))).
    { intros g. destruct (Hy g) as [Y1 Y2]. destruct (G g) as [_ G2]. cbn [pthr] in G2.
      destruct y as [ys yt]. cbn in *. eapply ls_vis; [|constructor]. apply tw_throw. now rewrite Y2, G2, EQ. }
    destruct (pop_adds o) eqn:AD.
    + exists (L ++ [(o, QUpd w curr)]), (AObj (ast y) (fupd (ath y) tid AIdle)). sp; auto.
      * eapply parked_more; eauto. unfold dead. sp; auto; cbn; eauto; discriminate.
      * rewrite app_length. destruct o; try contradiction; try discriminate. cbn. lia.
    + exists L, (AObj (ast y) (fupd (ath y) tid AIdle)). sp; auto.
      * exists (PSys hp m t (fupd qth (2 * tid) None)), (AObj (ast x) (fupd (ath x) (2 * tid) AIdle)). sp; auto.
        -- unfold parked. sp; auto; cbn; intros i.
           ++ rewrite fupd_dbl. unfold fupd. destruct (i =? tid); auto.
           ++ now rewrite fupd_odd.
        -- split.
           ++ eapply qinv_gone; eauto. intros a (X & _). congruence.
           ++ cbn [pheap pmap ptab pthr ast ath]. intros g. destruct (G g) as [G1 G2]. split; auto.
              intros i. unfold fupd. destruct (i =? 2 * tid); auto.
        -- intros g. destruct (Hy g) as [Y1 Y2]. split; auto. intros i. cbn. rewrite fupd_dbl.
           unfold fupd. destruct (i =? tid); auto.
      * destruct o; try contradiction; try discriminate. reflexivity.
Qed.

Lemma lost_cons e tr : lost (e :: tr) = (lost [e] + lost tr)%nat.
Proof. unfold lost. cbn. destruct (leaves_memory e); reflexivity. Qed.

Lemma trel_steps s tr s' : lts_steps (thr_step c alloc client) s tr s' -> forall L y, trel s L y ->
  exists L' y', trel s' L' y' /\ length L' = (lost tr + length L)%nat /\
    (good -> lts_steps (throwing (pspec c)) y tr y').
Proof.
  induction 1 as [s|s s1 s2 tr S ST IH|s e s1 s2 tr S ST IH]; intros L y T.
  - exists L, y. sp; auto. constructor.
  - destruct (trel_step _ _ _ _ _ T S) as (L1 & y1 & T1 & N1 & S1).
    destruct (IH L1 y1 T1) as (L2 & y2 & T2 & N2 & S2). exists L2, y2. sp; auto.
    + cbn in N1. lia.
    + intros g. change tr with ([] ++ tr). eapply lts_app; eauto.
  - destruct (trel_step _ _ _ _ _ T S) as (L1 & y1 & T1 & N1 & S1).
    destruct (IH L1 y1 T1) as (L2 & y2 & T2 & N2 & S2). exists L2, y2. sp; auto.
    + rewrite lost_cons. lia.
    + intros g. change (e :: tr) with ([e] ++ tr). eapply lts_app; eauto.
Qed.

Lemma trel_init lg : 1 <= lg <= 63 -> trel (psys_init c lg) [] (AObj amap_empty (fun _ => AIdle)).
Proof.
  intros L. exists (psys_init c lg), (AObj amap_empty (fun _ => AIdle)). sp; auto.
  - unfold parked. sp; auto. intros j. cbn. now destruct (N.to_nat j).
  - now apply init_rel.
  - intros _. split; auto.
Qed.

End Sys.

(** *** Reached states *)

Section Reach.
Context (c : pcfg) (alloc : N -> Prop) (client : pop -> Prop).
Context (HA : forall a, alloc a -> 0 < a < 2 ^ 48).
Context (HG : pgrow c = true ->
  (forall a, alloc a -> a <> 2 ^ 32) /\ (cmap (pmc c) = false \/ cprob (pmc c) = true)).

Definition slot_addr (x : pop * ppc) : N := match pslot (snd x) with Some w => w_ptr w | None => 0 end.

Lemma thr_inv lg tr s : 1 <= lg <= 63 -> lts_steps (thr_step c alloc client) (psys_init c lg) tr s ->
  exists L q, parked s L q /\ Forall (dead c) L /\ qinv c alloc false q /\ length L = lost tr.
Proof.
  intros LG ST.
  destruct (trel_steps c alloc client false HA HG (fun g => False_ind _ (Bool.diff_false_true g)) _ _ _ ST _ _
             (trel_init c alloc false HA lg LG)) as (L & y & (q & x & P & D & [Q _] & _) & N' & _).
  exists L, q. rewrite N'. cbn. sp; auto.
Qed.

Lemma thr_lin lg tr s : (forall o, client o -> print_ok c o) -> 1 <= lg <= 63 ->
  lts_steps (thr_step c alloc client) (psys_init c lg) tr s -> happens_unless_thrown (pspec c) amap_empty tr.
Proof.
  intros HC LG ST.
  destruct (trel_steps c alloc client true HA HG (fun _ => HC) _ _ _ ST _ _
             (trel_init c alloc true HA lg LG)) as (L & y & _ & _ & X).
  exists y. now apply X.
Qed.

Lemma thr_safe lg tr s : 1 <= lg <= 63 -> lts_steps (thr_step c alloc client) (psys_init c lg) tr s ->
  ~ bad_access s /\ (forall p q a, points_to c s p a -> points_to c s q a -> p = q).
Proof.
  intros LG ST. destruct (thr_inv lg tr s LG ST) as (L & q & (P1 & P2 & P3 & P4 & P5) & _ & Q & _). split.
  - intros (tid & o & E). rewrite <- P4 in E. destruct (qi_thr _ _ _ _ Q _ o _ E) as [T _]. exact T.
  - intros p r a [Lp C] [Lr C']. rewrite <- P2 in Lp, Lr. rewrite <- P3 in C, C'.
    exact (pi_inj _ _ _ _ _ _ (qi_tab _ _ _ _ Q) p r a Lp Lr C C').
Qed.

Lemma nth_in {A} (L : list A) x : In x L -> exists j, nth_error L (N.to_nat j) = Some x.
Proof.
  intros I. destruct (In_nth_error L x I) as [n E]. exists (N.of_nat n). now rewrite Nat2N.id.
Qed.

Lemma thr_lost lg tr s : 1 <= lg <= 63 -> lts_steps (thr_step c alloc client) (psys_init c lg) tr s -> quiescent s ->
  exists A, NoDup A /\ length A = lost tr /\
    (forall a, In a A -> ~ exists p, points_to c s p a) /\
    (forall a, pheap s a <> None <-> In a A \/ exists p, points_to c s p a) /\
    exists hp, destroy c (pmap s) (ptab s) (pheap s) = Some hp /\ forall a, hp a <> None <-> In a A.
Proof.
  intros LG ST QS. destruct (thr_inv lg tr s LG ST) as (L & q & (P1 & P2 & P3 & P4 & P5) & D & Q & N').
  pose proof Q as [QM QT QH QO QA]. rewrite P1, P2, P3 in *. rewrite Forall_forall in D.
  assert (OWN : forall x, In x L -> owns (fst x) (snd x) (slot_addr x)).
  { intros [o pc] I. destruct (D _ I) as (AD & (w & E) & _). split; auto. exists w. unfold slot_addr. cbn in *.
    rewrite E. auto. }
  assert (OK : forall x, In x L -> pheap s (slot_addr x) <> None /\ forall p, p < total_slots (pmc c) (pmap s) ->
            ~ cellp (ptab s) p (slot_addr x)).
  { intros [o pc] I. destruct (nth_in L _ I) as (j & E). rewrite <- P5 in E. destruct (QH _ _ _ E) as [T _].
    destruct (owns_ok _ _ _ _ _ _ _ _ _ T (OWN _ I)) as (_ & X & Y). rewrite X. split; [discriminate|exact Y]. }
  assert (IFF : forall a, pheap s a <> None <-> In a (map slot_addr L) \/ exists p, points_to c s p a).
  { intros a. split.
    - intros X. destruct (QA a X) as [_ [(p & Lp & C)|(i & o & pc & E & O)]].
      + right. exists p. split; auto.
      + left. destruct (parity i) as [[j ->]|[j ->]].
        * rewrite P4, QS in E. discriminate.
        * rewrite P5 in E. apply nth_error_In in E. apply in_map_iff. exists (o, pc). split; auto.
          destruct O as (_ & w & X1 & X2). unfold slot_addr. cbn. now rewrite X1.
    - intros [I|(p & Lp & C)].
      + apply in_map_iff in I. destruct I as (x & <- & I). now apply OK.
      + apply hkey_none. apply (pi_live _ _ _ _ _ _ QT p a Lp C). }
  assert (OUT : forall a, In a (map slot_addr L) -> ~ exists p, points_to c s p a).
  { intros a I (p & Lp & C). apply in_map_iff in I. destruct I as (x & <- & I). destruct (OK x I) as [_ Y].
    exact (Y p Lp C). }
  exists (map slot_addr L). sp; auto.
  - apply NoDup_nth_error. intros i j Li EQ. rewrite map_length in Li. rewrite !nth_error_map in EQ.
    destruct (nth_error L i) as [x|] eqn:Ei; [|apply nth_error_None in Ei; lia].
    destruct (nth_error L j) as [y|] eqn:Ej; [|discriminate]. cbn in EQ. injection EQ as EQ.
    destruct x as [o pc], y as [o' pc'].
    pose proof (OWN _ (nth_error_In _ _ Ei)) as O1. pose proof (OWN _ (nth_error_In _ _ Ej)) as O2.
    rewrite <- EQ in O2. rewrite <- (Nat2N.id i), <- P5 in Ei. rewrite <- (Nat2N.id j), <- P5 in Ej.
    pose proof (QO _ _ _ _ _ _ _ Ei Ej O1 O2). lia.
  - now rewrite map_length.
  - unfold destroy.
    destruct (cleanup_ok (ptab s) (N.to_nat (total_slots (pmc c) (pmap s))) 0 (pheap s)) as (hp' & E & X).
    + intros r Lr. rewrite N2Nat.id in Lr. destruct (pi_cell _ _ _ _ _ _ QT r) as (w & E & _); [lia|].
      exists w. split; auto. intros NZ. apply hkey_none. apply (pi_live _ _ _ _ _ _ QT r); [lia|]. now apply cellp_some.
    + intros r r' a Lr Lr'. rewrite N2Nat.id in *. apply (pi_inj _ _ _ _ _ _ QT); lia.
    + exists hp'. split; auto. intros a. rewrite (X a), (IFF a). rewrite N2Nat.id. split.
      * intros [[I|(p & Lp & C)] NC]; auto. elim (NC p); [lia|exact C].
      * intros I. split; auto. intros p Lp C. apply (OUT a I). exists p. split; [lia|exact C].
Qed.

End Reach.

Lemma lift_steps c alloc client s tr s' : lts_steps (psys_step c alloc client) s tr s' ->
  lts_steps (thr_step c alloc client) s (map TCall tr) s'.
Proof.
  induction 1 as [s|s s1 s2 tr S ST IH|s e s1 s2 tr S ST IH]; cbn [map].
  - constructor.
  - eapply ls_tau; [|exact IH]. exact (th_run c alloc client _ None _ S).
  - eapply ls_vis; [|exact IH]. exact (th_run c alloc client _ (Some e) _ S).
Qed.
