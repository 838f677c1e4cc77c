(** Facts on Handles.v. *)
From Coq Require Import NArith Bool List Lia.
From Verif Require Import Words BaseInv Handles.
Import ListNotations.
Open Scope N_scope.

Record hinv (s : hsys) : Prop := {
  hv_has : forall t i, h_obj s t = HHas i -> i < max_handles /\ h_used s i = true;
  hv_try : forall t i, h_obj s t = HTry i -> i < max_handles;
  hv_inj : forall t u i, h_obj s t = HHas i -> h_obj s u = HHas i -> t = u;
  hv_used : forall i, h_used s i = true -> exists t, h_obj s t = HHas i }.

Lemma hinv_init : hinv hsys_init.
Proof. split; cbn; discriminate. Qed.

Lemma put_obj s t x u : h_obj (put s t x) u = if u =? t then x else h_obj s u.
Proof. reflexivity. Qed.

(** An object that holds no flags changes its state to another such. *)
Lemma hinv_put s t x : hinv s -> (forall i, h_obj s t <> HHas i) -> (forall i, x <> HHas i) ->
  (forall i, x = HTry i -> i < max_handles) -> hinv (put s t x).
Proof.
  intros [A B C D] N1 N2 TR. split.
  - intros u i. rewrite put_obj. destruct (N.eqb_spec u t); [intros E; now destruct (N2 i)|]. apply A.
  - intros u i. rewrite put_obj. destruct (N.eqb_spec u t); [apply TR|]. apply B.
  - intros u w i. rewrite !put_obj. destruct (N.eqb_spec u t), (N.eqb_spec w t); try (intros; now destruct (N2 i)).
    apply C.
  - intros i U. destruct (D i U) as [u Hu]. exists u. rewrite put_obj. destruct (N.eqb_spec u t) as [->|]; auto.
    now destruct (N1 i).
Qed.

Lemma hinv_step s l s' : hinv s -> hsys_run1 s l = Some s' -> hinv s'.
Proof.
  intros I R. destruct l as [t|t|t|t u]; cbn in R.
  - destruct (h_obj s t) eqn:E; try discriminate. injection R as <-.
    apply hinv_put; auto; congruence.
  - destruct (h_obj s t) eqn:E; try discriminate.
    + destruct (N.ltb_spec i max_handles); injection R as <-.
      * destruct (h_used s i); apply hinv_put; auto; try congruence.
      * apply hinv_put; auto; congruence.
    + destruct (h_used s i) eqn:U; injection R as <-.
      * apply hinv_put; auto; congruence.
      * pose proof (hv_try _ I t i E) as L. destruct I as [A B C D].
        assert (F : forall u, h_obj s u <> HHas i) by (intros u Hu; destruct (A u i Hu); congruence).
        split; cbn.
        -- intros u j. unfold fupd. destruct (N.eqb_spec u t) as [->|NE].
           ++ intros [= <-]. now rewrite N.eqb_refl.
           ++ intros Hu. destruct (A u j Hu). destruct (j =? i); auto.
        -- intros u j. unfold fupd. destruct (N.eqb_spec u t) as [->|NE]; [discriminate|apply B].
        -- intros u w j. unfold fupd. destruct (N.eqb_spec u t) as [->|N1], (N.eqb_spec w t) as [->|N2]; auto.
           ++ intros [= <-] H. now destruct (F w).
           ++ intros H [= <-]. now destruct (F u).
           ++ apply C.
        -- intros j. unfold fupd. destruct (N.eqb_spec j i) as [->|NE].
           ++ intros _. exists t. now rewrite N.eqb_refl.
           ++ intros U2. destruct (D j U2) as [u Hu]. exists u. destruct (N.eqb_spec u t) as [->|]; auto. congruence.
  - destruct (h_obj s t) eqn:E; try discriminate; injection R as <-.
    + destruct I as [A B C D]. split; cbn.
      * intros u j. unfold fupd. destruct (N.eqb_spec u t) as [->|NE]; [discriminate|].
        intros Hu. destruct (A u j Hu). destruct (N.eqb_spec j i) as [->|]; auto. now destruct NE; apply (C u t i).
      * intros u j. unfold fupd. destruct (N.eqb_spec u t) as [->|NE]; [discriminate|apply B].
      * intros u w j. unfold fupd. destruct (N.eqb_spec u t) as [->|N1], (N.eqb_spec w t) as [->|N2]; try discriminate. apply C.
      * intros j. unfold fupd. destruct (N.eqb_spec j i) as [->|NE]; [discriminate|].
        intros U2. destruct (D j U2) as [u Hu]. exists u. destruct (N.eqb_spec u t) as [->|]; auto. congruence.
    + apply hinv_put; auto; congruence.
  - assert (X : forall x, h_obj s t = x -> h_obj s u = HNone -> (x = HBad \/ exists i, x = HHas i) ->
       hinv (put (put s t HNone) u x)).
    { intros x E1 E2 SH. destruct I as [A B C D].
      assert (TU : t <> u) by (intros ->; destruct SH as [->|[i ->]]; congruence).
      split; cbn; unfold fupd.
      - intros w j. destruct (N.eqb_spec w u); [intros ->; apply (A t); auto|].
        destruct (N.eqb_spec w t); [discriminate|apply A].
      - intros w j. destruct (N.eqb_spec w u); [intros ->; now apply (B t)|].
        destruct (N.eqb_spec w t); [discriminate|apply B].
      - intros w w' j. destruct (N.eqb_spec w u) as [->|], (N.eqb_spec w' u) as [->|]; auto;
          repeat match goal with |- context[?a =? t] => destruct (N.eqb_spec a t) end; try discriminate.
        + intros -> H. specialize (C w' t j H E1). congruence.
        + intros H ->. specialize (C w t j H E1). congruence.
        + apply C.
      - intros j U. destruct (D j U) as [w Hw]. destruct (N.eq_dec w t) as [->|NE].
        + exists u. rewrite N.eqb_refl. congruence.
        + exists w. destruct (N.eqb_spec w u) as [->|]; [congruence|]. destruct (N.eqb_spec w t); congruence. }
    destruct (h_obj s t) eqn:E; try discriminate; destruct (h_obj s u) eqn:E2; try discriminate; injection R as <-;
      apply X; eauto.
Qed.

Lemma hinv_reach s : hsys_reachable s -> hinv s.
Proof.
  intros [ls R]. revert R. assert (H : hinv hsys_init) by apply hinv_init. revert H.
  generalize hsys_init. induction ls as [|l ls IH]; cbn; intros s0 H R.
  - now injection R as <-.
  - destruct (hsys_run1 s0 l) as [s1|] eqn:E; [|discriminate]. apply (IH s1); [eapply hinv_step; eauto|exact R].
Qed.

(** An undisturbed constructor at slot [i]. *)
Lemma scan_free n : forall s t i, h_obj s t = HScan i -> i + N.of_nat n < max_handles ->
  (forall j, i <= j < i + N.of_nat n -> h_used s j = true) -> h_used s (i + N.of_nat n) = false ->
  exists s', hsys_run s (repeat (HGo t) (n + 2)) = Some s' /\ h_obj s' t = HHas (i + N.of_nat n).
Proof.
  induction n as [|n IH]; intros s t i E L U F.
  - cbn in *. rewrite N.add_0_r in *. rewrite E. rewrite (proj2 (N.ltb_lt _ _) L), F. cbn.
    rewrite fupd_eq. rewrite F. eexists. split; [reflexivity|]. cbn. now rewrite fupd_eq.
  - cbn [Nat.add repeat hsys_run hsys_run1]. rewrite E.
    assert (LT : i <? max_handles = true) by (apply N.ltb_lt; lia). rewrite LT.
    rewrite (U i) by lia.
    destruct (IH (put s t (HScan (i + 1))) t (i + 1)) as (s' & R & O).
    + cbn. apply fupd_eq.
    + lia.
    + intros j Lj. cbn. apply U. lia.
    + cbn. replace (i + 1 + N.of_nat n) with (i + N.of_nat (S n)) by lia. exact F.
    + exists s'. split; [exact R|]. rewrite O. f_equal. lia.
Qed.

Lemma scan_full n : forall s t i, h_obj s t = HScan i -> i + N.of_nat n = max_handles ->
  (forall j, i <= j < max_handles -> h_used s j = true) ->
  exists s', hsys_run s (repeat (HGo t) (n + 1)) = Some s' /\ h_obj s' t = HBad /\
    (forall u, u <> t -> h_obj s' u = h_obj s u) /\ h_used s' = h_used s.
Proof.
  induction n as [|n IH]; intros s t i E L U.
  - cbn [Nat.add repeat hsys_run hsys_run1]. rewrite E. rewrite (proj2 (N.ltb_ge _ _)) by lia.
    eexists. split; [reflexivity|]. cbn. rewrite fupd_eq. repeat split; auto. intros u NU. now rewrite fupd_neq.
  - cbn [Nat.add repeat hsys_run hsys_run1]. rewrite E.
    rewrite (proj2 (N.ltb_lt _ _)) by lia. rewrite (U i) by lia.
    destruct (IH (put s t (HScan (i + 1))) t (i + 1)) as (s' & R & O & O2 & O3).
    + cbn. apply fupd_eq.
    + lia.
    + intros j Lj. cbn. apply U. lia.
    + exists s'. split; [exact R|]. split; [auto|]. split; [|exact O3].
      intros u NU. rewrite O2 by auto. cbn. now rewrite fupd_neq.
Qed.

Lemma hsys_run_app l1 l2 s : hsys_run s (l1 ++ l2) = match hsys_run s l1 with Some s' => hsys_run s' l2 | None => None end.
Proof. revert s. induction l1 as [|l l1 IH]; cbn; intros s; auto. destruct (hsys_run1 s l); auto. Qed.

(** The handles 0, 1, ... created one after the other. *)
Fixpoint creations (n : nat) : list hlabel :=
  match n with
  | O => []
  | S n => creations n ++ HCreate (N.of_nat n) :: repeat (HGo (N.of_nat n)) (n + 2)
  end.

Lemma creations_run n : N.of_nat n <= max_handles -> exists s, hsys_run hsys_init (creations n) = Some s /\
  (forall j, j < N.of_nat n -> h_obj s j = HHas j) /\ (forall j, N.of_nat n <= j -> h_obj s j = HNone) /\
  (forall j, h_used s j = (j <? N.of_nat n)).
Proof.
  induction n as [|n IH]; intros L.
  - exists hsys_init. repeat split; cbn; auto; try lia. intros j. now destruct j.
  - destruct IH as (s & R & H1 & H2 & H3); [lia|]. cbn [creations]. rewrite hsys_run_app, R.
    set (t := N.of_nat n) in *. cbn [hsys_run hsys_run1]. rewrite (H2 t) by lia.
    assert (X : forall m s0 i, h_obj s0 t = HScan i -> i + N.of_nat m = t -> (forall j, h_used s0 j = (j <? t)) ->
       (forall j, j <> t -> h_obj s0 j = h_obj s j) ->
       exists s', hsys_run s0 (repeat (HGo t) (m + 2)) = Some s' /\ h_obj s' t = HHas t /\
         (forall j, j <> t -> h_obj s' j = h_obj s j) /\ forall j, h_used s' j = (j <? t + 1)).
    { induction m as [|m IHm]; intros s0 i E1 E2 E3 E4.
      - assert (i = t) by lia. subst i. cbn. rewrite E1. rewrite (proj2 (N.ltb_lt _ _)) by lia.
        rewrite E3, N.ltb_irrefl. cbn. rewrite fupd_eq, E3, N.ltb_irrefl. eexists. split; [reflexivity|]. cbn.
        rewrite fupd_eq. repeat split; auto.
        + intros j NJ. rewrite !fupd_neq by auto. auto.
        + intros j. unfold fupd. destruct (N.eqb_spec j t) as [->|NJ].
          * symmetry. apply N.ltb_lt. lia.
          * rewrite E3. apply eq_true_iff_eq. rewrite !N.ltb_lt. lia.
      - cbn [Nat.add repeat hsys_run hsys_run1]. rewrite E1, (proj2 (N.ltb_lt _ _)) by lia.
        rewrite E3, (proj2 (N.ltb_lt _ _)) by lia.
        apply (IHm _ (i + 1)); cbn.
        + apply fupd_eq.
        + lia.
        + exact E3.
        + intros j NJ. rewrite fupd_neq by auto. auto. }
    destruct (X n (put s t (HScan 0)) 0) as (s' & R' & O1 & O2 & O3); auto.
    + cbn. apply fupd_eq.
    + intros j NJ. cbn. now rewrite fupd_neq.
    + exists s'. split; [exact R'|]. replace (N.of_nat (S n)) with (t + 1) in * by lia. split; [|split].
      * intros j Lj. destruct (N.eq_dec j t) as [->|NE]; auto. rewrite O2 by auto. apply H1. lia.
      * intros j Lj. rewrite O2 by lia. apply H2. lia.
      * exact O3.
Qed.
