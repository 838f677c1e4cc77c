(** Consequences of the invariant of AsyncInv.v. *)
From Coq Require Import NArith Bool List Lia.
From Verif Require Import Words BaseInv Async AsyncInv AsyncSpec.
Import ListNotations.
Open Scope N_scope.

Section Facts.
Context (nblocks : N -> N).

Lemma arun_reachable ls : forall s s', async_reachable nblocks s -> async_run nblocks s ls = Some s' ->
  async_reachable nblocks s'.
Proof.
  induction ls as [|l ls IH]; cbn; intros s s' R H; [now injection H as <-|].
  destruct (async_run1 nblocks s l) as [s1|] eqn:E; [|discriminate].
  apply (IH s1); auto. apply (ar_step _ s); auto. now exists l.
Qed.

Lemma pub_reachable h s : publications nblocks h s -> async_reachable nblocks s.
Proof. induction 1; [constructor|]. econstructor; eauto. eexists; eauto. Qed.

(** What a step does to the published version, the epoch and a waiting thread. *)
Lemma step_effect s l s' : ainv nblocks s -> async_run1 nblocks s l = Some s' ->
  (y_tab s' = y_tab s \/ y_tab s' = y_tab s + 1) /\ y_epoch s <= y_epoch s' /\
  forall i w, awaiting s i w -> w < y_epoch s -> awaiting s' i w.
Proof.
  intros G R.
  assert (AW : forall i, (exists o, y_pc s i = AWait o) -> forall p q lo', y_pc s' = fupd (y_pc s) p q ->
     y_pc s p <> AWait true -> y_pc s p <> AWait false -> y_loc s' = lo' -> (forall j, j <> p -> lo' j = y_loc s j) ->
     (exists o, y_pc s' i = AWait o) /\ y_loc s' i = y_loc s i).
  { intros i [o Ho] p q lo' E1 N1 N2 E2 E3. assert (i <> p) by (intros ->; destruct o; congruence).
    rewrite E1, fupd_neq by auto. split; [eauto|]. rewrite E2. auto. }
  destruct l as [i|i|i|i]; cbn in R.
  - pose proof (ai_th _ _ G i) as [T1 T2].
    destruct s as [tb ep hp nx bl mv pc lo le]. unfold async_go in R. cbn in *.
    assert (K : forall j w s2, (forall o, pc i <> AWait o) ->
       y_pc s2 = fupd pc i (y_pc s2 i) -> (forall k, k <> i -> y_loc s2 k = lo k) ->
       awaiting (ASt tb ep hp nx bl mv pc lo le) j w -> awaiting s2 j w).
    { intros j w s2 NW E1 E2 [[o Ho] Hw]. cbn in *. assert (j <> i) by (intros ->; eapply NW; eauto).
      split; [exists o; now rewrite E1, fupd_neq|now rewrite E2]. }
    destruct (pc i) eqn:P; repeat match type of R with
        | context[if ?x then _ else _] => destruct x eqn:?
        end; try discriminate; injection R as <-; cbn;
      try (split; [auto|]; split; [lia|]; intros j w A L; apply K; auto; cbn; rewrite ?fupd_eq;
           auto; try congruence; try (intros k NK; now rewrite fupd_neq); fail);
      try (split; [now left|]; split; [lia|]; intros; assumption).
    + split; [auto|]. split; [lia|]. intros j w [[o Ho] Hw] L. cbn in *. subst w.
      apply N.eqb_eq in Heqb. assert (j <> i) by (intros ->; lia).
      split; cbn; [exists o; now rewrite fupd_neq|auto].
    + split; [auto|]. split; [lia|]. intros j w [[o Ho] Hw] L. cbn in *. subst w.
      apply N.eqb_eq in Heqb. assert (j <> i) by (intros ->; lia).
      split; cbn; [exists o; now rewrite fupd_neq|auto].
    + apply N.eqb_eq in Heqb. subst tb. split; [auto|]. split; [lia|].
      intros j w A L. apply K; auto; cbn; rewrite ?fupd_eq; auto; congruence.
  - destruct (y_pc s i) eqn:P; try discriminate. injection R as <-. cbn. split; [auto|]. split; [lia|].
    intros j w [[o Ho] Hw] L. split; cbn; auto. exists o. rewrite fupd_neq; auto. congruence.
  - destruct (y_pc s i) eqn:P; try discriminate. destruct (y_next s (y_loc s i)); [|discriminate]. injection R as <-. cbn.
    split; [auto|]. split; [lia|].
    intros j w [[o Ho] Hw] L. split; cbn; auto. exists o. rewrite fupd_neq; auto. congruence.
  - destruct (y_pc s i) eqn:P; try discriminate. injection R as <-. cbn. split; [auto|]. split; [lia|].
    intros j w [[o Ho] Hw] L. split; cbn; auto. exists o. rewrite fupd_neq; auto. congruence.
Qed.

Lemma publications_tab h s : publications nblocks h s -> h = first_successors (N.to_nat (y_tab s)).
Proof.
  induction 1 as [|h s l s' H IH ST]; [reflexivity|].
  pose proof (areach_inv nblocks s (pub_reachable _ _ H)) as G.
  destruct (step_effect s l s' G ST) as ([E|E] & _); unfold published; rewrite E.
  - rewrite N.eqb_refl, app_nil_r. exact IH.
  - rewrite (proj2 (N.eqb_neq _ _)) by lia. rewrite IH. unfold first_successors.
    rewrite N.add_1_r, N2Nat.inj_succ, seq_S, map_app. cbn [map]. do 3 f_equal. lia.
Qed.

Lemma stuck s i w : async_reachable nblocks s -> awaiting s i w -> w < y_epoch s ->
  forall s', later nblocks s s' -> awaiting s' i w /\ w < y_epoch s' /\ async_reachable nblocks s'.
Proof.
  intros R A L s' LA. induction LA as [|s1 s2 _ IH [l ST]]; [auto|]. destruct IH as (A1 & L1 & R1).
  pose proof (areach_inv nblocks s1 R1) as G. destruct (step_effect s1 l s2 G ST) as (_ & E & K).
  split; [auto|]. split; [lia|]. econstructor; eauto. now exists l.
Qed.

End Facts.
