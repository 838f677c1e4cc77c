(** The element counters when the allocation of a new table fails: proofs. *)
From Coq Require Import ZArith List Bool Lia.
From Verif Require Import Count CountSpec CountFacts CountOom.
Import ListNotations.
Open Scope Z_scope.

Definition flushing (h : handle) : Prop :=
  match h_flush h with FTable | FDummies _ | FElems _ => h_reset h = RNone | _ => True end.
Definition all_flushing (s : cstate) : Prop := forall h, In (Some h) (g_handles s) -> flushing h.
Definition bal (s : cstate) : Z := g_elems s - g_dummies s + total owed (g_handles s) - (g_inserted s - g_erased s).

Lemma put_flushing l i h x : nth_error l i = Some (Some h) ->
  (forall h, In (Some h) l -> flushing h) -> (forall y, x = Some y -> flushing y) ->
  forall y, In (Some y) (put i x l) -> flushing y.
Proof. intros _ A B y I. apply in_put in I. destruct I as [I|I]; auto. Qed.

Lemma cstep_flushing s e s' : cstep s e s' -> all_flushing s -> all_flushing s'.
Proof.
  intros ST A. unfold all_flushing in *.
  assert (NH : flushing new_handle) by exact Logic.I.
  destruct ST; cbn [g_handles] in *;
    try match goal with
    | H : nth_error ?l ?i = Some (Some ?h) |- _ => pose proof (A h (nth_in _ _ _ H)) as F
    end.
  1: { intros y I. apply in_app_iff in I. destruct I as [I|[I|[]]]; [auto|]. injection I as <-. exact NH. }
  1: { intros y I. apply in_app_iff in I. destruct I as [I|[I|[]]].
       - eapply put_flushing; eauto. intros z [= <-]. exact NH.
       - injection I as <-. exact F. }
  all: eapply put_flushing; eauto; intros z Hz; unfold flushing, flushed, counted in *; revert Hz;
    destruct h as [u0 i0 x0 fl rs dy]; cbn in *; subst;
    repeat match goal with |- context [if ?b then _ else _] => destruct b end;
    intros [= <-]; cbn; auto.
  all: repeat match goal with H : _ \/ _ |- _ => destruct H; subst end; cbn; auto.
  all: destruct fl; auto; congruence.
Qed.

Lemma cstep_bal s e s' : cstep s e s' -> all_flushing s -> bal s' = bal s.
Proof.
  intros ST A. unfold all_flushing in *.
  destruct ST; cbn [g_handles] in *;
    try match goal with
    | H : nth_error ?l ?i = Some (Some ?h) |- _ => pose proof (A h (nth_in _ _ _ H)) as F
    end; unfold bal; cbn [g_elems g_dummies g_handles g_inserted g_erased];
    rewrite ?total_app; cbn [total]; try (erewrite total_put by eassumption); cbn [fopt];
    try (unfold owed; cbn; lia);
    unfold flushing in F; destruct h as [u0 i0 x0 fl rs dy]; cbn in *; subst;
    unfold flushed, owed, counted; cbn;
    repeat match goal with |- context [if ?b then _ else _] => destruct b end; cbn; lia.
Qed.

Definition co_all (s : costate) : Prop := match s with Running s => all_flushing s | Terminated => True end.

Lemma costep_bal s e s' : costep (Running s) e (Running s') -> all_flushing s ->
  all_flushing s' /\ bal s' = bal s + again e.
Proof.
  intros ST A. inversion ST as [? e0 ? S|el d l b n r hs i h E FG RS DY|]; subst.
  - split; [eapply cstep_flushing; eauto|]. rewrite (cstep_bal _ _ _ S A). destruct e0; cbn; lia.
  - split.
    + unfold all_flushing. cbn [g_handles]. eapply put_flushing; eauto. intros z [= <-]. exact Logic.I.
    + unfold bal. cbn [g_elems g_dummies g_handles g_inserted g_erased]. erewrite total_put by eassumption.
      destruct h as [u0 i0 x0 fl rs dy]. cbn in *. subst. unfold owed. cbn. lia.
Qed.

Lemma costeps_bal s tr s' : costeps s tr s' -> forall a b, s = Running a -> s' = Running b -> all_flushing a ->
  all_flushing b /\ bal b = bal a + again_all tr.
Proof.
  induction 1 as [s|s1 s2 s3 tr S1 S2 IH|s1 e s2 s3 tr S1 S2 IH]; intros a b Ea Eb A; subst.
  - injection Eb as ->. split; auto. cbn. lia.
  - destruct s2 as [m|].
    + destruct (costep_bal _ _ _ S1 A) as [A1 B1]. destruct (IH _ _ eq_refl eq_refl A1) as [A2 B2].
      split; auto. cbn in B1. lia.
    + inversion S1.
  - destruct s2 as [m|].
    + destruct (costep_bal _ _ _ S1 A) as [A1 B1]. destruct (IH _ _ eq_refl eq_refl A1) as [A2 B2].
      split; auto. cbn [again_all]. lia.
    + inversion S2 as [|? ? ? ? X|? ? ? ? ? X]; subst; inversion X.
Qed.

Lemma csteps_co s tr s' : csteps s tr s' -> costeps (Running s) (map CStep tr) (Running s').
Proof.
  induction 1 as [|a b d tr S _ IH|a e b d tr S _ IH]; cbn; [constructor|eapply cos_tau|eapply cos_vis]; eauto.
  - exact (co_step _ None _ S).
  - exact (co_step _ (Some e) _ S).
Qed.

Lemma costeps_app a tr b tr' d : costeps a tr b -> costeps b tr' d -> costeps a (tr ++ tr') d.
Proof. induction 1; cbn; intros; auto; [eapply cos_tau|eapply cos_vis]; eauto. Qed.
