(** General facts about linearizability. *)
From Coq Require Import NArith Bool List Lia.
From Verif Require Import Words LinSpec BaseInv.
Import ListNotations.
Open Scope N_scope.

(** The specification may be strengthened for the operations that occur. *)
Lemma asteps_strengthen {St Op Res} (spec spec' : St -> Op -> St -> Res -> Prop) (G : Op -> Prop) x tr y :
  (forall s o s' r, G o -> spec s o s' r -> spec' s o s' r) ->
  asteps spec x tr y ->
  (forall t o, ath x t = APend o -> G o) ->
  (forall t o, In (EInv t o) tr -> G o) ->
  asteps spec' x tr y.
Proof.
  intros H. induction 1 as [a|a b c tr S1 S IH|a e b c tr S1 S IH]; intros P Q.
  - constructor.
  - inversion S1 as [|s th t o s' r E SP|]; subst. eapply as_tau.
    + eapply a_lin; [exact E|]. apply H; [|exact SP]. eapply P; exact E.
    + apply IH; auto. intros u o'. cbn. unfold fupd. destruct (N.eqb_spec u t); [discriminate|apply P].
  - eapply as_vis.
    + inversion S1; subst; [apply a_inv|apply a_ret]; auto.
    + apply IH; [|intros t o I; eapply Q; right; eauto].
      inversion S1 as [s th t o E| |s th t r E]; subst; intros u o'; cbn; unfold fupd;
        (destruct (N.eqb_spec u t); [|apply P]); [|discriminate].
      intros [= <-]. eapply Q. left. reflexivity.
Qed.
