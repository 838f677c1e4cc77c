(** Consequences of the invariant of SyncInv.v. *)
From Coq Require Import NArith Bool List Lia.
From Verif Require Import Words BaseInv Sync SyncInv SyncSpec.
Import ListNotations.
Open Scope N_scope.

Section Facts.
Context (tso : bool) (nblocks slot : N -> N) (INJ : own_flags slot).
Notation ginv := (ginv tso nblocks slot).
Notation reach := (sync_reachable tso nblocks slot).

Lemma organising_orgof s i v : organising s i v <-> orgof (s_pc s i) = Some v.
Proof.
  unfold organising. destruct (s_pc s i); try destruct k; cbn; split; intros H; try contradiction; congruence.
Qed.

Lemma reach_of_history h s : history tso nblocks slot h s -> reach s.
Proof. induction 1; [constructor|]. econstructor; eauto. eexists; eauto. Qed.

Lemma run_reachable ls : forall s s', reach s -> sync_run tso nblocks slot s ls = Some s' -> reach s'.
Proof.
  induction ls as [|l ls IH]; cbn; intros s s' R H; [now injection H as <-|].
  destruct (sync_run1 tso nblocks slot s l) as [s1|] eqn:E; [|discriminate].
  apply (IH s1); auto. apply (sr_step _ _ _ s); auto. now exists l.
Qed.

Lemma untouched_inv s : reach s ->
  forall v, s_next s v = false -> s_block s v = 0 /\ forall b, s_moved s v b = false.
Proof.
  induction 1 as [|s s' R IH [l ST]]; [now split|].
  destruct (reach_inv tso nblocks slot INJ s R) as (c & o & G).
  intros v. destruct l as [i|i|i|i]; cbn [sync_run1] in ST.
  - pose proof (gi_th _ _ _ _ _ _ G i) as [_ T]. unfold sync_go, locked in ST.
    assert (ST' : (s_next s v = false -> s_next s' v = false -> s_block s' v = s_block s v /\ forall b, s_moved s' v b = s_moved s v b)
                  /\ (s_next s v = true -> s_next s' v = true)).
    { destruct (s_pc s i); repeat match type of ST with
        | context[match ?x with _ => _ end] => destruct x eqn:?
        | context[if ?x then _ else _] => destruct x eqn:?
        end; try discriminate; injection ST as <-; cbn; unfold put_store;
        repeat match goal with |- context[if tso then _ else _] => destruct tso end; cbn; auto.
      - split; auto; unfold fupd; intros; now destruct (_ =? _).
      - destruct T as (_ & _ & _ & _ & T). split; auto. unfold fupd. destruct (N.eqb_spec v v0) as [->|]; auto. congruence.
      - destruct T as (_ & _ & _ & _ & T). split; auto. unfold fupd. destruct (N.eqb_spec v v0) as [->|]; auto. congruence.
      - destruct T as (_ & _ & _ & T & _). split; auto. unfold fupd. destruct (N.eqb_spec v v0) as [->|]; auto. congruence. }
    destruct ST' as [A B]. intros E. destruct (s_next s v) eqn:NX; [rewrite B in E; auto; discriminate|].
    destruct (A eq_refl E) as [-> A2]. destruct (IH v NX) as [-> I2]. split; auto. intros b. now rewrite A2.
  - destruct (s_pc s i); try discriminate. injection ST as <-. apply IH.
  - destruct (s_pc s i); try discriminate. unfold locked in ST. destruct (s_buf s i); [|discriminate].
    injection ST as <-. apply IH.
  - destruct (s_buf s i) as [|x l]; [discriminate|]. injection ST as <-. destruct x; cbn; apply IH.
Qed.

Lemma starts_step c o s l s' : ginv c o s -> sync_run1 tso nblocks slot s l = Some s' ->
  starts s l s' = [] /\ s_epoch s' = s_epoch s \/ starts s l s' = [s_epoch s] /\ s_epoch s' = s_epoch s + 1.
Proof.
  intros G ST. destruct l as [i|i|i|i]; cbn [sync_run1 starts] in *.
  - pose proof (gi_th _ _ _ _ _ _ G i) as [_ T]. unfold sync_go, locked in ST.
    destruct (s_pc s i); repeat match type of ST with
      | context[match ?x with _ => _ end] => destruct x eqn:?
      | context[if ?x then _ else _] => destruct x eqn:?
      end; try discriminate; injection ST as <-; cbn; unfold put_store;
      repeat match goal with |- context[if tso then _ else _] => destruct tso end; cbn; auto;
      rewrite ?fupd_eq; auto.
    apply N.eqb_eq in Heqb. destruct T as [-> _]. right. now rewrite Heqb.
  - destruct (s_pc s i); try discriminate. injection ST as <-. auto.
  - destruct (s_pc s i); try discriminate. unfold locked in ST. destruct (s_buf s i); [|discriminate].
    injection ST as <-. auto.
  - destruct (s_buf s i) as [|x l]; [discriminate|]. injection ST as <-. destruct x; cbn; auto.
Qed.

Lemma history_epoch h s : history tso nblocks slot h s -> h = first_versions (N.to_nat (s_epoch s)).
Proof.
  induction 1 as [|h s l s' H IH ST]; [reflexivity|].
  destruct (reach_inv tso nblocks slot INJ s (reach_of_history _ _ H)) as (c & o & G).
  destruct (starts_step c o s l s' G ST) as [[-> ->]|[-> ->]]; [now rewrite app_nil_r|].
  rewrite IH. unfold first_versions. rewrite N.add_1_r, N2Nat.inj_succ, seq_S, map_app. cbn.
  now rewrite N2Nat.id.
Qed.

End Facts.
