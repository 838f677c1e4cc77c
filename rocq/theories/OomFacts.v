(** Proofs about failed allocations. *)
From Coq Require Import NArith Bool List Lia.
From Verif Require Import Words BaseInv Sync SyncInv SyncSpec SyncFacts SyncEndSpec SyncEnd Async AsyncInv AsyncSpec Oom.
Import ListNotations.
Open Scope N_scope.

Section Sync_.
Context (tso : bool) (nblocks slot : N -> N) (INJ : own_flags slot).
Notation run1 := (sync_run1 tso nblocks slot).

(** Nobody organises a growth step, and nobody will. *)
Definition dead_pc (c : N) (p : spc) : Prop :=
  orgof p = None /\
  match p with
  | POp w | PRls (Some w) | PGrow1 w => w <= c
  | PGrow2 w e => e <= c
  | PGet2 w | PGet3 w => w <= c
  | PDelete w => w < c
  | _ => True
  end.

Record dead (c : N) (s : sst) : Prop := {
  de_tab : s_tab s = TMarked c;
  de_next : s_next s c = false;
  de_epoch : s_epoch s = c + 1;
  de_del : s_deleted s c = false;
  de_pc : forall i, dead_pc c (s_pc s i) }.

Lemma store_more s i x :
  s_deleted (put_store tso slot s i x) = s_deleted s /\ s_moved (put_store tso slot s i x) = s_moved s.
Proof. unfold put_store. destruct tso, x; cbn; auto. Qed.

Ltac one_step R :=
  repeat (match type of R with
  | context [locked _ _ _] => unfold locked in R
  | context [match s_buf ?s ?i with _ => _ end] => destruct (s_buf s i) eqn:?
  | context [match s_tab ?s with _ => _ end] => destruct (s_tab s) eqn:?
  | context [match s_ops ?s ?i with _ => _ end] => destruct (s_ops s i) eqn:?
  | context [match s_mig ?s ?i with _ => _ end] => destruct (s_mig s i) eqn:?
  | context [match ?w with Some _ => _ | None => _ end] => is_var w; destruct w eqn:?
  | context [if ?b then _ else _] => destruct b eqn:?
  end; try discriminate); try discriminate R.

(** Where a thread can go. *)
Definition follows (c : N) (p q : spc) : Prop :=
  q = p \/
  (forall w, q <> POp w) /\ (p = PGet1 -> q = PMig1 KHelp) /\ (p = PMig1 KHelp -> q = PMig2 KHelp c) /\
  (p = PMig2 KHelp c -> exists g, q = PMig3 KHelp c g) /\ (forall g, p <> PMig3 KHelp c g).

Lemma dead_step c s l s' : dead c s -> run1 s l = Some s' -> dead c s' /\ forall i, follows c (s_pc s i) (s_pc s' i).
Proof.
  intros D R. destruct (step_frame tso nblocks slot INJ s l s' R) as [FR _].
  destruct D as [D1 D2 D3 D4 D5].
  enough (E : s_tab s' = TMarked c /\ s_next s' c = false /\ s_epoch s' = c + 1 /\ s_deleted s' c = false /\
    dead_pc c (s_pc s' (actor l)) /\ follows c (s_pc s (actor l)) (s_pc s' (actor l))).
  { destruct E as (E1 & E2 & E3 & E4 & E5 & E6). split.
    - split; auto. intros i. destruct (N.eq_dec i (actor l)) as [->|NE]; auto. now rewrite (proj1 (FR i NE)).
    - intros i. destruct (N.eq_dec i (actor l)) as [->|NE]; auto. rewrite (proj1 (FR i NE)). now left. }
  specialize (D5 (actor l)). destruct l as [i|i|i|i]; cbn [actor] in *; cbn in R.
  - unfold sync_go in R. rewrite ?D1 in R.
    destruct (s_pc s i) eqn:P; destruct D5 as [D5 D6]; try discriminate D5; one_step R; try discriminate; injection R as <-.
    all: cbn [s_last s_pc s_epoch s_block s_tab s_buf s_next s_deleted set_pc set_tab set_epoch set_last set_next set_block set_moved set_deleted].
    all: rewrite ?fupd_eq, ?P.
    all: try (match goal with |- context [put_store ?a ?b ?s0 ?i0 ?x] =>
             destruct (store_rest a b INJ s0 i0 x) as (SR1 & SR2 & SR3 & SR4 & SR5 & SR6);
             destruct (store_more s0 i0 x) as (SR7 & SR8); rewrite ?SR1, ?SR2, ?SR4, ?SR7 end).
    all: repeat (split; [solve [auto | unfold fupd; match goal with |- context [?cc =? ?w] => destruct (N.eqb_spec cc w); [lia|auto] end]|]).
    all: try (apply N.ltb_ge in Heqb; lia).
    all: try (apply N.eqb_eq in Heqb; lia).
    all: try (match goal with k : caller |- _ => destruct k; try discriminate D5 end).
    all: split; [split; [reflexivity|cbn; try exact I; try exact D6; try (destruct w; exact I || exact D6 || lia); auto]|].
    all: try (now left).
    all: right; split; [intros ?; try discriminate; try (destruct w; discriminate)|];
         split; [intros E; try discriminate E; congruence|]; split; [intros E; try discriminate E; congruence|];
         split; [intros E; try discriminate E; eauto|intros ? E; try discriminate E].
    all: injection E as E; subst; try congruence; eauto.
  - destruct (s_pc s i) eqn:P; try discriminate. injection R as <-. destruct D5 as [D5 D6]. cbn. rewrite fupd_eq.
    repeat (split; auto). right. repeat split; discriminate.
  - destruct (s_pc s i) eqn:P; try discriminate. one_step R. injection R as <-. destruct D5 as [D5 D6]. cbn. rewrite fupd_eq.
    repeat (split; auto). right. repeat split; discriminate.
  - destruct (s_buf s i) as [|x b]; [discriminate|]. injection R as <-. destruct x; cbn; repeat (split; auto); now left.
Qed.

Lemma dead_step_oom c s s' : dead c s -> sync_step_oom tso nblocks slot s s' ->
  dead c s' /\ forall i, follows c (s_pc s i) (s_pc s' i).
Proof.
  intros D [[l R]|[i R]]; [exact (dead_step c s l s' D R)|]. exfalso.
  unfold sync_fail in R. pose proof (de_pc _ _ D i) as [O _]. destruct (s_pc s i); discriminate.
Qed.

Lemma fail_dead s i v s1 : sync_reachable tso nblocks slot s -> s_pc s i = PGrow5 v -> sync_fail s i = Some s1 -> dead v s1.
Proof.
  intros R P F. unfold sync_fail in F. rewrite P in F. injection F as <-.
  destruct (reach_inv tso nblocks slot INJ s R) as (c & o & G).
  destruct (is_org _ _ _ c o s i v G) as (-> & -> & T & E); [now rewrite P|]. rewrite P in T. cbn in T.
  split; cbn; auto.
  - destruct (s_next s c) eqn:N; auto. destruct (gi_next _ _ _ _ _ _ G c N) as [?|[_ X]]; [lia|]. cbn in X. rewrite P in X. destruct X.
  - destruct (s_deleted s c) eqn:N; auto. pose proof (gi_del _ _ _ _ _ _ G c N). lia.
  - intros j. destruct (N.eq_dec j i) as [->|NE]; [rewrite fupd_eq; split; cbn; auto|]. rewrite fupd_neq by auto.
    pose proof (gi_th _ _ _ _ _ _ G j) as [_ TJ]. split.
    + apply (gi_only _ _ _ _ _ _ G). congruence.
    + destruct (s_pc s j); cbn in TJ |- *; auto; try apply TJ. destruct TJ. lia.
Qed.

Lemma later_dead c s s' : dead c s -> sync_later tso nblocks slot s s' ->
  dead c s' /\ forall i, (forall w, s_pc s' i = POp w -> s_pc s i = POp w) /\
    (s_pc s i = PGet1 -> s_pc s' i = PGet1 \/ s_pc s' i = PMig1 KHelp \/ s_pc s' i = PMig2 KHelp c \/ exists g, s_pc s' i = PMig3 KHelp c g).
Proof.
  intros D L. induction L as [|s1 s2 L (D1 & H) ST]; [split; auto|].
  destruct (dead_step_oom c s1 s2 D1 ST) as [D2 F]. split; auto. intros i. destruct (H i) as [H1 H2]. split.
  - intros w E. destruct (F i) as [X|(X & _)]; [apply H1; congruence|]. now apply X in E.
  - intros E. specialize (H2 E). destruct (F i) as [X|(_ & X1 & X2 & X3 & X4)]; [rewrite X; exact H2|].
    destruct H2 as [H2|[H2|[H2|[g H2]]]]; auto. now apply X4 in H2.
Qed.

End Sync_.

Lemma areach_oom_inv nblocks s : async_reachable_oom nblocks s -> ainv nblocks s.
Proof.
  induction 1 as [|s s' R G [ST|[i F]]].
  - apply (areach_inv nblocks), ar_init.
  - destruct ST as [l ST]. eapply run1_inv; eauto.
  - unfold async_fail in F. destruct (y_pc s i) eqn:P; try discriminate. injection F as <-.
    assert (Q : forall j, fupd (y_pc s) i AIdle j = y_pc s j \/ j = i).
    { intros j. destruct (N.eq_dec j i) as [->|NE]; auto. left. now apply fupd_neq. }
    assert (DN : forall v, done nblocks s v -> done nblocks (with_pc s i AIdle) v).
    { intros v (D1 & D2 & D3). split; auto. split; auto. intros j b. cbn. destruct (Q j) as [->| ->]; [apply D3|rewrite fupd_eq; discriminate]. }
    destruct G as [G1 G2 G3 G4 G5 G6 G7 G8 G9]. split; cbn; auto.
    + intros H. destruct (G2 H) as [j E]. exists j. rewrite fupd_neq; congruence.
    + intros j k. destruct (Q j) as [->| ->]; [|rewrite fupd_eq; discriminate]. destruct (Q k) as [->| ->]; [|rewrite fupd_eq; discriminate]. apply G3.
    + intros v H. destruct (G5 v H). auto.
    + intros v b H1 H2. destruct (G7 v b H1 H2) as [H|[j H]]; auto. right. exists j. rewrite fupd_neq; congruence.
    + destruct G8 as (l & H1 & H2 & H3). exists l. split; auto. split; auto. intros j. rewrite H3.
      destruct (Q j) as [->| ->]; [tauto|]. rewrite fupd_eq, P. cbn. tauto.
    + intros j. destruct (Q j) as [E| ->].
      * rewrite E. pose proof (G9 j) as T. destruct T as [T1 T2]. split; [exact T1|].
        destruct (y_pc s j); auto; destruct T2 as (T2 & T3 & T4); (split; [exact T2|]); (split; [exact T3|]);
          (destruct T4 as [T4|T4]; [left; exact T4|right; apply DN, T4]) || exact T4.
      * rewrite fupd_eq. pose proof (G9 i) as T. rewrite P in T. exact T.
Qed.
