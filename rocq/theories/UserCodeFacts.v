(** Proofs about user code that throws or calls the table. *)
From Coq Require Import NArith Bool List Lia.
From Verif Require Import Words BaseInv Sync SyncInv SyncSpec SyncFacts SyncEndSpec SyncEnd Async AsyncInv AsyncSpec AsyncFacts AsyncEndSpec AsyncEnd UserCode.
Import ListNotations.
Open Scope N_scope.

Section Sync_.
Context (tso : bool) (nblocks slot : N -> N) (INJ : own_flags slot).
Notation run1 := (sync_run1 tso nblocks slot).
Notation ginv := (ginv tso nblocks slot).
Notation step_thr := (sync_step_thr tso nblocks slot).

Lemma thr_cases i s s' : step_thr i s s' -> (exists l, actor l = i /\ run1 s l = Some s') \/ sync_throw s i = Some s'.
Proof. intros [(l & A & R)|T]; [left|now right]. exists l. split; [destruct l; exact A|exact R]. Qed.

Lemma throw_ginv c o s i s' : ginv c o s -> sync_throw s i = Some s' -> ginv c o s'.
Proof.
  intros G T. unfold sync_throw in T. pose proof (gi_th _ _ _ _ _ _ G i) as [T0 _].
  destruct (s_pc s i) eqn:P; try discriminate. injection T as <-.
  apply other_pc; auto; rewrite ?P; auto. split; [|exact I].
  destruct T0 as [?|[?|T0]]; try discriminate. auto.
Qed.

Lemma throw_finv c o s i s' : ginv c o s -> finv slot False s -> sync_throw s i = Some s' -> finv slot False s'.
Proof.
  intros G F T. unfold sync_throw in T. destruct (s_pc s i) eqn:P; try discriminate. injection T as <-.
  destruct F as [F1 F2 F3 F4 F5]. split; cbn; auto; try contradiction.
  - intros j w H. specialize (F2 j w H). unfold fupd. destruct (N.eqb_spec j i) as [->|]; auto. rewrite P in F2. destruct F2.
  - intros j w. unfold fupd. destruct (N.eqb_spec j i); [discriminate|apply F4].
  - intros j w. unfold fupd. destruct (N.eqb_spec j i); [discriminate|apply F5].
Qed.

Lemma thr_inv s : sync_reachable_thr tso nblocks slot s -> exists c o, ginv c o s /\ finv slot False s.
Proof.
  induction 1 as [|s1 i s2 L (c & o & G & F) _ ST].
  - exists 0, None. split; [now apply ginv_init|apply finv_init].
  - destruct (thr_cases i s1 s2 ST) as [(l & A & R)|T].
    + destruct (step_inv tso nblocks slot INJ c o s1 l s2 G R) as (c' & o' & G'). exists c', o'. split; auto.
      exact (finv_step tso nblocks slot INJ False c o s1 l s2 G F R).
    + exists c, o. split; [exact (throw_ginv c o s1 i s2 G T)|exact (throw_finv c o s1 i s2 G F T)].
Qed.

Lemma thr_finite s : sync_reachable_thr tso nblocks slot s -> finite s.
Proof.
  induction 1 as [|s1 i s2 L (ts & H) _ ST]; [exists []; intros i _; split; reflexivity|].
  exists (i :: ts). intros j NI. assert (NE : j <> i) by (intros ->; apply NI; now left).
  assert (RJ : resting s1 j) by (apply H; intros X; apply NI; now right).
  destruct (thr_cases i s1 s2 ST) as [(l & <- & R)|T].
  - destruct (step_frame tso nblocks slot INJ s1 l s2 R) as [FR _]. destruct (FR j NE) as [E1 E2].
    unfold resting. now rewrite E1, E2.
  - unfold sync_throw in T. destruct (s_pc s1 i); try discriminate. injection T as <-.
    unfold resting in *. cbn. now rewrite fupd_neq.
Qed.

Lemma settled_sound s : sync_reachable_thr tso nblocks slot s ->
  (forall i v, fops slot s i = Some v -> ops_pc (s_pc s i)) -> sound tso nblocks slot s.
Proof.
  intros R ST. destruct (thr_inv s R) as (c & o & G & [F1 F2 F3 F4 F5]). exists c, o. split; auto. split; auto.
Qed.

Lemma after_trans P s1 s2 : sync_after tso nblocks slot P s1 s2 -> forall s3, sync_after tso nblocks slot P s2 s3 ->
  sync_after tso nblocks slot P s1 s3.
Proof. intros A s3 B. induction B; auto. eapply sf_step; eauto. Qed.
Lemma after_weaken (P Q : N -> Prop) s1 s2 : (forall i, P i -> Q i) -> sync_after tso nblocks slot P s1 s2 -> sync_after tso nblocks slot Q s1 s2.
Proof. intros H A. induction A; [constructor|]. eapply sf_step; eauto. Qed.

(** ** A flag that stays set *)

(** Slot [x] protects table [v], and the organiser of its growth, if there is one, has
    yet to look at it. *)
Definition held (x v : N) (s : sst) : Prop :=
  exists o, ginv v o s /\ s_ops s x = Some v /\ x < s_last s /\ openst (opc s o) x.

(** The calls that have begun and cannot go on. *)
Definition hang (v : N) (p : spc) : Prop :=
  match p with
  | PGet1 | PMig1 KHelp => True
  | PMig2 KHelp w | PMig3 KHelp w _ => w = v
  | _ => False
  end.
(** So do those of a thread that is outside of a call. *)
Definition out_or_hang (v : N) (p : spc) : Prop :=
  match p with PIdle | PUnreg | PReserved => True | _ => hang v p end.

Ltac one_step R :=
  repeat (match type of R with
  | context [locked _ _ _] => unfold locked in R
  | context [match s_buf ?s ?i with _ => _ end] => destruct (s_buf s i) eqn:?
  | context [match s_tab ?s with _ => _ end] => destruct (s_tab s) eqn:?
  | context [match s_ops ?s ?i with _ => _ end] => destruct (s_ops s i) eqn:?
  | context [match s_mig ?s ?i with _ => _ end] => destruct (s_mig s i) eqn:?
  | context [match ?w with Some _ => _ | None => _ end] => is_var w; destruct w eqn:?
  | context [if ?b then _ else _] => destruct b eqn:?
  end; try discriminate); try discriminate R.

Lemma tab_step s l s' : run1 s l = Some s' -> orgof (s_pc s (actor l)) = None -> s_tab s' = s_tab s.
Proof.
  intros R O. destruct l as [i|i|i|i]; cbn [actor] in O; cbn in R.
  - unfold sync_go in R. destruct (s_pc s i); try discriminate O; one_step R; injection R as <-; cbn;
      try (match goal with |- context [put_store ?a ?b ?s0 ?i0 ?x] => rewrite (proj1 (store_rest a b INJ s0 i0 x)) end); congruence.
  - destruct (s_pc s i); try discriminate. now injection R as <-.
  - destruct (s_pc s i); try discriminate. one_step R. now injection R as <-.
  - destruct (s_buf s i) as [|x b]; [discriminate|]. injection R as <-. now destruct x.
Qed.

Lemma last_step s l s' : run1 s l = Some s' -> s_last s <= s_last s'.
Proof.
  intros R. destruct l as [i|i|i|i]; cbn in R.
  - unfold sync_go in R. destruct (s_pc s i); one_step R; injection R as <-; cbn;
      try (match goal with |- context [put_store ?a ?b ?s0 ?i0 ?x] => destruct (store_rest a b INJ s0 i0 x) as (_ & _ & _ & _ & -> & _) end); lia.
  - destruct (s_pc s i); try discriminate. injection R as <-. cbn. lia.
  - destruct (s_pc s i); try discriminate. one_step R. injection R as <-. cbn. lia.
  - destruct (s_buf s i) as [|x b]; [discriminate|]. injection R as <-. destruct x; cbn; lia.
Qed.

Lemma held_step x v s l s' : held x v s -> run1 s l = Some s' -> s_ops s' x = Some v ->
  held x v s' /\ (s_tab s = TMarked v -> s_tab s' = TMarked v) /\
  (forall t, orgof (s_pc s t) = Some v -> orgof (s_pc s' t) = Some v).
Proof.
  intros (o & G & F & LX & O) R F'.
  assert (ORG : forall t, orgof (s_pc s t) = Some v -> o = Some t) by (intros t E; now destruct (is_org tso nblocks slot v o s t v G E)). destruct (step_inv tso nblocks slot INJ v o s l s' G R) as (c' & o' & G').
  pose proof (last_step s l s' R) as LS.
  assert (LX' : x < s_last s') by lia.
  destruct (step_frame tso nblocks slot INJ s l s' R) as [FR _].
  (* the organiser after the step *)
  assert (DONE : forall t, orgof (s_pc s' t) = Some v -> openst (Some (s_pc s' t)) x -> s_tab s' = tabof v (s_pc s' t) /\ held x v s').
  { intros t E OP. destruct (is_org tso nblocks slot c' o' s' t v G' E) as (-> & -> & T & _). split; [exact T|].
    exists (Some t). split; auto. }
  destruct o as [t|].
  - destruct (gi_org _ _ _ _ _ _ G) as (O1 & O2 & O3). cbn in O.
    destruct (N.eq_dec (actor l) t) as [A|NA].
    + assert (X : orgof (s_pc s' t) = Some v /\ openst (Some (s_pc s' t)) x /\ (s_tab s = TMarked v -> tabof v (s_pc s' t) = TMarked v)).
      { destruct l as [k|k|k|k]; cbn [actor] in A; subst k; cbn in R.
        - unfold sync_go in R. destruct (s_pc s t) eqn:P; try discriminate O1; cbn in O; try contradiction; cbn in O1; injection O1 as ->;
            cbn in O2.
          + rewrite O2 in R. injection R as <-. cbn. rewrite fupd_eq. cbn. split; [reflexivity|]. split; [exact I|]. congruence.
          + rewrite O2, N.eqb_refl in R. one_step R. injection R as <-. cbn. rewrite fupd_eq. cbn. auto.
          + injection R as <-. cbn. rewrite fupd_eq. cbn. split; [reflexivity|]. split; [lia|auto].
          + destruct (N.ltb_spec i e) as [L|L]; [|lia]. destruct (N.eq_dec i x) as [->|NE].
            * rewrite F, N.eqb_refl in R. injection R as <-. rewrite P. cbn. auto.
            * assert (s' = s \/ s' = set_pc s t (PWaitOps v e (i + 1))) as [->| ->] by (one_step R; injection R as <-; auto).
              -- rewrite P. cbn. auto.
              -- cbn. rewrite fupd_eq. cbn. split; [reflexivity|]. split; [lia|auto].
        - destruct (s_pc s t); discriminate.
        - destruct (s_pc s t) eqn:P; discriminate.
        - destruct (s_buf s t) as [|y b] eqn:B; [discriminate|]. injection R as <-.
          replace (s_pc (commit (set_buf s t b) (slot t) y) t) with (s_pc s t) by (destruct y; reflexivity).
          split; [exact O1|]. split; [exact O|]. intros E; congruence. }
      destruct X as (X1 & X2 & X3). destruct (DONE t X1 X2) as [D1 D2]. split; auto.
      split; [intros E; rewrite D1; auto|]. intros t' E. apply ORG in E. injection E as <-. exact X1.
    + destruct (FR t) as [E _]; [congruence|]. rewrite <- E in O1, O2, O. destruct (DONE t O1 O) as [D1 D2].
      split; auto. split; [congruence|]. intros t' E'. apply ORG in E'. injection E' as <-. exact O1.
  - destruct (gi_org _ _ _ _ _ _ G) as (O1 & O2).
    assert (T : s_tab s' = TTab v) by (rewrite (tab_step s l s' R); [exact O1|]; apply (gi_only _ _ _ _ _ _ G); discriminate).
    split; [|split; [congruence|intros t E; apply ORG in E; discriminate]]. destruct o' as [t|].
    + destruct (gi_org _ _ _ _ _ _ G') as (E1 & E2 & E3). rewrite T in E2.
      assert (c' = v /\ openst (Some (s_pc s' t)) x) as (-> & OP).
      { destruct (s_pc s' t); cbn in E2 |- *; try discriminate E2; injection E2 as ->; auto. }
      exists (Some t). auto.
    + destruct (gi_org _ _ _ _ _ _ G') as (E1 & E2). rewrite T in E1. injection E1 as <-. exists None. auto.
Qed.

Lemma held_throw x v s i s' : held x v s -> sync_throw s i = Some s' -> held x v s' /\ s_tab s' = s_tab s.
Proof.
  intros (o & G & F & LX & O) T. pose proof (throw_ginv v o s i s' G T) as G'.
  unfold sync_throw in T. destruct (s_pc s i) eqn:P; try discriminate. injection T as <-. split; [|reflexivity].
  exists o. split; auto. split; auto. split; auto.
  destruct o as [t|]; auto. destruct (gi_org _ _ _ _ _ _ G) as (O1 & _). cbn in *. rewrite fupd_neq; auto. intros ->.
  rewrite P in O1. discriminate.
Qed.

(** With the table marked, nobody can begin an operation, and calls that begin hang. *)
Lemma marked_facts x v s : held x v s -> s_tab s = TMarked v -> s_next s v = false /\ s_deleted s v = false.
Proof.
  intros (o & G & F & LX & O) T. split.
  - destruct (s_next s v) eqn:NX; auto. destruct (gi_next _ _ _ _ _ _ G v NX) as [?|[_ X]]; [lia|].
    destruct (opc s o) as [p|]; [|destruct X]. destruct p; cbn in *; contradiction.
  - destruct (s_deleted s v) eqn:D; auto. pose proof (gi_del _ _ _ _ _ _ G v D). lia.
Qed.

Lemma hang_step v s l s' j : s_tab s = TMarked v -> s_next s v = false -> s_deleted s v = false -> run1 s l = Some s' ->
  (hang v (s_pc s j) -> hang v (s_pc s' j)) /\ (forall w, s_pc s' j = POp w -> s_pc s j = POp w) /\
  (actor l = j -> out_or_hang v (s_pc s j) -> s_buf s j = [] -> s_ops s' = s_ops s /\ out_or_hang v (s_pc s' j)).
Proof.
  intros T NX D R. destruct (step_frame tso nblocks slot INJ s l s' R) as [FR _].
  destruct (N.eq_dec j (actor l)) as [->|NE].
  2:{ destruct (FR j NE) as [-> _]. split; auto. split; auto. congruence. }
  destruct l as [i|i|i|i]; cbn [actor] in *; cbn in R.
  - unfold sync_go in R. rewrite ?T in R.
    destruct (s_pc s i) eqn:P; one_step R; injection R as <-.
    all: cbn [s_pc s_ops set_pc set_tab set_epoch set_last set_next set_block set_moved set_deleted]; rewrite ?fupd_eq, ?P.
    all: try match goal with k0 : caller |- _ => destruct k0 end; cbn.
    all: try (match goal with |- context [put_store ?a ?b ?s0 ?i0 ?x] => destruct (store_rest a b INJ s0 i0 x) as (_ & _ & SP & _) end).
    all: try (split; [try tauto; try congruence|split; [intros ?; try discriminate; try (destruct w; discriminate); auto|intros _ H B; try tauto; try congruence]]).
    all: try (injection Heqt as <-; auto; fail).
    all: try (split; [|congruence]; unfold put_store; now destruct tso).
  - destruct (s_pc s i) eqn:P; try discriminate. injection R as <-. cbn. rewrite fupd_eq.
    split; [intros []|]. split; [discriminate|]. intros _ [].
  - destruct (s_pc s i) eqn:P; try discriminate. one_step R. injection R as <-. cbn. rewrite fupd_eq.
    split; [intros []|]. split; [discriminate|]. auto.
  - destruct (s_buf s i) as [|y b] eqn:B; [discriminate|]. injection R as <-.
    replace (s_pc (commit (set_buf s i b) (slot i) y) i) with (s_pc s i) by (destruct y; reflexivity).
    split; auto. split; auto. intros _ _ X. discriminate.
Qed.

Lemma throw_fields s i s' : sync_throw s i = Some s' ->
  s_ops s' = s_ops s /\ s_tab s' = s_tab s /\ (exists v, s_pc s i = POp v) /\ s_pc s' = fupd (s_pc s) i PIdle.
Proof. intros T. unfold sync_throw in T. destruct (s_pc s i); try discriminate. injection T as <-. cbn. eauto. Qed.

(** Steps of threads in [P] that leave the flag alone ([K]: as long as this holds). *)
Lemma marked_after (P : N -> Prop) (K : sst -> Prop) x v s :
  (forall s k s', K s -> held x v s -> s_tab s = TMarked v -> P k -> step_thr k s s' -> s_ops s' x = Some v /\ K s') ->
  K s -> held x v s -> s_tab s = TMarked v ->
  forall s2, sync_after tso nblocks slot P s s2 ->
    K s2 /\ held x v s2 /\ s_tab s2 = TMarked v /\
    forall j, (hang v (s_pc s j) -> hang v (s_pc s2 j)) /\ (forall w, s_pc s2 j = POp w -> s_pc s j = POp w) /\
      (orgof (s_pc s j) = Some v -> orgof (s_pc s2 j) = Some v).
Proof.
  intros KS K0 H0 T0 s2 L. induction L as [|s1 k s2 L (K1 & H1 & T1 & J1) PK ST]; [auto 6|].
  destruct (KS s1 k s2 K1 H1 T1 PK ST) as [F2 K2]. split; [exact K2|].
  destruct (thr_cases k s1 s2 ST) as [(l & A & R)|T].
  - destruct (held_step x v s1 l s2 H1 R F2) as (H2 & T2 & O2). split; [exact H2|]. split; [auto|].
    destruct (marked_facts x v s1 H1 T1) as [NX D]. intros j. destruct (J1 j) as (J2 & J3 & J4).
    destruct (hang_step v s1 l s2 j T1 NX D R) as (A1 & A2 & _). split; auto.
  - destruct (held_throw x v s1 k s2 H1 T) as [H2 T2]. split; [exact H2|]. split; [congruence|].
    destruct (throw_fields s1 k s2 T) as (_ & _ & (w0 & E) & PC). intros j. destruct (J1 j) as (J2 & J3 & J4). rewrite PC. unfold fupd.
    destruct (N.eqb_spec j k) as [->|NE]; auto. rewrite E in J2, J4. split; [intros X; destruct (J2 X)|]. split; [discriminate|].
    intros X. specialize (J4 X). discriminate.
Qed.

Lemma hang_out v p : hang v p -> out_or_hang v p.
Proof. destruct p; cbn; auto. Qed.

(** A thread outside of its calls whose flag has been left set. *)
Lemma left_after i v s : tso = false -> held (slot i) v s -> s_tab s = TMarked v -> out_or_hang v (s_pc s i) ->
  forall s2, sync_after tso nblocks slot anybody s s2 ->
    out_or_hang v (s_pc s2 i) /\ held (slot i) v s2 /\ s_tab s2 = TMarked v /\
    forall j, (hang v (s_pc s j) -> hang v (s_pc s2 j)) /\ (forall w, s_pc s2 j = POp w -> s_pc s j = POp w) /\
      (orgof (s_pc s j) = Some v -> orgof (s_pc s2 j) = Some v).
Proof.
  intros SC H T O s2 L. apply (marked_after anybody (fun s => out_or_hang v (s_pc s i)) (slot i) v s); auto.
  clear s H T O s2 L. intros s k s' O H T _ ST. destruct (marked_facts (slot i) v s H T) as [NX D].
  pose proof H as (o & G & F & _). destruct (thr_cases k s s' ST) as [(l & A & R)|TH].
  - destruct (step_frame tso nblocks slot INJ s l s' R) as [FR1 FR2].
    destruct (N.eq_dec i k) as [->|NE].
    + destruct (hang_step v s l s' k T NX D R) as (_ & _ & A3). destruct A3 as [E1 E2]; auto.
      * apply (gi_buf _ _ _ _ _ _ G SC).
      * rewrite E1. auto.
    + subst k. destruct (FR1 i NE) as [-> _]. destruct (FR2 (slot i)) as [-> _]; [intros X; apply NE, INJ, X|]. auto.
  - destruct (throw_fields s k s' TH) as (E1 & _ & (w & E2) & PC). rewrite E1, PC. split; [auto|].
    unfold fupd. destruct (N.eqb_spec i k); [exact I|auto].
Qed.

(** A thread that stays inside of an operation. *)
Lemma inside_after i v s : held (slot i) v s -> s_tab s = TMarked v ->
  forall s2, sync_after tso nblocks slot (fun k => k <> i) s s2 ->
    held (slot i) v s2 /\ s_tab s2 = TMarked v /\
    forall j, (hang v (s_pc s j) -> hang v (s_pc s2 j)) /\ (forall w, s_pc s2 j = POp w -> s_pc s j = POp w) /\
      (orgof (s_pc s j) = Some v -> orgof (s_pc s2 j) = Some v).
Proof.
  intros H T s2 L. apply (marked_after (fun k => k <> i) (fun _ => True) (slot i) v s); auto.
  clear s H T s2 L. intros s k s' _ H T NE ST. split; [|exact I]. destruct H as (o & G & F & _).
  destruct (thr_cases k s s' ST) as [(l & A & R)|TH].
  - destruct (step_frame tso nblocks slot INJ s l s' R) as [FR1 FR2]. subst k.
    destruct (FR2 (slot i)) as [-> _]; [|exact F]. intros X. apply NE. symmetry. now apply INJ.
  - destruct (throw_fields s k s' TH) as (-> & _). exact F.
Qed.

(** An operation protects its table; when it has ended with an exception, the flag stays
    until the thread makes its next call. *)
Lemma op_held s i v : tso = false -> sync_reachable_thr tso nblocks slot s -> s_pc s i = POp v -> held (slot i) v s.
Proof.
  intros SC R P. destruct (thr_inv s R) as (c & o & G & _). pose proof (gi_th _ _ _ _ _ _ G i) as [T0 T]. rewrite P in *.
  destruct T as [_ T]. destruct (T SC) as (-> & E & O). exists o. split; auto. split; auto. split; auto.
  destruct T0 as [?|[?|T0]]; try discriminate. exact T0.
Qed.

Lemma idle_after i v s : held (slot i) v s ->
  forall s2, sync_after tso nblocks slot (fun k => k <> i) s s2 -> held (slot i) v s2 /\ s_pc s2 i = s_pc s i.
Proof.
  intros H s2 L. induction L as [|s1 k s2 L (H1 & P1) NE ST]; [auto|].
  destruct (thr_cases k s1 s2 ST) as [(l & A & R)|TH].
  - destruct (step_frame tso nblocks slot INJ s1 l s2 R) as [FR1 FR2]. subst k. split.
    + apply (held_step (slot i) v s1 l s2 H1 R). destruct (FR2 (slot i)) as [-> _]; [intros X; apply NE; symmetry; now apply INJ|].
      destruct H1 as (o & _ & F & _). exact F.
    + destruct (FR1 i) as [-> _]; [congruence|exact P1].
  - split; [apply (held_throw (slot i) v s1 k s2 H1 TH)|]. destruct (throw_fields s1 k s2 TH) as (_ & _ & _ & ->).
    rewrite fupd_neq; auto.
Qed.

Lemma held_tab x v s : held x v s -> s_tab s = TTab v \/ s_tab s = TMarked v.
Proof.
  intros (o & G & _ & _ & O). destruct o as [t|].
  - destruct (gi_org _ _ _ _ _ _ G) as (_ & -> & _). cbn in O. destruct (s_pc s t); cbn in *; auto; contradiction.
  - destruct (gi_org _ _ _ _ _ _ G) as (-> & _). auto.
Qed.
End Sync_.

(** ** The asynchronous strategy *)

Section Async_.
Context (nblocks : N -> N).
Notation run1 := (async_run1 nblocks).

Lemma throw_is_return s i s' : async_throw s i = Some s' -> run1 s (YGo i) = Some s'.
Proof.
  intros T. unfold async_throw in T. cbn. unfold async_go. destruct s as [tb ep hp nx bl mv pc lo le]. cbn in *.
  destruct (pc i); try discriminate. now injection T as <-.
Qed.

Lemma areach_thr s : async_reachable_thr nblocks s <-> async_reachable nblocks s.
Proof.
  split; induction 1.
  - constructor.
  - eapply ar_step; eauto.
  - eapply ar_step; eauto. exists (YGo i). now apply throw_is_return.
  - constructor.
  - eapply at_step; eauto.
Qed.

(** States that differ only in where thread [i] is. *)
Definition same_but (i : N) (s s' : ast_) : Prop :=
  y_tab s' = y_tab s /\ y_epoch s' = y_epoch s /\ y_help s' = y_help s /\ y_next s' = y_next s /\ y_block s' = y_block s /\
  y_moved s' = y_moved s /\ y_loc s' = y_loc s /\ y_lep s' = y_lep s /\ (forall j, j <> i -> y_pc s' j = y_pc s j).

Lemma same_pcs i k (pc pc' : N -> apc) p : (forall j, j <> i -> pc' j = pc j) -> forall j, j <> i -> fupd pc' k p j = fupd pc k p j.
Proof. intros H j NE. unfold fupd. destruct (j =? k); auto. Qed.

Lemma same_step i s s' l : same_but i s s' -> aactor l <> i ->
  match run1 s l, run1 s' l with
  | Some s1, Some s1' => same_but i s1 s1'
  | None, None => True
  | _, _ => False
  end.
Proof.
  destruct s as [tb ep hp nx bl mv pc lo le], s' as [tb' ep' hp' nx' bl' mv' pc' lo' le'].
  intros S NE. unfold same_but in S. cbn in S. destruct S as (-> & -> & -> & -> & -> & -> & -> & -> & PC).
  pose proof (fun k p => same_pcs i k pc pc' p PC) as PCS.
  destruct l as [k|k|k|k]; cbn [aactor] in NE; cbn; rewrite (PC k NE);
    destruct (pc k); auto; repeat match goal with |- context [if ?b then _ else _] => destruct b eqn:? end; auto;
    unfold same_but; cbn; auto 12.
Qed.

Lemma same_busy i s s' l : same_but i s s' -> aactor l <> i -> abusy s' l = abusy s l.
Proof. intros (_ & _ & _ & _ & _ & _ & _ & _ & PC) NE. destruct l; cbn [aactor] in NE; cbn; auto. now rewrite PC. Qed.

Lemma same_attempts i ls : (forall l, In l ls -> aactor l <> i) -> forall s s', same_but i s s' ->
  same_but i (aattempts nblocks ls s) (aattempts nblocks ls s').
Proof.
  induction ls as [|l ls IH]; intros H s s' S; [exact S|].
  change (same_but i (aattempts nblocks ls (aattempt nblocks s l)) (aattempts nblocks ls (aattempt nblocks s' l))).
  apply IH; [intros l' I; apply H; now right|]. specialize (H l (or_introl eq_refl)).
  unfold aattempt. rewrite (same_busy i s s' l S H). destruct (abusy s l); auto.
  pose proof (same_step i s s' l S H) as X. destruct (run1 s l), (run1 s' l); try contradiction; auto.
Qed.

(** A thread that stays inside of an operation does not keep the others from finishing. *)
Lemma others_finish s i : async_reachable nblocks s -> y_pc s i = AOp ->
  exists M, forall rs, (M <= length rs)%nat ->
    Forall (fun r => (forall l, In l r -> aactor l <> i) /\ forall j, j <> i -> ~ aresting s j -> In (YGo j) r) rs ->
    forall j, j <> i -> aresting (aattempts nblocks (concat rs) s) j \/ missed (aattempts nblocks (concat rs) s) j.
Proof.
  intros R P. set (s0 := with_pc s i AIdle).
  assert (R0 : async_reachable nblocks s0).
  { eapply ar_step; [exact R|]. exists (YGo i). apply throw_is_return. unfold async_throw. now rewrite P. }
  assert (S : same_but i s s0).
  { unfold same_but, s0. cbn. repeat (split; [reflexivity|]). intros j NE. now rewrite fupd_neq. }
  destruct (arounds_finish nblocks s0 R0) as [M HM]. exists M. intros rs L F.
  assert (F0 : Forall (afair_round s0) rs).
  { eapply Forall_impl; [|exact F]. intros r [_ H] j NR. destruct (N.eq_dec j i) as [->|NE].
    - exfalso. apply NR. left. unfold s0. cbn. apply fupd_eq.
    - apply H; auto. intros X. apply NR. unfold aresting in *. unfold s0. cbn. now rewrite fupd_neq. }
  assert (NA : forall l, In l (concat rs) -> aactor l <> i).
  { intros l I. apply in_concat in I as (r & I1 & I2). rewrite Forall_forall in F. now apply (F r I1). }
  pose proof (same_attempts i (concat rs) NA s s0 S) as (_ & E2 & _ & _ & _ & _ & E7 & _ & PC).
  intros j NE. destruct (HM rs L F0 j) as [X|X]; [left|right].
  - unfold aresting in *. now rewrite <- (PC j NE).
  - unfold missed in *. now rewrite <- (PC j NE), <- E7, <- E2.
Qed.

(** ** Nested calls *)

Definition ninv (n : nst) : Prop :=
  ainv nblocks (n_s n) /\ forall i, y_pc (n_s n) i = AOp -> n_use n i = y_loc (n_s n) i.

Lemma resume_ainv s i : ainv nblocks s -> y_pc s i = AIdle -> ainv nblocks (with_pc s i AOp).
Proof.
  intros G P. pose proof (ai_th _ _ G i) as T. rewrite P in T. destruct T as [T1 T2].
  apply (aframe nblocks s (with_pc s i AOp) i AOp G); cbn; auto; try (rewrite P; discriminate); try lia; try discriminate.
  - intros v. apply (ai_block _ _ G).
  - apply help_same; [now rewrite P|apply (ai_help _ _ G)].
  - split; auto.
Qed.

Lemma enter_is_return s i : y_pc s i = AOp -> run1 s (YGo i) = Some (with_pc s i AIdle).
Proof. intros P. apply throw_is_return. unfold async_throw. now rewrite P. Qed.

Lemma run1_loc s l s' : run1 s l = Some s' -> forall j, y_pc s' j = AOp -> y_pc s j = AOp -> j <> aactor l /\ y_loc s' j = y_loc s j.
Proof.
  intros R j P' P. destruct (N.eq_dec j (aactor l)) as [->|NE].
  - exfalso. destruct l as [i|i|i|i]; cbn [aactor] in *; [|cbn in R..].
    + rewrite (enter_is_return s i P) in R. injection R as <-. cbn in P'. rewrite fupd_eq in P'. discriminate.
    + rewrite P in R. injection R as <-. cbn in P'. rewrite fupd_eq in P'. discriminate.
    + rewrite P in R. destruct (y_next s (y_loc s i)); [|discriminate]. injection R as <-. cbn in P'. rewrite fupd_eq in P'. discriminate.
    + rewrite P in R. discriminate.
  - split; auto. apply (astep_frame nblocks s l s' R j NE).
Qed.

Lemma nested_inv n : async_nested nblocks same_table n -> ninv n.
Proof.
  induction 1 as [|n l n' R [G U] ST E].
  - split; [apply ainv_init|discriminate].
  - destruct n as [s out use]. cbn in *. destruct l as [l|i|i|i].
    + set (k := label_of l) in *.
      assert (X : exists s', run1 s l = Some s' /\ n' = NSt s' out (if got_table s s' k then fupd use k (y_loc s' k) else use)).
      { destruct l, (out k); try discriminate; destruct (async_run1 nblocks s _) as [s'|] eqn:Q; try discriminate;
          injection E as <-; eauto. }
      destruct X as (s' & Q & ->). split; cbn; [exact (run1_inv nblocks s l s' G Q)|].
      intros j PJ. destruct (N.eq_dec j k) as [->|NE].
      * unfold got_table. rewrite PJ.
        assert (NO : y_pc s k <> AOp).
        { intros PK. destruct (run1_loc s l s' Q k PJ PK) as [NK _]. apply NK. unfold k. now destruct l. }
        destruct (y_pc s k); try congruence; now rewrite fupd_eq.
      * assert (NE' : j <> aactor l) by (intros ->; apply NE; unfold k; now destruct l).
        destruct (astep_frame nblocks s l s' Q j NE') as (E1 & E2). rewrite E1 in PJ. rewrite E2.
        destruct (got_table s s' k); [rewrite fupd_neq by auto|]; auto.
    + destruct (y_pc s i) eqn:P; try discriminate. rewrite (U i P) in E.
      destruct (y_next s (y_loc s i)) eqn:NX; [|discriminate]. injection E as <-. split; cbn.
      * apply (run1_inv nblocks s (YInvalid i)); auto. cbn. now rewrite P, NX.
      * intros j. unfold fupd. destruct (j =? i); [discriminate|apply U].
    + destruct (y_pc s i) eqn:P; try discriminate. injection E as <-. split; cbn.
      * apply (run1_inv nblocks s (YGo i)); auto. apply enter_is_return, P.
      * intros j. unfold fupd. destruct (j =? i); [discriminate|apply U].
    + destruct (y_pc s i) eqn:P; try discriminate. destruct (out i) as [|v o] eqn:O; [discriminate|]. injection E as <-. split; cbn.
      * now apply resume_ainv.
      * intros j. unfold fupd. destruct (N.eqb_spec j i) as [->|]; [intros _; apply ST; cbn; now rewrite O|apply U].
Qed.
End Async_.
