(** Progress of the synchronised growing strategy. *)
From Coq Require Import NArith Bool List Lia.
From Verif Require Import Words BaseInv Sync SyncInv SyncSpec SyncFacts SyncEndSpec.
Import ListNotations.
Open Scope N_scope.

(** ** Sums over threads *)

Fixpoint tot (f : N -> N) (l : list N) : N := match l with [] => 0 | i :: l => f i + tot f l end.

Lemma tot_le f g l d : (forall i, In i l -> f i <= g i + d) -> tot f l <= tot g l + d * N.of_nat (length l).
Proof.
  induction l as [|a l IH]; intros H; [cbn; lia|]. cbn [tot length].
  assert (f a <= g a + d) by (apply H; now left). assert (tot f l <= tot g l + d * N.of_nat (length l)) by (apply IH; intros; apply H; now right).
  rewrite Nnat.Nat2N.inj_succ. lia.
Qed.
Lemma tot_same f g l : (forall i, In i l -> f i = g i) -> tot f l = tot g l.
Proof. induction l as [|a l IH]; intros H; cbn; auto. rewrite (H a), IH; auto using in_eq, in_cons. Qed.
Lemma tot_one f g l t k : In t l -> (forall i, In i l -> f i <= g i) -> f t + k <= g t -> tot f l + k <= tot g l.
Proof.
  induction l as [|a l IH]; intros I H K; [destruct I|]. cbn [tot].
  assert (HA : f a <= g a) by (apply H; now left).
  pose proof (tot_le f g l 0 ltac:(intros i Hi; specialize (H i (or_intror Hi)); lia)).
  destruct I as [->|I]; [lia|]. specialize (IH I (fun i Hi => H i (or_intror Hi)) K). lia.
Qed.

Lemma in_tot f l i : In i l -> f i <= tot f l.
Proof. induction l as [|a l IH]; intros []; cbn; [subst; lia|]. specialize (IH H). lia. Qed.

Lemma dec_list (P : N -> Prop) (l : list N) : (forall i, P i \/ ~ P i) -> (forall i, ~ In i l -> ~ P i) -> (exists i, P i) \/ (forall i, ~ P i).
Proof.
  intros D H. assert (X : (exists i, P i) \/ (forall i, In i l -> ~ P i)).
  { clear H. induction l as [|a l [E|E]]; [right; intros i []|now left|]. destruct (D a) as [Y|Y]; [left; eauto|].
    right. intros i [<-|I]; auto. }
  destruct X as [X|X]; [now left|right]. intros i. destruct (in_dec N.eq_dec i l); auto.
Qed.

Section End_.
Context (tso : bool) (nblocks : N -> N) (slot : N -> N).
Context (INJ : forall i j, slot i = slot j -> i = j).
Notation run1 := (sync_run1 tso nblocks slot).
Notation reach := (sync_reachable tso nblocks slot).
Notation ginv := (ginv tso nblocks slot).

(** ** Flags belong to threads that will clear them *)

Fixpoint last_ops (x : option N) (l : list store) : option N :=
  match l with
  | [] => x
  | SOps y :: l => last_ops y l
  | SMig _ :: l => last_ops x l
  end.
Definition fops (s : sst) (i : N) : option N := last_ops (s_ops s (slot i)) (s_buf s i).
Notation fmig := (fmig slot).

Definition ops_pc (p : spc) : Prop :=
  match p with PGet3 _ | PGet4 | POp _ | PRls _ => True | _ => False end.
Definition mig_pc (p : spc) : Prop :=
  match p with PMig3 _ _ _ | PMig4 _ _ _ | PMig5 _ _ _ _ | PMig6 _ _ _ | PFault _ => True | _ => False end.
(** The table whose successor the thread needs. *)
Definition needs (p : spc) : option N := match p with PMig2 _ v | PMig3 _ v _ => Some v | _ => None end.
(** The organiser has published the successor. *)
Definition opened (p : spc) : option N :=
  match p with
  | PMig1 k | PMig2 k _ | PMig3 k _ _ | PMig4 k _ _ | PMig5 k _ _ _ | PMig6 k _ _ => kver k
  | PGrow9 v => Some v
  | _ => None
  end.

(** [Q]: nothing has been left set by an operation that ended with an exception. *)
Record finv (Q : Prop) (s : sst) : Prop := {
  fi_ops : Q -> forall i v, fops s i = Some v -> ops_pc (s_pc s i);
  fi_mig : forall i v, fmig s i = Some v -> mig_pc (s_pc s i);
  fi_own : forall x v, s_ops s x = Some v \/ s_mig s x = Some v -> exists i, slot i = x;
  fi_need : forall i v, needs (s_pc s i) = Some v -> s_tab s = TMarked v \/ s_next s v = true;
  fi_open : forall i v, opened (s_pc s i) = Some v -> s_next s v = true }.

Lemma finv_init Q : finv Q sync_init.
Proof. split; cbn; try discriminate. intros x v [H|H]; discriminate. Qed.

Lemma last_ops_app l x y : last_ops x (l ++ [y]) = match y with SOps z => z | SMig _ => last_ops x l end.
Proof. revert x. induction l as [|[z|z] l IH]; intros x; cbn; auto. Qed.

Lemma store_ops s i x : (tso = false -> s_buf s i = []) ->
  fops (put_store tso slot s i x) i = match x with SOps z => z | SMig _ => fops s i end.
Proof.
  intros H. unfold put_store, fops. destruct tso; cbn.
  - rewrite fupd_eq. now rewrite last_ops_app.
  - rewrite (H eq_refl). destruct x; cbn; rewrite (H eq_refl); cbn; auto using fupd_eq.
Qed.
Lemma store_mig s i x : (tso = false -> s_buf s i = []) ->
  fmig (put_store tso slot s i x) i = match x with SMig z => z | SOps _ => fmig s i end.
Proof.
  intros H. unfold put_store, SyncInv.fmig. destruct tso; cbn.
  - rewrite fupd_eq. now rewrite last_mig_app.
  - rewrite (H eq_refl). destruct x; cbn; rewrite (H eq_refl); cbn; auto using fupd_eq.
Qed.
Lemma store_rest s i x :
  s_tab (put_store tso slot s i x) = s_tab s /\ s_next (put_store tso slot s i x) = s_next s /\
  s_pc (put_store tso slot s i x) = s_pc s /\ s_epoch (put_store tso slot s i x) = s_epoch s /\
  s_last (put_store tso slot s i x) = s_last s /\ s_block (put_store tso slot s i x) = s_block s.
Proof. unfold put_store. destruct tso, x; cbn; auto 10. Qed.
Lemma store_frame s i x :
  (forall j, j <> i -> s_buf (put_store tso slot s i x) j = s_buf s j) /\
  (forall y, y <> slot i -> s_ops (put_store tso slot s i x) y = s_ops s y /\ s_mig (put_store tso slot s i x) y = s_mig s y).
Proof. unfold put_store. destruct tso, x; cbn; split; intros; auto; rewrite fupd_neq; auto. Qed.

(** What a step of thread [i] leaves alone. *)
Definition framed (s : sst) (i : N) (s' : sst) : Prop :=
  (forall j, j <> i -> s_pc s' j = s_pc s j /\ s_buf s' j = s_buf s j) /\
  (forall x, x <> slot i -> s_ops s' x = s_ops s x /\ s_mig s' x = s_mig s x).

Ltac one_step R :=
  repeat (match type of R with
  | context [locked _ _ _] => unfold locked in R
  | context [match s_buf ?s ?i with _ => _ end] => destruct (s_buf s i) eqn:?
  | context [match s_tab ?s with _ => _ end] => destruct (s_tab s) eqn:?
  | context [match s_ops ?s ?i with _ => _ end] => destruct (s_ops s i) eqn:?
  | context [match s_mig ?s ?i with _ => _ end] => destruct (s_mig s i) eqn:?
  | context [match ?w with Some _ => _ | None => _ end] => is_var w; destruct w eqn:?
  | context [if ?b then _ else _] => destruct b eqn:?
  end; try discriminate); try discriminate R.

Lemma step_frame s l s' : run1 s l = Some s' -> framed s (actor l) s'.
Proof.
  assert (PCF : forall s1 i p, (forall j, j <> i -> s_buf s1 j = s_buf s j) -> s_pc s1 = s_pc s ->
    (forall x, x <> slot i -> s_ops s1 x = s_ops s x /\ s_mig s1 x = s_mig s x) ->
    framed s i (set_pc s1 i p)).
  { intros s1 i p H P O. split; cbn; auto. intros j NE. rewrite fupd_neq by auto. rewrite P. auto. }
  intros R. destruct l as [i|i|i|i]; cbn in R |- *.
  - unfold sync_go in R. destruct (s_pc s i) eqn:P; one_step R; injection R as <-;
      try (split; auto; fail); try (apply PCF; cbn; auto; fail);
      try (apply PCF; [exact (proj1 (store_frame s i _))|apply store_rest|exact (proj2 (store_frame s i _))]).
  - destruct (s_pc s i) eqn:P; try discriminate. injection R as <-. apply PCF; auto.
  - destruct (s_pc s i) eqn:P; one_step R. injection R as <-. apply PCF; auto.
  - destruct (s_buf s i) as [|x b] eqn:E; [discriminate|]. injection R as <-. split; intros j NE.
    + destruct x; cbn; rewrite fupd_neq; auto.
    + destruct x; cbn; split; auto; rewrite fupd_neq; auto.
Qed.

Lemma finv_step Q c o s l s' : ginv c o s -> finv Q s -> run1 s l = Some s' -> finv Q s'.
Proof.
  intros G F R. pose proof (step_frame s l s' R) as [FR1 FR2].
  set (i := actor l) in *.
  assert (BU : tso = false -> s_buf s i = []) by (intros T; now apply (gi_buf _ _ _ _ _ _ G)).
  (* the actor *)
  assert (A : (Q -> forall v, fops s' i = Some v -> ops_pc (s_pc s' i)) /\
              (forall v, fmig s' i = Some v -> mig_pc (s_pc s' i)) /\
              (forall v, needs (s_pc s' i) = Some v -> s_tab s' = TMarked v \/ s_next s' v = true) /\
              (forall v, opened (s_pc s' i) = Some v -> s_next s' v = true) /\
              (forall v, s_next s v = true -> s_next s' v = true) /\
              (forall v, s_tab s = TMarked v -> s_tab s' = TMarked v \/ s_next s' v = true)).
  { assert (ON := fun q => fi_ops _ _ F q i). assert (MN := fi_mig _ _ F i).
    assert (NN := fi_need _ _ F i). assert (PN := fi_open _ _ F i).
    assert (NEW : forall p s1,
       (Q -> forall v, fops s1 i = Some v -> ops_pc p) -> (forall v, fmig s1 i = Some v -> mig_pc p) ->
       (forall v, needs p = Some v -> s_tab s1 = TMarked v \/ s_next s1 v = true) ->
       (forall v, opened p = Some v -> s_next s1 v = true) ->
       (forall v, s_next s v = true -> s_next s1 v = true) ->
       (forall v, s_tab s = TMarked v -> s_tab s1 = TMarked v \/ s_next s1 v = true) ->
       let s' := set_pc s1 i p in
       (Q -> forall v, fops s' i = Some v -> ops_pc (s_pc s' i)) /\
       (forall v, fmig s' i = Some v -> mig_pc (s_pc s' i)) /\
       (forall v, needs (s_pc s' i) = Some v -> s_tab s' = TMarked v \/ s_next s' v = true) /\
       (forall v, opened (s_pc s' i) = Some v -> s_next s' v = true) /\
       (forall v, s_next s v = true -> s_next s' v = true) /\
       (forall v, s_tab s = TMarked v -> s_tab s' = TMarked v \/ s_next s' v = true)).
    { intros p s1 H1 H2 H3 H4 H5 H6. cbv zeta. cbn [s_pc set_pc s_tab s_next]. rewrite fupd_eq.
      split; [exact H1|]. split; [exact H2|]. auto. }
    assert (ST : forall x, s_tab (put_store tso slot s i x) = s_tab s /\ s_next (put_store tso slot s i x) = s_next s)
      by (intros x; destruct (store_rest s i x) as (? & ? & _); auto).
    assert (BI := BU). assert (OR := fun v => is_org _ _ _ c o s i v G).
    destruct l as [k|k|k|k]; cbn in R, i; subst i.
    - unfold sync_go in R. destruct (s_pc s k) eqn:P; one_step R; injection R as <-;
        try (rewrite P; split; [exact ON|]; split; [exact MN|]; split; [first [exact NN|discriminate]|];
             split; [exact PN|]; split; intros; auto; left; congruence).
      all: cbn in ON, MN, NN, PN.
      all: apply NEW;
        [ intros q; specialize (ON q); rewrite ?store_ops by auto; intros v' E'; try discriminate E'; try exact I; try (exact (ON v' E')); try (cbn; exact (ON v' E'))
        | rewrite ?store_mig by auto; intros v' E'; try discriminate E'; try exact I; try (exact (MN v' E')); try (destruct (MN v' E'))
        | intros v' E'; try discriminate E'; try (injection E' as <-)
        | intros v' E'; try discriminate E'; try (injection E' as <-)
        | intros v' E'
        | intros v' E' ]; rewrite ?(proj1 (ST _)), ?(proj2 (ST _)); cbn [s_tab s_next set_tab set_next set_epoch set_last set_block set_moved set_deleted];
        auto; try congruence.
      all: try (left; congruence).
      all: try (apply fupd_eq).
      all: try (unfold fupd; destruct (v' =? v); auto; fail).
      all: try (destruct (OR _ eq_refl) as (_ & OR1 & OR2 & _); cbn in OR2; rewrite E' in OR2; try discriminate OR2;
                injection OR2 as ->; right; apply PN; congruence).
      all: try (match goal with k0 : caller |- _ => destruct k0; cbn in E', PN end; try discriminate E'; try (injection E' as <-); auto; fail).
    - destruct (s_pc s k) eqn:P; try discriminate. injection R as <-. cbn in ON, MN, NN, PN. apply NEW; cbn; auto; discriminate.
    - destruct (s_pc s k) eqn:P; one_step R. injection R as <-. cbn in ON, MN, NN, PN. apply NEW; cbn; auto; discriminate.
    - destruct (s_buf s k) as [|x b] eqn:E; [discriminate|]. injection R as <-.
      assert (FO : fops (commit (set_buf s k b) (slot k) x) k = fops s k).
      { unfold fops. rewrite E. destruct x; cbn; rewrite ?fupd_eq; auto. }
      assert (FM : fmig (commit (set_buf s k b) (slot k) x) k = fmig s k).
      { unfold SyncInv.fmig. rewrite E. destruct x; cbn; rewrite ?fupd_eq; auto. }
      rewrite FO, FM. destruct x; cbn; auto 10. }
  destruct A as (A1 & A2 & A3 & A4 & A5 & A6).
  assert (OW : forall x v, s_ops s' x = Some v \/ s_mig s' x = Some v -> exists j, slot j = x).
  { intros x v H. destruct (N.eq_dec x (slot i)) as [->|NE]; [eauto|].
    destruct (FR2 x NE) as [E1 E2]. rewrite E1, E2 in H. eapply (fi_own _ _ F); eauto. }
  assert (OT : forall j, j <> i -> fops s' j = fops s j /\ fmig s' j = fmig s j).
  { intros j NE. destruct (FR1 j NE) as [_ E]. unfold fops, SyncInv.fmig.
    destruct (FR2 (slot j)) as [E1 E2]; [intros X; apply NE, INJ, X|]. now rewrite E, E1, E2. }
  split; auto.
  - intros q j v. destruct (N.eq_dec j i) as [->|NE]; [apply A1, q|]. rewrite (proj1 (OT j NE)), (proj1 (FR1 j NE)). apply (fi_ops _ _ F q).
  - intros j v. destruct (N.eq_dec j i) as [->|NE]; [apply A2|]. rewrite (proj2 (OT j NE)), (proj1 (FR1 j NE)). apply (fi_mig _ _ F).
  - intros j v. destruct (N.eq_dec j i) as [->|NE]; [apply A3|]. rewrite (proj1 (FR1 j NE)). intros H.
    destruct (fi_need _ _ F j v H); auto.
  - intros j v. destruct (N.eq_dec j i) as [->|NE]; [apply A4|]. rewrite (proj1 (FR1 j NE)). intros H.
    apply A5, (fi_open _ _ F j v H).
Qed.

(** States from which the waits end: the reachable ones, and those in which an
    exception has left nothing behind. *)
Definition sound (s : sst) : Prop := exists c o, ginv c o s /\ finv True s.

Lemma reach_finv s : reach s -> sound s.
Proof.
  induction 1 as [|s s' R (c & o & G & F) [l ST]].
  - exists 0, None. split; [now apply ginv_init|apply finv_init].
  - destruct (reach_inv tso nblocks slot INJ s') as (c' & o' & G'); [apply (sr_step _ _ _ s s'); auto; exists l; auto|].
    exists c', o'. split; [exact G'|]. exact (finv_step True c o s l s' G F ST).
Qed.

(** ** Waiting *)

Definition waiting (s : sst) (i : N) : bool :=
  match s_pc s i with
  | PGet1 => match s_tab s with TNull => true | _ => false end
  | PWaitOps v e j => (j <? e) && match s_ops s j with Some w => w =? v | None => false end
  | PWaitMig _ e j => (j <? e) && match s_mig s j with Some _ => true | None => false end
  | PMig3 _ v _ => negb (s_deleted s v) && negb (s_next s v)
  | PHelpWait => match s_tab s with TTab _ => false | _ => true end
  | _ => false
  end.

Lemma wait_same s i : waiting s i = true -> run1 s (SGo i) = Some s.
Proof.
  unfold waiting. cbn. unfold sync_go, andb, negb. destruct (s_pc s i); try discriminate;
    repeat (match goal with |- context [s_deleted s ?v] => destruct (s_deleted s v) end; try discriminate);
    repeat (match goal with |- context [s_next s ?v] => destruct (s_next s v) end; try discriminate);
    repeat (match goal with |- context [match ?x with _ => _ end] => destruct x end; try discriminate); auto.
Qed.

(** A step that is none of waiting changes the thread's position. *)
Lemma go_moves s i s' : waiting s i = false -> run1 s (SGo i) = Some s' -> s_pc s' i <> s_pc s i.
Proof.
  intros W R. cbn in R. unfold sync_go in R. unfold waiting in W.
  destruct (s_pc s i) eqn:P; one_step R; injection R as <-; cbn; rewrite ?fupd_eq; try discriminate;
    try (match goal with k : caller |- _ => destruct k; discriminate end).
  all: cbn in W; try congruence.
  all: try (intros E; injection E as E; lia).
  all: match goal with H : _ = true |- _ => rewrite H in W end; cbn in W; try congruence.
Qed.

Lemma flush_moves s i s' : run1 s (SFlush i) = Some s' -> length (s_buf s' i) <> length (s_buf s i).
Proof.
  cbn. destruct (s_buf s i) as [|x b] eqn:E; [discriminate|]. intros [= <-]. destruct x; cbn; rewrite fupd_eq; cbn; lia.
Qed.

Lemma moves s l s' : busy s l = true -> run1 s l = Some s' ->
  (exists i, l = SGo i /\ waiting s i = true /\ s' = s) \/
  ((forall i, l = SGo i -> waiting s i = false) /\ s' <> s).
Proof.
  intros B R. destruct l as [i|i|i|i]; try discriminate B.
  - destruct (waiting s i) eqn:W.
    + left. exists i. split; auto. split; auto. rewrite (wait_same s i W) in R. congruence.
    + right. split; [intros j [= <-]; auto|]. intros ->. now apply (go_moves s i s W R).
  - right. split; [discriminate|]. cbn in R. destruct (s_pc s i) eqn:P; try discriminate. injection R as <-.
    intros E. apply (f_equal (fun s => s_pc s i)) in E. cbn in E. rewrite fupd_eq in E. congruence.
  - right. split; [discriminate|]. intros ->. now apply (flush_moves s i s R).
Qed.

(** Somebody can go on, unless all rest or somebody has crashed. *)
Lemma can_go s : sound s -> ~ crashed s ->
  (exists i, ~ resting s i) -> (exists i, s_buf s i <> []) \/ (forall i, s_buf s i = []) ->
  exists l s', busy s l = true /\ run1 s l = Some s' /\ s' <> s /\ ~ resting s (actor l) /\ (exists i, l = SGo i \/ l = SFlush i).
Proof.
  intros RE NC [i0 NR] [[i NB]|NB].
  - exists (SFlush i). cbn. destruct (s_buf s i) as [|x b] eqn:E; [congruence|].
    eexists. split; [reflexivity|]. split; [reflexivity|]. split.
    + intros X. apply (f_equal (fun s => length (s_buf s i))) in X. destruct x; cbn in X; rewrite fupd_eq, E in X; cbn in X; lia.
    + split; [intros [_ X]; congruence|exists i; now right].
  - destruct RE as (c & o & G & F).
    assert (NQ : quiet (s_pc s i0) = false).
    { destruct (quiet (s_pc s i0)) eqn:Q; auto. exfalso. apply NR. split; auto. }
    (* a thread that does not wait *)
    assert (K : forall i, quiet (s_pc s i) = false -> waiting s i = false ->
       exists l s', busy s l = true /\ run1 s l = Some s' /\ s' <> s /\ ~ resting s (actor l) /\ (exists i, l = SGo i \/ l = SFlush i)).
    { intros i Q W. assert (X : exists s', run1 s (SGo i) = Some s').
      { cbn. unfold sync_go, locked. rewrite (NB i).
        destruct (s_pc s i) eqn:P; try discriminate Q; eauto;
          repeat match goal with |- context [match ?x with _ => _ end] => destruct x end; eauto.
        exfalso. apply NC. exists i. eauto. }
      destruct X as [s' R]. exists (SGo i), s'. cbn [busy actor]. rewrite Q. split; [reflexivity|]. split; [exact R|].
      split; [intros ->; now apply (go_moves s i s W R)|]. split; [intros [X _]; congruence|]. exists i. now left. }
    (* whoever waits, the organiser exists and can go on or waits for somebody else *)
    assert (O : forall t, o = Some t -> exists l s', busy s l = true /\ run1 s l = Some s' /\ s' <> s /\ ~ resting s (actor l) /\ (exists i, l = SGo i \/ l = SFlush i)).
    { intros t ->. destruct (gi_org _ _ _ _ _ _ G) as (O1 & O2 & O3).
      destruct (waiting s t) eqn:W.
      2:{ apply (K t); auto. destruct (s_pc s t); auto; discriminate. }
      unfold waiting in W. destruct (s_pc s t) eqn:P; try discriminate.
      - apply andb_true_iff in W as [_ W]. destruct (s_ops s i) as [w|] eqn:E; [|discriminate].
        destruct (fi_own _ _ F i w) as [j SL]; auto. subst i. rename j into i.
        assert (FO : fops s i = Some w) by (unfold fops; rewrite (NB i); exact E).
        pose proof (fi_ops _ _ F I i w FO) as X. apply (K i); destruct (s_pc s i) eqn:Q; try contradiction; auto; unfold waiting; rewrite Q; auto.
      - apply andb_true_iff in W as [_ W]. destruct (s_mig s i) as [w|] eqn:E; [|discriminate].
        destruct (fi_own _ _ F i w) as [j SL]; auto. subst i. rename j into i.
        assert (FM : fmig s i = Some w) by (unfold SyncInv.fmig; rewrite (NB i); exact E).
        pose proof (fi_mig _ _ F i w FM) as X.
        apply (K i); destruct (s_pc s i) eqn:Q; try contradiction; auto; unfold waiting; rewrite Q; auto.
        destruct (fi_need _ _ F i v0) as [Y|Y]; [now rewrite Q|cbn in O2; congruence|]. rewrite Y. apply andb_false_r.
      - cbn in O1.
        assert (v = c) as ->.
        { pose proof (gi_th _ _ _ _ _ _ G t) as [_ T]. rewrite P in T. destruct T as (_ & T & _).
          destruct k as [x|]; [|discriminate]. cbn in O1. injection O1 as ->. symmetry. now apply T. }
        apply andb_true_iff in W as [_ W]. rewrite (fi_open _ _ F t c) in W; [discriminate|]. rewrite P. exact O1. }
    destruct o as [t|]; [now apply (O t)|]. destruct (gi_org _ _ _ _ _ _ G) as [O1 O2].
    apply (K i0); auto. unfold waiting. destruct (s_pc s i0) eqn:P; auto; try (rewrite O1; reflexivity).
    + pose proof (gi_only _ _ _ _ _ _ G i0 ltac:(discriminate)) as X. rewrite P in X. discriminate.
    + pose proof (gi_only _ _ _ _ _ _ G i0 ltac:(discriminate)) as X. rewrite P in X. discriminate.
    + destruct (fi_need _ _ F i0 v) as [Y|Y]; [now rewrite P|congruence|]. rewrite Y. apply andb_false_r.
Qed.

(** ** The steps left *)

(** Changes of the table pointer that the operation in progress can still cause. *)
Definition changes (p : spc) : N :=
  match p with
  | PGet1 | PGet2 _ | PGet3 _ | PGet4 | POp _ | PRls (Some _) | PGrow1 _ | PGrow2 _ _ | PGrow3 _ | PGrow4 _ | PHelpWait => 3
  | PMig1 k | PMig2 k _ | PMig3 k _ _ | PMig4 k _ _ | PMig5 k _ _ _ | PMig6 k _ _ =>
      match k with KHelp => 3 | KOrg _ => 2 end
  | PGrow5 _ | PWaitOps _ _ _ | PGrow7 _ | PGrow9 _ => 2
  | PWaitStart _ | PWaitMig _ _ _ | PPublish _ => 1
  | _ => 0
  end.
(** It may still raise the epoch. *)
Definition raises (p : spc) : N :=
  match p with
  | PGet1 | PGet2 _ | PGet3 _ | PGet4 | POp _ | PRls (Some _) | PGrow1 _ | PGrow2 _ _ | PHelpWait => 1
  | PMig1 k | PMig2 k _ | PMig3 k _ _ | PMig4 k _ _ | PMig5 k _ _ _ | PMig6 k _ _ =>
      match k with KHelp => 1 | KOrg _ => 0 end
  | _ => 0
  end.

Context (ts : list N) (L NB V : N).

Definition kb (k : caller) : N := match k with KHelp => 24 + 2 * L + 2 * NB | KOrg _ => 5 + L end.
Definition left_get1 (tb : tab) : N :=
  match tb with TMarked _ => 31 + 2 * L + 4 * NB | _ => 23 + 2 * L + 2 * NB end.
(** Steps left until the thread rests or waits, while the table pointer is [tb]. *)
Definition left_ (tb : tab) (bl : N -> N) (p : spc) : N :=
  match p with
  | PUnreg | PIdle | PFault _ => 0
  | PReserved | PRls None | PDelete _ => 1
  | PGet1 => left_get1 tb
  | PGet2 v => match tb with TTab w => if w =? v then 22 + 2 * L + 2 * NB else left_get1 tb + 3 | _ => left_get1 tb + 3 end
  | PGet3 v => match tb with TTab w => if w =? v then 21 + 2 * L + 2 * NB else left_get1 tb + 2 | _ => left_get1 tb + 2 end
  | PGet4 => left_get1 tb + 1
  | POp _ => 20 + 2 * L + 2 * NB
  | PRls (Some _) => 19 + 2 * L + 2 * NB
  | PGrow1 _ => 18 + 2 * L + 2 * NB
  | PGrow2 _ _ => 17 + 2 * L + 2 * NB
  | PGrow3 _ => 16 + 2 * L + 2 * NB
  | PGrow4 _ => 15 + 2 * L + 2 * NB
  | PGrow5 _ => 14 + 2 * L + 2 * NB
  | PWaitOps _ e j => 13 + L + 2 * NB + (e - j)
  | PGrow7 _ => 12 + L + 2 * NB
  | PGrow9 _ => 5 + L
  | PWaitStart _ => 4 + L
  | PWaitMig _ e j => 3 + (e - j)
  | PPublish _ => 2
  | PMig1 k => kb k + 6 + 2 * NB
  | PMig2 k _ => kb k + 5 + 2 * NB
  | PMig3 k _ _ => kb k + 4 + 2 * NB
  | PMig4 k v _ => kb k + 2 + 2 * (nblocks v - bl v)
  | PMig5 k v _ _ => kb k + 3 + 2 * (nblocks v - bl v)
  | PMig6 k _ _ => kb k + 1
  | PHelpWait => 24 + 2 * L + 2 * NB
  end.
Definition most : N := 40 + 2 * L + 4 * NB.

Definition work (s : sst) (i : N) : N := 2 * left_ (s_tab s) (s_block s) (s_pc s i) + N.of_nat (length (s_buf s i)).
Definition total_changes (s : sst) : N := tot (fun i => changes (s_pc s i)) ts.
Definition total (s : sst) : N :=
  total_changes s * (2 * most * N.of_nat (length ts) + 1) + tot (work s) ts.

Record bnd (s : sst) : Prop := {
  bn_ts : forall i, ~ In i ts -> resting s i;
  bn_last : s_last s <= L;
  bn_slot : forall i, In i ts -> slot i + 1 <= L;
  bn_scan : forall i v e j, s_pc s i = PWaitOps v e j \/ s_pc s i = PWaitMig v e j -> e <= L;
  bn_ver : s_epoch s + tot (fun i => raises (s_pc s i)) ts <= V;
  bn_blk : forall v, v <= V -> nblocks v <= NB }.

Lemma ver_le c o s v : ginv c o s -> bnd s -> v <= c -> nblocks v <= NB.
Proof.
  intros G B H. apply (bn_blk _ B). pose proof (bn_ver _ B).
  assert (c <= s_epoch s) by (pose proof (gi_org _ _ _ _ _ _ G) as X; destruct o; [destruct X as (_ & _ & ->)|destruct X as [_ ->]]; lia).
  lia.
Qed.

Lemma left_le c o s i : ginv c o s -> bnd s -> left_ (s_tab s) (s_block s) (s_pc s i) <= most.
Proof.
  intros G B. unfold most. pose proof (gi_th _ _ _ _ _ _ G i) as [_ T].
  assert (KB : forall k, kb k <= 24 + 2 * L + 2 * NB) by (intros [x|]; cbn; lia).
  assert (G1 : left_get1 (s_tab s) <= 31 + 2 * L + 4 * NB) by (unfold left_get1; destruct (s_tab s); lia).
  destruct (s_pc s i) eqn:P; cbn; try lia.
  - destruct (s_tab s) as [w| |]; try lia. destruct (w =? v); lia.
  - destruct (s_tab s) as [w| |]; try lia. destruct (w =? v); lia.
  - destruct want; lia.
  - pose proof (bn_scan _ B i v e i0 (or_introl P)). lia.
  - pose proof (bn_scan _ B i v e i0 (or_intror P)). lia.
  - specialize (KB k). lia.
  - specialize (KB k). lia.
  - specialize (KB k). lia.
  - specialize (KB k). pose proof (ver_le c o s v G B ltac:(apply T)). lia.
  - specialize (KB k). assert (v = c) as -> by apply T. pose proof (ver_le c o s c G B ltac:(lia)). lia.
  - specialize (KB k). lia.
Qed.

Lemma store_len s i x : N.of_nat (length (s_buf (put_store tso slot s i x) i)) <= N.of_nat (length (s_buf s i)) + 1.
Proof. unfold put_store. destruct tso, x; cbn; rewrite ?fupd_eq, ?app_length; cbn; lia. Qed.

(** What a step that is none of waiting does to its thread. *)
Lemma actor_step c o s l s' (i := actor l) : ginv c o s -> bnd s -> busy s l = true -> run1 s l = Some s' ->
  (forall k, l = SGo k -> waiting s k = false) ->
  s_last s' <= N.max (s_last s) (slot i + 1) /\
  (forall v e j, s_pc s' i = PWaitOps v e j \/ s_pc s' i = PWaitMig v e j -> e <= L) /\
  s_epoch s' + raises (s_pc s' i) <= s_epoch s + raises (s_pc s i) /\
  (forall v, s_block s v <= s_block s' v) /\
  (s_tab s' = s_tab s /\ changes (s_pc s' i) <= changes (s_pc s i) /\ work s' i + 1 <= work s i \/
   changes (s_pc s' i) + 1 <= changes (s_pc s i) /\ s_buf s' i = s_buf s i).
Proof.
  intros G B BU R NW. subst i. pose proof (gi_th _ _ _ _ _ _ G (actor l)) as [_ T].
  pose proof (bn_last _ B) as BL. pose proof (bn_scan _ B (actor l)) as BS.
  assert (OR := fun v => is_org _ _ _ c o s (actor l) v G).
  destruct l as [i|i|i|i]; cbn [actor] in *; try discriminate BU.
  - specialize (NW i eq_refl). cbn in BU. cbn in R.
    assert (W : forall s1 p, s_buf s1 = s_buf s \/ (exists x, s1 = put_store tso slot s i x) ->
        left_ (s_tab s1) (s_block s1) p + 1 <= left_ (s_tab s) (s_block s) (s_pc s i) ->
        work (set_pc s1 i p) i + 1 <= work s i).
    { intros s1 p H H1. unfold work. cbn [s_tab s_block s_pc s_buf set_pc]. rewrite fupd_eq.
      destruct H as [->|[x ->]]; [lia|]. pose proof (store_len s i x). lia. }
    unfold sync_go in R. unfold waiting in NW.
    destruct (s_pc s i) eqn:P; try discriminate BU; one_step R; try discriminate NW; injection R as <-.
    all: cbn [s_last s_pc s_epoch s_block s_tab s_buf set_pc set_tab set_epoch set_last set_next set_block set_moved set_deleted].
    all: rewrite ?fupd_eq.
    all: try (match goal with |- context [put_store ?a ?b ?s0 ?i0 ?x] =>
             destruct (store_rest s0 i0 x) as (SR1 & SR2 & SR3 & SR4 & SR5 & SR6); rewrite ?SR1, ?SR4, ?SR5, ?SR6 end).
    all: split; [lia|split; [intros v' e' j' [E'|E']; try discriminate E'; try (injection E' as <- <- <-); eauto; try lia
           |split; [cbn; try lia|split; [try (intros; lia)|]]]].
    all: try (match goal with k : caller |- _ => destruct k as [?|] end; cbn [mig_return raises] in *; try discriminate; lia).
    all: try (intros v'; unfold fupd; destruct (N.eqb_spec v' v) as [->|]; lia).
    all: try (apply N.eqb_eq in Heqb; lia).
    all: try (right; split; [cbn; lia|congruence]).
    all: left; split; [reflexivity || congruence|split; [try (cbn; lia); destruct k; cbn; lia|
           apply W; [(now left) || (right; eexists; reflexivity)|]]].
    all: repeat match goal with
           | H : s_tab _ = _ |- _ => rewrite H
           | H : s_block (put_store _ _ _ _ _) = _ |- _ => rewrite H
           end.
    all: try (cbn; rewrite ?N.eqb_refl; unfold kb; lia).
    all: try (apply N.ltb_lt in Heqb; cbn; lia).
    all: try (destruct k; cbn; lia).
    all: try (cbn; destruct (s_tab s) as [w| |]; try destruct (w =? v); cbn; lia).
    all: try (cbn; rewrite ?Heqb; cbn; lia).
    all: cbn; rewrite ?fupd_eq; try (apply N.ltb_lt in Heqb0; lia).
    pose proof (ver_le c o s v G B (proj1 T)). lia.
  - cbn in R. destruct (s_pc s i) eqn:P; try discriminate. injection R as <-.
    cbn [s_last s_pc s_epoch s_block s_tab s_buf set_pc]. rewrite fupd_eq.
    split; [lia|]. split; [intros v' e' j' [E'|E']; discriminate E'|]. split; [cbn; lia|]. split; [intros; lia|].
    left. split; [reflexivity|]. split; [cbn; lia|]. unfold work. cbn [s_tab s_block s_pc s_buf set_pc]. rewrite fupd_eq, P. cbn. lia.
  - cbn in R. destruct (s_buf s i) as [|x b] eqn:E; [discriminate|]. injection R as <-.
    assert (Q : s_last (commit (set_buf s i b) (slot i) x) = s_last s /\ s_pc (commit (set_buf s i b) (slot i) x) = s_pc s /\
      s_epoch (commit (set_buf s i b) (slot i) x) = s_epoch s /\ s_block (commit (set_buf s i b) (slot i) x) = s_block s /\
      s_tab (commit (set_buf s i b) (slot i) x) = s_tab s /\ s_buf (commit (set_buf s i b) (slot i) x) i = b).
    { destruct x; cbn; rewrite fupd_eq; auto 10. }
    destruct Q as (-> & Q2 & -> & Q4 & Q5 & Q6). rewrite Q2. split; [lia|]. split; [exact BS|]. split; [lia|].
    split; [rewrite Q4; intros; lia|]. left. split; [exact Q5|]. split; [lia|]. unfold work. rewrite Q5, Q4, Q2, Q6, E. cbn [length].
    rewrite Nnat.Nat2N.inj_succ. lia.
Qed.

Lemma raises_le s l s' : busy s l = true -> run1 s l = Some s' -> raises (s_pc s' (actor l)) <= raises (s_pc s (actor l)).
Proof.
  intros BU R. destruct l as [i|i|i|i]; try discriminate BU; cbn [actor].
  - cbn in BU, R. unfold sync_go in R.
    destruct (s_pc s i) eqn:P; try discriminate BU; one_step R; injection R as <-; cbn; rewrite ?fupd_eq, ?P; cbn; try lia;
      try (match goal with k : caller |- _ => destruct k end; cbn; lia).
    all: repeat match goal with |- context [if ?b then _ else _] => destruct b end; cbn; try lia; destruct k; cbn; lia.
  - cbn in R. destruct (s_pc s i) eqn:P; try discriminate. injection R as <-. cbn. rewrite fupd_eq. cbn. lia.
  - cbn in R. destruct (s_buf s i) as [|x b]; [discriminate|]. injection R as <-. destruct x; cbn; lia.
Qed.

Lemma left_mono tb bl bl' p : (forall v, bl v <= bl' v) -> left_ tb bl' p <= left_ tb bl p.
Proof. intros H. destruct p; cbn; try lia; specialize (H v); lia. Qed.

Lemma busy_in s l s' : bnd s -> busy s l = true -> run1 s l = Some s' -> In (actor l) ts.
Proof.
  intros B BU R. destruct (in_dec N.eq_dec (actor l) ts) as [|NI]; auto. exfalso.
  destruct (bn_ts _ B _ NI) as [Q E]. destruct l as [i|i|i|i]; cbn in *; try discriminate.
  - rewrite Q in BU. discriminate.
  - destruct (s_pc s i); discriminate.
  - rewrite E in R. discriminate.
Qed.

Lemma step_bnd c o s l s' : ginv c o s -> bnd s -> busy s l = true -> run1 s l = Some s' ->
  (forall k, l = SGo k -> waiting s k = false) -> bnd s'.
Proof.
  intros G B BU R NW. pose proof (busy_in s l s' B BU R) as IN.
  destruct (actor_step c o s l s' G B BU R NW) as (A1 & A2 & A3 & _).
  pose proof (raises_le s l s' BU R) as A4. destruct (step_frame s l s' R) as [FR _].
  split.
  - intros j NI. assert (NE : j <> actor l) by (intros ->; auto). destruct (FR j NE) as [E1 E2].
    unfold resting. rewrite E1, E2. now apply (bn_ts _ B).
  - pose proof (bn_last _ B). pose proof (bn_slot _ B _ IN). lia.
  - apply (bn_slot _ B).
  - intros j v e k. destruct (N.eq_dec j (actor l)) as [->|NE]; [apply A2|]. rewrite (proj1 (FR j NE)). apply (bn_scan _ B).
  - pose proof (bn_ver _ B).
    pose proof (tot_one (fun i => raises (s_pc s' i)) (fun i => raises (s_pc s i)) ts (actor l)
      (raises (s_pc s (actor l)) - raises (s_pc s' (actor l))) IN) as X. cbv beta in X.
    assert (Y : forall i, In i ts -> raises (s_pc s' i) <= raises (s_pc s i)).
    { intros i _. destruct (N.eq_dec i (actor l)) as [->|NE]; auto. rewrite (proj1 (FR i NE)). lia. }
    specialize (X Y ltac:(lia)). lia.
  - apply (bn_blk _ B).
Qed.

Lemma step_total c o s l s' c' o' : ginv c o s -> ginv c' o' s' -> bnd s -> busy s l = true -> run1 s l = Some s' ->
  (forall k, l = SGo k -> waiting s k = false) -> total s' + 1 <= total s.
Proof.
  intros G G' B BU R NW. pose proof (busy_in s l s' B BU R) as IN. pose proof (step_bnd c o s l s' G B BU R NW) as B'.
  destruct (actor_step c o s l s' G B BU R NW) as (_ & _ & _ & A4 & A5). destruct (step_frame s l s' R) as [FR _].
  unfold total. destruct A5 as [(A5 & A6 & A7)|(A6 & A7)].
  - assert (C : total_changes s' <= total_changes s).
    { unfold total_changes. pose proof (tot_le (fun i => changes (s_pc s' i)) (fun i => changes (s_pc s i)) ts 0) as X. cbv beta in X.
      enough (forall i, In i ts -> changes (s_pc s' i) <= changes (s_pc s i) + 0) by (specialize (X H); lia).
      intros i _. destruct (N.eq_dec i (actor l)) as [->|NE]; [lia|]. rewrite (proj1 (FR i NE)). lia. }
    pose proof (tot_one (work s') (work s) ts (actor l) 1 IN) as X.
    enough (forall i, In i ts -> work s' i <= work s i) by (specialize (X H A7); apply (N.mul_le_mono_r _ _ (2 * most * N.of_nat (length ts) + 1)) in C; lia).
    intros i _. destruct (N.eq_dec i (actor l)) as [->|NE]; [lia|]. unfold work. rewrite A5. destruct (FR i NE) as [-> ->].
    pose proof (left_mono (s_tab s) _ _ (s_pc s i) A4). lia.
  - assert (C : total_changes s' + 1 <= total_changes s).
    { unfold total_changes. apply (tot_one _ _ ts (actor l)); auto.
      intros i _. destruct (N.eq_dec i (actor l)) as [->|NE]; [lia|]. rewrite (proj1 (FR i NE)). lia. }
    pose proof (tot_le (work s') (work s) ts (2 * most)) as X.
    enough (forall i, In i ts -> work s' i <= work s i + 2 * most) by (specialize (X H); apply (N.mul_le_mono_r _ _ (2 * most * N.of_nat (length ts) + 1)) in C; lia).
    intros i _. unfold work. pose proof (left_le c' o' s' i G' B').
    assert (s_buf s' i = s_buf s i) as -> by (destruct (N.eq_dec i (actor l)) as [->|NE]; [exact A7|apply (FR i NE)]). lia.
Qed.

(** ** Any number of steps *)

Lemma sound_step s l s' : sound s -> run1 s l = Some s' -> sound s'.
Proof.
  intros (c & o & G & F) E. destruct (step_inv tso nblocks slot INJ c o s l s' G E) as (c' & o' & G').
  exists c', o'. split; [exact G'|]. exact (finv_step True c o s l s' G F E).
Qed.

Lemma step_less s l s' : sound s -> bnd s -> busy s l = true -> run1 s l = Some s' ->
  s' = s \/ sound s' /\ bnd s' /\ total s' + 1 <= total s.
Proof.
  intros RE B BU R. destruct (moves s l s' BU R) as [(i & _ & _ & ->)|[NW NE]]; [now left|right].
  pose proof (sound_step s l s' RE R) as RE'.
  destruct RE as (c & o & G & F). destruct RE' as (c' & o' & G' & F').
  split; [now exists c', o'|]. split; [exact (step_bnd c o s l s' G B BU R NW)|exact (step_total c o s l s' c' o' G G' B BU R NW)].
Qed.

Lemma works_less s n s' : sound s -> bnd s -> works tso nblocks slot s n s' -> sound s' /\ bnd s' /\ total s' + n <= total s.
Proof.
  intros RE B W. induction W as [|n s1 l s2 W (RE1 & B1 & T1) BU R NE]; [split; auto; split; auto; lia|].
  destruct (step_less s1 l s2 RE1 B1 BU R) as [->|(RE2 & B2 & T2)]; [congruence|].
  split; auto. split; auto. lia.
Qed.

Notation attempt := (attempt tso nblocks slot).
Notation attempts := (attempts tso nblocks slot).

Lemma attempt_less s l : sound s -> bnd s ->
  attempt s l = s \/ sound (attempt s l) /\ bnd (attempt s l) /\ total (attempt s l) + 1 <= total s.
Proof.
  intros RE B. unfold SyncEndSpec.attempt. destruct (busy s l) eqn:BU; [|now left].
  destruct (run1 s l) as [s'|] eqn:R; [|now left]. exact (step_less s l s' RE B BU R).
Qed.

Lemma attempts_less ls : forall s, sound s -> bnd s ->
  attempts ls s = s \/ sound (attempts ls s) /\ bnd (attempts ls s) /\ total (attempts ls s) + 1 <= total s.
Proof.
  induction ls as [|l ls IH]; intros s RE B; [now left|].
  change (attempts (l :: ls) s) with (attempts ls (attempt s l)).
  destruct (attempt_less s l RE B) as [->|(RE1 & B1 & T1)]; [now apply IH|]. right.
  destruct (IH _ RE1 B1) as [->|(RE2 & B2 & T2)]; [auto|]. split; auto. split; auto. lia.
Qed.

Lemma attempts_ok ls s : sound s -> bnd s -> sound (attempts ls s) /\ bnd (attempts ls s) /\ total (attempts ls s) <= total s.
Proof.
  intros RE B. destruct (attempts_less ls s RE B) as [->|(RE2 & B2 & T2)]; split; auto; split; auto; lia.
Qed.

Lemma attempts_app l1 l2 s : attempts (l1 ++ l2) s = attempts l2 (attempts l1 s).
Proof. apply fold_left_app. Qed.

(** Who rests goes on resting; a crash is final. *)
Lemma attempt_rest s l i : resting s i -> resting (attempt s l) i.
Proof.
  intros RS. unfold SyncEndSpec.attempt. destruct (busy s l) eqn:BU; auto. destruct (run1 s l) as [s'|] eqn:R; auto.
  destruct (step_frame s l s' R) as [FR _].
  destruct (N.eq_dec i (actor l)) as [->|NE].
  - exfalso. destruct RS as [Q E]. destruct l as [k|k|k|k]; cbn in *; try discriminate.
    + rewrite Q in BU. discriminate.
    + destruct (s_pc s k); discriminate.
    + rewrite E in R. discriminate.
  - unfold resting. destruct (FR i NE) as [-> ->]. exact RS.
Qed.
Lemma attempts_rest ls : forall s i, resting s i -> resting (attempts ls s) i.
Proof. induction ls as [|l ls IH]; intros s i H; auto. apply (IH (attempt s l)), attempt_rest, H. Qed.

Lemma attempt_crash s l : crashed s -> crashed (attempt s l).
Proof.
  intros [i [v P]]. unfold SyncEndSpec.attempt. destruct (busy s l) eqn:BU; [|exists i, v; auto].
  destruct (run1 s l) as [s'|] eqn:R; [|exists i, v; auto].
  exists i, v. destruct (step_frame s l s' R) as [FR _].
  destruct (N.eq_dec i (actor l)) as [->|NE]; [|now rewrite (proj1 (FR i NE))].
  destruct l as [k|k|k|k]; cbn [actor] in *; try discriminate; cbn in R.
  - unfold sync_go in R. rewrite P in R. discriminate.
  - rewrite P in R. discriminate.
  - destruct (s_buf s k) as [|x b]; [discriminate|]. injection R as <-. destruct x; cbn; auto.
Qed.
Lemma attempts_crash ls : forall s, crashed s -> crashed (attempts ls s).
Proof. induction ls as [|l ls IH]; intros s H; auto. apply (IH (attempt s l)), attempt_crash, H. Qed.

Lemma end_dec s : bnd s ->
  (crashed s \/ forall i, resting s i) \/
  (~ crashed s /\ (exists i, ~ resting s i) /\ ((exists i, s_buf s i <> []) \/ (forall i, s_buf s i = []))).
Proof.
  intros B.
  assert (RD : forall i, resting s i \/ ~ resting s i).
  { intros i. unfold resting. destruct (quiet (s_pc s i)), (s_buf s i); auto; right; intros []; discriminate. }
  destruct (dec_list (fun i => exists v, s_pc s i = PFault v) ts) as [C|C].
  - intros i. destruct (s_pc s i); try (right; intros [? ?]; discriminate). left; eauto.
  - intros i NI [v P]. destruct (bn_ts _ B i NI) as [Q _]. rewrite P in Q. discriminate.
  - left. left. exact C.
  - destruct (dec_list (fun i => ~ resting s i) ts) as [R|R].
    + intros i. destruct (RD i); auto.
    + intros i NI H. apply H, (bn_ts _ B), NI.
    + right. split; [intros [i H]; now apply (C i)|]. split; auto.
      destruct (dec_list (fun i => s_buf s i <> []) ts) as [U|U]; auto.
      * intros i. destruct (s_buf s i); [right; congruence|left; discriminate].
      * intros i NI H. apply H, (bn_ts _ B i NI).
      * right. intros i. destruct (s_buf s i) eqn:E; auto. exfalso. apply (U i). congruence.
    + left. right. intros i. destruct (RD i) as [|X]; auto. exfalso. now apply (R i).
Qed.

Lemma round_less s r : sound s -> bnd s -> fair_round s r ->
  (crashed s \/ forall i, resting s i) \/ total (attempts r s) + 1 <= total s.
Proof.
  intros RE B FR. destruct (end_dec s B) as [E|(NC & EXI & BD)]; [now left|right].
  destruct (can_go s RE NC EXI BD) as (l & s' & BU & R & NE & NR & LS).
  assert (IN : In l r) by (destruct LS as [i [-> | ->]]; apply (FR i NR)).
  apply in_split in IN as (r1 & r2 & ->). rewrite attempts_app.
  destruct (attempts_less r1 s RE B) as [->|(RE1 & B1 & T1)].
  - change (attempts (l :: r2) s) with (attempts r2 (attempt s l)).
    assert (A : attempt s l = s') by (unfold SyncEndSpec.attempt; now rewrite BU, R). rewrite A.
    destruct (step_less s l s' RE B BU R) as [|(RE1 & B1 & T1)]; [congruence|].
    pose proof (attempts_ok r2 s' RE1 B1). lia.
  - pose proof (attempts_ok (l :: r2) _ RE1 B1). lia.
Qed.

Lemma rounds_end s0 rs : forall s, sound s -> bnd s -> (forall i, ~ resting s i -> ~ resting s0 i) -> Forall (fair_round s0) rs ->
  (crashed (attempts (concat rs) s) \/ forall i, resting (attempts (concat rs) s) i) \/ total (attempts (concat rs) s) + N.of_nat (length rs) <= total s.
Proof.
  induction rs as [|r rs IH]; intros s RE B SUB F; [right; cbn; lia|]. inversion F as [|x y F1 F2]. subst.
  cbn [concat]. rewrite attempts_app.
  assert (FR : fair_round s r) by (intros i H; apply F1; auto).
  destruct (round_less s r RE B FR) as [[C|C]|T].
  - left. left. now apply attempts_crash, attempts_crash.
  - left. right. intros i. now apply attempts_rest, attempts_rest.
  - destruct (attempts_ok r s RE B) as (RE1 & B1 & _).
    destruct (IH (attempts r s)) as [E|T1]; auto.
    + intros i H. apply SUB. intros X. apply H. now apply attempts_rest.
    + right. cbn [length]. rewrite Nnat.Nat2N.inj_succ. lia.
Qed.

End End_.

Section Bounds.
Context (tso : bool) (nblocks : N -> N) (slot : N -> N).
Context (INJ : forall i j, slot i = slot j -> i = j).
Notation reach := (sync_reachable tso nblocks slot).
Notation sound := (sound tso nblocks slot).

Lemma reach_finite s : reach s -> exists ts, forall i, ~ In i ts -> resting s i.
Proof.
  induction 1 as [|s s' R (ts & H) [l ST]]; [exists []; intros i _; split; reflexivity|].
  exists (actor l :: ts). intros i NI. destruct (step_frame _ _ _ INJ s l s' ST) as [FR _].
  destruct (FR i) as [E1 E2]; [intros ->; apply NI; now left|]. unfold resting. rewrite E1, E2.
  apply H. intros X. apply NI. now right.
Qed.

Lemma blocks_bound V : exists NB, forall v, v <= V -> nblocks v <= NB.
Proof.
  induction V as [|V [NB H]] using N.peano_ind.
  - exists (nblocks 0). intros v ?. assert (v = 0) as -> by lia. lia.
  - exists (N.max NB (nblocks (N.succ V))). intros v ?. destruct (N.eq_dec v (N.succ V)) as [->|]; [lia|].
    specialize (H v ltac:(lia)). lia.
Qed.

Definition scan_end (p : spc) : N := match p with PWaitOps _ e _ | PWaitMig _ e _ => e | _ => 0 end.

Definition finite (s : sst) : Prop := exists ts, forall i, ~ In i ts -> resting s i.

Lemma exists_bnd s : finite s -> exists ts L NB V, bnd nblocks slot ts L NB V s.
Proof.
  intros [ts H].
  set (L := s_last s + tot (fun i => slot i + 1) ts + tot (fun i => scan_end (s_pc s i)) ts).
  set (V := s_epoch s + tot (fun i => raises (s_pc s i)) ts).
  destruct (blocks_bound V) as [NB HB]. exists ts, L, NB, V. split; auto.
  - unfold L. lia.
  - intros i I. pose proof (in_tot (fun i => slot i + 1) ts i I) as X. cbv beta in X. unfold L. lia.
  - intros i v e j P. destruct (in_dec N.eq_dec i ts) as [I|I].
    + pose proof (in_tot (fun i => scan_end (s_pc s i)) ts i I) as X. cbv beta in X. unfold L.
      destruct P as [P|P]; rewrite P in X; cbn [scan_end] in X; lia.
    + exfalso. destruct (H i I) as [Q _]. destruct P as [P|P]; rewrite P in Q; discriminate.
  - unfold V. lia.
Qed.

Theorem sound_can_go s : sound s -> finite s -> ~ crashed s -> (exists i, ~ resting s i) ->
  exists l s', busy s l = true /\ sync_run1 tso nblocks slot s l = Some s' /\ s' <> s.
Proof.
  intros R FI NC [i NR]. destruct (exists_bnd s FI) as (ts & L & NB & V & B).
  destruct (end_dec _ _ _ _ _ _ s B) as [[C|C]|(_ & EXI & BD)]; [contradiction|exfalso; now apply NR|].
  destruct (can_go tso nblocks slot INJ s R NC EXI BD) as (l & s' & BU & ST & NE & _). eauto 6.
Qed.

Theorem sound_bounded s : sound s -> finite s -> exists M, forall n s', works tso nblocks slot s n s' -> n <= M.
Proof.
  intros R FI. destruct (exists_bnd s FI) as (ts & L & NB & V & B). exists (total nblocks ts L NB s).
  intros n s' W. destruct (works_less tso nblocks slot INJ ts L NB V s n s' R B W) as (_ & _ & T). lia.
Qed.

Theorem sound_finish s : sound s -> finite s -> exists M, forall rs, (M <= length rs)%nat -> Forall (fair_round s) rs ->
  crashed (attempts tso nblocks slot (concat rs) s) \/ forall i, resting (attempts tso nblocks slot (concat rs) s) i.
Proof.
  intros R FI. destruct (exists_bnd s FI) as (ts & L & NB & V & B). exists (N.to_nat (total nblocks ts L NB s) + 1)%nat.
  intros rs HM F. destruct (rounds_end tso nblocks slot INJ ts L NB V s rs s R B (fun i H => H) F) as [E|T]; [exact E|]. lia.
Qed.

Theorem somebody_can_go s : reach s -> ~ crashed s -> (exists i, ~ resting s i) ->
  exists l s', busy s l = true /\ sync_run1 tso nblocks slot s l = Some s' /\ s' <> s.
Proof. intros R. apply sound_can_go; [now apply reach_finv|now apply reach_finite]. Qed.

Theorem work_bounded s : reach s -> exists M, forall n s', works tso nblocks slot s n s' -> n <= M.
Proof. intros R. apply sound_bounded; [now apply reach_finv|now apply reach_finite]. Qed.

Theorem rounds_finish s : reach s -> exists M, forall rs, (M <= length rs)%nat -> Forall (fair_round s) rs ->
  crashed (attempts tso nblocks slot (concat rs) s) \/ forall i, resting (attempts tso nblocks slot (concat rs) s) i.
Proof. intros R. apply sound_finish; [now apply reach_finv|now apply reach_finite]. Qed.
End Bounds.
