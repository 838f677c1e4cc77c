(** Consequences of the invariant of PoolInv.v. *)
From Coq Require Import NArith Bool List Lia.
From Verif Require Import Words BaseInv Pool PoolSpec PoolInv.
Import ListNotations.
Open Scope N_scope.

Section Facts.
Context (nblocks : N -> N).

Lemma prun_reachable ls : forall s s', pool_reachable nblocks s -> pool_run nblocks s ls = Some s' ->
  pool_reachable nblocks s'.
Proof.
  induction ls as [|l ls IH]; cbn; intros s s' R H; [now injection H as <-|].
  destruct (pool_run1 nblocks s l) as [s1|] eqn:E; [|discriminate].
  apply (IH s1); auto. apply (pr_step _ s); auto. now exists l.
Qed.

(** Pool thread [j] on its own comes to wake the users. *)
Definition will_wake (s : pst) (i j : N) : Prop :=
  exists k s', pool_run nblocks s (repeat (ZPool j) k) = Some s' /\ p_upc s' i <> UAsleep.

Lemma ww_step s s1 i j : pool_go nblocks s j = Some s1 -> will_wake s1 i j -> will_wake s i j.
Proof. intros G (k & s' & R & A). exists (S k), s'. cbn. rewrite G. auto. Qed.

Ltac wgo := eapply ww_step; [match goal with H : _ = _ |- _ => cbn; cbn in H; rewrite H; reflexivity end|].

Lemma ww_wake s i j n : p_ppc s j = PWake n -> will_wake s i j.
Proof.
  destruct s. cbn. intros H. eexists 1%nat, _. cbn. rewrite H. split; [reflexivity|]. cbn. unfold wake_users.
  destruct (p_upc i); discriminate.
Qed.

Lemma ww_inc s i j n : p_ppc s j = PInc n -> will_wake s i j.
Proof.
  destruct s. intros H. wgo. apply (ww_wake _ _ _ n). cbn. apply fupd_eq.
Qed.

Lemma ww_mig4 s i j v : p_ppc s j = PMig4 v -> will_wake s i j.
Proof.
  remember (N.to_nat (nblocks v - p_block s v)) as k eqn:K. revert s K.
  induction k as [|k IH]; intros [tb ep hp nx bl mv gw uw up lo le pp pe fi] K H; cbn in K, H.
  - assert (L : bl v <? nblocks v = false) by (apply N.ltb_ge; lia).
    eapply ww_step; [cbn; rewrite H, L; reflexivity|].
    eapply ww_step; [cbn; rewrite fupd_eq; reflexivity|].
    apply (ww_inc _ _ _ (v + 1)). cbn. apply fupd_eq.
  - assert (L : bl v <? nblocks v = true) by (apply N.ltb_lt; lia).
    eapply ww_step; [cbn; rewrite H, L; reflexivity|].
    eapply ww_step; [cbn; rewrite fupd_eq; reflexivity|].
    apply IH; cbn; rewrite fupd_eq; [lia|auto].
Qed.

Lemma ww_mig3 s i j v : p_ppc s j = PMig3 v -> will_wake s i j.
Proof.
  destruct s. intros H. wgo. destruct (p_next v) eqn:E.
  - apply (ww_mig4 _ _ _ v). cbn. apply fupd_eq.
  - eapply ww_step; [cbn; rewrite fupd_eq; reflexivity|]. apply (ww_inc _ _ _ v). cbn. apply fupd_eq.
Qed.

Lemma ww_fin s i j : p_ppc s j = PFin -> p_fin s j = 0 -> will_wake s i j.
Proof.
  destruct s. cbn. intros H F. eapply ww_step; [cbn; rewrite H, F; reflexivity|].
  do 2 (eapply ww_step; [cbn; rewrite fupd_eq; reflexivity|]).
  eapply ww_mig3. cbn. apply fupd_eq.
Qed.

Lemma ww_awake s i j : gone (p_ppc s j) = false -> p_ppc s j <> PAsleep -> p_fin s j = 0 ->
  p_pep s j <> p_gw s -> will_wake s i j.
Proof.
  intros GO AS F NE. destruct (p_ppc s j) eqn:P; try discriminate; try congruence.
  - destruct s. cbn in *. assert (X : p_gw =? p_pep j = false) by (apply N.eqb_neq; congruence).
    eapply ww_step; [cbn; rewrite P, X; reflexivity|]. apply ww_fin; cbn; auto. apply fupd_eq.
  - now apply ww_fin.
  - destruct s. wgo. eapply ww_step; [cbn; rewrite fupd_eq; reflexivity|]. eapply ww_mig3. cbn. apply fupd_eq.
  - destruct s. wgo. eapply ww_mig3. cbn. apply fupd_eq.
  - eapply ww_mig3; eauto.
  - destruct s. wgo. eapply ww_inc. cbn. apply fupd_eq.
  - eapply ww_mig4; eauto.
  - destruct s. wgo. eapply ww_mig4. cbn. apply fupd_eq.
  - destruct s. wgo. eapply ww_inc. cbn. apply fupd_eq.
  - eapply ww_inc; eauto.
  - eapply ww_wake; eauto.
Qed.

(** A sleeping user can be woken by the threads that are awake. *)
Lemma sleeper s i v : orderly nblocks s -> sleeps s i v ->
  (exists j, will_wake s i j) \/
  exists j s1, p_upc s j = UWake /\ user_go s j = Some s1 /\ sleeps s1 i v /\ will_wake s1 i i.
Proof.
  intros O [A L]. pose proof (orderly_pinv nblocks s O) as G.
  destruct (pi_usleep _ _ G i A) as [E|(j & n & H)]; [|left; exists j; eapply ww_wake; eauto].
  pose proof (pi_u _ _ G i) as (_ & S & _ & U). rewrite A in S, U. cbn in S, U.
  destruct S as [F GO]; auto. destruct U as (U1 & U2 & U3 & U4).
  pose proof (pi_p _ _ G i) as [P _]. specialize (P GO).
  destruct (p_ppc s i) eqn:PC; try discriminate;
    try (left; exists i; apply ww_awake; rewrite ?PC; auto; try discriminate; lia).
  right. destruct (pi_psleep _ _ G i PC) as [X|[j H]]; [lia|].
  assert (i <> j) by congruence.
  destruct s. cbn in *. exists j. eexists. split; [auto|]. split; [rewrite H; reflexivity|].
  split; [split; cbn; auto; now rewrite fupd_neq|].
  apply ww_fin; cbn; auto. unfold wake_pool. now rewrite PC.
Qed.

(** Executable check that an execution is orderly; only handles in [u] are used. *)
Definition calm_for (u : list N) (s s' : pst) : bool :=
  forallb (fun i =>
    negb (match p_ppc s i, p_ppc s' i with
          | PAsleep, PAsleep => false
          | PAsleep, _ => (p_gw s =? p_pep s i) && (p_fin s i =? 0)
          | _, _ => false end) &&
    negb (match p_upc s i, p_upc s' i with
          | UAsleep, UAsleep => false | UAsleep, _ => p_uw s =? p_lep s i | _, _ => false end) &&
    negb (match p_ppc s i, p_ppc s' i with
          | PMig3 v, PMig4 w => negb (p_pep s i =? v) | _, _ => false end)) u.

Definition who (l : zlabel) : N :=
  match l with ZUser i | ZPool i | ZWant i | ZInvalid i | ZDestroy i => i end.

Fixpoint orderly_run (u : list N) (s : pst) (ls : list zlabel) : option pst :=
  match ls with
  | [] => Some s
  | l :: ls =>
      match pool_run1 nblocks s l with
      | Some s' => if existsb (N.eqb (who l)) u && calm_for u s s' then orderly_run u s' ls else None
      | None => None
      end
  end.

Definition outside (u : list N) (s : pst) : Prop :=
  forall j, ~ In j u -> p_upc s j = UUnreg /\ p_ppc s j = PNone.

Lemma outside_step u s l s' : outside u s -> In (who l) u -> pool_run1 nblocks s l = Some s' -> outside u s'.
Proof.
  intros O I R j NJ. destruct (O j NJ) as [O1 O2].
  assert (J : j <> who l) by congruence.
  assert (FU : forall A (f : N -> A) x, fupd f (who l) x j = f j) by (intros; now apply fupd_neq).
  destruct l as [i|i|i|i|i]; cbn in *.
  - destruct s. unfold user_go in R. cbn in *.
    repeat match type of R with context[match ?x with _ => _ end] => destruct x end; try discriminate;
      injection R as <-; cbn; unfold wake_pool; rewrite ?FU, ?O1, ?O2; auto.
  - destruct s. unfold pool_go in R. cbn in *.
    repeat match type of R with context[match ?x with _ => _ end] => destruct x end; try discriminate;
      injection R as <-; cbn; unfold wake_users; rewrite ?FU, ?O1, ?O2; auto.
  - destruct (p_upc s i); try discriminate; injection R as <-; cbn; rewrite FU; auto.
  - destruct (p_upc s i); try discriminate. destruct (_ <? _); try discriminate. injection R as <-; cbn; rewrite FU; auto.
  - destruct (p_upc s i); try discriminate; injection R as <-; cbn; rewrite FU; auto.
Qed.

Lemma orderly_run_sound u ls : forall s s', orderly nblocks s -> outside u s -> orderly_run u s ls = Some s' ->
  orderly nblocks s'.
Proof.
  induction ls as [|l ls IH]; cbn; intros s s' O OU R; [now injection R as <-|].
  destruct (pool_run1 nblocks s l) as [s1|] eqn:E; [|discriminate].
  destruct (existsb (N.eqb (who l)) u) eqn:EX; [|discriminate]. destruct (calm_for u s s1) eqn:C; [|discriminate].
  assert (IW : In (who l) u).
  { apply existsb_exists in EX. destruct EX as (x & X & Y). apply N.eqb_eq in Y. congruence. }
  assert (OU1 : outside u s1) by (eapply outside_step; eauto).
  unfold calm_for in C. rewrite forallb_forall in C.
  apply (IH s1); auto. apply (od_step _ s); auto.
  - now exists l.
  - assert (IN : forall j, p_upc s j <> UUnreg \/ p_ppc s j <> PNone -> In j u).
    { intros j H. destruct (in_dec N.eq_dec j u) as [|NI]; auto. destruct (OU j NI). destruct H; congruence. }
    intros [(j & A & B & D & F)|(j & A & B & D)]; specialize (C j (IN j ltac:(rewrite A; try (now left); now right)));
      rewrite A in C.
    + rewrite D, F, !N.eqb_refl in C. destruct (p_ppc s1 j); try congruence; discriminate.
    + rewrite D, N.eqb_refl in C. destruct (p_upc s1 j); try congruence; try (rewrite andb_false_r in C; discriminate).
  - intros (j & v & A & B & D). destruct (in_dec N.eq_dec j u) as [I|NI]; [|destruct (OU j NI); congruence].
    specialize (C j I). rewrite A, B in C. rewrite (proj2 (N.eqb_neq _ _) D), andb_false_r in C. discriminate.
Qed.

End Facts.
