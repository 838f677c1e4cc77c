(** The invariant of orderly executions of pool threads. *)
From Coq Require Import NArith Bool List Lia.
From Verif Require Import Words BaseInv Pool PoolSpec.
Import ListNotations.
Open Scope N_scope.

(** The pool thread counts as a helper. *)
Definition phelping (p : ppc) : bool :=
  match p with PMig2 | PMig3 _ | PMigNo _ | PMig4 _ | PMig5 _ _ | PMig6 _ => true | _ => false end.

Section Inv.
Context (nblocks : N -> N).

(** All blocks of [v] were handed out. *)
Definition given (s : pst) (v : N) : Prop := nblocks v <= p_block s v.

(** The migration of [v] is over. *)
Definition pdone (s : pst) (v : N) : Prop :=
  given s v /\ (forall b, b < nblocks v -> p_moved s v b = true) /\
  forall i b, p_ppc s i <> PMig5 v b.

(** The handle has a pool thread that was not told to finish. *)
Definition served (u : upc) : bool :=
  match u with
  | UUnreg | UInit | UWait ToSpawn | ULoad ToSpawn | USpawn | UFin2 | UFin3 => false
  | _ => true
  end.

(** No pool thread is left. *)
Definition unserved (u : upc) : bool :=
  match u with UUnreg | UInit | UWait ToSpawn | USpawn => true | _ => false end.

Definition over (p : ppc) : bool := match p with PNone | PDone => true | _ => false end.

Definition gone (p : ppc) : bool := match p with PNone | PStop | PDone => true | _ => false end.

(** What the thread of a handle knows. *)
Definition uthr (s : pst) (i : N) (p : upc) : Prop :=
  p_loc s i <= p_tab s /\ (served p = true -> p_fin s i = 0 /\ gone (p_ppc s i) = false) /\
  (unserved p = true -> over (p_ppc s i) = true) /\
  match p with
  | ULoad k => k <> ToSpawn
  | UIdle | UOp | UGrow => p_loc s i <= p_epoch s /\ p_lep s i = p_loc s i
  | USpawn => p_loc s i <= p_epoch s /\ p_lep s i = p_loc s i
  | UInc => p_loc s i <= p_epoch s /\ p_lep s i = p_loc s i /\ p_next s (p_loc s i) = true
  | UWake | UCheck | UAsleep =>
      p_loc s i <= p_epoch s /\ p_lep s i = p_loc s i /\ p_next s (p_loc s i) = true /\
      p_loc s i < p_gw s
  | UEnd1 => p_loc s i <= p_epoch s /\ p_next s (p_loc s i) = true /\ p_loc s i < p_uw s /\
      (p_loc s i < p_tab s \/ given s (p_loc s i))
  | UEnd2 | UEnd3 => p_loc s i <= p_epoch s /\ p_next s (p_loc s i) = true /\ p_loc s i < p_uw s /\
      (p_loc s i < p_tab s \/ pdone s (p_loc s i))
  | UEnd4 => p_loc s i = p_epoch s /\ p_tab s = p_epoch s + 1
  | _ => True
  end.

(** What a pool thread knows. *)
Definition pthr (s : pst) (i : N) (p : ppc) : Prop :=
  (gone p = false -> p_pep s i <= p_uw s) /\
  match p with
  | PFin => p_pep s i < p_gw s \/ p_fin s i <> 0
  | PStop | PDone => p_fin s i <> 0
  | PMig1 | PMig2 => p_pep s i < p_gw s
  | PMig3 v => p_pep s i < p_gw s /\ p_pep s i <= v <= p_tab s
  | PMigNo v => p_pep s i < p_gw s /\ p_pep s i < p_tab s /\ v <= p_tab s
  | PMig4 v => p_pep s i < p_gw s /\ v = p_pep s i /\ p_next s v = true
  | PMig5 v b => p_pep s i < p_gw s /\ v = p_pep s i /\ p_next s v = true /\ v = p_tab s /\
      b < nblocks v /\ b < p_block s v
  | PMig6 v => p_pep s i < p_gw s /\ v = p_pep s i /\ p_next s v = true /\ given s v
  | PInc n => p_pep s i < p_gw s /\
      ((n = p_pep s i + 1 /\ given s (p_pep s i)) \/ (p_pep s i < p_tab s /\ n <= p_tab s))
  | PWake n => n <= p_uw s
  | _ => True
  end.

Record pinv (s : pst) : Prop := {
  pi_ep : p_epoch s <= p_tab s <= p_epoch s + 1;
  pi_pub : p_tab s = p_epoch s + 1 -> exists i, p_upc s i = UEnd4;
  pi_one : forall i j, p_upc s i = UEnd4 -> p_upc s j = UEnd4 -> i = j;
  pi_next : forall v, p_next s v = true -> v <= p_epoch s;
  pi_prev : forall v, v < p_tab s -> p_next s v = true /\ pdone s v;
  pi_block : forall v, 0 < p_block s v -> p_next s v = true;
  pi_mov : forall v b, b < p_block s v -> b < nblocks v ->
    p_moved s v b = true \/ exists i, p_ppc s i = PMig5 v b;
  pi_help : exists l, NoDup l /\ p_help s = N.of_nat (length l) /\
    forall i, In i l <-> phelping (p_ppc s i) = true;
  pi_fin : forall i, 2 <= p_fin s i -> p_ppc s i = PDone;
  pi_cnt : p_tab s <= p_uw s /\ p_uw s <= p_gw s /\ p_gw s <= p_epoch s + 1;
  pi_gw : p_gw s = p_tab s + 1 -> p_next s (p_tab s) = true;
  pi_uw : p_uw s = p_tab s + 1 -> given s (p_tab s);
  pi_psleep : forall i, p_ppc s i = PAsleep -> p_pep s i = p_gw s \/ exists j, p_upc s j = UWake;
  pi_usleep : forall i, p_upc s i = UAsleep -> p_uw s = p_loc s i \/ exists j n, p_ppc s j = PWake n;
  pi_u : forall i, uthr s i (p_upc s i);
  pi_p : forall i, pthr s i (p_ppc s i) }.

Lemma pinv_init : pinv pool_init.
Proof.
  split; cbn; try discriminate; try (intros; lia).
  - exists []. split; [constructor|]. split; [reflexivity|]. intros i. split; [intros []|discriminate].
  - intros i. unfold uthr. cbn. split; [lia|]. split; [discriminate|]. split; [reflexivity|exact Logic.I].
  - intros i. unfold pthr. cbn. split; [discriminate|exact Logic.I].
Qed.

(** Membership of the helper list after a step of [i]. *)
Lemma phelp_same (pc pc' : N -> ppc) (h : N) : (forall j, phelping (pc' j) = phelping (pc j)) ->
  (exists l, NoDup l /\ h = N.of_nat (length l) /\ forall j, In j l <-> phelping (pc j) = true) ->
  exists l, NoDup l /\ h = N.of_nat (length l) /\ forall j, In j l <-> phelping (pc' j) = true.
Proof.
  intros E (l & N1 & N2 & N3). exists l. split; [auto|]. split; [auto|]. intros j. rewrite E. apply N3.
Qed.

Lemma phelp_in (pc : N -> ppc) i p h : phelping (pc i) = false -> phelping p = true ->
  (exists l, NoDup l /\ h = N.of_nat (length l) /\ forall j, In j l <-> phelping (pc j) = true) ->
  exists l, NoDup l /\ h + 1 = N.of_nat (length l) /\ forall j, In j l <-> phelping (fupd pc i p j) = true.
Proof.
  intros E1 E2 (l & N1 & N2 & N3). exists (i :: l).
  assert (NI : ~ In i l) by (intros H; apply N3 in H; congruence).
  split; [now constructor|]. split; [cbn; lia|]. intros j. cbn. unfold fupd.
  destruct (N.eqb_spec j i) as [->|NE]; [intuition|]. rewrite <- N3. intuition congruence.
Qed.

Lemma phelp_out (pc : N -> ppc) i p h : phelping (pc i) = true -> phelping p = false ->
  (exists l, NoDup l /\ h = N.of_nat (length l) /\ forall j, In j l <-> phelping (pc j) = true) ->
  exists l, NoDup l /\ h - 1 = N.of_nat (length l) /\ forall j, In j l <-> phelping (fupd pc i p j) = true.
Proof.
  intros E1 E2 (l & N1 & N2 & N3).
  assert (IN : In i l) by (now apply N3). apply in_split in IN. destruct IN as (l1 & l2 & ->).
  exists (l1 ++ l2). pose proof (NoDup_remove_1 _ _ _ N1) as U1. pose proof (NoDup_remove_2 _ _ _ N1) as U2.
  split; auto. split; [rewrite app_length in *; cbn in N2; lia|]. intros j. unfold fupd.
  destruct (N.eqb_spec j i) as [->|NE]; [rewrite E2; intuition discriminate|].
  rewrite <- N3. rewrite !in_app_iff. cbn. intuition congruence.
Qed.

(** What other threads know is kept. *)
Lemma uthr_mono s s' j p :
  p_tab s <= p_tab s' -> p_epoch s <= p_epoch s' -> p_gw s <= p_gw s' -> p_uw s <= p_uw s' ->
  p_loc s' j = p_loc s j -> p_lep s' j = p_lep s j ->
  (p_fin s j = 0 -> p_fin s' j = 0) ->
  (gone (p_ppc s j) = false -> gone (p_ppc s' j) = true -> served p = true -> False) ->
  (over (p_ppc s j) = true -> over (p_ppc s' j) = true) ->
  (forall v, p_next s v = true -> p_next s' v = true) ->
  (forall v, given s v -> given s' v) ->
  (forall v, pdone s v -> pdone s' v) ->
  (p = UEnd4 -> p_epoch s' = p_epoch s /\ p_tab s' = p_tab s) ->
  uthr s j p -> uthr s' j p.
Proof.
  intros T E GW UW L LE FI GO OV NX GI DN E4 (H0 & H1 & H2 & H). split; [lia|]. split.
  { intros SV. destruct (H1 SV) as [A B]. split; auto. destruct (gone (p_ppc s' j)) eqn:X; auto. exfalso; auto. }
  split; [auto|].
  destruct p; rewrite ?L, ?LE; auto; try lia; try (destruct H as (A & B & C)); try (destruct C as (C & D));
   repeat split; auto; try lia; try (destruct D; [left; lia|right; auto]).
Qed.

Lemma pthr_mono s s' j p :
  p_tab s <= p_tab s' -> p_gw s <= p_gw s' -> p_uw s <= p_uw s' ->
  p_pep s' j = p_pep s j -> (p_fin s j <> 0 -> p_fin s' j <> 0) ->
  (forall v, p_next s v = true -> p_next s' v = true) ->
  (forall v, p_block s v <= p_block s' v) ->
  (p_tab s' = p_tab s \/ forall v b, p <> PMig5 v b) ->
  pthr s j p -> pthr s' j p.
Proof.
  intros T GW UW PE FI NX BL M5 (H0 & H). split. { intros X. specialize (H0 X). lia. }
  assert (GI : forall v, given s v -> given s' v) by (intros v; unfold given; specialize (BL v); lia).
  destruct p; rewrite ?PE; auto; try lia.
  - destruct H as (A & -> & C). repeat split; auto; lia.
  - destruct H as (A & -> & C & D & E). specialize (BL (p_pep s j)).
    assert (p_tab s' = p_tab s) by (destruct M5 as [|M5]; [auto|exfalso; eapply M5; eauto]).
    repeat split; auto; lia.
  - destruct H as (A & -> & C & D). repeat split; auto; lia.
  - destruct H as (A & [[B C]|[B C]]); (split; [lia|]); [left|right]; split; auto; lia.
Qed.

(** Steps that publish nothing. *)
Lemma pframe s s' :
  pinv s -> p_tab s' = p_tab s -> p_epoch s' = p_epoch s ->
  (forall j, p_upc s' j = UEnd4 <-> p_upc s j = UEnd4) ->
  (forall v, p_next s v = true -> p_next s' v = true) ->
  (forall v, p_next s' v = true -> v <= p_epoch s) ->
  (forall v, p_block s v <= p_block s' v) ->
  (forall v, 0 < p_block s' v -> p_next s' v = true) ->
  (forall v b, p_moved s v b = true -> p_moved s' v b = true) ->
  (forall j v b, p_ppc s' j = PMig5 v b -> p_ppc s j = PMig5 v b \/ p_block s v < nblocks v) ->
  (forall j v b, p_ppc s j = PMig5 v b -> p_ppc s' j = PMig5 v b \/ p_moved s' v b = true) ->
  (forall v b, b < p_block s' v -> b < nblocks v -> b < p_block s v \/ exists j, p_ppc s' j = PMig5 v b) ->
  (exists l, NoDup l /\ p_help s' = N.of_nat (length l) /\
    forall i, In i l <-> phelping (p_ppc s' i) = true) ->
  (forall i, 2 <= p_fin s' i -> p_ppc s' i = PDone) ->
  p_uw s <= p_uw s' <= p_gw s' -> p_gw s <= p_gw s' <= p_epoch s + 1 ->
  (p_gw s' = p_tab s + 1 -> p_next s' (p_tab s) = true) ->
  (p_uw s' = p_tab s + 1 -> given s' (p_tab s)) ->
  (forall i, p_ppc s' i = PAsleep -> p_pep s' i = p_gw s' \/ exists j, p_upc s' j = UWake) ->
  (forall i, p_upc s' i = UAsleep -> p_uw s' = p_loc s' i \/ exists j n, p_ppc s' j = PWake n) ->
  (forall j, (p_upc s' j = p_upc s j /\ p_loc s' j = p_loc s j /\ p_lep s' j = p_lep s j /\
     (p_fin s j = 0 -> p_fin s' j = 0) /\
     (gone (p_ppc s j) = false -> gone (p_ppc s' j) = true -> served (p_upc s j) = true -> False) /\
     (over (p_ppc s j) = true -> over (p_ppc s' j) = true)) \/ uthr s' j (p_upc s' j)) ->
  (forall j, (p_ppc s' j = p_ppc s j /\ p_pep s' j = p_pep s j /\ (p_fin s j <> 0 -> p_fin s' j <> 0)) \/
     pthr s' j (p_ppc s' j)) ->
  pinv s'.
Proof.
  intros [Gep Gpub Gone Gnext Gprev Gblock Gmov Ghelp Gfin Gcnt Ggw Guw Gps Gus Gu Gp]
    TB EP E4 NX NI BL BN MV CL FI MO HE FN UW GW GWN UWN PS US U P.
  assert (GI : forall v, given s v -> given s' v) by (intros v; unfold given; specialize (BL v); lia).
  assert (DN : forall v, pdone s v -> pdone s' v).
  { intros v (D1 & D2 & D3). split; [auto|]. split; [auto|]. intros j b E.
    destruct (CL j v b E) as [H|H]; [exact (D3 j b H)|]. unfold given in D1. lia. }
  split; rewrite ?TB, ?EP; auto.
  - intros H. destruct (Gpub H) as [j Hj]. exists j. now apply E4.
  - intros j k A B. apply E4 in A. apply E4 in B. auto.
  - intros v L. destruct (Gprev v L). auto.
  - intros v b H1 H2. destruct (MO v b H1 H2) as [H3|H3]; [|auto].
    destruct (Gmov v b H3 H2) as [H4|[j Hj]]; [left; auto|]. destruct (FI j v b Hj); eauto.
  - lia.
  - intros j. destruct (U j) as [(A & B & C & D & E & F)|]; [|auto]. rewrite A.
    apply (uthr_mono s); auto; try lia.
  - intros j. destruct (P j) as [(A & B & C)|]; [|auto]. rewrite A. apply (pthr_mono s); auto; try lia.
Qed.

Ltac fcase i := intros j; unfold fupd; destruct (N.eqb_spec j i) as [->|?].

(** Defaults for the sleepers. *)
Lemma psleep_keep s s' :
  pinv s -> p_gw s' = p_gw s ->
  (forall j, p_ppc s' j = PAsleep -> (p_ppc s j = PAsleep /\ p_pep s' j = p_pep s j) \/ p_pep s' j = p_gw s') ->
  (forall j, p_upc s j = UWake -> exists k, p_upc s' k = UWake) ->
  forall i, p_ppc s' i = PAsleep -> p_pep s' i = p_gw s' \/ exists j, p_upc s' j = UWake.
Proof.
  intros G GW A B i H. destruct (A i H) as [[H1 H2]|]; [|auto].
  destruct (pi_psleep _ G i H1) as [E|[j Hj]]; [left; congruence|right; eauto].
Qed.

Lemma usleep_keep s s' :
  pinv s -> p_uw s' = p_uw s ->
  (forall j, p_upc s' j = UAsleep -> (p_upc s j = UAsleep /\ p_loc s' j = p_loc s j) \/ p_uw s' = p_loc s' j) ->
  (forall j n, p_ppc s j = PWake n -> exists k m, p_ppc s' k = PWake m) ->
  forall i, p_upc s' i = UAsleep -> p_uw s' = p_loc s' i \/ exists j n, p_ppc s' j = PWake n.
Proof.
  intros G UW A B i H. destruct (A i H) as [[H1 H2]|]; [|auto].
  destruct (pi_usleep _ G i H1) as [E|(j & n & Hj)]; [left; congruence|right; eauto].
Qed.

(** A step of the thread of a handle that changes only its own state. *)
Lemma uplain s i p' lo' le' :
  pinv s -> p_upc s i <> UEnd4 -> p' <> UEnd4 -> p_upc s i <> UWake ->
  (forall j, j <> i -> lo' j = p_loc s j /\ le' j = p_lep s j) ->
  (p' = UAsleep -> p_uw s = lo' i) ->
  let s' := PSt (p_tab s) (p_epoch s) (p_help s) (p_next s) (p_block s) (p_moved s) (p_gw s) (p_uw s)
      (fupd (p_upc s) i p') lo' le' (p_ppc s) (p_pep s) (p_fin s) in
  uthr s' i p' -> pinv s'.
Proof.
  intros G N1 N2 N3 LO SL s' T. pose proof G as [Gep Gpub Gone Gnext Gprev Gblock Gmov Ghelp Gfin Gcnt Ggw Guw Gps Gus Gu Gp].
  apply (pframe s s' G); unfold s'; cbn; auto; try lia.
  - fcase i; intuition congruence.
  - apply (psleep_keep s s' G); unfold s'; cbn; auto. intros j H. exists j. rewrite fupd_neq; congruence.
  - apply (usleep_keep s s' G); unfold s'; cbn; eauto. fcase i; [auto|]. intros H. left. split; auto. now apply LO.
  - intros j. destruct (N.eq_dec j i) as [->|NE]; [right; now rewrite fupd_eq|left].
    destruct (LO j NE). rewrite fupd_neq; auto. repeat split; auto. congruence.
Qed.

(** A step of a pool thread that changes only its own program counter. *)
Lemma pplain s i p' hp' :
  pinv s -> (forall v b, p_ppc s i <> PMig5 v b) -> (forall v b, p' <> PMig5 v b) ->
  (forall n, p_ppc s i <> PWake n) -> over (p_ppc s i) = false -> over p' = false ->
  (gone p' = false \/ p_fin s i <> 0) ->
  (p' = PAsleep -> p_pep s i = p_gw s) ->
  let s' := PSt (p_tab s) (p_epoch s) hp' (p_next s) (p_block s) (p_moved s) (p_gw s) (p_uw s)
      (p_upc s) (p_loc s) (p_lep s) (fupd (p_ppc s) i p') (p_pep s) (p_fin s) in
  (exists l, NoDup l /\ hp' = N.of_nat (length l) /\
    forall j, In j l <-> phelping (fupd (p_ppc s) i p' j) = true) ->
  pthr s' i p' -> pinv s'.
Proof.
  intros G N1 N2 N3 O1 O2 GO SL s' HE T. pose proof G as [Gep Gpub Gone Gnext Gprev Gblock Gmov Ghelp Gfin Gcnt Ggw Guw Gps Gus Gu Gp].
  apply (pframe s s' G); unfold s'; cbn; auto; try lia.
  - tauto.
  - fcase i; intros v b H; [now destruct (N2 v b)|auto].
  - fcase i; intros v b H; [now destruct (N1 v b)|auto].
  - fcase i; auto. intros H. apply Gfin in H. rewrite H in O1. discriminate.
  - apply (psleep_keep s s' G); unfold s'; cbn; eauto. fcase i; auto.
  - apply (usleep_keep s s' G); unfold s'; cbn; auto. intros j n H. exists j, n. rewrite fupd_neq; auto. intros ->. eapply N3; eauto.
  - intros j. left. repeat split; auto.
    + intros A B C. pose proof (Gu j) as (_ & X & _). destruct (X C) as [F _].
      revert B. unfold fupd. destruct (N.eqb_spec j i) as [E|]; [subst j|congruence]. destruct GO; congruence.
    + intros A. unfold fupd. destruct (N.eqb_spec j i) as [E|]; [subst j; congruence|auto].
  - intros j. destruct (N.eq_dec j i) as [->|NE]; [right; now rewrite fupd_eq|left]. rewrite fupd_neq; auto.
Qed.

Lemma wake_pool_cases pp j : (pp j = PAsleep /\ wake_pool pp j = PFin) \/ (pp j <> PAsleep /\ wake_pool pp j = pp j).
Proof. unfold wake_pool. destruct (pp j); auto; right; split; auto; discriminate. Qed.

Lemma wake_users_cases up j : (up j = UAsleep /\ wake_users up j = UEnd1) \/ (up j <> UAsleep /\ wake_users up j = up j).
Proof. unfold wake_users. destruct (up j); auto; right; split; auto; discriminate. Qed.

(** Waking the pool threads. *)
Lemma wake_pool_inv s i p' :
  pinv s -> p_upc s i = UWake /\ p' = UCheck \/ p_upc s i = UFin3 /\ p' = UFin2 ->
  let s' := PSt (p_tab s) (p_epoch s) (p_help s) (p_next s) (p_block s) (p_moved s) (p_gw s) (p_uw s)
      (fupd (p_upc s) i p') (p_loc s) (p_lep s) (wake_pool (p_ppc s)) (p_pep s) (p_fin s) in
  ~ stale_wake s s' -> pinv s'.
Proof.
  intros G PI s' ST. pose proof G as [Gep Gpub Gone Gnext Gprev Gblock Gmov Ghelp Gfin Gcnt Ggw Guw Gps Gus Gu Gp].
  assert (P4 : p_upc s i <> UEnd4 /\ p' <> UEnd4 /\ p' <> UAsleep /\ p_upc s i <> UAsleep).
  { destruct PI as [[-> ->]|[-> ->]]; repeat split; discriminate. }
  destruct P4 as (P4 & P4' & PA & PA').
  assert (W5 : forall j v b, wake_pool (p_ppc s) j = PMig5 v b <-> p_ppc s j = PMig5 v b).
  { intros j v b. destruct (wake_pool_cases (p_ppc s) j) as [[A B]|[A B]]; rewrite B; [rewrite A|tauto].
    split; discriminate. }
  apply (pframe s s' G); unfold s'; cbn; auto; try lia.
  - fcase i; intuition congruence.
  - intros j v b H. left. now apply W5.
  - intros j v b H. left. now apply W5.
  - apply (phelp_same (p_ppc s)); auto. intros j.
    destruct (wake_pool_cases (p_ppc s) j) as [[A B]|[A B]]; rewrite B; [now rewrite A|auto].
  - intros j H. pose proof (Gfin j H) as E.
    destruct (wake_pool_cases (p_ppc s) j) as [[A B]|[A B]]; rewrite B; [congruence|auto].
  - intros j H. destruct (wake_pool_cases (p_ppc s) j) as [[A B]|[A B]]; congruence.
  - apply (usleep_keep s s' G); unfold s'; cbn; auto.
    + fcase i; auto. congruence.
    + intros j n H. exists j, n. destruct (wake_pool_cases (p_ppc s) j) as [[A B]|[A B]]; congruence.
  - intros j. destruct (N.eq_dec j i) as [->|NE].
    + right. rewrite fupd_eq. pose proof (Gu i) as (U0 & U1 & U2 & U3).
      assert (GO : gone (wake_pool (p_ppc s) i) = gone (p_ppc s i)).
      { destruct (wake_pool_cases (p_ppc s) i) as [[A B]|[A B]]; rewrite B; [now rewrite A|auto]. }
      destruct PI as [[E ->]|[E ->]]; rewrite E in *; unfold uthr; cbn in *; rewrite ?GO.
      * split; [auto|]. split; [auto|]. split; [discriminate|auto].
      * split; [auto|]. split; [discriminate|]. split; [discriminate|auto].
    + left. rewrite fupd_neq by auto. repeat split; auto.
      * destruct (wake_pool_cases (p_ppc s) j) as [[A B]|[A B]]; rewrite B; [rewrite A; discriminate|congruence].
      * destruct (wake_pool_cases (p_ppc s) j) as [[A B]|[A B]]; rewrite B; [rewrite A; discriminate|auto].
  - intros j. destruct (wake_pool_cases (p_ppc s) j) as [[A B]|[A B]]; rewrite B; [|left; auto].
    right. pose proof (Gp j) as [P1 P2]. split; cbn; [rewrite A in P1; exact P1|].
    destruct (Gps j A) as [E|[k Hk]].
    + right. intros F. apply ST. left. exists j. unfold s'. cbn. rewrite B. repeat split; auto. discriminate.
    + destruct (N.eq_dec (p_pep s j) (p_gw s)) as [E|NE].
      * right. intros F. apply ST. left. exists j. unfold s'. cbn. rewrite B. repeat split; auto. discriminate.
      * left. rewrite A in P1. specialize (P1 eq_refl). lia.
Qed.

Lemma user_inv s i s' : pinv s -> user_go s i = Some s' -> ~ stale_wake s s' -> pinv s'.
Proof.
  intros G R ST. pose proof G as [Gep Gpub Gone Gnext Gprev Gblock Gmov Ghelp Gfin Gcnt Ggw Guw Gps Gus Gu Gp].
  pose proof (Gu i) as (T0 & T1 & T2 & T3).
  assert (UP : forall p' lo' le', p_upc s i <> UEnd4 -> p' <> UEnd4 -> p_upc s i <> UWake ->
    (forall j, j <> i -> lo' j = p_loc s j /\ le' j = p_lep s j) ->
    (p' = UAsleep -> p_uw s = lo' i) ->
    let s' := PSt (p_tab s) (p_epoch s) (p_help s) (p_next s) (p_block s) (p_moved s) (p_gw s) (p_uw s)
      (fupd (p_upc s) i p') lo' le' (p_ppc s) (p_pep s) (p_fin s) in
    uthr s' i p' -> pinv s').
  { intros. now apply uplain. }
  destruct s as [tb ep hp nx bl mv gw uw up lo le pp pe fi]. cbn in UP. unfold user_go in R. cbn in *.
  destruct (up i) eqn:P; cbn in T1, T2, T3.
  - injection R as <-. apply UP; auto; try discriminate. unfold uthr; cbn. auto.
  - injection R as <-. apply UP; auto; try discriminate.
    + intros j NE. now rewrite fupd_neq.
    + unfold uthr; cbn. rewrite fupd_eq. repeat split; auto; lia || discriminate.
  - injection R as <-. apply UP; auto; try discriminate.
    + intros j NE. now rewrite fupd_neq.
    + unfold uthr; cbn. rewrite fupd_eq. destruct k; repeat split; auto; try lia; try discriminate; try apply T1; auto; now destruct T3.
  - destruct (N.eqb_spec (lo i) ep) as [E|NE]; injection R as <-; [|exact G].
    apply UP; auto; try (destruct k; discriminate).
    + intros j NE. now rewrite fupd_neq.
    + unfold uthr; cbn. rewrite fupd_eq. destruct k; cbn in *; repeat split; auto; try lia; try discriminate; try apply T1; auto.
  - injection R as <-. eapply (pframe _ _ G); cbn; auto; try lia.
    + fcase i; [split; [discriminate|congruence]|tauto].
    + fcase i; [discriminate|auto].
    + fcase i; [|auto]. intros v b E. specialize (T2 eq_refl). rewrite E in T2. discriminate.
    + apply (phelp_same pp); auto. fcase i; auto. specialize (T2 eq_refl). destruct (pp i); auto; discriminate.
    + fcase i; [lia|auto].
    + fcase i; [discriminate|]. intros H. destruct (Gps _ H) as [|[k Hk]]; auto. right. exists k.
      destruct (N.eqb_spec k i) as [->|]; congruence.
    + fcase i; [discriminate|]. intros H. destruct (Gus _ H) as [|(k & m & Hk)]; auto. right. exists k, m.
      destruct (N.eqb_spec k i) as [->|]; auto. specialize (T2 eq_refl). rewrite Hk in T2. discriminate.
    + intros j. destruct (N.eq_dec j i) as [->|NE].
      * right. rewrite fupd_eq. unfold uthr; cbn. rewrite !fupd_eq. cbn. repeat split; auto; try discriminate; tauto.
      * left. rewrite !fupd_neq by auto. repeat split; auto. congruence.
    + intros j. destruct (N.eq_dec j i) as [->|NE].
      * right. rewrite fupd_eq. unfold pthr; cbn. rewrite fupd_eq. split; auto. lia.
      * left. rewrite !fupd_neq by auto. auto.
  - injection R as <-. apply UP; auto; try (destruct (_ <? _); discriminate).
    unfold uthr; cbn. destruct (_ <? _); cbn; repeat split; auto; try discriminate; try apply T1; auto; tauto.
  - injection R as <-. apply UP; auto; try discriminate.
    unfold uthr; cbn. repeat split; auto; try discriminate; try apply T1; auto; tauto.
  - injection R as <-. destruct T3 as [T3 T4].
    assert (NXX : forall v, nx v = true -> fupd nx (lo i) true v = true).
    { intros v H. unfold fupd. now destruct (_ =? _). }
    eapply (pframe _ _ G); cbn; auto; try lia.
    + fcase i; [split; [discriminate|congruence]|tauto].
    + intros v. unfold fupd. destruct (N.eqb_spec v (lo i)) as [->|]; auto.
    + intros j H. destruct (Gps _ H) as [|[k Hk]]; auto. right. exists k. rewrite fupd_neq; congruence.
    + fcase i; [discriminate|]. auto.
    + intros j. destruct (N.eq_dec j i) as [->|NE].
      * right. rewrite fupd_eq. unfold uthr; cbn. rewrite !fupd_eq. repeat split; auto; try discriminate; try apply T1; auto.
      * left. rewrite !fupd_neq by auto. repeat split; auto. congruence.
  - destruct T3 as (T3 & T4 & T5). destruct (N.eqb_spec gw (le i)) as [E|NE]; injection R as <-.
    + assert (EP : ep = lo i) by lia.
      assert (TE : tb = lo i) by lia.
      eapply (pframe _ _ G); cbn; auto; try lia.
      * fcase i; [split; [discriminate|congruence]|tauto].
      * intros _. now rewrite TE.
      * intros j H. right. exists i. now rewrite fupd_eq.
      * fcase i; [discriminate|]. auto.
      * intros j. destruct (N.eq_dec j i) as [->|NE].
        -- right. rewrite fupd_eq. unfold uthr; cbn. repeat split; auto; try discriminate; try apply T1; auto. lia.
        -- left. rewrite !fupd_neq by auto. repeat split; auto. congruence.
    + apply UP; auto; try discriminate. unfold uthr; cbn.
      repeat split; auto; try discriminate; try apply T1; auto. lia.
  - injection R as <-. apply (wake_pool_inv _ i UCheck G); auto.
  - destruct T3 as (T3 & T4 & T5 & T6). injection R as <-.
    destruct (N.eqb_spec uw (le i)) as [E|NE].
    + apply UP; auto; try discriminate. { intros _. lia. }
      unfold uthr; cbn. repeat split; auto; try discriminate; try apply T1; auto.
    + apply UP; auto; try discriminate. unfold uthr; cbn. repeat split; auto; try discriminate; try apply T1; auto.
      { lia. } destruct (N.eq_dec (lo i) tb) as [E|]; [|left; lia]. right. rewrite E. apply Guw. lia.
  - discriminate.
  - destruct (N.eqb_spec hp 0) as [H0|NE]; injection R as <-; [|exact G].
    destruct T3 as (A1 & A2 & A4 & A3).
    assert (N5 : forall j w b, pp j <> PMig5 w b).
    { intros j w b E. destruct Ghelp as (l & L1 & L2 & L3). destruct l as [|x l]; [|cbn in L2; lia].
      destruct (proj2 (L3 j)). now rewrite E. }
    apply UP; auto; try discriminate. unfold uthr; cbn. repeat split; auto; try discriminate; try apply T1; auto.
    destruct A3 as [A3|A3]; [now left|]. right. split; cbn; auto. split; auto.
    intros b L. unfold given in A3; cbn in A3. destruct (Gmov (lo i) b) as [|[j Hj]]; auto; [lia|]. now apply N5 in Hj.
  - destruct T3 as (A1 & A2 & A4 & A3). rewrite A2 in R. injection R as <-.
    apply UP; auto; try discriminate. unfold uthr; cbn. repeat split; auto; try discriminate; try apply T1; auto.
  - destruct T3 as (A1 & A2 & A4 & A3).
    destruct (N.eqb_spec tb (lo i)) as [E|NE]; injection R as <-.
    + (* publication *)
      subst tb. assert (ep = lo i) by (specialize (Gnext _ A2); lia). subst ep.
      destruct A3 as [A3|A3]; [lia|].
      set (s := PSt (lo i) (lo i) hp nx bl mv gw uw up lo le pp pe fi) in *.
      set (s' := PSt (lo i + 1) (lo i) hp nx bl mv gw uw (fupd up i UEnd4) lo le pp pe fi).
      assert (DN : forall v, pdone s v -> pdone s' v) by auto.
      assert (N4 : forall j, up j <> UEnd4).
      { intros j E. pose proof (Gu j) as (_ & _ & _ & X). cbn in X. rewrite E in X. lia. }
      assert (N5 : forall j b, pp j <> PMig5 (lo i) b) by (intros j b; apply (proj2 (proj2 A3))).
      assert (GWN : gw = lo i + 1 /\ uw = lo i + 1) by lia. destruct GWN as [-> ->].
      split; cbn; try lia; auto.
      * intros _. exists i. apply fupd_eq.
      * intros j k. unfold fupd. destruct (N.eqb_spec j i) as [->|], (N.eqb_spec k i) as [->|]; auto; intros X Y;
          exfalso; eapply N4; eauto.
      * intros v L. destruct (N.eq_dec v (lo i)) as [->|NE].
        -- split; auto.
        -- destruct (Gprev v) as [X Y]; [lia|]. split; auto.
      * intros j H. destruct (Gps _ H) as [|[k Hk]]; auto. right. exists k. rewrite fupd_neq; congruence.
      * fcase i; [discriminate|]. auto.
      * intros j. destruct (N.eq_dec j i) as [->|NE].
        -- rewrite fupd_eq. unfold uthr; cbn. repeat split; auto; try discriminate; try apply T1; auto; lia.
        -- rewrite fupd_neq by auto. apply (uthr_mono s); unfold s, s'; cbn; auto; try lia; try congruence.
      * intros j. apply (pthr_mono s); unfold s, s'; cbn; auto; try lia.
        right. intros v b E. pose proof (Gp j) as [_ X]. cbn in X. rewrite E in X.
        destruct X as (_ & _ & _ & X & _). subst v. exact (N5 j b E).
    + apply UP; auto; try discriminate. unfold uthr; cbn. repeat split; auto; try discriminate; try apply T1; auto.
  - injection R as <-. destruct T3 as [T3 T4]. subst ep tb.
    set (s := PSt (lo i + 1) (lo i) hp nx bl mv gw uw up lo le pp pe fi) in *.
    set (s' := PSt (lo i + 1) (lo i + 1) hp nx bl mv gw uw (fupd up i (ULoad ToIdle)) lo le pp pe fi).
    assert (DN : forall v, pdone s v -> pdone s' v) by auto.
    split; cbn; try lia; auto.
    + intros j k. unfold fupd. destruct (N.eqb_spec j i) as [->|], (N.eqb_spec k i) as [->|]; auto; discriminate.
    + intros v H. specialize (Gnext v H). lia.
    + intros j H. destruct (Gps _ H) as [|[k Hk]]; auto. right. exists k. rewrite fupd_neq; congruence.
    + fcase i; [discriminate|]. auto.
    + intros j. destruct (N.eq_dec j i) as [->|NE].
      * rewrite fupd_eq. unfold uthr; cbn. repeat split; auto; try discriminate; try apply T1; auto.
      * rewrite fupd_neq by auto. apply (uthr_mono s); unfold s, s'; cbn; auto; try lia; try congruence.
        intros E. destruct NE. now apply Gone.
  - injection R as <-. specialize (T1 eq_refl). destruct T1 as [T1 T4]. eapply (pframe _ _ G); cbn; auto; try lia.
    + fcase i; [split; [discriminate|congruence]|tauto].
    + fcase i; [lia|auto].
    + intros j H. destruct (Gps _ H) as [|[k Hk]]; auto. right. exists k. rewrite fupd_neq; congruence.
    + fcase i; [discriminate|]. auto.
    + intros j. destruct (N.eq_dec j i) as [->|NE].
      * right. rewrite fupd_eq. unfold uthr; cbn. repeat split; auto; try discriminate.
      * left. rewrite !fupd_neq by auto. repeat split; auto. congruence.
    + intros j. left. repeat split; auto. unfold fupd. destruct (N.eqb_spec j i); auto. discriminate.
  - injection R as <-. destruct (N.ltb_spec (fi i) 2) as [L|L].
    + apply UP; auto; try discriminate. unfold uthr; cbn. repeat split; auto; discriminate.
    + apply UP; auto; try discriminate. unfold uthr; cbn. repeat split; auto; try discriminate.
      intros _. now rewrite (Gfin i).
  - injection R as <-. apply (wake_pool_inv _ i UFin2 G); auto.
Qed.

Lemma pool_inv s i s' : pinv s -> pool_go nblocks s i = Some s' -> ~ stale_wake s s' -> ~ out_of_turn s s' -> pinv s'.
Proof.
  intros G R ST OT. pose proof G as [Gep Gpub Gone Gnext Gprev Gblock Gmov Ghelp Gfin Gcnt Ggw Guw Gps Gus Gu Gp].
  pose proof (Gp i) as (T0 & T1).
  assert (PP : forall p' hp', (forall v b, p_ppc s i <> PMig5 v b) -> (forall v b, p' <> PMig5 v b) ->
    (forall n, p_ppc s i <> PWake n) -> over (p_ppc s i) = false -> over p' = false ->
    (gone p' = false \/ p_fin s i <> 0) ->
    (p' = PAsleep -> p_pep s i = p_gw s) ->
    let s' := PSt (p_tab s) (p_epoch s) hp' (p_next s) (p_block s) (p_moved s) (p_gw s) (p_uw s)
      (p_upc s) (p_loc s) (p_lep s) (fupd (p_ppc s) i p') (p_pep s) (p_fin s) in
    (exists l, NoDup l /\ hp' = N.of_nat (length l) /\
      forall j, In j l <-> phelping (fupd (p_ppc s) i p' j) = true) ->
    pthr s' i p' -> pinv s').
  { intros. now apply pplain. }
  assert (HS : forall p', phelping p' = phelping (p_ppc s i) ->
    exists l, NoDup l /\ p_help s = N.of_nat (length l) /\
      forall j, In j l <-> phelping (fupd (p_ppc s) i p' j) = true).
  { intros p' E. apply (phelp_same (p_ppc s)); auto. fcase i; auto. }
  destruct s as [tb ep hp nx bl mv gw uw up lo le pp pe fi]. cbn in PP, HS. unfold pool_go in R. cbn in *.
  destruct (pp i) eqn:P; cbn in T0, T1; try discriminate.
  - injection R as <-. destruct (N.eqb_spec gw (pe i)) as [E|NE].
    + apply PP; auto; try discriminate. unfold pthr; cbn. auto.
    + apply PP; auto; try discriminate. unfold pthr; cbn. split; auto. specialize (T0 eq_refl). left. lia.
  - injection R as <-. destruct (N.eqb_spec (fi i) 0) as [E|NE].
    + apply PP; auto; try discriminate. unfold pthr; cbn. split; auto. destruct T1; auto. congruence.
    + apply PP; auto; try discriminate. unfold pthr; cbn. split; auto.
  - injection R as <-. apply PP; auto; try discriminate.
    + apply phelp_in; auto. now rewrite P.
    + unfold pthr; cbn. auto.
  - injection R as <-. apply PP; auto; try discriminate. unfold pthr; cbn. repeat split; auto; lia.
  - injection R as <-. destruct (nx v) eqn:NV.
    + apply PP; auto; try discriminate. unfold pthr; cbn. repeat split; auto; try apply T1.
      destruct (N.eq_dec (pe i) v) as [|NE]; auto. exfalso. apply OT. exists i, v. cbn. now rewrite fupd_eq.
    + apply PP; auto; try discriminate. unfold pthr; cbn. repeat split; auto; try apply T1.
      assert (v < tb \/ v = tb) as [L|L] by lia; [lia|]. subst v.
      assert (gw <> tb + 1) by (intros E; specialize (Ggw E); congruence). lia.
  - injection R as <-. apply PP; auto; try discriminate.
    + apply phelp_out; auto. now rewrite P.
    + unfold pthr; cbn. repeat split; auto; try apply T1. right. lia.
  - injection R as <-. destruct T1 as (A1 & A2 & A3).
    set (p' := if bl v <? nblocks v then PMig5 v (bl v) else PMig6 v).
    assert (BB : forall w, bl w <= fupd bl v (bl v + 1) w).
    { intros w. unfold fupd. destruct (N.eqb_spec w v) as [->|]; lia. }
    assert (GO : gone p' = false) by (unfold p'; now destruct (_ <? _)).
    assert (OV : over p' = false) by (unfold p'; now destruct (_ <? _)).
    eapply (pframe _ _ G); cbn; auto; try lia.
    + tauto.
    + intros w. unfold fupd. destruct (N.eqb_spec w v) as [->|]; auto.
    + fcase i; auto. intros w b E. right. unfold p' in E. destruct (N.ltb_spec (bl v) (nblocks v)); congruence.
    + fcase i; auto. intros w b E. congruence.
    + intros w b H1 H2. unfold fupd in H1. destruct (N.eqb_spec w v) as [->|]; auto.
      destruct (N.eq_dec b (bl v)) as [->|NB]; [|left; lia]. right. exists i. rewrite fupd_eq. unfold p'.
      destruct (N.ltb_spec (bl v) (nblocks v)); [auto|lia].
    + apply HS. unfold p'. now destruct (_ <? _).
    + fcase i; auto. intros H. apply Gfin in H. congruence.
    + intros E. specialize (Guw E). unfold given in *; cbn in *. specialize (BB tb). lia.
    + fcase i; auto. unfold p'. destruct (_ <? _); discriminate.
    + intros j H. destruct (Gus _ H) as [|(k & m & Hk)]; auto. right. exists k, m. rewrite fupd_neq; congruence.
    + intros j. left. repeat split; auto; unfold fupd; destruct (N.eqb_spec j i) as [->|]; try congruence.
      rewrite P. discriminate.
    + intros j. destruct (N.eq_dec j i) as [->|NE]; [right; rewrite fupd_eq|left; now rewrite fupd_neq].
      unfold p'. destruct (N.ltb_spec (bl v) (nblocks v)) as [L|L]; unfold pthr, given; cbn; rewrite ?fupd_eq.
      * repeat split; auto; try lia.
        destruct (N.eq_dec v tb) as [|NE]; auto. destruct (Gprev v) as [_ (D & _)]; [lia|]. unfold given in D; cbn in D. lia.
      * repeat split; auto; lia.
  - injection R as <-. destruct T1 as (A1 & A2 & A3 & A4 & A5 & A6).
    eapply (pframe _ _ G); cbn; auto; try lia.
    + tauto.
    + intros w b' H. unfold fupd. destruct (N.eqb_spec w v) as [->|]; auto. now destruct (_ =? _).
    + fcase i; [discriminate|auto].
    + fcase i; auto. intros w b' E. right. assert (w = v /\ b' = b) as [-> ->] by (split; congruence). now rewrite !N.eqb_refl.
    + fcase i; auto. intros H. apply Gfin in H. congruence.
    + fcase i; auto. discriminate.
    + intros j H. destruct (Gus _ H) as [|(k & m & Hk)]; auto. right. exists k, m. rewrite fupd_neq; congruence.
    + intros j. left. repeat split; auto; unfold fupd; destruct (N.eqb_spec j i) as [->|]; cbn; try congruence.
      rewrite P. discriminate.
    + intros j. destruct (N.eq_dec j i) as [->|NE]; [right; rewrite fupd_eq|left; now rewrite fupd_neq].
      unfold pthr; cbn. repeat split; auto.
  - injection R as <-. destruct T1 as (A1 & A2 & A3 & A4). apply PP; auto; try discriminate.
    + apply phelp_out; auto. now rewrite P.
    + unfold pthr; cbn. repeat split; auto. left. subst v. auto.
  - injection R as <-. destruct T1 as (A1 & A2). specialize (T0 eq_refl).
    assert (UC : uw <> pe i \/ (uw = pe i /\ pe i = tb /\ n = tb + 1 /\ bl tb >= nblocks tb)).
    { destruct (N.eq_dec uw (pe i)) as [E|]; [right|auto]. destruct A2 as [[A2 A3]|[A2 A3]]; [|lia].
      assert (pe i = tb) by lia. unfold given in A3; cbn in A3. rewrite H in *. repeat split; auto; lia. }
    eapply (pframe _ _ G); cbn; auto; try (destruct (N.eqb_spec uw (pe i)); lia).
    + tauto.
    + fcase i; [discriminate|auto].
    + fcase i; auto. congruence.
    + fcase i; auto. intros H. apply Gfin in H. congruence.
    + unfold given; cbn. destruct (N.eqb_spec uw (pe i)) as [E|E]; [|exact Guw]. intros _. lia.
    + fcase i; auto. discriminate.
    + intros j H. right. exists i, n. now rewrite fupd_eq.
    + intros j. left. repeat split; auto; unfold fupd; destruct (N.eqb_spec j i) as [->|]; cbn; try congruence.
      rewrite P. discriminate.
    + intros j. destruct (N.eq_dec j i) as [->|NE]; [right; rewrite fupd_eq|left; now rewrite fupd_neq].
      unfold pthr; cbn. destruct (N.eqb_spec uw (pe i)); split; lia.
  - injection R as <-. specialize (T0 eq_refl).
    assert (W4 : forall j, wake_users up j = UEnd4 <-> up j = UEnd4).
    { intros j. destruct (wake_users_cases up j) as [[A B]|[A B]]; rewrite B; [rewrite A|tauto]. split; discriminate. }
    eapply (pframe _ _ G); cbn; auto; try lia.
    + fcase i; [discriminate|auto].
    + fcase i; auto. congruence.
    + fcase i; auto. intros H. apply Gfin in H. congruence.
    + intros j H. assert (NE : j <> i) by (intros ->; rewrite fupd_eq in H; discriminate).
      rewrite fupd_neq in H by auto. rewrite fupd_neq by auto. destruct (Gps _ H) as [|[k Hk]]; auto.
      right. exists k. destruct (wake_users_cases up k) as [[A B]|[A B]]; congruence.
    + intros j H. destruct (wake_users_cases up j) as [[A B]|[A B]]; congruence.
    + intros j.
      assert (SG : (gone (pp j) = false -> gone (fupd pp i PWait j) = false) /\
                   (over (pp j) = true -> over (fupd pp i PWait j) = true)).
      { unfold fupd. destruct (N.eqb_spec j i) as [->|]; auto. rewrite P. split; discriminate || auto. }
      destruct SG as [SG SO].
      destruct (wake_users_cases up j) as [[A B]|[A B]]; rewrite B.
      * right. pose proof (Gu j) as (U0 & U1 & U2 & U3). rewrite A in *. cbn in *. destruct U3 as (U3 & U4 & U5 & U6).
        assert (uw <> le j).
        { intros E. apply ST. right. exists j. cbn. rewrite B. repeat split; auto. discriminate. }
        unfold uthr; cbn. specialize (U1 eq_refl). destruct U1 as [U1 U7]. repeat split; auto; try discriminate; try lia.
        destruct (N.eq_dec (lo j) tb) as [E|]; [|left; lia]. right. rewrite E. apply Guw. lia.
      * left. repeat split; auto. intros X Y _. specialize (SG X). congruence.
    + intros j. destruct (N.eq_dec j i) as [->|NE]; [right; rewrite !fupd_eq|left; now rewrite !fupd_neq].
      unfold pthr; cbn. rewrite fupd_eq. split; auto.
  - injection R as <-. eapply (pframe _ _ G); cbn; auto; try lia.
    + tauto.
    + fcase i; [discriminate|auto].
    + fcase i; auto. congruence.
    + fcase i; auto.
    + fcase i; auto. discriminate.
    + intros j H. destruct (Gus _ H) as [|(k & m & Hk)]; auto. right. exists k, m. rewrite fupd_neq; congruence.
    + intros j. left. repeat split; auto; unfold fupd; destruct (N.eqb_spec j i) as [->|]; cbn; try congruence.
      rewrite P. discriminate.
    + intros j. destruct (N.eq_dec j i) as [->|NE]; [right; rewrite !fupd_eq|left; rewrite !fupd_neq; auto].
      unfold pthr; cbn. rewrite fupd_eq. split; discriminate.
Qed.

Lemma run1_pinv s l s' : pinv s -> pool_run1 nblocks s l = Some s' -> ~ stale_wake s s' -> ~ out_of_turn s s' -> pinv s'.
Proof.
  intros G R ST OT. destruct l as [i|i|i|i|i]; cbn in R; [eapply user_inv; eauto|eapply pool_inv; eauto|..];
    destruct (p_upc s i) eqn:P; try discriminate; pose proof (pi_u _ G i) as (T0 & T1 & T2 & T3); rewrite P in *; cbn in *;
    specialize (T1 eq_refl).
  - injection R as <-. apply uplain; auto; rewrite ?P; try discriminate.
    unfold uthr; cbn. repeat split; auto; try apply T1; try discriminate; tauto.
  - destruct (N.ltb_spec 0 (p_block s (p_loc s i))) as [L|]; [|discriminate]. injection R as <-.
    apply uplain; auto; rewrite ?P; try discriminate.
    unfold uthr; cbn. repeat split; auto; try apply T1; try discriminate; try tauto. now apply (pi_block _ G).
  - injection R as <-. apply uplain; auto; rewrite ?P; try discriminate.
    unfold uthr; cbn. repeat split; auto; try apply T1; try discriminate; tauto.
Qed.

Lemma orderly_pinv s : orderly nblocks s -> pinv s.
Proof. induction 1 as [|s s' _ IH [l R] ST OT]; [apply pinv_init|]. eapply run1_pinv; eauto. Qed.

End Inv.
