(** The invariant of the asynchronous growing strategy. *)
From Coq Require Import NArith Bool List Lia.
From Verif Require Import Words BaseInv Async.
Import ListNotations.
Open Scope N_scope.

(** The thread counts as a helper. *)
Definition helping (p : apc) : bool :=
  match p with AMig2 | AMig3 _ | AMigNo _ | AMig4 _ | AMig5 _ _ | AMig6 _ => true | _ => false end.

Section Inv.
Context (nblocks : N -> N).

(** The migration of [v] is over. *)
Definition done (s : ast_) (v : N) : Prop :=
  nblocks v < y_block s v /\ (forall b, b < nblocks v -> y_moved s v b = true) /\
  forall i b, y_pc s i <> AMig5 v b.

Definition athr (s : ast_) (i : N) (p : apc) : Prop :=
  y_loc s i <= y_tab s /\
  match p with
  | AIdle | AOp | AGrow => y_loc s i <= y_epoch s
  | AMig1 | AMig2 => y_loc s i <= y_epoch s /\ y_next s (y_loc s i) = true
  | AMig3 v => y_loc s i <= y_epoch s /\ y_next s (y_loc s i) = true /\ y_loc s i <= v <= y_tab s
  | AMigNo _ => y_loc s i <= y_epoch s /\ y_next s (y_loc s i) = true /\ y_loc s i < y_tab s
  | AMig4 v => y_loc s i <= y_epoch s /\ y_next s (y_loc s i) = true /\ y_loc s i <= v <= y_tab s /\
      y_next s v = true
  | AMig5 v b => y_loc s i <= y_epoch s /\ y_next s (y_loc s i) = true /\ y_loc s i <= v /\
      v = y_tab s /\ y_next s v = true /\ b < nblocks v /\ b < y_block s v
  | AMig6 v => y_loc s i <= y_epoch s /\ y_next s (y_loc s i) = true /\ y_loc s i <= v <= y_tab s /\
      nblocks v < y_block s v
  | AEnd1 => y_loc s i <= y_epoch s /\ y_next s (y_loc s i) = true /\
      (y_loc s i < y_tab s \/ nblocks (y_loc s i) < y_block s (y_loc s i))
  | AEnd2 | AEnd3 => y_loc s i <= y_epoch s /\ y_next s (y_loc s i) = true /\
      (y_loc s i < y_tab s \/ done s (y_loc s i))
  | AEnd4 => y_loc s i = y_epoch s /\ y_tab s = y_epoch s + 1
  | _ => True
  end.

Record ainv (s : ast_) : Prop := {
  ai_ep : y_epoch s <= y_tab s <= y_epoch s + 1;
  ai_pub : y_tab s = y_epoch s + 1 -> exists i, y_pc s i = AEnd4;
  ai_one : forall i j, y_pc s i = AEnd4 -> y_pc s j = AEnd4 -> i = j;
  ai_next : forall v, y_next s v = true -> v <= y_epoch s;
  ai_prev : forall v, v < y_tab s -> y_next s v = true /\ done s v;
  ai_block : forall v, 0 < y_block s v -> y_next s v = true;
  ai_mov : forall v b, b < y_block s v -> b < nblocks v ->
    y_moved s v b = true \/ exists i, y_pc s i = AMig5 v b;
  ai_help : exists l, NoDup l /\ y_help s = N.of_nat (length l) /\
    forall i, In i l <-> helping (y_pc s i) = true;
  ai_th : forall i, athr s i (y_pc s i) }.

Lemma ainv_init : ainv async_init.
Proof.
  split; cbn; try discriminate; try (intros; lia).
  - exists []. split; [constructor|]. split; [reflexivity|]. intros i. split; [intros []|discriminate].
  - intros i. unfold athr. cbn. split; [lia|exact Logic.I].
Qed.

(** Membership of the helper list after a step of [i]. *)
Lemma help_same (pc : N -> apc) i p (h : N) : helping p = helping (pc i) ->
  (exists l, NoDup l /\ h = N.of_nat (length l) /\ forall j, In j l <-> helping (pc j) = true) ->
  exists l, NoDup l /\ h = N.of_nat (length l) /\ forall j, In j l <-> helping (fupd pc i p j) = true.
Proof.
  intros E (l & N1 & N2 & N3). exists l. split; [auto|]. split; [auto|]. intros j. split; intros H.
  - apply N3 in H. unfold fupd. destruct (N.eqb_spec j i) as [->|]; congruence.
  - apply N3. revert H. unfold fupd. destruct (N.eqb_spec j i) as [E2|]; [subst j|]; congruence.
Qed.

Lemma help_in (pc : N -> apc) i p h : helping (pc i) = false -> helping p = true ->
  (exists l, NoDup l /\ h = N.of_nat (length l) /\ forall j, In j l <-> helping (pc j) = true) ->
  exists l, NoDup l /\ h + 1 = N.of_nat (length l) /\ forall j, In j l <-> helping (fupd pc i p j) = true.
Proof.
  intros E1 E2 (l & N1 & N2 & N3). exists (i :: l).
  assert (NI : ~ In i l) by (intros H; apply N3 in H; congruence).
  split; [now constructor|]. split; [cbn; lia|]. intros j. cbn. unfold fupd.
  destruct (N.eqb_spec j i) as [->|NE]; [intuition|]. rewrite <- N3. intuition congruence.
Qed.

Lemma help_out (pc : N -> apc) i p h : helping (pc i) = true -> helping p = false ->
  (exists l, NoDup l /\ h = N.of_nat (length l) /\ forall j, In j l <-> helping (pc j) = true) ->
  exists l, NoDup l /\ h - 1 = N.of_nat (length l) /\ forall j, In j l <-> helping (fupd pc i p j) = true.
Proof.
  intros E1 E2 (l & N1 & N2 & N3).
  assert (IN : In i l) by (now apply N3). apply in_split in IN. destruct IN as (l1 & l2 & ->).
  exists (l1 ++ l2). pose proof (NoDup_remove_1 _ _ _ N1) as U1. pose proof (NoDup_remove_2 _ _ _ N1) as U2.
  split; auto. split; [rewrite app_length in *; cbn in N2; lia|]. intros j. unfold fupd.
  destruct (N.eqb_spec j i) as [->|NE]; [rewrite E2; intuition discriminate|].
  rewrite <- N3. rewrite !in_app_iff. cbn. intuition congruence.
Qed.

(** What other threads know is kept. *)
Lemma athr_mono s s' j p :
  y_tab s <= y_tab s' -> y_epoch s <= y_epoch s' ->
  y_loc s' j = y_loc s j ->
  (forall v, y_next s v = true -> y_next s' v = true) ->
  (forall v, y_block s v <= y_block s' v) ->
  (forall v, done s v -> done s' v) ->
  (y_tab s' = y_tab s \/ forall v b, p <> AMig5 v b) ->
  (p = AEnd4 -> y_epoch s' = y_epoch s /\ y_tab s' = y_tab s) ->
  athr s j p -> athr s' j p.
Proof.
  intros T E L NX BL DN M5 E4 [H0 H]. split; [lia|]. destruct p; rewrite ?L; auto; try lia.
  - destruct H; split; auto; lia.
  - destruct H; split; auto; lia.
  - destruct H as (H1 & H2 & H3). refine (conj _ (conj (NX _ H2) _)); lia.
  - destruct H as (H1 & H2 & H3). refine (conj _ (conj (NX _ H2) _)); lia.
  - destruct H as (H1 & H2 & H3 & H4). refine (conj _ (conj (NX _ H2) (conj _ (NX _ H4)))); lia.
  - destruct H as (H1 & H2 & H3 & H4 & H5 & H6 & H7).
    assert (y_tab s' = y_tab s) by (destruct M5 as [|M5]; [auto|exfalso; eapply M5; eauto]).
    specialize (BL v). refine (conj _ (conj (NX _ H2) (conj _ (conj _ (conj (NX _ H5) (conj _ _)))))); lia.
  - destruct H as (H1 & H2 & H3 & H4). specialize (BL v). refine (conj _ (conj (NX _ H2) (conj _ _))); lia.
  - destruct H as (H1 & H2 & H3). specialize (BL (y_loc s j)). refine (conj _ (conj (NX _ H2) _)); lia.
  - destruct H as (H1 & H2 & H3). refine (conj _ (conj (NX _ H2) _)); [lia|]. destruct H3; [left; lia|right; auto].
  - destruct H as (H1 & H2 & H3). refine (conj _ (conj (NX _ H2) _)); [lia|]. destruct H3; [left; lia|right; auto].
Qed.

(** Steps that publish nothing. *)
Lemma aframe s s' i p' :
  ainv s -> y_pc s' = fupd (y_pc s) i p' ->
  y_tab s' = y_tab s -> y_epoch s' = y_epoch s ->
  (forall j, j <> i -> y_loc s' j = y_loc s j) ->
  (forall v, y_next s v = true -> y_next s' v = true) ->
  (forall v, y_next s' v = true -> y_next s v = true \/ v <= y_epoch s) ->
  (forall v, y_block s v <= y_block s' v) ->
  (forall v, 0 < y_block s' v -> y_next s' v = true) ->
  (forall v b, y_moved s v b = true -> y_moved s' v b = true) ->
  (forall v b, p' = AMig5 v b -> y_block s v < nblocks v) ->
  (forall v b, y_pc s i = AMig5 v b -> y_moved s' v b = true) ->
  (forall v b, b < y_block s' v -> b < nblocks v -> b < y_block s v \/ p' = AMig5 v b) ->
  (exists l, NoDup l /\ y_help s' = N.of_nat (length l) /\ forall j, In j l <-> helping (y_pc s' j) = true) ->
  y_pc s i <> AEnd4 -> p' <> AEnd4 ->
  athr s' i p' -> ainv s'.
Proof.
  intros [Gep Gpub Gone Gnext Gprev Gblock Gmov Ghelp Gth] PC TB EP LO NX NI BL BN MV CL FI MO HE P4 P4' TI.
  assert (DN : forall v, done s v -> done s' v).
  { intros v (D1 & D2 & D3). specialize (BL v). split; [lia|]. split; [auto|]. intros j b. rewrite PC.
    destruct (N.eq_dec j i) as [->|NE]; [rewrite fupd_eq|rewrite fupd_neq by auto; apply D3].
    intros E. specialize (CL v b E). lia. }
  split.
  - now rewrite TB, EP.
  - rewrite TB, EP. intros H. destruct (Gpub H) as [j Hj]. exists j. rewrite PC, fupd_neq; auto. intros ->. congruence.
  - intros j k. rewrite PC. unfold fupd. destruct (N.eqb_spec j i), (N.eqb_spec k i); try congruence. apply Gone.
  - intros v H. rewrite EP. destruct (NI v H); auto.
  - intros v. rewrite TB. intros L. destruct (Gprev v L). auto.
  - exact BN.
  - intros v b H1 H2. destruct (MO v b H1 H2) as [H3|H3].
    + destruct (Gmov v b H3 H2) as [H4|[j Hj]]; [left; auto|].
      destruct (N.eq_dec j i) as [->|NE]; [left; eauto|]. right. exists j. rewrite PC. now rewrite fupd_neq.
    + right. exists i. now rewrite PC, fupd_eq.
  - exact HE.
  - intros j. rewrite PC. destruct (N.eq_dec j i) as [->|NE]; [now rewrite fupd_eq|]. rewrite fupd_neq by auto.
    apply (athr_mono s); auto; try lia.
Qed.

Lemma go_inv s i s' : ainv s -> async_go nblocks s i = Some s' -> ainv s'.
Proof.
  intros G R. pose proof G as G0. destruct G as [Gep Gpub Gone Gnext Gprev Gblock Gmov Ghelp Gth]. pose proof (Gth i) as T.
  destruct s as [tb ep hp nx bl mv pc lo le]. unfold async_go in R. cbn in *.
  assert (FB : forall p', (forall v b, pc i <> AMig5 v b) -> (forall v b, p' <> AMig5 v b) ->
     helping p' = helping (pc i) -> pc i <> AEnd4 -> p' <> AEnd4 -> forall lo' le', (forall j, j <> i -> lo' j = lo j) ->
     athr (ASt tb ep hp nx bl mv (fupd pc i p') lo' le') i p' ->
     ainv (ASt tb ep hp nx bl mv (fupd pc i p') lo' le')).
  { intros p' N1 N2 HE N4 N4' lo' le' LL A. eapply (aframe _ _ i p' G0); cbn; auto; try lia.
    - intros v b E. now destruct (N2 v b).
    - intros v b E. now destruct (N1 v b).
    - now apply help_same. }
  destruct (pc i) eqn:P.
  - injection R as <-. apply FB; auto; try discriminate.
  - injection R as <-. apply FB; auto; try discriminate.
    + intros j NJ. now rewrite fupd_neq.
    + split; cbn; [rewrite fupd_eq; lia|exact Logic.I].
  - destruct (N.ltb_spec (le i) ep); injection R as <-; apply FB; auto; try discriminate;
      destruct T as [T1 T2]; split; cbn in *; auto.
  - injection R as <-. apply FB; auto; try discriminate.
    + intros j NJ. now rewrite fupd_neq.
    + split; cbn; [rewrite fupd_eq; lia|exact Logic.I].
  - destruct (N.eqb_spec (lo i) ep) as [E|NE]; injection R as <-; [|exact G0].
    destruct T as [T1 T2]. apply FB; auto; try (destruct op; discriminate). { now destruct op. }
    split; cbn in *; [exact T1|]. destruct op; cbn; lia.
  - injection R as <-. apply FB; auto; try discriminate; destruct T as [T1 T2]; split; cbn in *; auto.
  - injection R as <-. destruct T as [T1 T2]. cbn in *.
    assert (NXX : forall v, nx v = true -> fupd nx (lo i) true v = true).
    { intros v H. unfold fupd. now destruct (_ =? _). }
    eapply (aframe _ _ i AMig1 G0); cbn; auto; try lia; rewrite ?P; try discriminate.
    + intros v. unfold fupd. destruct (N.eqb_spec v (lo i)) as [->|]; auto.
    + apply help_same; auto. now rewrite P.
    + split; cbn; auto. rewrite fupd_eq. auto.
  - injection R as <-. destruct T as [T1 T2]. cbn in *.
    eapply (aframe _ _ i AMig2 G0); cbn; auto; try lia; rewrite ?P; try discriminate.
    + apply help_in; auto. now rewrite P.
    + split; cbn; auto.
  - injection R as <-. destruct T as [T1 T2]. apply FB; auto; try discriminate. split; cbn in *; auto. repeat split; try tauto; lia.
  - injection R as <-. destruct T as [T1 T2]. cbn in *. apply FB; auto; try (destruct (nx v); discriminate). { now destruct (nx v). }
    destruct (nx v) eqn:NV; split; cbn; auto; try tauto.
    destruct T2 as (A1 & A2 & A3). repeat split; auto. assert (lo i <> v) by congruence. lia.
  - injection R as <-. destruct T as [T1 T2]. cbn in *.
    eapply (aframe _ _ i AEnd1 G0); cbn; auto; try lia; rewrite ?P; try discriminate.
    + apply help_out; auto. now rewrite P.
    + split; cbn; auto. tauto.
  - injection R as <-. destruct T as [T1 T2]. cbn in *. destruct T2 as (A1 & A2 & A3 & A4).
    set (p' := if bl v <? nblocks v then AMig5 v (bl v) else AMig6 v).
    assert (BB : forall w, bl w <= fupd bl v (bl v + 1) w).
    { intros w. unfold fupd. destruct (N.eqb_spec w v) as [->|]; lia. }
    eapply (aframe _ _ i p' G0); cbn; auto; try lia; rewrite ?P; try discriminate.
    + intros w. unfold fupd. destruct (N.eqb_spec w v) as [->|]; auto.
    + intros w b E. unfold p' in E. destruct (N.ltb_spec (bl v) (nblocks v)); [|discriminate]. congruence.
    + intros w b H1 H2. unfold fupd in H1. destruct (N.eqb_spec w v) as [->|]; auto.
      destruct (N.eq_dec b (bl v)) as [->|NB]; [|left; lia]. right. unfold p'. destruct (N.ltb_spec (bl v) (nblocks v)); [auto|lia].
    + apply help_same; auto. rewrite P. unfold p'. now destruct (_ <? _).
    + unfold p'. destruct (_ <? _); discriminate.
    + unfold p'. destruct (N.ltb_spec (bl v) (nblocks v)) as [L|L]; split; cbn; auto.
      * assert (VT : v = tb). { destruct (N.eq_dec v tb) as [|NE]; auto. destruct (Gprev v) as [_ (D & _)]; [lia|]. cbn in D. lia. }
        rewrite fupd_eq. repeat split; auto; lia.
      * rewrite fupd_eq. repeat split; auto; lia.
  - injection R as <-. destruct T as [T1 T2]. cbn in *. destruct T2 as (A1 & A2 & A3 & A4 & A5 & A6 & A7).
    eapply (aframe _ _ i (AMig4 v) G0); cbn; auto; try lia; rewrite ?P; try discriminate.
    + intros w b' H. unfold fupd. destruct (N.eqb_spec w v) as [->|]; auto. now destruct (_ =? _).
    + intros w b' [= <- <-]. now rewrite !fupd_eq.
    + apply help_same; auto. now rewrite P.
    + split; cbn; auto. repeat split; auto; lia.
  - injection R as <-. destruct T as [T1 T2]. cbn in *. destruct T2 as (A1 & A2 & A3 & A4).
    eapply (aframe _ _ i AEnd1 G0); cbn; auto; try lia; rewrite ?P; try discriminate.
    + apply help_out; auto. now rewrite P.
    + split; cbn; auto. repeat split; auto. destruct (N.eq_dec (lo i) v) as [->|NE]; [now right|left; lia].
  - destruct (N.eqb_spec hp 0) as [H0|NE]; injection R as <-; [|exact G0].
    destruct T as [T1 T2]. cbn in *. destruct T2 as (A1 & A2 & A3).
    assert (N5 : forall j w b, pc j <> AMig5 w b).
    { intros j w b E. destruct Ghelp as (l & L1 & L2 & L3). destruct l as [|x l]; [|cbn in L2; lia].
      destruct (proj2 (L3 j)). now rewrite E. }
    apply FB; auto; try discriminate. split; cbn; auto. repeat split; auto. destruct A3 as [A3|A3]; [now left|].
    right. split; cbn; auto. split.
    + intros b L. destruct (Gmov (lo i) b) as [|[j Hj]]; auto; [lia|]. now apply N5 in Hj.
    + intros j b. unfold fupd. destruct (N.eqb_spec j i); [discriminate|apply N5].
  - destruct T as [T1 T2]. cbn in *. destruct T2 as (A1 & A2 & A3). rewrite A2 in R. injection R as <-.
    apply FB; auto; try discriminate. split; cbn; auto. repeat split; auto. destruct A3 as [A3|(D1 & D2 & D3)]; [now left|].
    right. split; cbn in *; auto. split; auto. intros j b. unfold fupd. destruct (N.eqb_spec j i); [discriminate|apply D3].
  - destruct T as [T1 T2]. cbn in *. destruct T2 as (A1 & A2 & A3).
    destruct (N.eqb_spec tb (lo i)) as [E|NE]; injection R as <-.
    + (* publication *)
      subst tb. assert (ep = lo i) by (specialize (Gnext _ A2); lia). subst ep.
      destruct A3 as [A3|A3]; [lia|].
      assert (DN : forall v, done (ASt (lo i) (lo i) hp nx bl mv pc lo le) v ->
                             done (ASt (lo i + 1) (lo i) hp nx bl mv (fupd pc i AEnd4) lo le) v).
      { intros v (D1 & D2 & D3). split; cbn in *; auto. split; auto. intros j b. unfold fupd.
        destruct (N.eqb_spec j i); [discriminate|apply D3]. }
      assert (N4 : forall j, pc j <> AEnd4).
      { intros j E. pose proof (Gth j) as [_ X]. cbn in X. rewrite E in X. lia. }
      split; cbn; try lia; auto.
      * intros _. exists i. apply fupd_eq.
      * intros j k. unfold fupd. destruct (N.eqb_spec j i) as [->|], (N.eqb_spec k i) as [->|]; auto; intros X Y;
          exfalso; eapply N4; eauto.
      * intros v L. destruct (N.eq_dec v (lo i)) as [->|NE].
        -- split; auto.
        -- destruct (Gprev v) as [X Y]; [lia|]. split; auto.
      * intros v b H1 H2. destruct (Gmov v b H1 H2) as [H4|[j Hj]]; [left; auto|].
        destruct (N.eq_dec j i) as [->|NE]; [congruence|]. right. exists j. now rewrite fupd_neq.
      * apply help_same; auto. now rewrite P.
      * intros j. destruct (N.eq_dec j i) as [->|NE]; [rewrite fupd_eq; split; cbn; lia|]. rewrite fupd_neq by auto.
        eapply (athr_mono _ _ _ _); [..|apply (Gth j)]; cbn; auto; try lia.
        -- right. intros v b E. pose proof (Gth j) as [_ X]. cbn in X. rewrite E in X.
           destruct X as (_ & _ & _ & -> & _). destruct A3 as (_ & _ & A3). exact (A3 j b E).
        -- intros E. exfalso. exact (N4 j E).
    + apply FB; auto; try discriminate. split; cbn; auto.
  - injection R as <-. destruct T as [T1 T2]. cbn in *. destruct T2 as [-> ->].
    assert (DN : forall v, done (ASt (ep + 1) ep hp nx bl mv pc lo le) v ->
                           done (ASt (ep + 1) (ep + 1) hp nx bl mv (fupd pc i (ALoad false)) lo le) v).
    { intros v (D1 & D2 & D3). split; cbn in *; auto. split; auto. intros j b. unfold fupd.
      destruct (N.eqb_spec j i); [discriminate|apply D3]. }
    split; cbn; try lia; auto.
    + intros j k. unfold fupd. destruct (N.eqb_spec j i) as [->|], (N.eqb_spec k i) as [->|]; auto; discriminate.
    + intros v H. specialize (Gnext v H). lia.
    + intros v L. destruct (Gprev v L). auto.
    + intros v b H1 H2. destruct (Gmov v b H1 H2) as [H4|[j Hj]]; [left; auto|].
      destruct (N.eq_dec j i) as [->|NE]; [congruence|]. right. exists j. now rewrite fupd_neq.
    + apply help_same; auto. now rewrite P.
    + intros j. destruct (N.eq_dec j i) as [->|NE]; [rewrite fupd_eq; split; cbn; auto|]. rewrite fupd_neq by auto.
      eapply (athr_mono _ _ _ _); [..|apply (Gth j)]; cbn; auto; try lia.
      intros E. destruct NE. now apply Gone.
Qed.

Lemma run1_inv s l s' : ainv s -> async_run1 nblocks s l = Some s' -> ainv s'.
Proof.
  intros G R. destruct l as [i|i|i|i]; cbn in R; [eapply go_inv; eauto|..];
    destruct (y_pc s i) eqn:P; try discriminate; pose proof (ai_th _ G i) as [T1 T2]; rewrite P in T2.
  - injection R as <-. eapply (aframe _ _ i AGrow G); cbn; auto; try lia; rewrite ?P; try discriminate.
    + apply (ai_block _ G).
    + apply help_same; [now rewrite P|apply (ai_help _ G)].
    + split; cbn; auto.
  - destruct (y_next s (y_loc s i)) eqn:L; [|discriminate]. injection R as <-.
    eapply (aframe _ _ i AMig1 G); cbn; auto; try lia; rewrite ?P; try discriminate.
    + apply (ai_block _ G).
    + apply help_same; [now rewrite P|apply (ai_help _ G)].
    + split; cbn; auto.
  - injection R as <-. eapply (aframe _ _ i AUnreg G); cbn; auto; try lia; rewrite ?P; try discriminate.
    + apply (ai_block _ G).
    + apply help_same; [now rewrite P|apply (ai_help _ G)].
    + split; cbn; auto.
Qed.

Lemma areach_inv s : async_reachable nblocks s -> ainv s.
Proof. induction 1 as [|s s' _ IH [l R]]; [apply ainv_init|]. eapply run1_inv; eauto. Qed.

End Inv.
