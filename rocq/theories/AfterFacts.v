(** What concurrent calls leave behind: facts. *)
From Coq Require Import NArith ZArith Bool List Sorted Lia.
From Verif Require Import Words Slot SlotFacts Mapper MapperFacts ReturnCode MapSpec LinSpec HistSpec
  Base BaseInv BaseLin TableSpec BaseFacts Migrate GrowFacts Growing GrowingSpec GrowingInv GrowingFacts Iter IterFacts IterGrowFacts After AfterSpec.
Import ListNotations.
Open Scope N_scope.
Local Ltac sp := repeat match goal with |- _ /\ _ => split end.

(** *** Lists of elements *)

Lemma lists_add a l k d : lists a l -> a k = None -> lists (fupd a k (Some d)) ((k, d) :: l).
Proof.
  intros [N M] A. split.
  - cbn. constructor; auto. intros X. apply in_map_iff in X. destruct X as ([k' d'] & E & X). cbn in E. subst k'.
    apply M in X. congruence.
  - intros k' d'. unfold fupd. destruct (N.eqb_spec k' k) as [->|NE]; split.
    + intros [= ->]. now left.
    + intros [X|X]; [congruence|]. apply M in X. congruence.
    + intros X. right. now apply M.
    + intros [X|X]; [congruence|]. now apply M.
Qed.

Lemma lists_remove a l k v : lists a l -> a k = Some v -> exists l', lists (fupd a k None) l' /\ length l = S (length l').
Proof.
  intros [N M] A. assert (X : In (k, v) l) by now apply M.
  apply in_split in X. destruct X as (l1 & l2 & ->). rewrite map_app in N. cbn in N.
  pose proof (NoDup_remove_1 _ _ _ N) as N1. pose proof (NoDup_remove_2 _ _ _ N) as N2. rewrite <- map_app in N1, N2.
  exists (l1 ++ l2). split; [|rewrite !app_length; cbn; lia]. split; auto.
  intros k' d'. unfold fupd. destruct (N.eqb_spec k' k) as [->|NE].
  - split; [discriminate|]. intros X. elim N2. apply in_map_iff. exists (k, d'). auto.
  - rewrite (M k' d'), !in_app_iff. cbn. split; [intros [X|[X|X]]; auto; congruence|intros [X|X]; auto].
Qed.

Lemma lists_change a l k v w : lists a l -> a k = Some v -> exists l', lists (fupd a k (Some w)) l' /\ length l' = length l.
Proof.
  intros L A. destruct (lists_remove _ _ _ _ L A) as (l' & L' & E).
  exists ((k, w) :: l'). split; [|cbn; lia].
  pose proof (lists_add _ _ k w L' ltac:(apply fupd_eq)) as [N M]. split; auto.
  intros k' d'. rewrite <- M. unfold fupd. destruct (k' =? k); tauto.
Qed.

Lemma lists_len a l l' : lists a l -> lists a l' -> length l = length l'.
Proof.
  intros [N M] [N' M']. apply Nat.le_antisymm; apply NoDup_incl_length; try (now apply NoDup_map_inv with (f := fst)).
  - intros [k d] X. now apply M', M.
  - intros [k d] X. now apply M, M'.
Qed.

(** *** Counting the answers *)

Fixpoint lsum (f : N -> nat) (T : list N) : nat := match T with [] => O | t :: T => f t + lsum f T end%nat.

Lemma lsum_same f g T : (forall t, In t T -> g t = f t) -> lsum g T = lsum f T.
Proof. intros H. induction T as [|t T IH]; cbn; auto. rewrite H by (now left). rewrite IH; auto. intros u U. apply H. now right. Qed.
Lemma lsum_one f g T t : NoDup T -> In t T -> (forall u, u <> t -> g u = f u) -> (lsum g T + f t = lsum f T + g t)%nat.
Proof.
  intros N I H. induction N as [|u T NI N IH]; [elim I|]. cbn. destruct I as [->|I].
  - rewrite (lsum_same f g T); [lia|]. intros w W. apply H. congruence.
  - specialize (IH I). assert (u <> t) by congruence. rewrite (H u) by auto. lia.
Qed.

Definition owed (f : mres -> bool) (th : N -> astat mop mres) (t : N) : nat :=
  match th t with ADone r => if f r then 1 else 0 | _ => 0 end%nat.

Lemma spec_len inv full a o a' r l : mspec inv full a o a' r -> lists a l ->
  exists l', lists a' l' /\ (length l' + (if is_erased r then 1 else 0) = length l + (if is_inserted r then 1 else 0))%nat.
Proof.
  intros S L. destruct S; cbn [is_erased is_inserted]; try (exists l; split; [exact L|lia]).
  - exists ((k, d) :: l). split; [now apply lists_add|cbn; lia].
  - destruct (lists_change _ _ _ _ (f v) L H) as (l' & L' & E). exists l'. split; [auto|lia].
  - destruct (lists_change _ _ _ _ (f v) L H) as (l' & L' & E). exists l'. split; [auto|lia].
  - exists ((k, d) :: l). split; [now apply lists_add|cbn; lia].
  - destruct (lists_change _ _ _ _ (f v) L H) as (l' & L' & E). exists l'. split; [auto|lia].
  - destruct (lists_remove _ _ _ _ L H) as (l' & L' & E). exists l'. split; [auto|lia].
  - destruct (lists_remove _ _ _ _ L H) as (l' & L' & E). exists l'. split; [auto|lia].
Qed.

Lemma owed_upd f th t x T : NoDup T -> In t T ->
  (lsum (owed f (fupd th t x)) T + owed f th t = lsum (owed f th) T + owed f (fupd th t x) t)%nat.
Proof. intros N I. apply lsum_one; auto. intros u NE. unfold owed. now rewrite fupd_neq by exact NE. Qed.

Lemma left_len inv full x tr x' : asteps (mspec inv full) x tr x' ->
  forall l T, NoDup T -> (forall t, ath x t <> AIdle -> In t T) -> lists (ast x) l ->
  exists l' T', NoDup T' /\ (forall t, ath x' t <> AIdle -> In t T') /\ lists (ast x') l' /\
    (length l' + replies is_erased tr + lsum (owed is_erased (ath x')) T' + lsum (owed is_inserted (ath x)) T =
     length l + replies is_inserted tr + lsum (owed is_inserted (ath x')) T' + lsum (owed is_erased (ath x)) T)%nat.
Proof.
  induction 1 as [x|x y z tr S _ IH|x e y z tr S _ IH]; intros l T N I L.
  - exists l, T. sp; auto. cbn. lia.
  - inversion S as [|s th t o s' r TH SP|]; subst. cbn [ast ath] in *.
    destruct (spec_len _ _ _ _ _ _ l SP L) as (l1 & L1 & E1).
    assert (IT : In t T) by (apply I; congruence).
    destruct (IH l1 T N) as (l2 & T2 & N2 & I2 & L2 & E2); auto.
    { intros u U. unfold fupd in U. destruct (N.eqb_spec u t); subst; auto. }
    exists l2, T2. sp; auto.
    pose proof (owed_upd is_erased th t (ADone r) T N IT) as Q1. pose proof (owed_upd is_inserted th t (ADone r) T N IT) as Q2.
    unfold owed at 2 4 in Q1. unfold owed at 2 4 in Q2. rewrite TH, fupd_eq in Q1, Q2. lia.
  - inversion S as [s th t o TH| |s th t r TH]; subst; cbn [ast ath replies] in *.
    + destruct (in_dec N.eq_dec t T) as [IT|NT].
      * destruct (IH l T N) as (l2 & T2 & N2 & I2 & L2 & E2); auto.
        { intros u U. unfold fupd in U. destruct (N.eqb_spec u t); subst; auto. }
        exists l2, T2. sp; auto.
        pose proof (owed_upd is_erased th t (APend o) T N IT) as Q1. pose proof (owed_upd is_inserted th t (APend o) T N IT) as Q2.
        unfold owed at 2 4 in Q1. unfold owed at 2 4 in Q2. rewrite TH, fupd_eq in Q1, Q2. lia.
      * destruct (IH l (t :: T)) as (l2 & T2 & N2 & I2 & L2 & E2); auto.
        { now constructor. }
        { intros u U. unfold fupd in U. destruct (N.eqb_spec u t); [subst; now left|right; auto]. }
        exists l2, T2. sp; auto. cbn [lsum] in E2.
        assert (Q : forall f, owed f (fupd th t (APend o)) t = O) by (intros f; unfold owed; now rewrite fupd_eq).
        assert (Q' : forall f, lsum (owed f (fupd th t (APend o))) T = lsum (owed f th) T).
        { intros f. apply lsum_same. intros u U. unfold owed. rewrite fupd_neq; auto. congruence. }
        rewrite !Q, !Q' in E2. lia.
    + assert (IT : In t T) by (apply I; congruence).
      destruct (IH l T N) as (l2 & T2 & N2 & I2 & L2 & E2); auto.
      { intros u U. unfold fupd in U. destruct (N.eqb_spec u t); subst; auto. }
      exists l2, T2. sp; auto.
      pose proof (owed_upd is_erased th t AIdle T N IT) as Q1. pose proof (owed_upd is_inserted th t AIdle T N IT) as Q2.
      unfold owed at 2 4 in Q1. unfold owed at 2 4 in Q2. rewrite TH, fupd_eq in Q1, Q2. lia.
Qed.

Lemma lists_shows inv full tr x l : asteps (mspec inv full) (AObj amap_empty (fun _ => AIdle)) tr x -> (forall t, ath x t = AIdle) ->
  lists (ast x) l -> shows_what_is_left (mspec inv full) tr l.
Proof.
  intros A ID L. split; [exists (ast x); split; [exists x; auto|auto]|].
  destruct (left_len _ _ _ _ _ A [] []) as (l' & T' & N & I & L' & E); auto.
  - constructor.
  - intros t H. now elim H.
  - split; [constructor|]. intros k d. cbn. split; [discriminate|tauto].
  - rewrite (lists_len _ _ _ L L').
    assert (Z : forall f, lsum (owed f (ath x)) T' = O).
    { intros f. clear - ID. induction T' as [|t T IH]; cbn; auto. rewrite IH. unfold owed. now rewrite ID. }
    rewrite !Z in E. cbn in E. lia.
Qed.

(** *** Iterations *)

Lemma part_lists c m t ct a : wf_scfg (tsc c) -> tinv c m t ct (fun _ => false) -> absr c m ct a -> lists a (part ct 0 (total_slots (tmc c) m)).
Proof.
  intros Hsc I A. set (tot := total_slots (tmc c) m) in *. split.
  - assert (F2 : Forall2 (fun p kd => p < tot /\ ct p = CLive (fst kd) (snd kd)) (flat_map (use ct) (nseq 0 (N.to_nat tot))) (part ct 0 tot)).
    { unfold part. rewrite N.sub_0_r. eapply Forall2_impl; [|apply (use_part ct (N.to_nat tot) 0)].
      cbn. intros p kd (H1 & H2). split; auto. lia. }
    assert (SS : StronglySorted N.lt (flat_map (use ct) (nseq 0 (N.to_nat tot)))) by apply use_sorted.
    remember (flat_map (use ct) (nseq 0 (N.to_nat tot))) as ps eqn:EP. clear EP.
    remember (part ct 0 tot) as l eqn:EL. clear EL.
    induction F2 as [|p [k d] ps l (Lp & E) F2 IH]; cbn [map]; [constructor|].
    inversion SS as [|? ? S1 S2]; subst. constructor; auto. cbn [fst snd] in *.
    intros Ik. apply in_map_iff in Ik as ([k' d'] & EK & Ik). cbn in EK. subst k'.
    assert (Q : exists q, In q ps /\ q < tot /\ ct q = CLive k d').
    { clear - F2 Ik. induction F2 as [|q kd ps l H F2 IH]; cbn in Ik; [contradiction|].
      destruct Ik as [->|Ik]; [exists q; cbn in H; split; [now left|exact H]|].
      destruct (IH Ik) as (q' & H1 & H2). exists q'. split; [now right|exact H2]. }
    destruct Q as (q & Iq & Lq & Eq). rewrite Forall_forall in S2. specialize (S2 q Iq).
    assert (p = q) by (eapply (live_unique c m); eauto). lia.
  - intros k d. rewrite in_part. rewrite (A k d). fold tot. split; intros (p & H1 & H2); exists p; split; auto; lia.
Qed.

Lemma loop_walk c s g n : mit_loop c s g n = walk c (g_map g) (g_mem g) n (it_begin c (g_map g) (g_mem g)).
Proof.
  unfold mit_loop, mit_begin. destruct (it_begin c (g_map g) (g_mem g)) as [b|]; [apply mwalk_walk|now destruct n].
Qed.

Lemma rest_idle c B client s x : grel c B client s x -> at_rest s -> forall t, ath x t = AIdle.
Proof. intros (ct & mk & l & _ & _ & T & _) R t. specialize (T t). now rewrite (R t) in T. Qed.

Lemma growing_after c B client s x tr k : wf_scfg (tsc c) -> grel c B client s x -> at_rest s -> gmig s = None ->
  asteps (mspec false false) (AObj amap_empty (fun _ => AIdle)) tr x ->
  exists l n, mit_loop c k (GTab (gver s) (gmap s (gver s)) (gmem s (gver s))) n = Walked l /\ shows_what_is_left (mspec false false) tr l.
Proof.
  intros Hsc R AR MG AS. pose proof (rest_idle _ _ _ _ _ R AR) as ID. destruct R as (ct & mk & T & (lg & W & CU) & A & _). rewrite MG in CU.
  destruct CU as [-> I]. exists (part ct 0 (total_slots (tmc c) (gmap s (gver s)))), (N.to_nat (total_slots (tmc c) (gmap s (gver s)))).
  rewrite loop_walk. cbn [g_map g_mem]. split; [now apply (walk_begin c _ Hsc _ ct I)|].
  eapply lists_shows; eauto. now apply part_lists with (t := gmem s (gver s)).
Qed.
