(** Growing tables: executions from the start, sequential executions. *)
From Coq Require Import NArith Bool List Lia.
From Verif Require Import Words Slot SlotFacts Mapper MapperFacts ReturnCode MapSpec LinSpec
  Base BaseInv BaseLin TableSpec BaseFacts HistSpec Migrate Growing GrowingSpec GrowingInv.
Import ListNotations.
Open Scope N_scope.

Section G.
Context (c : tcfg) (B : N) (client : op -> Prop).
Context (Hsc : wf_scfg (tsc c)) (CO : client_ok (tsc c) client).
Context (CF : cmap (tmc c) = false \/ cprob (tmc c) = true) (HB : 0 < B <= 2 ^ 31).
Notation spec := (mspec false false).
Notation ainit := (AObj amap_empty (fun _ => @AIdle mop mres)).

Lemma ginit_rel lg : 1 <= lg <= 63 -> grel c B client (gsys_init c lg) ainit.
Proof.
  intros LG. pose proof (wf_mk (tmc c) lg 0 LG) as W.
  exists (fun _ => CEmpty), (fun _ => false), []. cbn [ast ath gver gmap gmem gsys_init].
  split; [|split; [|split]].
  - exists lg. cbn [gver gmap gmem gmig gsys_init]. split; auto. split; [reflexivity|].
    apply (fresh_tinv c _ lg); auto.
  - apply fresh_absr.
  - intros tid. reflexivity.
  - intros tid H. now elim H.
Qed.

Lemma async_sim s x tr s' :
  sc_mark (tsc c) = true -> grel c B client s x ->
  lts_steps (async_step c B client) s tr s' ->
  exists x', asteps spec x tr x' /\ grel c B client s' x'.
Proof.
  intros SM R ST. revert x R. induction ST as [s|s s1 s2 tr (S & U & RM) ST IH|s e s1 s2 tr (S & U & RM) ST IH]; intros x R.
  - exists x. split; [apply as_nil|auto].
  - destruct (gsim c B client Hsc CO CF HB _ _ _ _ R S (or_introl (conj SM U)) RM) as (x1 & A1 & R1).
    destruct (IH _ R1) as (x2 & A2 & R2). exists x2. split; auto.
    change tr with ([] ++ tr). eapply asteps_trans; eauto.
  - destruct (gsim c B client Hsc CO CF HB _ _ _ _ R S (or_introl (conj SM U)) RM) as (x1 & A1 & R1).
    destruct (IH _ R1) as (x2 & A2 & R2). exists x2. split; auto.
    change (e :: tr) with ([e] ++ tr). eapply asteps_trans; eauto.
Qed.

Lemma sync_sim s x tr s' :
  exclusive s -> grel c B client s x ->
  lts_steps (sync_step c B client) s tr s' ->
  exists x', asteps spec x tr x' /\ grel c B client s' x' /\ exclusive s'.
Proof.
  intros X R ST. revert x X R. induction ST as [s|s s1 s2 tr (S & U & RM) ST IH|s e s1 s2 tr (S & U & RM) ST IH]; intros x X R.
  - exists x. split; [apply as_nil|auto].
  - destruct (gsim c B client Hsc CO CF HB _ _ _ _ R S (or_intror X) RM) as (x1 & A1 & R1).
    destruct (IH _ U R1) as (x2 & A2 & R2). exists x2. split; auto.
    change tr with ([] ++ tr). eapply asteps_trans; eauto.
  - destruct (gsim c B client Hsc CO CF HB _ _ _ _ R S (or_intror X) RM) as (x1 & A1 & R1).
    destruct (IH _ U R1) as (x2 & A2 & R2). exists x2. split; auto.
    change (e :: tr) with ([e] ++ tr). eapply asteps_trans; eauto.
Qed.

Lemma init_exclusive lg : exclusive (gsys_init c lg).
Proof. intros H. now elim H. Qed.

Lemma sync_linearizable lg : 1 <= lg <= 63 ->
  linearizable spec (sync_step c B client) (gsys_init c lg) amap_empty.
Proof.
  intros LG tr s ST.
  destruct (sync_sim _ _ _ _ (init_exclusive lg) (ginit_rel lg LG) ST) as (x & A & _). exists x. exact A.
Qed.

Lemma async_linearizable lg : 1 <= lg <= 63 -> sc_mark (tsc c) = true ->
  linearizable spec (async_step c B client) (gsys_init c lg) amap_empty.
Proof.
  intros LG SM tr s ST.
  destruct (async_sim _ _ _ _ SM (ginit_rel lg LG) ST) as (x & A & _). exists x. exact A.
Qed.

End G.

(** Sequential executions. *)
Definition quiet (x : aobj amap mop mres) : Prop := forall t, ath x t = AIdle.

Lemma in_turn_answers t l : forall m th x,
  (forall u, th u = AIdle) -> asteps (mspec false false) (AObj m th) (in_turn t l) x ->
  answers m l (ast x) /\ forall u, ath x u = AIdle.
Proof.
  assert (TAU : forall (x y : aobj amap mop mres), (forall u, ath x u = AIdle) ->
    ~ astep (mspec false false) x None y).
  { intros x y Q S. inversion S as [|? ? u ? ? ? E|]; subst. specialize (Q u). cbn in Q. congruence. }
  induction l as [|[o r] l IH]; intros m th x Q A; cbn [in_turn] in A.
  - inversion A as [|? ? ? ? S|]; subst; [|exfalso; eapply (TAU (AObj m th)); eauto].
    split; [constructor|exact Q].
  - inversion A as [|? ? ? ? S|? ? ? ? ? S A1]; subst; [exfalso; eapply (TAU (AObj m th)); eauto|].
    inversion S as [? ? ? ? E0| |]; subst. clear S A.
    set (th1 := fupd th t (APend o)) in *.
    assert (Q1 : forall u, u <> t -> th1 u = AIdle) by (intros u N; unfold th1; rewrite fupd_neq; auto).
    inversion A1 as [|? ? ? ? S A2|? ? ? ? ? S A2]; subst.
    + inversion S as [|? ? tid o' m1 r1 E SP|]; subst.
      assert (tid = t). { destruct (N.eq_dec tid t); auto. rewrite Q1 in E; congruence. } subst tid.
      unfold th1 in E. rewrite fupd_eq in E. injection E as <-. clear S A1.
      set (th2 := fupd th1 t (ADone r1)) in *.
      assert (Q2 : forall u, u <> t -> th2 u = AIdle) by (intros u N; unfold th2; rewrite fupd_neq; auto).
      inversion A2 as [|? ? ? ? S A3|? ? ? ? ? S A3]; subst.
      * exfalso. inversion S as [|? ? tid o' m2 r2 E SP2|]; subst.
        destruct (N.eq_dec tid t) as [->|NE]; [unfold th2 in E; rewrite fupd_eq in E; discriminate|].
        rewrite Q2 in E; congruence.
      * inversion S as [| |? ? ? ? E]; subst. unfold th2 in E. rewrite fupd_eq in E. injection E as <-.
        destruct (fun H => IH m1 (fupd th2 t AIdle) x H A3) as [AN QX].
        { intros u. destruct (N.eq_dec u t) as [->|NE]; [now rewrite fupd_eq|]. rewrite fupd_neq; auto. }
        split; [econstructor; eauto|exact QX].
    + exfalso. inversion S as [| |? ? ? ? E]; subst. unfold th1 in E. rewrite fupd_eq in E. discriminate.
Qed.

(** *** How many keys with the largest hash value fit *)

Lemma nodup_le_incl (A : Type) (l l' : list A) (dec : forall a b : A, {a = b} + {a <> b}) :
  NoDup l -> (forall x, In x l -> In x l') -> (length l <= length l')%nat.
Proof. intros H I. apply NoDup_incl_length; auto. Qed.

Fixpoint nrange (a : N) (n : nat) : list N :=
  match n with O => [] | S n => a :: nrange (a + 1) n end.
Lemma in_nrange x : forall n a, In x (nrange a n) <-> a <= x < a + N.of_nat n.
Proof. induction n as [|n IH]; intros a; cbn [nrange In]; [lia|]. rewrite IH. lia. Qed.
Lemma nrange_length : forall n a, length (nrange a n) = n.
Proof. induction n; cbn; auto. Qed.

(** Keys sit at distinct positions. *)
Lemma positions (P : N -> N -> Prop) ks :
  (forall k, In k ks -> exists p, P k p) ->
  (forall k k' p, P k p -> P k' p -> k = k') -> NoDup ks ->
  exists ps, NoDup ps /\ length ps = length ks /\ forall p, In p ps -> exists k, In k ks /\ P k p.
Proof.
  intros E I. induction ks as [|k ks IH]; intros ND.
  - exists []. repeat split; [constructor|]. intros p [].
  - inversion ND as [|? ? NI ND']; subst.
    destruct IH as (ps & N1 & L & Q); auto. { intros k' H. apply E. now right. }
    destruct (E k (or_introl eq_refl)) as [p Pp].
    exists (p :: ps). repeat split.
    + constructor; auto. intros H. destruct (Q p H) as (k' & Hk & Pk).
      assert (k = k') by eauto. congruence.
    + cbn. now rewrite L.
    + intros q [<-|H]; [exists k; split; [now left|auto]|].
      destruct (Q q H) as (k' & Hk & Pk). exists k'. split; [now right|auto].
Qed.

Lemma top_hash_bound c m lg t ct mk a ks :
  wf_mapper (tmc c) m lg -> cmap (tmc c) = false -> cprob (tmc c) = false ->
  (forall k, In k ks -> thash c k = 2 ^ 64 - 1) ->
  tinv c m t ct mk -> absr c m ct a -> NoDup ks -> (forall k, In k ks -> a k <> None) ->
  (length ks <= 302)%nat.
Proof.
  intros W CM CP HH I A ND HK.
  destruct (positions (fun k p => p < total_slots (tmc c) m /\ exists d, ct p = CLive k d) ks)
    as (ps & NP & L & Q); auto.
  { intros k H. specialize (HK k H). destruct (a k) as [d|] eqn:E; [|congruence].
    apply A in E. destruct E as (p & Hp & E). eauto. }
  { intros k k' p [_ [d E]] [_ [d' E']]. congruence. }
  rewrite <- L. rewrite <- (nrange_length 302 (2 ^ lg - 1)).
  apply NoDup_incl_length; auto. intros p H. destruct (Q p H) as (k & Hk & Hp & d & E).
  apply in_nrange. destruct (ti_reach _ _ _ _ _ I p k d Hp E) as (n & En & _).
  rewrite (remap_val _ _ _ W), CP in En.
  assert (HM : home c m k = 2 ^ lg - 1).
  { unfold home, hashk. rewrite (HH k Hk). rewrite (map_val _ _ _ W).
    rewrite CM. change (w64 (2 ^ 64 - 1)) with (2 ^ 64 - 1).
    destruct W as [[? ?] _]. pose proof (pow2_pos lg) as PP. pose proof (pow2_pos (64 - lg)) as PQ.
    assert (X : 2 ^ 64 = 2 ^ lg * 2 ^ (64 - lg)) by (rewrite <- N.pow_add_r; f_equal; lia).
    symmetry. apply N.div_unique with (2 ^ (64 - lg) - 1); nia. }
  pose proof (pow2_pos lg).
  assert (p <= 2 ^ lg + 300).
  { destruct (N.le_gt_cases p (2 ^ lg + 300)); auto.
    rewrite (ti_over _ _ _ _ _ I CP p) in E; auto; [discriminate|].
    rewrite (addressable_val _ _ _ W). lia. }
  rewrite HM in En. change (N.of_nat 302) with 302. lia.
Qed.

Lemma answers_inserts l : forall m m',
  answers m l m' -> (forall o r, In (o, r) l -> exists k d, o = MInsert k d) ->
  (forall k, m k <> None -> m' k <> None) /\
  (forall o r, In (o, r) l -> m' (mop_key o) <> None).
Proof.
  induction l as [|[o r] l IH]; intros m m' A F; inversion A as [|? ? ? m1 ? ? SP A1]; subst.
  - split; [auto|]. intros ? ? H; destruct H.
  - destruct (IH _ _ A1) as [K1 K2]. { intros o' r' H. apply (F o' r'). now right. }
    destruct (F o r (or_introl eq_refl)) as (k & d & ->).
    assert (S : m1 k <> None /\ forall k', m k' <> None -> m1 k' <> None).
    { inversion SP; subst; try discriminate.
      - rewrite fupd_eq. split; [discriminate|]. intros k'. unfold fupd. destruct (k' =? k); congruence.
      - split; congruence. }
    split; [intros k' H; apply K1, S; exact H|]. intros o' r' [[= <- <-]|H]; [apply K1; exact (proj1 S)|exact (K2 o' r' H)].
Qed.

Lemma top_hash_calls c B client lg t l s :
  cell_type (tsc c) -> client_ok (tsc c) client -> cmap (tmc c) = false -> cprob (tmc c) = false ->
  0 < B <= 2 ^ 31 -> 1 <= lg <= 63 ->
  lts_steps (sync_step c B client) (gsys_init c lg) (in_turn t l) s ->
  (forall o r, In (o, r) l -> exists k d, o = MInsert k d /\ thash c k = 2 ^ 64 - 1) ->
  NoDup (map (fun x => mop_key (fst x)) l) -> (length l <= 302)%nat.
Proof.
  intros CT CO CM CP HB LG ST F ND.
  destruct (sync_sim c B client (cell_type_wf _ CT) CO (or_introl CM) HB _ _ _ _ (init_exclusive c lg)
    (ginit_rel c B client (cell_type_wf _ CT) lg LG) ST) as (x & A & R & _).
  destruct (in_turn_answers _ _ _ _ _ (fun _ => eq_refl) A) as [AN _].
  destruct (answers_inserts _ _ _ AN) as [_ K]. { intros o r H. destruct (F o r H) as (k & d & E & _). eauto. }
  destruct R as (ct & mk & l0 & CI & AB & _).
  pose proof (cur_tinv c B _ _ _ CI) as I. destruct (cur_wf c B _ _ _ CI) as [lg' W].
  rewrite <- (map_length (fun x => mop_key (fst x))).
  eapply (top_hash_bound c _ lg' _ ct mk (ast x)); eauto.
  - intros k H. apply in_map_iff in H. destruct H as ([o r] & <- & H).
    destruct (F o r H) as (k & d & E & HK). cbn. rewrite E. exact HK.
  - intros k H. apply in_map_iff in H. destruct H as ([o r] & <- & H). cbn. eauto.
Qed.
