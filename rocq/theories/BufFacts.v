(** What a map behind store buffers still guarantees. *)
From Coq Require Import NArith Bool List Lia.
From Verif Require Import Words MapSpec LinSpec HistSpec BaseInv BaseLin BufSpec.
Import ListNotations.
Open Scope N_scope.

Definition no_erase (o : mop) : Prop := (forall k, o <> MErase k) /\ (forall k d, o <> MEraseIf k d).

Section F.
Context (full : bool) (stores : mop -> Prop).
Notation spec := (mspec false full).

Lemma spec_other m o m' r k : spec m o m' r -> k <> mop_key o -> m' k = m k.
Proof. destruct 1; cbn; intros NE; auto; now apply fupd_neq. Qed.

Definition dom (m a : amap) : Prop := forall k, m k = None <-> a k = None.

Lemma dom_refl m : dom m m.
Proof. intros k. tauto. Qed.
Lemma dom_trans a b d : dom a b -> dom b d -> dom a d.
Proof. intros H K k. rewrite (H k). apply K. Qed.
Lemma dom_sym a b : dom a b -> dom b a.
Proof. intros H k. symmetry. apply H. Qed.
Lemma dom_set m a k v w : dom m a -> dom (fupd m k (Some v)) (fupd a k (Some w)).
Proof. intros H k'. unfold fupd. destruct (k' =? k); [split; discriminate|apply H]. Qed.
Lemma dom_some m a k v : dom m a -> m k = Some v -> exists w, a k = Some w.
Proof. intros H E. destruct (a k) as [w|] eqn:X; eauto. apply H in X. congruence. Qed.

Lemma spec_dom m a o m' r :
  dom m a -> no_erase o -> spec m o m' r ->
  exists a' r', spec a o a' r' /\ same_but_value r r' /\ dom m' a'.
Proof.
  intros D [N1 N2] S. destruct S; try discriminate;
    try (match goal with H : m _ = None |- _ => apply D in H end);
    try (match goal with H : m _ = Some _ |- _ => apply (dom_some _ _ _ _ D) in H; destruct H as [w H] end);
    try solve [do 2 eexists; split; [econstructor; eauto|split; [cbn; auto; reflexivity|auto using dom_set]]].
  all: first [now elim (N1 k)|now elim (N2 k d)].
Qed.

Lemma dom_see m q : Forall (fun w => m (fst w) <> None) q -> dom (see m q) m.
Proof.
  revert m. induction q as [|w q IH]; intros m F; [apply dom_refl|]. inversion F; subst. cbn.
  assert (D : dom (fupd m (fst w) (Some (snd w))) m).
  { intros k. unfold fupd. destruct (N.eqb_spec k (fst w)) as [->|]; [|tauto]. split; [discriminate|congruence]. }
  eapply dom_trans; [|exact D]. apply IH. eapply Forall_impl; [|eassumption]. intros y H K. apply H. now apply D.
Qed.

Definition like (x y : astat mop mres) : Prop :=
  match x, y with
  | AIdle, AIdle => True
  | APend o, APend o' => o = o' /\ no_erase o
  | ADone r, ADone r' => same_but_value r r'
  | _, _ => False
  end.

Definition krel (x : bufobj) (y : aobj amap mop mres) : Prop :=
  dom (bo_map x) (ast y) /\
  (forall u, Forall (fun w => bo_map x (fst w) <> None) (bo_queue x u)) /\
  (forall u, like (bo_call x u) (ath y u)).

Lemma like_upd th th' u v v' :
  (forall w, like (th w) (th' w)) -> like v v' -> forall w, like (fupd th u v w) (fupd th' u v' w).
Proof. intros H K w. unfold fupd. destruct (w =? u); auto. Qed.

Lemma queue_dom (m m' : amap) (q : list (N * N)) :
  (forall k, m k <> None -> m' k <> None) ->
  Forall (fun w => m (fst w) <> None) q -> Forall (fun w => m' (fst w) <> None) q.
Proof. intros H. apply Forall_impl. intros w. apply H. Qed.

Lemma spec_keeps m o m' r k : spec m o m' r -> no_erase o -> m k <> None -> m' k <> None.
Proof.
  intros S [N1 N2] E. destruct S; auto; try (unfold fupd; destruct (_ =? _); [discriminate|exact E]).
  - now elim (N1 k0).
  - now elim (N2 k0 d).
Qed.

Lemma keys_step x y l x' :
  krel x y -> (forall t o, l = Some (EInv t o) -> no_erase o) -> bufstep spec stores x l x' ->
  exists y' tr, Forall2 same_event (match l with Some e => [e] | None => [] end) tr /\
    asteps spec y tr y' /\ krel x' y'.
Proof.
  intros (D & Q & L) NE ST. destruct y as [a th']. cbn in *. destruct ST; cbn in *.
  - pose proof (L t) as Lt. rewrite H in Lt. destruct (th' t) eqn:Y; try contradiction.
    exists (AObj a (fupd th' t (APend o))), [EInv t o]. split; [repeat constructor|]. split.
    + eapply as_vis; [now apply a_inv|apply as_nil].
    + unfold krel. cbn. sp; auto. apply like_upd; auto. cbn. split; auto. eapply NE; reflexivity.
  - pose proof (L t) as Lt. rewrite H in Lt. destruct (th' t) as [|o'|] eqn:Y; try contradiction. destruct Lt as [<- Ne].
    pose proof (dom_see m (q t) (Q t)) as DS.
    destruct (spec_dom _ a _ _ _ (dom_trans _ _ _ DS D) Ne H0) as (a' & r' & SP & SR & D').
    exists (AObj a' (fupd th' t (ADone r'))), []. split; [constructor|]. split.
    + eapply as_tau; [eapply a_lin; eauto|apply as_nil].
    + unfold krel. cbn. sp; auto.
      * eapply dom_trans; [|exact D']. apply dom_sym. eapply dom_trans; [|exact DS]. intros k. now rewrite H1.
      * apply like_upd; auto.
  - pose proof (L t) as Lt. rewrite H in Lt. destruct (th' t) as [|o'|] eqn:Y; try contradiction. destruct Lt as [<- Ne].
    destruct (spec_dom _ a _ _ _ D Ne H1) as (a' & r' & SP & SR & D').
    exists (AObj a' (fupd th' t (ADone r'))), []. split; [constructor|]. split.
    + eapply as_tau; [eapply a_lin; eauto|apply as_nil].
    + unfold krel. cbn. sp; auto.
      * intros u. eapply queue_dom; [|apply Q]. intros k. eapply spec_keeps; eauto.
      * apply like_upd; auto.
  - pose proof (L t) as Lt. rewrite H in Lt. destruct (th' t) as [|o'|] eqn:Y; try contradiction. destruct Lt as [<- Ne].
    pose proof (dom_see m (q t) (Q t)) as DS.
    destruct (spec_dom _ a _ _ _ (dom_trans _ _ _ DS D) Ne H1) as (a' & r' & SP & SR & D').
    assert (DM : dom m m').
    { intros k. destruct (N.eq_dec k (mop_key o)) as [->|X].
      - rewrite H3, <- (DS (mop_key o)), H2. split; discriminate.
      - rewrite (spec_other _ _ _ _ k H1 X). symmetry. apply DS. }
    exists (AObj a' (fupd th' t (ADone r'))), []. split; [constructor|]. split.
    + eapply as_tau; [eapply a_lin; eauto|apply as_nil].
    + unfold krel. cbn. sp; auto.
      * eapply dom_trans; eauto.
      * intros u. unfold fupd. destruct (u =? t); auto. apply Forall_app. split; auto. constructor; [|constructor].
        cbn. intros X. apply DM in X. congruence.
      * apply like_upd; auto.
  - pose proof (Q t) as Qt. rewrite H in Qt. inversion Qt as [|w l0 K F]; subst. cbn in K.
    assert (D' : dom m (fupd m k (Some d))).
    { intros k'. unfold fupd. destruct (N.eqb_spec k' k) as [->|]; [|tauto]. split; [congruence|discriminate]. }
    exists (AObj a th'), []. split; [constructor|]. split; [apply as_nil|].
    assert (ST : forall k', m k' <> None -> fupd m k (Some d) k' <> None).
    { intros k' X Y. apply X. now apply D'. }
    unfold krel. cbn. sp; auto.
    + eapply dom_trans; [apply dom_sym; exact D'|exact D].
    + intros u. destruct (N.eq_dec u t) as [->|X]; [rewrite fupd_eq|rewrite fupd_neq by exact X]; eapply queue_dom; eauto.
  - pose proof (L t) as Lt. rewrite H in Lt. destruct (th' t) as [|o'|r'] eqn:Y; try contradiction.
    exists (AObj a (fupd th' t AIdle)), [ERet t r']. split; [constructor; [split; auto|constructor]|]. split.
    + eapply as_vis; [now apply a_ret|apply as_nil].
    + unfold krel. cbn. sp; auto. apply like_upd; auto. exact I.
Qed.

Lemma asteps_join x tr y tr' z :
  asteps spec x tr y -> asteps spec y tr' z -> asteps spec x (tr ++ tr') z.
Proof. induction 1; cbn; intros; auto; [eapply as_tau|eapply as_vis]; eauto. Qed.

Theorem buffered_keys tr :
  (forall t o, In (EInv t o) tr -> no_erase o) -> buffered spec stores tr -> atomic_but_values spec tr.
Proof.
  intros NE [x ST].
  assert (R : krel bufobj_init (AObj amap_empty (fun _ => AIdle))).
  { unfold krel. cbn. sp; auto. apply dom_refl. }
  enough (G : exists y' tr', Forall2 same_event tr tr' /\ asteps spec (AObj amap_empty (fun _ => AIdle)) tr' y').
  { destruct G as (y' & tr' & F & A). exists tr'. split; auto. exists y'. exact A. }
  revert R NE. generalize (AObj amap_empty (fun _ : N => @AIdle mop mres)). revert ST. generalize bufobj_init.
  intros x0 ST. induction ST as [s|s s1 s2 tr S ST IH|s e s1 s2 tr S ST IH]; intros y R NE.
  - exists y, []. split; constructor.
  - assert (N0 : forall t o, (None : option (event mop mres)) = Some (EInv t o) -> no_erase o) by discriminate.
    destruct (keys_step _ _ _ _ R N0 S) as (y1 & t1 & F1 & A1 & R1).
    destruct (IH y1 R1 NE) as (y2 & t2 & F2 & A2). exists y2, (t1 ++ t2). split.
    + inversion F1; subst. exact F2.
    + eapply asteps_join; eauto.
  - assert (N1 : forall t o, Some e = Some (EInv t o) -> no_erase o).
    { intros t o [= ->]. apply (NE t). now left. }
    destruct (keys_step _ _ _ _ R N1 S) as (y1 & t1 & F1 & A1 & R1).
    destruct (IH y1 R1) as (y2 & t2 & F2 & A2). { intros t o H. apply (NE t). now right. }
    exists y2, (t1 ++ t2). split.
    + change (e :: tr) with ([e] ++ tr). now apply Forall2_app.
    + eapply asteps_join; eauto.
Qed.

(** *** Constants stored, and drained before the response *)

(** [o] is an update that puts and reports [d] whatever the value was. *)
Definition overwrites (o : mop) (d : N) : Prop :=
  forall m v, m (mop_key o) = Some v -> spec m o (fupd m (mop_key o) (Some d)) (RUpdated d).

Context (const : forall o m m' w v d, stores o -> spec m o m' (RUpdated w) -> m (mop_key o) = Some v ->
  m' (mop_key o) = Some d -> w = d /\ overwrites o d).

(** The calls behind a buffer that holds at most the store of the call itself. *)
Definition flike (m : amap) (q : list (N * N)) (x y : astat mop mres) : Prop :=
  (q = [] /\ x = y /\ (forall o, x = APend o -> no_erase o)) \/
  exists o d, q = [(mop_key o, d)] /\ x = ADone (RUpdated d) /\ y = APend o /\ overwrites o d /\
              m (mop_key o) <> None.

Definition frel (x : bufobj) (y : aobj amap mop mres) : Prop :=
  (forall k, ast y k = bo_map x k) /\
  forall u, flike (bo_map x) (bo_queue x u) (bo_call x u) (ath y u).

Lemma flike_keeps m m' q x y :
  (forall k, m k <> None -> m' k <> None) -> flike m q x y -> flike m' q x y.
Proof. intros K [H|(o & d & A & B & C & D & E)]; [left; exact H|right]. exists o, d. sp; auto. Qed.

Lemma fupd_ext (a m : amap) k v : (forall k, a k = m k) -> forall k', fupd a k v k' = fupd m k v k'.
Proof. intros H k'. unfold fupd. destruct (k' =? k); auto. Qed.

Lemma spec_ext m a o m' r :
  (forall k, a k = m k) -> spec m o m' r -> exists a', spec a o a' r /\ forall k, a' k = m' k.
Proof.
  intros E S. destruct S; try discriminate;
    try (match goal with H : m _ = _ |- _ => rewrite <- E in H end);
    try (match goal with H : m _ <> _ |- _ => rewrite <- E in H end);
    eexists; (split; [econstructor; eauto|auto using fupd_ext]).
Qed.

Lemma fenced_step x y l x' :
  frel x y -> (forall t o, l = Some (EInv t o) -> no_erase o) -> bufstep spec stores x l x' ->
  (forall t r, l = Some (ERet t r) -> bo_queue x t = []) ->
  exists y', asteps spec y (match l with Some e => [e] | None => [] end) y' /\ frel x' y'.
Proof.
  intros (E & L) NE ST FE. destruct y as [a th']. cbn in *. destruct ST; cbn in *.
  - destruct (L t) as [(Q & X & _)|(o' & d & Q & X & _)]; [|congruence]. rewrite H in X.
    eexists. split; [eapply as_vis; [apply a_inv; auto|apply as_nil]|]. split; [exact E|]. cbn.
    intros u. destruct (N.eq_dec u t) as [->|Y]; [rewrite !fupd_eq|rewrite !fupd_neq by exact Y; auto].
    left. sp; auto. intros o' [= <-]. eapply NE. reflexivity.
  - destruct (L t) as [(Q & X & N1)|(o' & d & Q & X & _)]; [|congruence]. rewrite H in X.
    destruct (spec_ext _ a _ _ _ (fun k => eq_trans (E k) (f_equal (fun q => see m q k) (eq_sym Q))) H0) as (a' & SP & E').
    eexists. split; [eapply as_tau; [eapply a_lin; eauto|apply as_nil]|]. split; cbn.
    + intros k. rewrite E', H1, Q. reflexivity.
    + intros u. destruct (N.eq_dec u t) as [->|Y]; [rewrite !fupd_eq|rewrite !fupd_neq by exact Y; auto].
      left. sp; auto. discriminate.
  - destruct (L t) as [(Q & X & N1)|(o' & d & Q & X & _)]; [|congruence]. rewrite H in X.
    destruct (spec_ext _ a _ _ _ E H1) as (a' & SP & E').
    eexists. split; [eapply as_tau; [eapply a_lin; eauto|apply as_nil]|]. split; cbn; auto.
    intros u. destruct (N.eq_dec u t) as [->|Y]; [rewrite !fupd_eq|rewrite !fupd_neq by exact Y].
    + left. sp; auto. discriminate.
    + eapply flike_keeps; [|apply L]. intros k. eapply spec_keeps; eauto.
  - destruct (L t) as [(Q & X & N1)|(o' & d' & Q & X & _)]; [|congruence]. rewrite H in X.
    rewrite Q in H1, H2. cbn in H1, H2. destruct (const _ _ _ _ _ _ H0 H1 H2 H3) as [-> OW].
    exists (AObj a th'). split; [apply as_nil|]. split; cbn; auto.
    intros u. destruct (N.eq_dec u t) as [->|Y]; [rewrite !fupd_eq|rewrite !fupd_neq by exact Y; auto].
    right. exists o, d. rewrite Q. sp; auto. congruence.
  - destruct (L t) as [(Q & _)|(o & d' & Q & X & Y & OW & P)]; [congruence|]. rewrite H in Q.
    injection Q as -> -> ->.
    destruct (m (mop_key o)) as [v|] eqn:V; [|congruence].
    exists (AObj (fupd a (mop_key o) (Some d')) (fupd th' t (ADone (RUpdated d')))). split.
    + eapply as_tau; [eapply a_lin; [exact Y|]|apply as_nil]. apply (OW a v). congruence.
    + split; cbn; [now apply fupd_ext|]. intros u. destruct (N.eq_dec u t) as [->|Z]; [rewrite !fupd_eq|rewrite !fupd_neq by exact Z].
      * left. sp; auto. intros o' X'. congruence.
      * eapply flike_keeps; [|apply L]. intros k K. unfold fupd. destruct (k =? mop_key o); [discriminate|exact K].
  - destruct (L t) as [(Q & X & N1)|(o' & d' & Q & X & _)].
    + rewrite H in X. eexists. split; [eapply as_vis; [apply a_ret; auto|apply as_nil]|]. split; [exact E|]. cbn.
      intros u. destruct (N.eq_dec u t) as [->|Y]; [rewrite !fupd_eq|rewrite !fupd_neq by exact Y; auto].
      left. sp; auto. discriminate.
    + rewrite (FE t r eq_refl) in Q. discriminate.
Qed.

(** A buffered map whose calls respond only once their own store is out. *)
Definition bufstep_fenced (x : bufobj) (l : option (event mop mres)) (x' : bufobj) : Prop :=
  bufstep spec stores x l x' /\ forall t r, l = Some (ERet t r) -> bo_queue x t = [].

Theorem fenced_atomic tr x :
  (forall t o, In (EInv t o) tr -> no_erase o) -> lts_steps bufstep_fenced bufobj_init tr x ->
  linearizable_trace spec amap_empty tr.
Proof.
  intros NE ST.
  assert (R : frel bufobj_init (AObj amap_empty (fun _ => AIdle))).
  { split; cbn; auto. intros u. left. sp; auto. discriminate. }
  unfold linearizable_trace.
  revert R NE. generalize (AObj amap_empty (fun _ : N => @AIdle mop mres)). revert ST. generalize bufobj_init.
  intros x0 ST. induction ST as [s|s s1 s2 tr S ST IH|s e s1 s2 tr S ST IH]; intros y R NE.
  - exists y. constructor.
  - assert (N0 : forall t o, (None : option (event mop mres)) = Some (EInv t o) -> no_erase o) by discriminate.
    destruct S as [S F]. destruct (fenced_step _ _ _ _ R N0 S F) as (y1 & A1 & R1).
    destruct (IH y1 R1 NE) as (y2 & A2). exists y2. change tr with ([] ++ tr). eapply asteps_join; eauto.
  - assert (N1 : forall t o, Some e = Some (EInv t o) -> no_erase o).
    { intros t o [= ->]. apply (NE t). now left. }
    destruct S as [S F]. destruct (fenced_step _ _ _ _ R N1 S F) as (y1 & A1 & R1).
    destruct (IH y1 R1) as (y2 & A2). { intros t o H. apply (NE t). now right. }
    exists y2. change (e :: tr) with ([e] ++ tr). eapply asteps_join; eauto.
Qed.

End F.
