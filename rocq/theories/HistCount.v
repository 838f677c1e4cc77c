(** No acknowledged counting call is lost. *)
From Coq Require Import NArith Bool List Lia.
From Verif Require Import Words MapSpec LinSpec HistSpec BaseInv Hist.
Import ListNotations.
Open Scope N_scope.

Fixpoint nsum (f : N -> N) (l : list N) : N :=
  match l with [] => 0 | t :: l' => f t + nsum f l' end.

Lemma nsum_ext f g l : (forall t, In t l -> f t = g t) -> nsum f l = nsum g l.
Proof.
  induction l as [|t l IH]; intros H; cbn; [reflexivity|].
  rewrite IH by (intros; apply H; now right). rewrite (H t) by now left. reflexivity.
Qed.

Lemma nsum_upd f g t l :
  NoDup l -> In t l -> (forall u, u <> t -> f u = g u) -> nsum f l + g t = nsum g l + f t.
Proof.
  intros ND. induction ND as [|u l NI ND IH]; intros I E; [contradiction|].
  cbn. destruct (N.eq_dec u t) as [->|NE].
  - rewrite (nsum_ext f g l); [lia|]. intros v Hv. apply E. intros ->. contradiction.
  - destruct I as [->|I]; [congruence|]. rewrite (E u NE). specialize (IH I E). lia.
Qed.

Lemma nsum_zero f l : (forall t, In t l -> f t = 0) -> nsum f l = 0.
Proof. induction l as [|t l IH]; cbn; intros H; auto. rewrite IH, (H t); auto. Qed.

Section Count.
Context (q : mop -> Prop) (inv full : bool) (k : N) (l : list N) (ND : NoDup l) (QK : forall o, q o -> mop_key o <> k).
Notation spec := (lossy q (mspec inv full)).
Notation steps := (asteps spec).

Definition value (m : amap) : N := match m k with Some v => v | None => 0 end.

Definition credit (o : mop) (r : mres) : N :=
  if (mop_key o =? k) && acknowledged r then amount o else 0.

Definition inflight (p : N -> option mop) (x : aobj amap mop mres) (t : N) : N :=
  match ath x t, p t with ADone r, Some o => credit o r | _, _ => 0 end.

Record cinv (p : N -> option mop) (acc : N) (x : aobj amap mop mres) : Prop := {
  ci_agree : thr_agree p x;
  ci_count : forall t o, p t = Some o -> counting k o;
  ci_dom : forall t o, p t = Some o -> In t l;
  ci_val : value (ast x) = acc + nsum (inflight p x) l
}.

Lemma spec_credit m o m' r :
  spec m o m' r -> counting k o -> value m' = value m + credit o r.
Proof.
  intros [S|(QQ & -> & _)] C.
  2: { unfold credit. destruct (N.eqb_spec (mop_key o) k) as [E|]; [now elim (QK o)|]. cbn. lia. }
  unfold value, credit, fupd. inversion S; subst; cbn [mop_key acknowledged amount counting] in *;
    rewrite ?andb_false_r, ?andb_true_r; cbv iota; try lia;
    unfold fupd;
    match goal with
    | |- context [k =? ?k0] =>
        destruct (N.eqb_spec k k0), (N.eqb_spec k0 k); subst; try congruence; try lia
    | |- context [?k0 =? k] =>
        destruct (N.eqb_spec k0 k); subst; try congruence; try lia
    end;
    try match goal with H : ?m _ = _ |- context [?m _] => rewrite H end;
    try (destruct C as [C1 C2]; [reflexivity|]); cbn;
    try match goal with H : forall v, _ = v + _ |- _ => rewrite (H v); lia end;
    try (rewrite C by reflexivity); try lia.
Qed.

Lemma cinv_tau p acc x y : cinv p acc x -> astep spec x None y -> cinv p acc y.
Proof.
  intros I S. pose proof (agree_step _ _ _ _ _ _ _ (ci_agree _ _ _ I) S) as AG. cbn in AG.
  inversion S as [|s th t o s' r E SP|]; subst.
  pose proof (ci_agree _ _ _ I t) as At. cbn in At. rewrite E in At.
  split; auto; try apply I. cbn.
  rewrite (spec_credit _ _ _ _ SP (ci_count _ _ _ I t o At)).
  pose proof (ci_val _ _ _ I) as V. cbn in V. rewrite V.
  pose proof (nsum_upd (inflight p (AObj s th)) (inflight p (AObj s' (fupd th t (ADone r)))) t l
                ND (ci_dom _ _ _ I t o At)) as U.
  assert (Q : inflight p (AObj s th) t = 0) by (unfold inflight; cbn; rewrite E; reflexivity).
  assert (Q' : inflight p (AObj s' (fupd th t (ADone r))) t = credit o r)
    by (unfold inflight; cbn; rewrite fupd_eq, At; reflexivity).
  rewrite Q, Q' in U. rewrite <- N.add_assoc. f_equal. rewrite U; [lia|].
  intros u NE. unfold inflight. cbn. rewrite fupd_neq by exact NE. reflexivity.
Qed.

Lemma cinv_vis p acc x e y :
  cinv p acc x -> astep spec x (Some e) y ->
  (forall t o, e = EInv t o -> counting k o /\ In t l) ->
  cinv (pend1 p e)
    (acc + match e with
           | ERet t r => match p t with Some o => credit o r | None => 0 end
           | EInv _ _ => 0 end) y.
Proof.
  intros I S C. pose proof (agree_step _ _ _ _ _ _ _ (ci_agree _ _ _ I) S) as AG. cbn in AG.
  inversion S as [s th t o E| |s th t r E]; subst.
  - destruct (C t o eq_refl) as [C1 C2]. split; auto.
    + intros u o'. cbn. unfold fupd. destruct (N.eqb_spec u t); [intros [= <-]; auto|apply I].
    + intros u o'. cbn. unfold fupd. destruct (N.eqb_spec u t); [intros [= <-]; subst; auto|apply I].
    + cbn. pose proof (ci_val _ _ _ I) as V. cbn in V. rewrite V, N.add_0_r. f_equal.
      apply nsum_ext. intros u _. unfold inflight; cbn. unfold fupd.
      destruct (N.eqb_spec u t) as [->|]; auto. rewrite E. reflexivity.
  - pose proof (ci_agree _ _ _ I t) as At. cbn in At. rewrite E in At. destruct At as [o At].
    split; auto.
    + intros u o'. cbn. unfold fupd. destruct (N.eqb_spec u t); [discriminate|apply I].
    + intros u o'. cbn. unfold fupd. destruct (N.eqb_spec u t); [discriminate|apply I].
    + cbn. rewrite At. pose proof (ci_val _ _ _ I) as V. cbn in V. rewrite V.
      pose proof (nsum_upd (inflight p (AObj s th))
                    (inflight (fupd p t None) (AObj s (fupd th t AIdle))) t l
                    ND (ci_dom _ _ _ I t o At)) as U.
      assert (Q : inflight p (AObj s th) t = credit o r) by (unfold inflight; cbn; rewrite E, At; reflexivity).
      assert (Q' : inflight (fupd p t None) (AObj s (fupd th t AIdle)) t = 0)
        by (unfold inflight; cbn; rewrite fupd_eq; reflexivity).
      rewrite Q, Q' in U. assert (forall u, u <> t ->
        inflight p (AObj s th) u = inflight (fupd p t None) (AObj s (fupd th t AIdle)) u) as X.
      { intros u NE. unfold inflight. cbn. rewrite !fupd_neq by exact NE. reflexivity. }
      specialize (U X). lia.
Qed.

Lemma cinv_steps p acc x tr y :
  cinv p acc x -> steps x tr y ->
  (forall t o, In (EInv t o) tr -> counting k o /\ In t l) ->
  cinv (fold_left pend1 tr p) (acc + acked_from k p tr) y.
Proof.
  intros I S. revert p acc I. induction S as [a|a b c tr S1 S IH|a e b c tr S1 S IH]; intros p acc I C.
  - cbn. now rewrite N.add_0_r.
  - apply IH; auto. eapply cinv_tau; eauto.
  - cbn [fold_left acked_from]. rewrite N.add_assoc. apply IH.
    + eapply cinv_vis in S1; eauto. intros t o ->. apply C. now left.
    + intros t o H. apply C. now right.
Qed.

(** Nothing but lookups of [k] is in progress. *)
Definition quiet (x : aobj amap mop mres) : Prop :=
  forall t o, ath x t = APend o -> mop_key o = k -> o = MFind k.

Lemma quiet_val m o m' r : spec m o m' r -> (mop_key o = k -> o = MFind k) -> m' k = m k.
Proof.
  intros [S|(_ & -> & _)] Q; [|reflexivity]. inversion S; subst; auto; cbn in Q; apply fupd_neq; intros E;
    symmetry in E; specialize (Q E); discriminate.
Qed.

Lemma find_quiet x t tr r y w :
  steps x ([EInv t (MFind k)] ++ tr ++ [ERet t r]) y -> quiet x -> ast x k = w ->
  (forall u o, In (EInv u o) tr -> mop_key o = k -> o = MFind k) ->
  (forall e, In e tr -> ev_tid e <> t) ->
  (exists v, w = Some v /\ r = RFound v) \/ (w = None /\ r = RAbsent).
Proof.
  intros S Q W NI NT.
  apply steps_app_inv in S as (x1 & S1 & S). apply steps_app_inv in S as (x2 & S2 & S3).
  pose (P := fun x : aobj amap mop mres => quiet x /\ ast x k = w).
  assert (Ps : forall x l y, P x -> (forall e, l = Some e -> forall u o, e = EInv u o -> mop_key o = k -> o = MFind k) ->
       astep spec x l y -> P y).
  { intros a l' b [Qa Wa] Hl Sl. destruct Sl as [s th u o E|s th u o s' r' E SP|s th u r' E]; cbn in *; split; cbn; auto.
    - intros v o' H K. cbn in H. unfold fupd in H. destruct (N.eqb_spec v u); [injection H as <-; eapply Hl; eauto|eapply Qa; eauto].
    - intros v o' H K. cbn in H. unfold fupd in H. destruct (N.eqb_spec v u); [discriminate|eapply Qa; eauto].
    - rewrite (quiet_val _ _ _ _ SP); auto. intros K. eapply Qa; eauto.
    - intros v o' H K. cbn in H. unfold fupd in H. destruct (N.eqb_spec v u); [discriminate|eapply Qa; eauto]. }
  pose (R := fun x : aobj amap mop mres => P x /\
     (ath x t = APend (MFind k) \/
      exists r', ath x t = ADone r' /\ ((exists v, w = Some v /\ r' = RFound v) \/ (w = None /\ r' = RAbsent)))).
  pose (QR := fun e : ev => ev_tid e <> t /\ forall u o, e = EInv u o -> mop_key o = k -> o = MFind k).
  assert (Rs : forall x l y, R x -> (forall e, l = Some e -> QR e) -> astep spec x l y -> R y).
  { intros a l' b [Pa Ta] Hl Sl. split; [eapply Ps; eauto; intros e He; apply Hl; auto|].
    destruct Pa as [Qa Wa].
    destruct Sl as [s th u o E|s th u o s' r' E SP|s th u r' E]; cbn in *.
    - destruct (Hl _ eq_refl) as [Tu _]. cbn in Tu. rewrite fupd_neq; auto.
    - unfold fupd. destruct (N.eqb_spec t u) as [<-|]; auto.
      destruct Ta as [Ta|(r2 & Ta & _)]; [|congruence]. rewrite Ta in E. injection E as <-.
      right. exists r'. split; auto. destruct SP as [SP|(QQ & _)]; [|now elim (QK _ QQ)]. inversion SP; subst.
      + left. exists v. split; [congruence|reflexivity].
      + right. split; [congruence|reflexivity].
      + exfalso. match goal with H : forall k, _ <> _ |- _ => eapply H; reflexivity end.
    - destruct (Hl _ eq_refl) as [Tu _]. cbn in Tu. rewrite fupd_neq; auto. }
  assert (TAU : forall a b, R a -> steps a [] b -> R b).
  { intros a b Ra Sa. refine (steps_inv _ _ _ R QR _ _ _ Rs _ Sa Ra). intros e []. }
  assert (R1 : R x1).
  { destruct (steps_one _ _ _ _ _ _ S1) as (y1 & y2 & Sy & Se & Sy').
    apply (TAU y2); auto.
    assert (P y1) as Py.
    { refine (steps_inv _ _ _ P QR _ _ _ _ _ Sy (conj Q W)).
      - intros a l' b Pa Hl. apply Ps; auto. intros e He. apply Hl; auto.
      - intros e []. }
    split.
    - refine (Ps _ _ _ Py _ Se). intros e [= <-] u o [= <- <-]. auto.
    - inversion Se; subst. cbn. left. apply fupd_eq. }
  assert (R2 : R x2).
  { refine (steps_inv _ _ _ R QR _ _ _ Rs _ S2 R1). intros e He. split; auto. intros u o ->. eapply NI; eauto. }
  destruct (steps_one _ _ _ _ _ _ S3) as (y1 & y2 & Sy & Se & Sy').
  pose proof (TAU _ _ R2 Sy) as [_ Ty].
  inversion Se as [| |s th u r' E]; subst. cbn in *. rewrite E in Ty.
  destruct Ty as [Ty|(r2 & Ty & X)]; [discriminate|]. injection Ty as <-. exact X.
Qed.

End Count.

Lemma count_exact_lossy (q : mop -> Prop) inv full k tr1 t tr2 r :
  (forall o, q o -> mop_key o <> k) ->
  linearizable_trace (lossy q (mspec inv full)) amap_empty
    (tr1 ++ [EInv t (MFind k)] ++ tr2 ++ [ERet t r]) ->
  (forall o, invoked tr1 o -> counting k o) ->
  (forall u o, pending tr1 u = Some o -> mop_key o = k -> o = MFind k) ->
  (forall o, invoked tr2 o -> mop_key o = k -> o = MFind k) ->
  (forall e, In e tr2 -> ev_tid e <> t) ->
  r = RFound (acked k tr1) \/ (r = RAbsent /\ acked k tr1 = 0).
Proof.
  intros QK [x S] C QP QI NT. apply steps_app_inv in S as (x1 & S1 & S2).
  set (l := nodup N.eq_dec (map ev_tid tr1)).
  assert (I0 : cinv k l (fun _ => None) 0 (AObj amap_empty (fun _ => AIdle))).
  { split; try discriminate.
    - intros u. reflexivity.
    - cbn. symmetry. apply nsum_zero. reflexivity. }
  assert (I1 : cinv k l (pending tr1) (0 + acked k tr1) x1).
  { eapply cinv_steps; eauto. apply NoDup_nodup.
    intros u o H. split; [apply C; exists u; exact H|].
    apply nodup_In. apply in_map_iff. exists (EInv u o). auto. }
  destruct (find_quiet q inv full k QK x1 t tr2 r x (ast x1 k) S2) as [(v & E & ->)|[E ->]]; auto.
  - intros u o E K. pose proof (ci_agree _ _ _ _ _ I1 u) as A. rewrite E in A. eapply QP; eauto.
  - intros u o H. apply QI. exists u. exact H.
  - left. pose proof (ci_val _ _ _ _ _ I1) as V. unfold value in V. rewrite E in V.
    rewrite nsum_zero in V; [|]. { f_equal. lia. }
    intros u _. unfold inflight. pose proof (ci_agree _ _ _ _ _ I1 u) as A.
    destruct (ath x1 u) eqn:Eu; auto. destruct A as [o A]. rewrite A.
    unfold credit. destruct (N.eqb_spec (mop_key o) k) as [K|]; auto.
    rewrite (QP u o A K). cbn. now destruct (acknowledged r).
  - right. split; auto. pose proof (ci_val _ _ _ _ _ I1) as V. unfold value in V. rewrite E in V. lia.
Qed.

Lemma count_exact inv full k tr1 t tr2 r :
  linearizable_trace (mspec inv full) amap_empty
    (tr1 ++ [EInv t (MFind k)] ++ tr2 ++ [ERet t r]) ->
  (forall o, invoked tr1 o -> counting k o) ->
  (forall u o, pending tr1 u = Some o -> mop_key o = k -> o = MFind k) ->
  (forall o, invoked tr2 o -> mop_key o = k -> o = MFind k) ->
  (forall e, In e tr2 -> ev_tid e <> t) ->
  r = RFound (acked k tr1) \/ (r = RAbsent /\ acked k tr1 = 0).
Proof. intros L. apply (count_exact_lossy (fun _ => False) inv full k tr1 t tr2 r); [contradiction|]. now apply lin_lossy. Qed.
