(** Consequences of linearizability for histories. *)
From Coq Require Import NArith Bool List Lia.
From Verif Require Import Words MapSpec LinSpec HistSpec BaseInv.
Import ListNotations.
Open Scope N_scope.

(** A map whose calls in [q] may report an update without any effect. *)
Definition lossy (q : mop -> Prop) (spec : amap -> mop -> amap -> mres -> Prop) (m : amap) (o : mop) (m' : amap) (r : mres) : Prop :=
  spec m o m' r \/ (q o /\ m' = m /\ exists v, r = RUpdated v).

Section Hist.
Context (q : mop -> Prop) (inv full : bool).
Notation spec := (lossy q (mspec inv full)).
Notation steps := (asteps spec).

(** Threads of the atomic object agree with the history. *)
Definition thr_agree (p : N -> option mop) (x : aobj amap mop mres) : Prop :=
  forall t, match ath x t with
            | AIdle => p t = None
            | APend o => p t = Some o
            | ADone _ => exists o, p t = Some o
            end.

Lemma agree_step p x l y :
  thr_agree p x -> astep spec x l y ->
  thr_agree (match l with Some e => pend1 p e | None => p end) y.
Proof.
  intros A S. destruct S as [s th t o E|s th t o s' r E SP|s th t r E]; cbn in *; intros u;
    specialize (A u); cbn in *; unfold fupd; destruct (N.eqb_spec u t) as [->|]; cbn; auto.
  rewrite E in A. eauto.
Qed.

Lemma steps_app_inv x tr1 tr2 z :
  steps x (tr1 ++ tr2) z -> exists y, steps x tr1 y /\ steps y tr2 z.
Proof.
  intros S. remember (tr1 ++ tr2) as tr eqn:E. revert tr1 E.
  induction S as [a|a b c tr S1 S IH|a e b c tr S1 S IH]; intros tr1 E.
  - symmetry in E. apply app_eq_nil in E as [-> ->]. exists a; split; constructor.
  - destruct (IH tr1 E) as (y & Y1 & Y2). exists y. split; auto. eapply as_tau; eauto.
  - destruct tr1 as [|e1 tr1]; cbn in E.
    + exists a. split; [constructor|]. subst tr2. eapply as_vis; eauto.
    + injection E as <- ->. destruct (IH tr1 eq_refl) as (y & Y1 & Y2).
      exists y. split; auto. eapply as_vis; eauto.
Qed.

(** Invariants of the atomic object over a history. *)
Lemma steps_inv (P : aobj amap mop mres -> Prop) (Q : ev -> Prop) x tr y :
  (forall x l y, P x -> (forall e, l = Some e -> Q e) -> astep spec x l y -> P y) ->
  (forall e, In e tr -> Q e) -> steps x tr y -> P x -> P y.
Proof.
  intros H HQ S. induction S as [a|a b c tr S1 S IH|a e b c tr S1 S IH]; intros PX; auto.
  - apply IH; auto. eapply H; eauto. discriminate.
  - apply IH; [intros; apply HQ; now right|]. eapply H; eauto.
    intros e' [= <-]. apply HQ. now left.
Qed.

Lemma agree_steps p x tr y :
  thr_agree p x -> steps x tr y -> thr_agree (fold_left pend1 tr p) y.
Proof.
  intros A S. revert p A. induction S as [a|a b c tr S1 S IH|a e b c tr S1 S IH]; intros p A; cbn; auto.
  - apply IH. exact (agree_step _ _ _ _ A S1).
  - apply IH. exact (agree_step _ _ _ _ A S1).
Qed.

(** One event: the atomic object before and after it. *)
Lemma steps_one x e z :
  steps x [e] z -> exists y y', steps x [] y /\ astep spec y (Some e) y' /\ steps y' [] z.
Proof.
  intros S. remember [e] as tr eqn:E. induction S as [a|a b c tr S1 S IH|a e' b c tr S1 S IH].
  - discriminate.
  - destruct (IH E) as (y & y' & A & B & C). exists y, y'. split; auto. eapply as_tau; eauto.
  - injection E as -> ->. exists a, b. split; [constructor|]. auto.
Qed.

Section Persist.
Context (k d : N) (bad : mop -> Prop) (good : option N -> Prop).
Context (G1 : good (Some d)).
Context (G2 : forall m o m' r, mspec inv full m o m' r -> ~ bad o -> good (m k) -> good (m' k)).

Context (o1 : mop) (G3 : ~ bad o1).

Definition no_bad (x : aobj amap mop mres) : Prop := forall t o, ath x t = APend o -> ~ bad o.

Lemma no_bad_step x l y :
  no_bad x -> (forall e, l = Some e -> forall t o, e = EInv t o -> ~ bad o) ->
  astep spec x l y -> no_bad y.
Proof.
  intros N Q S. destruct S as [s th t o E|s th t o s' r E SP|s th t r E]; intros u o' H; cbn in *;
    unfold fupd in H; destruct (N.eqb_spec u t) as [->|]; try discriminate; try (eapply N; eauto; fail).
  injection H as <-. eapply Q; eauto.
Qed.

Lemma good_step x l y :
  no_bad x -> good (ast x k) -> astep spec x l y -> good (ast y k).
Proof.
  intros N G S. destruct S as [s th t o E|s th t o s' r E SP|s th t r E]; cbn in *; auto.
  destruct SP as [SP|(_ & -> & _)]; [eapply G2; eauto|exact G].
Qed.

Lemma persist tr1 t o0 tr2 tr3 t' tr4 r x :
  inserts k d o0 ->
  steps (AObj amap_empty (fun _ => AIdle))
    (tr1 ++ [EInv t o0] ++ tr2 ++ [ERet t RInserted] ++ tr3 ++ [EInv t' o1] ++ tr4 ++ [ERet t' r]) x ->
  ~ bad o0 ->
  (forall u o, pending tr1 u = Some o -> ~ bad o) ->
  (forall o, invoked (tr2 ++ tr3 ++ tr4) o -> ~ bad o) ->
  (forall e, In e tr2 -> ev_tid e <> t) ->
  (forall e, In e tr4 -> ev_tid e <> t') ->
  exists m m', spec m o1 m' r /\ good (m k).
Proof.
  intros INS S NB0 NP NI T2 T4.
  apply steps_app_inv in S as (x1 & S1 & S).
  apply steps_app_inv in S as (x2 & S2 & S).
  apply steps_app_inv in S as (x3 & S3 & S).
  apply steps_app_inv in S as (x4 & S4 & S).
  apply steps_app_inv in S as (x5 & S5 & S).
  apply steps_app_inv in S as (x6 & S6 & S).
  apply steps_app_inv in S as (x7 & S7 & S8).
  assert (AG0 : thr_agree (fun _ => None) (AObj amap_empty (fun _ => @AIdle mop mres))) by (intros u; reflexivity).
  pose proof (agree_steps _ _ _ _ AG0 S1) as AG1. change (fold_left pend1 tr1 (fun _ => None)) with (pending tr1) in AG1.
  assert (NB1 : no_bad x1).
  { intros u o E. specialize (AG1 u). rewrite E in AG1. eapply NP; eauto. }
  assert (NBs : forall x tr y, no_bad x -> (forall u o, In (EInv u o) tr -> ~ bad o) -> steps x tr y -> no_bad y).
  { intros xx tr yy N Q SS. eapply (steps_inv no_bad (fun e => forall t o, e = EInv t o -> ~ bad o)); eauto.
    - intros a l b Na Ql Sl. eapply no_bad_step; eauto.
    - intros e He u o ->. eapply Q; eauto. }
  assert (NB2 : no_bad x2).
  { eapply NBs; eauto. intros u o [[= <- <-]|[]]. exact NB0. }
  (* after the invocation of the insert *)
  pose (P2 := fun x : aobj amap mop mres => no_bad x /\
     (ath x t = APend o0 \/ (ath x t = ADone RInserted /\ good (ast x k)) \/
      (exists r', ath x t = ADone r' /\ r' <> RInserted))).
  assert (P2s : forall x l y, P2 x -> (forall e, l = Some e -> ev_tid e <> t /\ forall u o, e = EInv u o -> ~ bad o) ->
            astep spec x l y -> P2 y).
  { intros a l b [Na Pa] Ql Sl. split.
    - eapply no_bad_step; eauto. intros e He. apply Ql; auto.
    - destruct Pa as [Pa|[(Pa & Ga)|(r' & Pa & Nr)]].
      + destruct Sl as [s th u o E|s th u o s' r' E SP|s th u r' E]; cbn in *.
        * destruct (Ql _ eq_refl) as [Tu _]. cbn in Tu. rewrite fupd_neq; auto.
        * unfold fupd. destruct (N.eqb_spec t u) as [<-|]; auto.
          rewrite Pa in E. injection E as <-.
          destruct (match r' with RInserted => true | _ => false end) eqn:Er.
          -- destruct r'; try discriminate. right; left. split; auto.
             destruct SP as [SP|(_ & _ & v & SP)]; [|discriminate].
             inversion SP; subst; cbn in INS; try contradiction; destruct INS as [-> ->];
               rewrite fupd_eq; exact G1.
          -- right; right. exists r'. split; auto. intros ->; discriminate.
        * destruct (Ql _ eq_refl) as [Tu _]. cbn in Tu. rewrite fupd_neq; auto.
      + right; left. split.
        * destruct Sl as [s th u o E|s th u o s' r' E SP|s th u r' E]; cbn in *;
            try (destruct (Ql _ eq_refl) as [Tu _]; cbn in Tu; rewrite fupd_neq; auto; fail).
          rewrite fupd_neq; auto. congruence.
        * eapply good_step; eauto.
      + right; right. exists r'. split; auto.
        destruct Sl as [s th u o E|s th u o s' r2 E SP|s th u r2 E]; cbn in *;
          try (destruct (Ql _ eq_refl) as [Tu _]; cbn in Tu; rewrite fupd_neq; auto; fail).
        rewrite fupd_neq; auto. congruence. }
  assert (TAU2 : forall x y, P2 x -> steps x [] y -> P2 y).
  { intros a b Pa Sa. eapply (steps_inv P2 (fun _ => False)); eauto.
    - intros a' l b' Pa' Ql Sl. eapply P2s; eauto. intros e ->. destruct (Ql e eq_refl).
    - intros e []. }
  assert (H2 : P2 x2).
  { destruct (steps_one _ _ _ S2) as (y & y' & Sy & Se & Sy').
    apply (TAU2 y'); auto. split.
    - refine (no_bad_step _ _ _ _ _ Se); [|intros e [= <-] u o [= <- <-]; exact NB0].
      eapply (NBs x1 [] y); eauto.
    - inversion Se; subst. cbn. left. apply fupd_eq. }
  assert (H3 : P2 x3).
  { eapply (steps_inv P2 (fun e => ev_tid e <> t /\ forall u o, e = EInv u o -> ~ bad o)); eauto. intros e He. split; auto. intros u o ->. apply NI.
    exists u. apply in_or_app. now left. }
  (* after its response *)
  pose (P4 := fun x : aobj amap mop mres => no_bad x /\ good (ast x k)).
  assert (P4s : forall x l y, P4 x -> (forall e, l = Some e -> forall u o, e = EInv u o -> ~ bad o) ->
            astep spec x l y -> P4 y).
  { intros a l b [Na Ga] Ql Sl. split; [eapply no_bad_step; eauto|eapply good_step; eauto]. }
  assert (P4ss : forall x tr y, P4 x -> (forall u o, In (EInv u o) tr -> ~ bad o) -> steps x tr y -> P4 y).
  { intros a tr b Pa Qa Sa. eapply (steps_inv P4 (fun e => forall u o, e = EInv u o -> ~ bad o)); eauto. intros e He u o ->. eapply Qa; eauto. }
  assert (H4 : P4 x4).
  { destruct (steps_one _ _ _ S4) as (y & y' & Sy & Se & Sy').
    refine (P4ss _ _ _ _ _ Sy'); [|intros u o []].
    pose proof (TAU2 _ _ H3 Sy) as [Ny Py]. inversion Se as [| |s th u r' E]; subst. cbn in *.
    rewrite E in Py. destruct Py as [Py|[(_ & Gy)|(r' & Py & Nr)]]; try congruence.
    split; [|exact Gy]. refine (no_bad_step _ _ _ Ny _ Se). intros e [= <-] u1 o2 H; discriminate. }
  assert (H5 : P4 x5).
  { refine (P4ss _ _ _ H4 _ S5). intros u o Hi. apply NI. exists u. rewrite !in_app_iff. auto. }
  (* the find *)
  pose (P6 := fun x : aobj amap mop mres => P4 x /\
     (ath x t' = APend o1 \/
      exists r', ath x t' = ADone r' /\ exists m m', spec m o1 m' r' /\ good (m k))).
  assert (P6s : forall x l y, P6 x ->
     (forall e, l = Some e -> ev_tid e <> t' /\ forall u o, e = EInv u o -> ~ bad o) ->
     astep spec x l y -> P6 y).
  { intros a l b [Pa Ta] Ql Sl. split.
    - eapply P4s; eauto. intros e He. apply Ql; auto.
    - destruct Pa as [Na Ga].
      destruct Sl as [s th u o E|s th u o s' r' E SP|s th u r' E]; cbn in *.
      + destruct (Ql _ eq_refl) as [Tu _]. cbn in Tu. rewrite fupd_neq; auto.
      + unfold fupd. destruct (N.eqb_spec t' u) as [<-|]; auto.
        destruct Ta as [Ta|(r2 & Ta & _)]; [|congruence]. rewrite Ta in E. injection E as <-.
        right. exists r'. split; eauto.
      + destruct (Ql _ eq_refl) as [Tu _]. cbn in Tu. rewrite fupd_neq; auto. }
  assert (P6ss : forall x tr y, P6 x -> (forall e, In e tr -> ev_tid e <> t' /\ forall u o, e = EInv u o -> ~ bad o) ->
     steps x tr y -> P6 y).
  { intros a tr b Pa Qa Sa. eapply (steps_inv P6 (fun e => ev_tid e <> t' /\ forall u o, e = EInv u o -> ~ bad o)); eauto. }
  assert (H6 : P6 x6).
  { destruct (steps_one _ _ _ S6) as (y & y' & Sy & Se & Sy').
    refine (P6ss _ _ _ _ _ Sy'); [|intros e []].
    assert (P4 y) as Hy by (refine (P4ss _ _ _ H5 _ Sy); intros u o []).
    split.
    - refine (P4s _ _ _ Hy _ Se). intros e [= <-] u o [= <- <-]. exact G3.
    - inversion Se; subst. cbn. left. apply fupd_eq. }
  assert (H7 : P6 x7).
  { refine (P6ss _ _ _ H6 _ S7). intros e He. split; auto. intros u o ->. apply NI. exists u.
    rewrite !in_app_iff. auto. }
  destruct (steps_one _ _ _ S8) as (y & y' & Sy & Se & Sy').
  assert (P6 y) as [_ Ty] by (refine (P6ss _ _ _ H7 _ Sy); intros e []).
  inversion Se as [| |s th u r' E]; subst. cbn in *. rewrite E in Ty.
  destruct Ty as [Ty|(r2 & Ty & R)]; [discriminate|]. injection Ty as <-. exact R.
Qed.
End Persist.

Context (QF : forall k, ~ q (MFind k)).

(** An inserted key stays present unless somebody erases it. *)
Lemma inserted_stays_lossy k d tr1 t o0 tr2 tr3 t' tr4 r :
  linearizable_trace spec amap_empty
    (tr1 ++ [EInv t o0] ++ tr2 ++ [ERet t RInserted] ++ tr3 ++ [EInv t' (MFind k)] ++ tr4 ++ [ERet t' r]) ->
  inserts k d o0 ->
  (forall u o, pending tr1 u = Some o -> ~ erases k o) ->
  (forall o, invoked (tr2 ++ tr3 ++ tr4) o -> ~ erases k o) ->
  (forall e, In e tr2 -> ev_tid e <> t) ->
  (forall e, In e tr4 -> ev_tid e <> t') ->
  exists v, r = RFound v.
Proof.
  intros [x S] INS NP NI T2 T4.
  assert (H : exists m m', spec m (MFind k) m' r /\ m k <> None).
  { eapply (persist k d (erases k) (fun x => x <> None)); eauto.
    - discriminate.
    - intros m o m' r' SP NB G. inversion SP; subst; cbn in NB; auto;
        unfold fupd; destruct (N.eqb_spec k k0); auto; try discriminate; now elim NB.
    - destruct o0; cbn in *; auto. }
  destruct H as (m & m' & [SP|(QQ & _)] & NE); [|now elim (QF k)]. inversion SP; subst; [eauto|congruence|]. exfalso. eapply H0; reflexivity.
Qed.

(** ... so nobody else inserts it. *)
Lemma inserted_once_lossy k d d' tr1 t o0 tr2 tr3 t' o1 tr4 r :
  linearizable_trace spec amap_empty
    (tr1 ++ [EInv t o0] ++ tr2 ++ [ERet t RInserted] ++ tr3 ++ [EInv t' o1] ++ tr4 ++ [ERet t' r]) ->
  inserts k d o0 -> inserts k d' o1 ->
  (forall u o, pending tr1 u = Some o -> ~ erases k o) ->
  (forall o, invoked (tr2 ++ tr3 ++ tr4) o -> ~ erases k o) ->
  (forall e, In e tr2 -> ev_tid e <> t) ->
  (forall e, In e tr4 -> ev_tid e <> t') ->
  r <> RInserted.
Proof.
  intros [x S] INS INS' NP NI T2 T4.
  assert (H : exists m m', spec m o1 m' r /\ m k <> None).
  { eapply (persist k d (erases k) (fun x => x <> None)); eauto.
    - discriminate.
    - intros m o m' r' SP NB G. inversion SP; subst; cbn in NB; auto;
        unfold fupd; destruct (N.eqb_spec k k0); auto; try discriminate; now elim NB.
    - destruct o1; cbn in *; auto.
    - destruct o0; cbn in *; auto. }
  destruct H as (m & m' & [SP|(_ & _ & v & ->)] & NE); [|discriminate]. intros ->. inversion SP; subst; cbn in INS'; try contradiction;
    destruct INS' as [-> _]; congruence.
Qed.

(** ... with its value unless somebody updates it. *)
Lemma inserted_value_stays_lossy k d tr1 t o0 tr2 tr3 t' tr4 r :
  linearizable_trace spec amap_empty
    (tr1 ++ [EInv t o0] ++ tr2 ++ [ERet t RInserted] ++ tr3 ++ [EInv t' (MFind k)] ++ tr4 ++ [ERet t' r]) ->
  o0 = MInsert k d ->
  (forall u o, pending tr1 u = Some o -> ~ (erases k o \/ updates k o)) ->
  (forall o, invoked (tr2 ++ tr3 ++ tr4) o -> ~ (erases k o \/ updates k o)) ->
  (forall e, In e tr2 -> ev_tid e <> t) ->
  (forall e, In e tr4 -> ev_tid e <> t') ->
  r = RFound d.
Proof.
  intros [x S] -> NP NI T2 T4.
  assert (H : exists m m', spec m (MFind k) m' r /\ m k = Some d).
  { eapply (persist k d (fun o => erases k o \/ updates k o) (fun x => x = Some d)); eauto.
    - intros m o m' r' SP NB G. inversion SP; subst; cbn in NB; auto;
        unfold fupd; destruct (N.eqb_spec k k0) as [<-|]; auto; try (now elim NB; auto).
      congruence.
    - cbn. tauto.
    - cbn. auto.
    - cbn. tauto. }
  destruct H as (m & m' & [SP|(QQ & _)] & E); [|now elim (QF k)]. inversion SP; subst; [congruence|congruence|]. exfalso. eapply H0; reflexivity.
Qed.
End Hist.

Lemma lin_lossy q (spec : amap -> mop -> amap -> mres -> Prop) tr :
  linearizable_trace spec amap_empty tr -> linearizable_trace (lossy q spec) amap_empty tr.
Proof.
  intros [x S]. exists x. induction S as [a|a b c tr S1 S IH|a e b c tr S1 S IH]; [constructor|eapply as_tau|eapply as_vis]; eauto.
  - inversion S1; subst. econstructor; eauto. now left.
  - inversion S1; subst; constructor; auto.
Qed.

Section Plain.
Context (inv full : bool).
Notation spec := (mspec inv full).

Lemma inserted_stays k d tr1 t o0 tr2 tr3 t' tr4 r :
  linearizable_trace spec amap_empty
    (tr1 ++ [EInv t o0] ++ tr2 ++ [ERet t RInserted] ++ tr3 ++ [EInv t' (MFind k)] ++ tr4 ++ [ERet t' r]) ->
  inserts k d o0 ->
  (forall u o, pending tr1 u = Some o -> ~ erases k o) ->
  (forall o, invoked (tr2 ++ tr3 ++ tr4) o -> ~ erases k o) ->
  (forall e, In e tr2 -> ev_tid e <> t) ->
  (forall e, In e tr4 -> ev_tid e <> t') ->
  exists v, r = RFound v.
Proof. intros L. now apply (inserted_stays_lossy (fun _ => False) inv full (fun _ H => H) k d tr1 t o0 tr2 tr3 t' tr4 r), lin_lossy. Qed.

Lemma inserted_once k d d' tr1 t o0 tr2 tr3 t' o1 tr4 r :
  linearizable_trace spec amap_empty
    (tr1 ++ [EInv t o0] ++ tr2 ++ [ERet t RInserted] ++ tr3 ++ [EInv t' o1] ++ tr4 ++ [ERet t' r]) ->
  inserts k d o0 -> inserts k d' o1 ->
  (forall u o, pending tr1 u = Some o -> ~ erases k o) ->
  (forall o, invoked (tr2 ++ tr3 ++ tr4) o -> ~ erases k o) ->
  (forall e, In e tr2 -> ev_tid e <> t) ->
  (forall e, In e tr4 -> ev_tid e <> t') ->
  r <> RInserted.
Proof. intros L. now apply (inserted_once_lossy (fun _ => False) inv full k d d' tr1 t o0 tr2 tr3 t' o1 tr4 r), lin_lossy. Qed.

Lemma inserted_value_stays k d tr1 t o0 tr2 tr3 t' tr4 r :
  linearizable_trace spec amap_empty
    (tr1 ++ [EInv t o0] ++ tr2 ++ [ERet t RInserted] ++ tr3 ++ [EInv t' (MFind k)] ++ tr4 ++ [ERet t' r]) ->
  o0 = MInsert k d ->
  (forall u o, pending tr1 u = Some o -> ~ (erases k o \/ updates k o)) ->
  (forall o, invoked (tr2 ++ tr3 ++ tr4) o -> ~ (erases k o \/ updates k o)) ->
  (forall e, In e tr2 -> ev_tid e <> t) ->
  (forall e, In e tr4 -> ev_tid e <> t') ->
  r = RFound d.
Proof. intros L. now apply (inserted_value_stays_lossy (fun _ => False) inv full (fun _ H => H) k d tr1 t o0 tr2 tr3 t' tr4 r), lin_lossy. Qed.
End Plain.
