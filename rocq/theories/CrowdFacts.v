(** Several threads using a growing table: simulation and counting. *)
From Coq Require Import NArith ZArith Bool List Lia.
From Verif Require Import Words Slot SlotFacts Mapper MapperFacts ReturnCode MapSpec LinSpec
  Base BaseInv BaseLin BaseExec BaseSolo TableSpec BaseFacts Migrate MigrateGeo MigrateInv GrowSpec MigrateRun MigrateHelp
  MigrateDone GrowFacts Growing GrowingSpec GrowingInv GrowingFacts GrowingSolo GrowingRoom
  Count GrowOom OneHandle OneHandleFacts Crowd CrowdSpec.
Import ListNotations.
Open Scope N_scope.

Section Sim.
Context (sync : bool) (c : tcfg) (B n : N) (client : op -> Prop).
Context (Hsc : wf_scfg (tsc c)) (CO : client_ok (tsc c) client).
Context (CF : cmap (tmc c) = false \/ cprob (tmc c) = true) (HB : 0 < B <= 2 ^ 31).
Notation sc := (tsc c).
Notation mc := (tmc c).
Notation step := (crowd_step sync c B n client).
Notation spec := (mspec false false).

(** What the phase of a thread says about its call. *)
Definition ph_ok (x : option (op * gpc)) (p : kph) : Prop :=
  match p with
  | KCall => True
  | KWant _ true | KIn _ true => exists o u r, x = Some (o, GRun u (PDone r)) /\ retries o r = false
  | KWant _ false | KIn _ false => exists o, x = Some (o, GGet) \/ exists u r, x = Some (o, GRun u (PDone r)) /\ retries o r = true
  end.

Definition kwf (s : ksys) : Prop :=
  (forall t, n <= t -> gthr (k_g s) t = None) /\
  (forall t k h, n <= t -> gmig (k_g s) = Some (k, h) -> h t = None) /\
  (forall t, ph_ok (gthr (k_g s) t) (k_ph s t)) /\
  (sync = true -> exclusive (k_g s)).

Lemma kwf_init lg : kwf (ksys_init c lg).
Proof.
  split; [|split; [|split]]; cbn; auto; try discriminate.
Qed.

Lemma ph_upd th p t x q : (forall t, ph_ok (th t) (p t)) -> ph_ok x q -> forall t', ph_ok (fupd th t x t') (fupd p t q t').
Proof. intros H X t'. unfold fupd. destruct (t' =? t); auto. Qed.
Lemma ph_upd1 th p t x : (forall t, ph_ok (th t) (p t)) -> ph_ok x (p t) -> forall t', ph_ok (fupd th t x t') (p t').
Proof. intros H X t'. unfold fupd. destruct (N.eqb_spec t' t); subst; auto. Qed.
Lemma ph_upd2 th p t q : (forall t, ph_ok (th t) (p t)) -> ph_ok (th t) q -> forall t', ph_ok (th t') (fupd p t q t').
Proof. intros H X t'. unfold fupd. destruct (N.eqb_spec t' t); subst; auto. Qed.

Lemma out_upd {X} (f : N -> option X) t x : (forall t, n <= t -> f t = None) -> t < n -> forall t', n <= t' -> fupd f t x t' = None.
Proof. intros H L t' L'. rewrite fupd_neq by lia. auto. Qed.

Lemma excl_upd v mp me mg th v' mp' me' t x : exclusive (GSys v mp me mg th) ->
  (mg <> None -> match x with Some (_, GRun _ pc) => exists r, pc = PDone r | _ => True end) ->
  exclusive (GSys v' mp' me' mg (fupd th t x)).
Proof.
  intros H X M tid o u pc E. cbn in *. unfold fupd in E. destruct (tid =? t).
  - subst x. apply (X M).
  - eapply H; eauto.
Qed.

Lemma crowd_sim s l s' : kwf s -> step s l s' ->
  kwf s' /\ (gsys_step c B client (k_g s) l (k_g s') \/ (l = None /\ k_g s' = k_g s)).
Proof.
  intros (W1 & W2 & W3 & W4) ST. unfold kwf.
  destruct ST as [v mp me mg th e d l p t o L T P CL|v mp me mg th e d l p t o L T P SY
    |v mp me mg th e d l p t o u pc b t' pc' L T P ND ST|v mp me mg th e d l p t o u r L T P R IV
    |v mp me mg th e d l p t o u r L T P R NI|v mp me mg th e d l p t o u r L T P R NI NE
    |v mp me mg th e d l p t o u r m i x L T P R G C1 M|v mp me mg th e d l p t o u r m i x L T P R G SY C1 M CR
    |v mp me mg th e d l p t o u r m i x L T P R G SY C1 M CR|v mp me th e d l p t w L P NO AD
    |v mp me mg th e d l p t u w L P NV|v mp me k h th e d l p t o S0 L T P|v mp me k h th e d l p t u w L P H
    |v mp me k h th e d l p t pc s' t' k' pc' L H NE ST|v mp me k h th e d l p EX AL
    |v mp me mg th e d l p t o u L P LT T|v mp me mg th e d l p t o g r u L P LT T|v mp me mg th e d l p t o g u r L P LT T];
    cbn [k_g k_ph k_el k_du k_loc gthr gmig gver gmap gmem] in *.
  - split; [|left; now apply g_inv]. split; [now apply out_upd|]. split; [exact W2|]. split.
    + apply ph_upd1; auto. now rewrite P.
    + intros S0. eapply excl_upd; [apply W4, S0|auto].
  - split; [|left; now apply g_get]. split; [now apply out_upd|]. split; [exact W2|]. split.
    + apply ph_upd1; auto. now rewrite P.
    + intros S0. eapply excl_upd; [apply W4, S0|]. intros X. now elim X; apply SY.
  - split; [|left; eapply g_run; eauto]. split; [now apply out_upd|]. split; [exact W2|]. split.
    + apply ph_upd1; auto. now rewrite P.
    + intros S0. eapply excl_upd; [apply W4, S0|]. intros X. destruct (W4 S0 X t o u pc T) as [r ->]. now elim (ND r).
  - split; [|right; auto]. split; [auto|]. split; [exact W2|]. split; [|auto].
    apply ph_upd2; auto. cbn. exists o. right. eauto.
  - split; [|right; auto]. split; [auto|]. split; [exact W2|]. split; [|auto].
    apply ph_upd2; auto. cbn. exists o. right. eauto.
  - split; [|left; eapply g_ret; eauto]. split; [now apply out_upd|]. split; [exact W2|]. split.
    + apply ph_upd1; auto. now rewrite P.
    + intros S0. eapply excl_upd; [apply W4, S0|auto].
  - split; [|left; eapply g_ret; eauto]. split; [now apply out_upd|]. split; [exact W2|]. split.
    + apply ph_upd1; auto. now rewrite P.
    + intros S0. eapply excl_upd; [apply W4, S0|auto].
  - split; [|left; eapply g_ret; eauto]. split; [now apply out_upd|]. split; [exact W2|]. split.
    + apply ph_upd1; auto. now rewrite P.
    + intros S0. eapply excl_upd; [apply W4, S0|auto].
  - split; [|right; auto]. split; [auto|]. split; [exact W2|]. split; [|auto].
    apply ph_upd2; auto. cbn. eauto 6.
  - assert (X := W3 t). rewrite P in X. split; [|left; now apply g_grow]. split; [auto|]. split; [|split].
    + intros t' k h L' [= <- <-]. reflexivity.
    + apply ph_upd2; auto.
    + intros S0 _ tid o u pc T. cbn in T. destruct (N.lt_ge_cases tid n) as [L'|L']; [|now rewrite W1 in T].
      specialize (NO S0 tid L'). rewrite T in NO. exact NO.
  - assert (X := W3 t). rewrite P in X. split; [|right; auto]. split; [auto|]. split; [exact W2|]. split; [|auto].
    apply ph_upd2; auto.
  - split; [|right; auto]. split; [auto|]. split; [exact W2|]. split; [|auto].
    apply ph_upd2; auto. cbn. eauto.
  - split; [|left; apply g_join; auto]. split; [auto|]. split; [|split; [auto|]].
    + intros t' k0 h0 L' [= <- <-]. rewrite fupd_neq by lia. eauto.
    + intros S0 _. apply (W4 S0). cbn. discriminate.
  - split; [|left; eapply g_help; eauto]. split; [auto|]. split; [|split; [auto|]].
    + intros t'' k0 h0 L' [= <- <-]. rewrite fupd_neq by lia. eauto.
    + intros S0 _. apply (W4 S0). cbn. discriminate.
  - split; [|left; apply g_publish].
    + split; [auto|]. split; [discriminate|]. split; [auto|]. intros _ X. now elim X.
    + destruct EX as (t & _ & E). eauto.
    + intros t pc E. destruct (N.lt_ge_cases t n) as [L'|L']; [|now rewrite (W2 t k h L' eq_refl) in E]. left. eauto.
  - split; [|right; auto]. split; [auto|]. split; [exact W2|]. split; [|auto]. apply ph_upd2; cbn; auto.
  - assert (X := W3 t). rewrite P in X. destruct X as (o' & X). split.
    + split; [now apply out_upd|]. split; [exact W2|]. split; [apply ph_upd; cbn; auto|].
      intros S0. eapply excl_upd; [apply W4, S0|auto].
    + destruct X as [X|(u' & r' & X & R)]; rewrite T in X; [discriminate|]. injection X as -> -> ->. left. eapply g_retry; eauto.
  - assert (X := W3 t). rewrite P in X. destruct X as (o' & u' & r' & X & R). rewrite T in X. injection X as -> -> ->. split.
    + split; [now apply out_upd|]. split; [exact W2|]. split; [apply ph_upd; cbn; auto|].
      intros S0. eapply excl_upd; [apply W4, S0|auto].
    + left. eapply g_ret; eauto.
Qed.

Lemma roomy_sim s x tr s' : kwf s -> (sync = false -> sc_mark sc = true) -> grel c B client (k_g s) x ->
  lts_steps (roomy_step sync c B n client) s tr s' ->
  exists x', asteps spec x tr x' /\ grel c B client (k_g s') x' /\ kwf s'.
Proof.
  intros K SM R ST. revert x K R. 
  assert (ONE : forall s l s' x, kwf s -> grel c B client (k_g s) x -> roomy_step sync c B n client s l s' ->
    exists x', asteps spec x (match l with Some e => [e] | None => [] end) x' /\ grel c B client (k_g s') x' /\ kwf s').
  { intros s0 l s1 x K R (S & RM & U). destruct (crowd_sim _ _ _ K S) as [K' [G|[-> E]]].
    - assert (MD : mode c (k_g s0) (k_g s1)).
      { destruct sync eqn:SY; [right; apply (proj2 (proj2 (proj2 K))); exact SY|left; split; auto]. }
      destruct (gsim c B client Hsc CO CF HB _ _ _ _ R G MD RM) as (x' & A & R'). eauto.
    - exists x. rewrite E. split; [apply as_nil|auto]. }
  induction ST as [s|s s1 s2 tr S ST IH|s e s1 s2 tr S ST IH]; intros x K R.
  - exists x. split; [apply as_nil|auto].
  - destruct (ONE _ _ _ _ K R S) as (x1 & A1 & R1 & K1). destruct (IH x1 K1 R1) as (x2 & A2 & R2).
    exists x2. split; auto. change tr with ([] ++ tr). eapply asteps_trans; eauto.
  - destruct (ONE _ _ _ _ K R S) as (x1 & A1 & R1 & K1). destruct (IH x1 K1 R1) as (x2 & A2 & R2).
    exists x2. split; auto. change (e :: tr) with ([e] ++ tr). eapply asteps_trans; eauto.
Qed.

Lemma roomy_linearizable lg : 1 <= lg <= 63 -> (sync = false -> sc_mark sc = true) ->
  linearizable spec (roomy_step sync c B n client) (ksys_init c lg) amap_empty.
Proof.
  intros LG SM tr s ST.
  destruct (roomy_sim _ _ _ _ (kwf_init lg) SM (ginit_rel c B client Hsc lg LG) ST) as (x & A & _). exists x. exact A.
Qed.

End Sim.
