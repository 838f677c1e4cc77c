(** On tables of pointer cells the second load of an unsafe update leads to the same element,
    so unsafe updates are updates. *)
From Coq Require Import NArith Bool List Lia.
From Verif Require Import Words Slot Mapper ReturnCode MapSpec LinSpec Base BaseInv Migrate Ptr PtrSpec PtrGrowing PtrGrowingSpec PtrUnsafe.
Import ListNotations.
Open Scope N_scope.

Lemma set_mark_ptr w : w_ptr (w_set_mark w) = w_ptr w.
Proof.
  unfold w_ptr, w_set_mark. f_equal. change (2 ^ 16) with (2 ^ N.of_nat 16).
  rewrite <- !N.shiftr_div_pow2, N.shiftr_lor. change (N.shiftr 1 (N.of_nat 16)) with 0. apply N.lor_0_r.
Qed.

Lemma empty_ptr m w : w_empty m w = true -> w_ptr w = 0.
Proof. unfold w_empty. destruct m; rewrite N.eqb_eq; [auto|intros ->; reflexivity]. Qed.

Section Keep.
Context (c : pcfg).

Definition cas_ok (pc : ppc) : Prop := match pc with QCas _ _ curr => w_empty (pmk c) curr = true | _ => True end.

(** Cell [p] leads to the element at [a]. *)
Definition leads (t : wmem) (p a : N) : Prop := exists y, t p = Some y /\ w_ptr y = a.

Lemma wrap_add_cas o w code out : cas_ok (wrap_add c o w code out) /\ is_upd (wrap_add c o w code out) = false.
Proof.
  unfold wrap_add, deliver. destruct (_ && _); [split; reflexivity|].
  destruct o; destruct (successful code), (code =? RC_SUCCESS_IN), out; split; reflexivity.
Qed.
Lemma wrap_update_cas code out : cas_ok (wrap_update c code out) /\ is_upd (wrap_update c code out) = false.
Proof. unfold wrap_update, deliver. destruct (_ && _), out; split; reflexivity. Qed.

Lemma after_load_ok m hp o i p w curr pc :
  p_after_load c m hp o i p w curr = pc -> cas_ok pc /\ forall w' x, pc = QUpd w' x -> x = curr /\ w_ptr curr <> 0.
Proof.
  intros E.
  assert (CMP : forall k h, w_compare (pmk c) hp curr k h = Some true -> w_ptr curr <> 0).
  { intros k h. unfold w_compare. destruct (negb _); [discriminate|]. destruct (N.eqb_spec (w_ptr curr) 0); [discriminate|auto]. }
  assert (WA : forall w' code out, wrap_add c o w' code out = pc -> cas_ok pc /\ forall w' x, pc = QUpd w' x -> x = curr /\ w_ptr curr <> 0).
  { intros w' code out <-. destruct (wrap_add_cas o w' code out) as [A B]. split; auto. intros ? ? X. rewrite X in B. discriminate. }
  assert (WU : forall code out, wrap_update c code out = pc -> cas_ok pc /\ forall w' x, pc = QUpd w' x -> x = curr /\ w_ptr curr <> 0).
  { intros code out <-. destruct (wrap_update_cas code out) as [A B]. split; auto. intros ? ? X. rewrite X in B. discriminate. }
  destruct o; cbn [p_after_load] in E;
    repeat match type of E with
    | (if ?b then _ else _) = _ => destruct b eqn:?
    | match ?x with _ => _ end = _ => destruct x as [[]|] eqn:?
    end; eauto; subst pc; (split; [try exact Logic.I; assumption|intros w' x X; try discriminate; injection X as <- <-; eauto]).
Qed.

(** A step of a call. *)
Lemma qstep_keeps m hp t a o pc hp' t' pc' :
  qstep c m hp t a o pc = (hp', t', pc') -> cas_ok pc ->
  cas_ok pc' /\ (forall p b, b <> 0 -> leads t p b -> leads t' p b) /\
  (is_upd pc = true -> is_upd pc' = false) /\
  (forall i w w' curr, pc = QLoad i w -> pc' = QUpd w' curr -> leads t' (remap (pmc c) m i) (w_ptr curr) /\ w_ptr curr <> 0).
Proof.
  intros E CK. destruct pc as [|w|i w|i w curr|w curr|w out|out|r|]; cbn [qstep] in E.
  - injection E as <- <- <-. split; [destruct (pgrow c); exact Logic.I|]. split; [auto|]. split; discriminate.
  - injection E as <- <- <-. split; [exact Logic.I|]. split; [auto|]. split; discriminate.
  - destruct (prd c m t (remap (pmc c) m i)) as [x|] eqn:R.
    + assert (X : hp' = hp /\ t' = t /\ p_after_load c m hp o i (remap (pmc c) m i) w x = pc') by (repeat split; congruence).
      destruct X as (-> & -> & X). destruct (after_load_ok _ _ _ _ _ _ _ _ X) as [A U]. split; auto. split; auto.
      split; [discriminate|]. intros i0 w0 w' curr [= <- <-] Y. destruct (U _ _ Y) as [-> Z]. split; auto.
      exists x. split; auto. unfold prd in R. destruct (_ <? _); [auto|discriminate].
    + injection E as <- <- <-. split; [exact Logic.I|]. split; [auto|]. split; intros; discriminate.
  - destruct (prd c m t (remap (pmc c) m i)) as [x|] eqn:R.
    + unfold w_cas in E. cbn in CK. pose proof (empty_ptr _ _ CK) as Z.
      assert (TX : t (remap (pmc c) m i) = Some x) by (unfold prd in R; destruct (_ <? _); [auto|discriminate]).
      destruct (N.eqb_spec x curr) as [->|NE].
      * assert (X : t' = fupd t (remap (pmc c) m i) (Some w) /\ wrap_add c o w RC_SUCCESS_IN (OutIs RInserted) = pc') by (split; congruence).
        destruct X as [-> <-]. split; [apply wrap_add_cas|]. split.
        -- intros p b B (y & Y & <-). unfold leads, fupd. destruct (N.eqb_spec p (remap (pmc c) m i)) as [->|]; [|eauto].
           rewrite TX in Y. injection Y as <-. congruence.
        -- split; intros; discriminate.
      * injection E as <- <- <-. split; [exact Logic.I|]. split.
        -- intros p b B (y & Y & <-). unfold leads, fupd. destruct (N.eqb_spec p (remap (pmc c) m i)) as [->|]; [|eauto].
           rewrite TX in Y. injection Y as <-. eauto.
        -- split; intros; discriminate.
    + injection E as <- <- <-. split; [exact Logic.I|]. split; [auto|]. split; intros; discriminate.
  - destruct (hp (w_ptr curr)) as [[k d]|].
    + assert (X : t' = t /\ (if pop_adds o then wrap_add c o w RC_SUCCESS_UP (OutIs (RUpdated 0))
           else wrap_update c RC_SUCCESS_UP (OutIs (RUpdated 0))) = pc') by (split; congruence).
      destruct X as [-> <-].
      destruct (wrap_add_cas o w RC_SUCCESS_UP (OutIs (RUpdated 0))), (wrap_update_cas RC_SUCCESS_UP (OutIs (RUpdated 0))).
      destruct (pop_adds o); (split; [auto|]; split; [auto|]; split; [auto|intros; discriminate]).
    + injection E as <- <- <-. split; [exact Logic.I|]. split; [auto|]. split; [auto|intros; discriminate].
  - destruct (w_cleanup hp w); injection E as <- <- <-; (split; [destruct out; exact Logic.I|]; split; [auto|]; split; intros; discriminate).
  - destruct out as [r|x|x]; [|destruct (hp (w_ptr x)) as [[]|]..]; injection E as <- <- <-;
      (split; [exact Logic.I|]; split; [auto|]; split; intros; discriminate).
  - injection E as <- <- <-. split; [exact Logic.I|]. split; [auto|]. split; intros; discriminate.
  - injection E as <- <- <-. split; [exact Logic.I|]. split; [auto|]. split; intros; discriminate.
Qed.

(** A step of a helper leaves the pointers of the source alone. *)
Lemma mark_keeps (src : wmem) i x cell ok cell' e' :
  src i = Some cell -> w_atomic_mark (pmk c) cell x = (ok, cell', e') ->
  forall p b, leads src p b -> leads (fupd src i (Some cell')) p b.
Proof.
  intros S E p b (y & Y & <-). unfold leads, fupd. destruct (N.eqb_spec p i) as [->|]; [|eauto].
  rewrite S in Y. injection Y as <-. exists cell'. split; auto. unfold w_atomic_mark, w_cas in E.
  destruct (pmk c); [destruct (N.eqb_spec cell x) as [->|]|]; injection E as <- <- <-; auto using set_mark_ptr.
Qed.

Lemma phstep_keeps ms mt B hp s t k pc s' t' k' pc' :
  phstep c ms mt B hp s t k pc = (s', t', k', pc') -> forall p b, leads s p b -> leads s' p b.
Proof.
  intros E.
  assert (PR : forall i x, prd c ms s i = Some x -> s i = Some x).
  { intros i x. unfold prd. destruct (_ <? _); [auto|discriminate]. }
  destruct pc; cbn [phstep] in E; try (injection E as <- <- <- <-; auto; fail).
  - destruct (prd c ms s i) as [x|] eqn:R; [|injection E as <- <- <- <-; auto].
    destruct (w_atomic_mark _ _ _) as [[ok cell'] e'] eqn:A. injection E as <- <- <- <-. eapply mark_keeps; eauto.
  - destruct l; [injection E as <- <- <- <-; auto|]. destruct (_ <? _); injection E as <- <- <- <-; auto.
  - destruct (prd c ms s i) as [x|] eqn:R; [|injection E as <- <- <- <-; auto].
    destruct (w_atomic_mark _ _ _) as [[ok cell'] e'] eqn:A. injection E as <- <- <- <-. eapply mark_keeps; eauto.
  - destruct l; [injection E as <- <- <- <-; auto|]. destruct (_ <? _); injection E as <- <- <- <-; auto.
  - destruct (prd c ms s _) as [x|] eqn:R; [|injection E as <- <- <- <-; auto].
    destruct (w_atomic_mark _ _ _) as [[ok cell'] e'] eqn:A. injection E as <- <- <- <-. eapply mark_keeps; eauto.
  - destruct (_ <? _); injection E as <- <- <- <-; auto.
Qed.

Lemma upd_same m hp t a o w x y : w_ptr x = w_ptr y -> qstep c m hp t a o (QUpd w x) = qstep c m hp t a o (QUpd w y).
Proof. intros E. cbn [qstep]. now rewrite E. Qed.

Lemma pstart_ok m o : cas_ok (pstart c m o) /\ is_upd (pstart c m o) = false.
Proof. unfold pstart. destruct (pop_adds o), (pgrow c); split; reflexivity. Qed.

Definition good (t : wmem) (md : qmode) (curr : N) : Prop :=
  w_ptr curr <> 0 /\
  match md with VAt p => leads t p (w_ptr curr) | VGot w => w_ptr w = w_ptr curr | _ => False end.

Lemma good_keeps (t t' : wmem) md curr :
  (forall p b, b <> 0 -> leads t p b -> leads t' p b) -> good t md curr -> good t' md curr.
Proof. intros K [Z G]. split; auto. destruct md; auto. Qed.

End Keep.

Section Lin.
Context (c : pcfg) (alloc : N -> Prop) (client : ucall -> Prop).

Definition pcl (o : pop) : Prop := exists q, client q /\ ucall_pop q = o.

(** *** Fixed size *)
Definition finv (x : psys * (N -> qmode)) : Prop :=
  forall u o pc, pthr (fst x) u = Some (o, pc) ->
    cas_ok c pc /\ forall w curr, pc = QUpd w curr -> snd x u <> VOff -> good (ptab (fst x)) (snd x u) curr.

Lemma fixed_step x l x' :
  pgrow c = false -> finv x -> pu_step c alloc client x l x' ->
  ((l = None /\ fst x' = fst x) \/ psys_step c alloc pcl (fst x) l (fst x')) /\ finv x'.
Proof.
  intros PG I S.
  destruct S as [hp m t th kd u q E CQ|s kd l s' S NU|hp m t th kd u o i w a w' curr E MD ST
    |hp m t th kd u o w curr p w2 E MD R|hp m t th kd u o w curr w2 a hp' t' pc' E MD ST]; cbn [fst snd] in *.
  - split; [right; apply q_inv; auto; exists q; auto|]. intros z o pc. cbn [fst snd pthr ptab]. unfold fupd.
    destruct (N.eqb_spec z u) as [->|NE]; [|apply I]. intros [= <- <-].
    destruct (pstart_ok c m (ucall_pop q)) as [A B]. split; auto. intros w curr X. rewrite X in B. discriminate.
  - split.
    + right. destruct S; [contradiction|eapply q_run; eauto|eapply q_mark; eauto|congruence|eapply q_ret; eauto].
    + intros z o pc Ez. cbn [fst snd] in *.
      destruct S as [hp m t th tid o' E0 []|hp m t th tid o' pc0 a hp' t' pc' E0 ND AL ST|hp m t th p w MK _ L TP
        |hp m t th ins del lg B s PG'|hp m t th tid o' r E0]; cbn [pthr ptab] in *.
      * destruct (I tid o' pc0 E0) as [CK _]. destruct (qstep_keeps c _ _ _ _ _ _ _ _ _ ST CK) as (CK' & K & NUP & _).
        unfold fupd in Ez. destruct (N.eqb_spec z tid) as [->|NE].
        -- injection Ez as <- <-. split; auto. intros w curr -> MD.
           specialize (NU tid o' pc0 o' (QUpd w curr) MD E0). unfold fupd in NU. rewrite N.eqb_refl in NU.
           specialize (NU eq_refl ltac:(apply orb_true_r)). subst pc0. now specialize (NUP eq_refl).
        -- destruct (I z o pc Ez) as [A G]. split; auto. intros w curr -> MD. eapply good_keeps; [exact K|]. eauto.
      * destruct (I z o pc Ez) as [A G]. split; auto. intros w0 curr -> MD. eapply good_keeps; [|eauto].
        intros p0 b _ (y & Y & <-). unfold leads, fupd. destruct (N.eqb_spec p0 p) as [->|]; [|eauto]. cbn in Y.
        exists (w_set_mark w). split; auto. rewrite set_mark_ptr. congruence.
      * congruence.
      * unfold fupd in Ez. destruct (N.eqb_spec z tid); [discriminate|]. exact (I z o pc Ez).
  - destruct (I u o _ E) as [CK _]. destruct (qstep_keeps c _ _ _ _ _ _ _ _ _ ST CK) as (CK' & _ & _ & LD). split.
    + right. eapply q_run; eauto; discriminate.
    + intros z o0 pc. cbn [fst snd pthr ptab]. unfold fupd. destruct (N.eqb_spec z u) as [->|NE]; [|apply I].
      intros [= <- <-]. split; auto. intros w0 c0 [= <- <-] _. destruct (LD _ _ _ _ eq_refl eq_refl) as [A B]. split; auto.
  - split; [now left|]. intros z o0 pc Ez. cbn [fst snd pthr ptab] in *. destruct (I z o0 pc Ez) as [A G]. split; auto.
    intros w0 c0 -> MDz. unfold fupd in *. destruct (N.eqb_spec z u) as [->|NE]; [|now apply (G w0)].
    rewrite E in Ez. injection Ez as <- <- <-. destruct (G w curr eq_refl) as [Z LD]; [cbn; congruence|]. split; auto.
    cbn [snd] in LD. rewrite MD in LD. destruct LD as (y & Y & LD). cbn in Y. unfold prd in R. destruct (_ <? _); [|discriminate]. congruence.
  - destruct (I u o _ E) as [CK G]. destruct (G w curr eq_refl) as [Z G']; [cbn; congruence|]. cbn [snd] in G'. rewrite MD in G'.
    rewrite (upd_same c m hp t a o w w2 curr G') in ST.
    destruct (qstep_keeps c _ _ _ _ _ _ _ _ _ ST CK) as (CK' & K & NUP & _). split.
    + right. eapply q_run; eauto; discriminate.
    + intros z o0 pc. cbn [fst snd pthr ptab]. unfold fupd. destruct (N.eqb_spec z u) as [->|NE].
      * intros [= <- <-]. split; auto. intros w0 c0 ->. now specialize (NUP eq_refl).
      * intros Ez. destruct (I z o0 pc Ez) as [A G0]. split; auto. intros w0 c0 -> MDz. eapply good_keeps; [exact K|]. now apply (G0 w0).
Qed.

Lemma fixed_trace x tr x' :
  pgrow c = false -> finv x -> lts_steps (pu_step c alloc client) x tr x' ->
  lts_steps (psys_step c alloc pcl) (fst x) tr (fst x').
Proof.
  intros PG I S. induction S as [x|x x1 x2 tr S ST IH|x e x1 x2 tr S ST IH].
  - constructor.
  - destruct (fixed_step _ _ _ PG I S) as [[[_ <-]|S'] I']; auto. eapply ls_tau; eauto.
  - destruct (fixed_step _ _ _ PG I S) as [[[X _]|S'] I']; [discriminate|]. eapply ls_vis; eauto.
Qed.

Lemma fixed_init lg : finv (pu_init c lg).
Proof. intros u o pc. discriminate. Qed.

(** *** Growing *)
Context (B : N).
Definition ginv (x : pgsys * (N -> qmode)) : Prop :=
  forall u o v pc, pgthr (fst x) u = Some (o, v, pc) ->
    v <= pgver (fst x) /\ cas_ok c pc /\
    forall w curr, pc = QUpd w curr -> snd x u <> VOff -> good (pgmem (fst x) v) (snd x u) curr.

Lemma grow_step x l x' :
  ginv x -> pug_step c B alloc client x l x' ->
  ((l = None /\ fst x' = fst x) \/ pgstep c B alloc pcl (fst x) l (fst x')) /\ ginv x'.
Proof.
  intros I S.
  destruct S as [v mp me mg hp th kd u q E CQ|s kd l s' S NU|v mp me mg hp th kd u o x i w a w' curr E MD ST
    |v mp me mg hp th kd u o x w curr p w2 E MD R|v mp me mg hp th kd u o x w curr w2 a hp' t' pc' E MD ST]; cbn [fst snd] in *.
  - split; [right; apply pg_inv; auto; exists q; auto|]. intros z o v0 pc. cbn [fst snd pgthr pgmem pgver]. unfold fupd.
    destruct (N.eqb_spec z u) as [->|NE]; [|apply I]. intros [= <- <- <-].
    destruct (pstart_ok c (mp v) (ucall_pop q)) as [A A']. split; [lia|]. split; auto. intros w curr X. rewrite X in A'. discriminate.
  - split.
    + right. destruct S; [contradiction|eapply pg_run; eauto|eapply pg_ret; eauto|now apply pg_grow|now apply pg_join|eapply pg_help; eauto|now apply pg_publish].
    + intros z o vz pc Ez. cbn [fst snd] in *.
      destruct S as [v mp me mg hp th tid o' E0 []|v mp me mg hp th tid o' u pc0 a hp' t' pc' E0 ND AL ST|v mp me mg hp th tid o' u r E0
        |v mp me hp th ins del LT|v mp me k h hp th tid E0|v mp me k h hp th tid pc0 s' t' k' pc' E0 ST|v mp me k h hp th EX FIN];
        cbn [pgthr pgmem pgver] in *.
      * destruct (I tid o' u pc0 E0) as (LE & CK & _). cbn in LE. destruct (qstep_keeps c _ _ _ _ _ _ _ _ _ ST CK) as (CK' & K & NUP & _).
        assert (LV : on_version v u pc0 <= v) by (destruct pc0; cbn; lia).
        unfold fupd in Ez. destruct (N.eqb_spec z tid) as [->|NE].
        -- injection Ez as <- <- <-. split; auto. split; auto. intros w curr -> MD.
           specialize (NU tid o' u pc0 o' (on_version v u pc0) (QUpd w curr) MD E0). unfold fupd in NU. rewrite N.eqb_refl in NU.
           specialize (NU eq_refl ltac:(apply orb_true_r)). subst pc0. now specialize (NUP eq_refl).
        -- destruct (I z o vz pc Ez) as (L & A & G). split; auto. split; auto. intros w curr -> MD.
           specialize (G w curr eq_refl MD). cbn [fst snd pgmem] in G. unfold fupd. destruct (N.eqb_spec vz (on_version v u pc0)) as [->|]; auto.
           eapply good_keeps; [exact K|]. exact G.
      * unfold fupd in Ez. destruct (N.eqb_spec z tid); [discriminate|]. exact (I z o vz pc Ez).
      * destruct (I z o vz pc Ez) as (L & A & G). cbn in L. split; auto. split; auto. intros w curr -> MD.
        rewrite fupd_neq by lia. now apply (G w).
      * exact (I z o vz pc Ez).
      * destruct (I z o vz pc Ez) as (L & A & G). cbn in L. split; auto. split; auto. intros w curr -> MD.
        rewrite fupd_neq by lia. specialize (G w curr eq_refl MD). cbn [fst snd pgmem] in G.
        unfold fupd. destruct (N.eqb_spec vz v) as [->|]; auto.
        eapply good_keeps; [|exact G]. intros p b _. eapply phstep_keeps; eauto.
      * destruct (I z o vz pc Ez) as (L & A & G). cbn in L. split; [lia|]. split; auto.
  - destruct (I u o _ _ E) as (LE & CK & _). destruct (qstep_keeps c _ _ _ _ _ _ _ _ _ ST CK) as (CK' & _ & _ & LD). split.
    + right. apply (pg_run c B alloc pcl v mp me mg hp th u o x (QLoad i w) a); auto; discriminate.
    + intros z o0 v0 pc. cbn [fst snd pgthr pgmem pgver]. intros Ez.
      assert (FM : fupd me x (me x) v0 = me v0) by (unfold fupd; destruct (N.eqb_spec v0 x); congruence). rewrite FM.
      unfold fupd in *. destruct (N.eqb_spec z u) as [->|NE]; [|exact (I z o0 v0 pc Ez)].
      injection Ez as <- <- <-. split; auto. split; auto. intros w0 c0 [= <- <-] _. destruct (LD _ _ _ _ eq_refl eq_refl) as [A A']. split; auto.
  - split; [now left|]. intros z o0 v0 pc Ez. cbn [fst snd pgthr pgmem pgver] in *. destruct (I z o0 v0 pc Ez) as (L & A & G). split; auto. split; auto.
    intros w0 c0 -> MDz. unfold fupd in *. destruct (N.eqb_spec z u) as [->|NE]; [|now apply (G w0)].
    rewrite E in Ez. injection Ez as <- <- <- <-. destruct (G w curr eq_refl) as [Z LD]; [cbn; congruence|]. split; auto.
    cbn [snd] in LD. rewrite MD in LD. destruct LD as (y & Y & LD). cbn in Y. unfold prd in R. destruct (_ <? _); [|discriminate]. congruence.
  - destruct (I u o _ _ E) as (LE & CK & G). destruct (G w curr eq_refl) as [Z G']; [cbn; congruence|]. cbn [snd] in G'. rewrite MD in G'.
    rewrite (upd_same c (mp x) hp (me x) a o w w2 curr G') in ST.
    destruct (qstep_keeps c _ _ _ _ _ _ _ _ _ ST CK) as (CK' & K & NUP & _). split.
    + right. apply (pg_run c B alloc pcl v mp me mg hp th u o x (QUpd w curr) a); auto; discriminate.
    + intros z o0 v0 pc. cbn [fst snd pgthr pgmem pgver]. intros Ez. unfold fupd in Ez |- *. destruct (N.eqb_spec z u) as [->|NE].
      * injection Ez as <- <- <-. split; auto. split; auto. intros w0 c0 ->. now specialize (NUP eq_refl).
      * destruct (I z o0 v0 pc Ez) as (L & A & G0). split; auto. split; auto. intros w0 c0 -> MDz.
        specialize (G0 w0 c0 eq_refl MDz). cbn [fst snd pgmem] in G0. destruct (N.eqb_spec v0 x) as [->|]; auto.
        eapply good_keeps; [exact K|]. exact G0.
Qed.

Lemma grow_init lg : ginv (pug_init c lg).
Proof. intros u o v pc. discriminate. Qed.

Lemma sync_trace x tr x' :
  ginv x -> lts_steps (pug_sync_step c B alloc client) x tr x' ->
  lts_steps (pg_sync_step c B alloc pcl) (fst x) tr (fst x').
Proof.
  intros I S. induction S as [x|x x1 x2 tr (S & X & R) ST IH|x e x1 x2 tr (S & X & R) ST IH].
  - constructor.
  - destruct (grow_step _ _ _ I S) as [[[_ Y]|S'] I']; [rewrite <- Y; auto|]. eapply ls_tau; [|auto]. split; auto.
  - destruct (grow_step _ _ _ I S) as [[[Y _]|S'] I']; [discriminate|]. eapply ls_vis; [|auto]. split; auto.
Qed.

Lemma async_trace x tr x' :
  ginv x -> lts_steps (pug_async_step c B alloc client) x tr x' ->
  lts_steps (pg_async_step c B alloc pcl) (fst x) tr (fst x').
Proof.
  intros I S. induction S as [x|x x1 x2 tr (S & X & R) ST IH|x e x1 x2 tr (S & X & R) ST IH].
  - constructor.
  - destruct (grow_step _ _ _ I S) as [[[_ Y]|S'] I']; [rewrite <- Y; auto|]. eapply ls_tau; [|auto]. split; auto.
  - destruct (grow_step _ _ _ I S) as [[[Y _]|S'] I']; [discriminate|]. eapply ls_vis; [|auto]. split; auto.
Qed.
End Lin.
