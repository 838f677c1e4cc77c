(** Growing tables of pointer cells: the simulation. *)
From Coq Require Import NArith Bool List Lia.
From Verif Require Import Words Slot SlotFacts Mapper MapperFacts ReturnCode MapSpec LinSpec Base
  BaseInv BaseLin TableSpec Migrate Frozen Growing GrowingSpec GrowingInv Ptr PtrSpec PtrWords
  PtrGrowing PtrGrowingSpec PtrGrowingImg PtrGrowingInv PtrGrowingRel PtrGrowingStep.
Import ListNotations.
Open Scope N_scope.

Section Sim.
Context (c : pcfg) (K B : N) (alloc : N -> Prop).
Context (PG : pgrow c = true) (HA : forall a, alloc a -> 0 < a < 2 ^ 48 /\ a <> 2 ^ 32).
Context (CF : cmap (pmc c) = false \/ cprob (pmc c) = true) (HB : 0 < B <= 2 ^ 31).
Notation mk := (pmk c).
Notation mc := (pmc c).
Notation ac := (acfg c K).
Notation sc := (asc c K).
Notation spec := (mspec false false).
Notation aobj' := (aobj amap mop mres).
Notation wgood := (wgood c K).
Notation aimg := (aimg c K).
Notation amr := (amr c K).
Notation rel := (rel c K B).
Notation grel' := (grel ac B (acl K)).
Notation athr := (athr c K).
Notation tok := (tok c K).
Notation acts s := (fun t => active (pgthr s t)).
Notation pmode := (pmode c).

Definition goal_ (s s' : pgsys) (y : aobj') (tr : list (event mop mres)) : Prop :=
  exists kp1 g1 x1 y1, asteps spec y tr y1 /\ rel kp1 s' g1 x1 y1.

(** The elements of other calls. *)
Lemma others kp s g x y t a : rel kp s g x y -> own (pgthr s t) = Some a ->
  pgheap s a <> None /\ kp a = None.
Proof.
  intros R O. destruct (pgthr s t) as [[[o u] pc]|] eqn:E; [|discriminate].
  destruct (r_tok _ _ _ _ _ _ _ _ R _ _ _ _ E) as [_ T].
  destruct (own_slot c K _ _ _ _ _ _ T O) as [-> ->]. split; [discriminate|reflexivity].
Qed.

Lemma active_own s t o p : active (pgthr s t) = Some (o, p) -> pop_adds o = true -> own (pgthr s t) = Some p.
Proof.
  destruct (pgthr s t) as [[[o' u] pc]|]; [|discriminate].
  destruct pc; try discriminate; intros [= <- <-] AD; cbn [own]; unfold ptr_of; now rewrite AD.
Qed.

(** A step of a call that is not looking at the table. *)
Lemma side kp s g x y me' hp' tid X y' tr :
  rel kp s g x y -> active (pgthr s tid) = None -> active X = None ->
  (forall v q, me' v q = pgmem s v q) ->
  (forall o u pc, X = Some (o, u, pc) -> pop_key o < K /\ tok kp hp' o pc) ->
  hpok kp hp' ->
  (forall t a, t <> tid -> own (pgthr s t) = Some a -> hp' a = pgheap s a /\ own X <> Some a) ->
  (forall a, hp' a <> None -> kp a <> None \/ own X = Some a \/ exists t, t <> tid /\ own (pgthr s t) = Some a) ->
  (forall k, ast y' k = match ast x (k + 1) with Some a => option_map snd (hp' a) | None => None end) ->
  (forall t, t <> tid -> ath y' t = ath y t) ->
  ystat X (ath y' tid) ->
  asteps spec y tr y' ->
  goal_ s (PGSys (pgver s) (pgmap s) me' (pgmig s) hp' (fupd (pgthr s) tid X)) y tr.
Proof.
  intros R A0 A1 ME TK HP OT AC FM YR YS AS.
  eapply (rebuild c K B kp s g x y kp _ _ tid X g x y'); eauto.
  - intros a k H. exact H.
  - apply R.
  - apply R.
  - intros v. eapply amr_ext'; [intros q; apply ME|apply R].
  - intros t. destruct (N.eqb_spec t tid) as [->|]; auto. rewrite (r_thr _ _ _ _ _ _ _ _ R).
    apply (active_athr c K kp) in A0, A1. congruence.
  - intros t a NE O. destruct (OT t a NE O). auto.
  - apply R.
  - destruct (r_fol _ _ _ _ _ _ _ _ R) as [F1 F2 F3 F4]. split; auto.
    + intros t o p. destruct (N.eqb_spec t tid) as [->|NE]; [congruence|]. intros At.
      rewrite YR by exact NE. now apply F2.
    + intros t. destruct (N.eqb_spec t tid) as [->|NE]; auto.
    + intros t o p. destruct (N.eqb_spec t tid) as [->|NE]; [congruence|]. intros At AD.
      destruct (OT t p NE) as [-> _]; [eapply active_own; eauto|]. now apply (F4 t).
  - apply R.
Qed.

Lemma same_mem (me : N -> wmem) u v q : fupd me u (me u) v q = me v q.
Proof. unfold fupd. now destruct (N.eqb_spec v u) as [->|]. Qed.

(** *** Begin and end of a call *)

Lemma hp_key kp s g x y a k : rel kp s g x y -> kp a = Some k -> exists d, pgheap s a = Some (k, d).
Proof. intros R. apply (r_hp _ _ _ _ _ _ _ _ R). Qed.

Lemma enter kp s g x y me' hp' tid o u w :
  rel kp s g x y -> pop_key o < K -> active (pgthr s tid) = None ->
  (forall v q, me' v q = pgmem s v q) ->
  hpok kp hp' -> (forall a, pgheap s a <> None -> hp' a = pgheap s a) ->
  (forall a, hp' a <> None -> pgheap s a <> None \/ own (Some (o, u, QTry w)) = Some a) ->
  tok kp hp' o (QTry w) -> own (pgthr s tid) = None ->
  (forall a, own (Some (o, u, QTry w)) = Some a -> pgheap s a = None) ->
  forall y0 tr, asteps spec y tr y0 -> ast y0 = ast y -> (forall t, t <> tid -> ath y0 t = ath y t) ->
  ath y0 tid = APend (pspec_op o) ->
  goal_ s (PGSys (pgver s) (pgmap s) me' (pgmig s) hp' (fupd (pgthr s) tid (Some (o, u, QTry w)))) y tr.
Proof.
  intros R LK A0 ME HP HK HN TK OW FR y0 tr AS YA YT YP.
  assert (CL : acl K (aop o (ptr_of o w))) by (exists o, (ptr_of o w); auto).
  pose proof (begin c K B g x tid (aop o (ptr_of o w)) (r_g _ _ _ _ _ _ _ _ R) CL) as G1.
  assert (OD : forall t a, t <> tid -> own (pgthr s t) = Some a -> hp' a = pgheap s a /\ kp a = kp a /\ own (Some (o, u, QTry w)) <> Some a).
  { intros t a NE Oa. destruct (others _ _ _ _ _ _ _ R Oa) as [H1 H2]. sp; auto. }
  eapply (rebuild c K B kp s g x y kp _ _ tid _ _ _ y0); [exact R|..|exact AS|exact G1].
  - intros a k H. exact H.
  - apply R.
  - apply R.
  - reflexivity.
  - intros v. cbn [gmem]. eapply amr_ext'; [intros q; apply ME|apply R].
  - intros t. cbn [gthr]. unfold fupd. now destruct (t =? tid).
  - intros o' u' pc' [= <- <- <-]. auto.
  - exact HP.
  - exact OD.
  - intros a H. destruct (HN a H) as [H'|H']; auto. destruct (r_acc _ _ _ _ _ _ _ _ R a H') as [?|(t & Ot)]; auto.
    destruct (N.eq_dec t tid) as [->|NE]; [congruence|eauto].
  - exact (r_kp _ _ _ _ _ _ _ _ R).
  - destruct (r_fol _ _ _ _ _ _ _ _ R) as [F1 F2 F3 F4]. split; cbn [ast ath].
    + intros k. rewrite YA, F1. destruct (ast x (k + 1)) as [a|] eqn:E; auto.
      apply (r_kp _ _ _ _ _ _ _ _ R) in E. destruct (hp_key _ _ _ _ _ _ _ R E) as [d Ed].
      rewrite HK, Ed; [reflexivity|]. rewrite Ed. discriminate.
    + intros t o' p'. unfold fupd. destruct (N.eqb_spec t tid) as [->|NE].
      * cbn [active]. intros [= <- <-]. rewrite YP. split; reflexivity.
      * rewrite YT by exact NE. apply F2.
    + intros t. unfold fupd. destruct (N.eqb_spec t tid) as [->|NE]; [discriminate|apply F3].
    + intros t o' p'. destruct (N.eqb_spec t tid) as [->|NE].
      * cbn [active]. intros [= <- <-] AD. cbn [PtrGrowingRel.tok] in TK. unfold ptr_of. rewrite AD. now apply TK.
      * intros At AD. destruct (OD t p' NE) as [-> _]; [eapply active_own; eauto|]. now apply (F4 t).
  - exact Logic.I.
  - auto.
Qed.

Lemma inv_case kp s g x y tid o v :
  rel kp s g x y -> pgthr s tid = None -> pop_key o < K ->
  goal_ s (PGSys (pgver s) (pgmap s) (pgmem s) (pgmig s) (pgheap s)
    (fupd (pgthr s) tid (Some (o, v, pstart c (pgmap s (pgver s)) o)))) y [EInv tid (pspec_op o)].
Proof.
  intros R E LK. pose proof (r_y _ _ _ _ _ _ _ _ R tid) as YI. rewrite E in YI. cbn in YI.
  destruct y as [n yh]. cbn [ath] in YI.
  assert (AS : asteps spec (AObj n yh) [EInv tid (pspec_op o)] (AObj n (fupd yh tid (APend (pspec_op o))))).
  { eapply as_vis; [now apply a_inv|apply as_nil]. }
  unfold pstart. rewrite PG. destruct (pop_adds o) eqn:AD.
  - eapply (side kp s g x _ _ _ tid _ (AObj n (fupd yh tid (APend (pspec_op o))))); eauto.
    + now rewrite E.
    + intros o' u' pc' [= <- <- <-]. auto.
    + apply R.
    + intros t a NE O. split; auto. discriminate.
    + intros a H. destruct (r_acc _ _ _ _ _ _ _ _ R a H) as [?|(t & Ot)]; auto.
      destruct (N.eq_dec t tid) as [->|NE]; [rewrite E in Ot; discriminate|eauto].
    + apply (f_map _ _ _ _ _ _ (r_fol _ _ _ _ _ _ _ _ R)).
    + intros t NE. cbn [ath]. now apply fupd_neq.
    + cbn [ath ystat]. apply fupd_eq.
  - eapply (enter kp s g x (AObj n yh) _ _ tid o v 0 R LK); eauto.
    + now rewrite E.
    + apply R.
    + cbn. congruence.
    + now rewrite E.
    + cbn [own]. rewrite AD. discriminate.
    + intros t NE. cbn [ath]. now apply fupd_neq.
    + cbn [ath]. apply fupd_eq.
Qed.

Lemma ret_case kp s g x y tid o u r :
  rel kp s g x y -> pgthr s tid = Some (o, u, QDone r) ->
  goal_ s (PGSys (pgver s) (pgmap s) (pgmem s) (pgmig s) (pgheap s) (fupd (pgthr s) tid None)) y [ERet tid r].
Proof.
  intros R E. pose proof (r_y _ _ _ _ _ _ _ _ R tid) as YI. rewrite E in YI. cbn in YI.
  destruct y as [n yh]. cbn [ath] in YI.
  eapply (side kp s g x _ _ _ tid _ (AObj n (fupd yh tid AIdle))); eauto.
  - now rewrite E.
  - discriminate.
  - apply R.
  - intros t a NE O. split; auto. discriminate.
  - intros a H. destruct (r_acc _ _ _ _ _ _ _ _ R a H) as [?|(t & Ot)]; auto.
    destruct (N.eq_dec t tid) as [->|NE]; [rewrite E in Ot; discriminate|eauto].
  - apply (f_map _ _ _ _ _ _ (r_fol _ _ _ _ _ _ _ _ R)).
  - intros t NE. cbn [ath]. now apply fupd_neq.
  - cbn [ath ystat]. apply fupd_eq.
  - eapply as_vis; [now apply a_ret|apply as_nil].
Qed.

(** *** Steps outside the table *)

Lemma alloc_case kp s g x y tid o u a v :
  rel kp s g x y -> pgthr s tid = Some (o, u, QAlloc) -> alloc a -> pgheap s a = None ->
  goal_ s (PGSys (pgver s) (pgmap s) (fupd (pgmem s) v (pgmem s v)) (pgmig s)
    (fupd (pgheap s) a (Some (pop_key o, pop_data o))) (fupd (pgthr s) tid (Some (o, u, QTry (slot_bare mk a))))) y [].
Proof.
  intros R E AL FR. destruct (HA a AL) as [AR AN]. destruct (bare_word mk a AR) as (W1 & W2 & W3 & W4).
  destruct (r_tok _ _ _ _ _ _ _ _ R _ _ _ _ E) as [LK AD]. cbn in AD.
  pose proof (r_y _ _ _ _ _ _ _ _ R tid) as YI. rewrite E in YI. cbn in YI.
  assert (KA : kp a = None).
  { destruct (kp a) as [k|] eqn:Ek; auto. destruct (hp_key _ _ _ _ _ _ _ R Ek). congruence. }
  eapply (enter kp s g x y _ _ tid o u _ R LK); eauto.
  - now rewrite E.
  - apply same_mem.
  - intros b k Hb. rewrite fupd_neq; [now apply (r_hp _ _ _ _ _ _ _ _ R)|]. congruence.
  - intros b Hb. apply fupd_neq. congruence.
  - intros b. unfold fupd. destruct (N.eqb_spec b a) as [->|]; auto. intros _. right. cbn [own]. now rewrite AD, W2.
  - intros _. unfold slotok. rewrite W2, fupd_eq. sp; auto; lia.
  - now rewrite E.
  - intros b. cbn [own]. rewrite AD, W2. intros [= <-]. exact FR.
  - apply as_nil.
Qed.

Lemma upd_case kp s g x y tid o u w curr k d v :
  rel kp s g x y -> pgthr s tid = Some (o, u, QUpd w curr) -> pgheap s (w_ptr curr) = Some (k, d) ->
  goal_ s (PGSys (pgver s) (pgmap s) (fupd (pgmem s) v (pgmem s v)) (pgmig s)
    (fupd (pgheap s) (w_ptr curr) (Some (k, pop_fun o d)))
    (fupd (pgthr s) tid (Some (o, u, if pop_adds o then QFree w (OutIs (RUpdated 0)) else QDone (RUpdated 0))))) y [].
Proof.
  intros R E EH. destruct (r_tok _ _ _ _ _ _ _ _ R _ _ _ _ E) as [LK (KC & SL & OP)].
  pose proof (r_y _ _ _ _ _ _ _ _ R tid) as YI. rewrite E in YI. cbn in YI.
  destruct (hp_key _ _ _ _ _ _ _ R KC) as [d' Ed]. rewrite EH in Ed. injection Ed as -> <-.
  pose proof (proj1 (r_kp _ _ _ _ _ _ _ _ R _ _) KC) as AX.
  pose proof (f_map _ _ _ _ _ _ (r_fol _ _ _ _ _ _ _ _ R)) as FM.
  destruct y as [n yh]. cbn [ast ath] in *.
  assert (NK : n (pop_key o) = Some d) by (rewrite FM, AX, EH; reflexivity).
  assert (SP : spec n (pspec_op o) (fupd n (pop_key o) (Some (pop_fun o d))) (RUpdated 0)).
  { destruct OP as [(k & f & ->)|(k & e & f & ->)]; cbn in *.
    - now apply (s_update_hit false false n k f (fun _ => 0) d).
    - now apply (s_iou_hit false false n k e f (fun _ => 0) d). }
  assert (OWN : own (pgthr s tid) = if pop_adds o then Some (w_ptr w) else None) by now rewrite E.
  assert (OX : own (Some (o, u, if pop_adds o then QFree w (OutIs (RUpdated 0)) else QDone (RUpdated 0))) = own (pgthr s tid)).
  { rewrite OWN. destruct (pop_adds o) eqn:AD; cbn [own]; rewrite ?AD; reflexivity. }
  assert (NO : forall t a, own (pgthr s t) = Some a -> a <> w_ptr curr).
  { intros t a O ->. destruct (others _ _ _ _ _ _ _ R O). congruence. }
  eapply (side kp s g x _ _ _ tid _ (AObj (fupd n (pop_key o) (Some (pop_fun o d))) (fupd yh tid (ADone (RUpdated 0))))); eauto.
  - now rewrite E.
  - now destruct (pop_adds o).
  - apply same_mem.
  - intros o' u' pc' [= <- <- <-]. split; auto. destruct (pop_adds o) eqn:AD; [|exact Logic.I]. cbn [PtrGrowingRel.tok outok].
    sp; auto. eapply slotok_le; [now apply SL| |].
    + apply fupd_neq. apply (NO tid). now rewrite OWN.
    + now apply SL.
  - intros a k Ha. unfold fupd. destruct (N.eqb_spec a (w_ptr curr)) as [->|]; [|now apply (r_hp _ _ _ _ _ _ _ _ R)].
    rewrite KC in Ha. injection Ha as ->. eauto.
  - intros t a NE O. split; [apply fupd_neq; eauto|]. rewrite OX. intros O'. apply NE. eapply (r_own _ _ _ _ _ _ _ _ R); eauto.
  - intros a H. assert (H' : pgheap s a <> None).
    { revert H. unfold fupd. destruct (N.eqb_spec a (w_ptr curr)) as [->|]; auto. intros _. rewrite EH. discriminate. }
    destruct (r_acc _ _ _ _ _ _ _ _ R a H') as [?|(t & Ot)]; auto.
    destruct (N.eq_dec t tid) as [->|NE]; [right; left; congruence|eauto].
  - intros k. cbn [ast]. unfold fupd at 1. destruct (N.eqb_spec k (pop_key o)) as [->|NE].
    + rewrite AX, fupd_eq. reflexivity.
    + rewrite FM. destruct (ast x (k + 1)) as [a|] eqn:Ea; auto. rewrite fupd_neq; auto.
      intros ->. apply (r_kp _ _ _ _ _ _ _ _ R) in Ea. congruence.
  - intros t NE. cbn [ath]. now apply fupd_neq.
  - cbn [ath]. rewrite fupd_eq. destruct (pop_adds o); reflexivity.
  - eapply as_tau; [eapply a_lin; eauto|apply as_nil].
Qed.

Lemma free_case kp s g x y tid o u w out v :
  rel kp s g x y -> pgthr s tid = Some (o, u, QFree w out) ->
  exists hp', w_cleanup (pgheap s) w = Some hp' /\
  goal_ s (PGSys (pgver s) (pgmap s) (fupd (pgmem s) v (pgmem s v)) (pgmig s) hp'
    (fupd (pgthr s) tid (Some (o, u, deliver out)))) y [].
Proof.
  intros R E. destruct (r_tok _ _ _ _ _ _ _ _ R _ _ _ _ E) as [LK (AD & SL & OK)].
  destruct SL as (W1 & W2 & W3 & W4 & W5 & W6).
  pose proof (r_y _ _ _ _ _ _ _ _ R tid) as YI. rewrite E in YI. cbn in YI.
  assert (OWN : own (pgthr s tid) = Some (w_ptr w)) by (rewrite E; cbn; now rewrite AD).
  exists (fupd (pgheap s) (w_ptr w) None). split.
  { unfold w_cleanup. destruct (N.eqb_spec (w_ptr w) 0); [contradiction|]. now rewrite W5. }
  eapply (side kp s g x _ _ _ tid _ y); eauto.
  - now rewrite E.
  - now destruct out.
  - apply same_mem.
  - intros o' u' pc' [= <- <- <-]. split; auto. destruct out; try exact Logic.I; exact OK.
  - intros a k Ha. rewrite fupd_neq; [now apply (r_hp _ _ _ _ _ _ _ _ R)|]. congruence.
  - intros t a NE O. split.
    + apply fupd_neq. intros ->. apply NE. eapply (r_own _ _ _ _ _ _ _ _ R); eauto.
    + now destruct out.
  - intros a. unfold fupd. destruct (N.eqb_spec a (w_ptr w)) as [->|NA]; [congruence|]. intros H.
    destruct (r_acc _ _ _ _ _ _ _ _ R a H) as [?|(t & Ot)]; auto.
    destruct (N.eq_dec t tid) as [->|NE]; [congruence|eauto].
  - intros k. rewrite (f_map _ _ _ _ _ _ (r_fol _ _ _ _ _ _ _ _ R)). destruct (ast x (k + 1)) as [a|] eqn:Ea; auto.
    rewrite fupd_neq; auto. apply (r_kp _ _ _ _ _ _ _ _ R) in Ea. congruence.
  - destruct out; exact YI.
  - apply as_nil.
Qed.

Lemma read_case kp s g x y tid o u out v :
  rel kp s g x y -> pgthr s tid = Some (o, u, QRead out) ->
  exists r, (match out with
             | OutIs r => QDone r
             | OutPresent w => match pgheap s (w_ptr w) with Some (_, d) => QDone (RPresent d) | None => QBad end
             | OutFound w => match pgheap s (w_ptr w) with Some (_, d) => QDone (RFound d) | None => QBad end
             end) = QDone r /\
  goal_ s (PGSys (pgver s) (pgmap s) (fupd (pgmem s) v (pgmem s v)) (pgmig s) (pgheap s)
    (fupd (pgthr s) tid (Some (o, u, QDone r)))) y [].
Proof.
  intros R E. destruct (r_tok _ _ _ _ _ _ _ _ R _ _ _ _ E) as [LK OK]. cbn in OK.
  pose proof (r_y _ _ _ _ _ _ _ _ R tid) as YI. rewrite E in YI. cbn in YI.
  assert (FIN : forall r (y' : aobj'), asteps spec y [] y' -> ast y' = ast y -> (forall t, t <> tid -> ath y' t = ath y t) ->
     ath y' tid = ADone r ->
     goal_ s (PGSys (pgver s) (pgmap s) (fupd (pgmem s) v (pgmem s v)) (pgmig s) (pgheap s)
      (fupd (pgthr s) tid (Some (o, u, QDone r)))) y []).
  { intros r y' AS YA YT YD. eapply (side kp s g x _ _ _ tid _ y'); eauto.
    - now rewrite E.
    - apply same_mem.
    - intros o' u' pc' [= <- <- <-]. split; auto. exact Logic.I.
    - apply R.
    - intros t a NE O. split; auto. discriminate.
    - intros a H. destruct (r_acc _ _ _ _ _ _ _ _ R a H) as [?|(t & Ot)]; auto.
      destruct (N.eq_dec t tid) as [->|NE]; [rewrite E in Ot; discriminate|eauto].
    - intros k. transitivity (ast y k); [exact (f_equal (fun h => h k) YA)|]. apply (f_map _ _ _ _ _ _ (r_fol _ _ _ _ _ _ _ _ R)). }
  assert (VAL : forall w, kp (w_ptr w) = Some (pop_key o) ->
     exists d, pgheap s (w_ptr w) = Some (pop_key o, d) /\ ast y (pop_key o) = Some d).
  { intros w KW. destruct (hp_key _ _ _ _ _ _ _ R KW) as [d Ed]. exists d. split; auto.
    rewrite (f_map _ _ _ _ _ _ (r_fol _ _ _ _ _ _ _ _ R)).
    apply (r_kp _ _ _ _ _ _ _ _ R) in KW. rewrite KW, Ed. reflexivity. }
  destruct y as [n yh]. cbn [ast ath] in *.
  destruct out as [r|w|w]; cbn [outok] in OK.
  - exists r. split; auto. eapply FIN; [apply as_nil|reflexivity|reflexivity|exact YI].
  - destruct OK as [OP KW]. destruct (VAL w KW) as (d & -> & NK). exists (RPresent d). split; auto.
    eapply (FIN _ (AObj n (fupd yh tid (ADone (RPresent d))))); auto.
    + eapply as_tau; [|apply as_nil]. eapply a_lin; eauto.
      destruct OP as (k & e & [->| ->]); now constructor.
    + intros t NE. cbn [ath]. now apply fupd_neq.
    + cbn [ath]. apply fupd_eq.
  - destruct OK as [(k & ->) KW]. destruct (VAL w KW) as (d & -> & NK). exists (RFound d). split; auto.
    eapply (FIN _ (AObj n (fupd yh tid (ADone (RFound d))))); auto.
    + eapply as_tau; [|apply as_nil]. eapply a_lin; eauto. now constructor.
    + intros t NE. cbn [ath]. now apply fupd_neq.
    + cbn [ath]. apply fupd_eq.
Qed.

(** *** Steps on the table *)

Lemma home_eq m k : home ac m (k + 1) = phome c m k.
Proof. unfold home, phome, hashk, phk. cbn [tmc thash acfg]. now rewrite N.add_sub. Qed.

Lemma aop_key o p : op_key (aop o p) = pop_key o + 1.
Proof. now destruct o. Qed.

Lemma try_case kp s g x y tid o u w :
  rel kp s g x y -> pgthr s tid = Some (o, u, QTry w) ->
  goal_ s (PGSys (pgver s) (pgmap s) (fupd (pgmem s) (pgver s) (pgmem s (pgver s))) (pgmig s) (pgheap s)
    (fupd (pgthr s) tid (Some (o, pgver s, QLoad (phome c (pgmap s (pgver s)) (pop_key o))
       (if pop_adds o then set_fingerprint mk w (phk c (pop_key o)) else w))))) y [].
Proof.
  intros R E. destruct (r_tok _ _ _ _ _ _ _ _ R _ _ _ _ E) as [LK TK]. cbn in TK.
  pose proof (r_thr _ _ _ _ _ _ _ _ R tid) as T. rewrite E in T. cbn [PtrGrowingRel.athr] in T.
  pose proof (get c K B HB g x tid _ (r_g _ _ _ _ _ _ _ _ R) T) as G1.
  set (w' := if pop_adds o then _ else w).
  assert (EP : pop_adds o = true -> w_ptr w' = w_ptr w).
  { intros AD. unfold w'. rewrite AD. destruct (TK AD) as (_ & M & _). now apply set_fp_word. }
  assert (EP' : ptr_of o w' = ptr_of o w).
  { unfold ptr_of. destruct (pop_adds o); auto. }
  eapply (rebuild_same c K B kp s g x y _ tid _ _ x y R); [..|exact G1].
  - apply R.
  - apply R.
  - reflexivity.
  - intros v. cbn [gmem]. eapply amr_ext'; [intros q; apply same_mem|apply R].
  - intros t. cbn [gthr PtrGrowingRel.athr]. rewrite EP'. unfold fupd. destruct (t =? tid); auto.
    unfold start. rewrite aop_key, home_eq, (r_ver _ _ _ _ _ _ _ _ R), (r_map _ _ _ _ _ _ _ _ R). reflexivity.
  - intros o' u' pc' [= <- <- <-]. split; auto. cbn [PtrGrowingRel.tok]. intros AD.
    destruct (TK AD) as (W1 & W2 & W3). destruct (set_fp_word mk w (phk c (pop_key o)) W2) as (X1 & X2 & X3 & X4).
    unfold slotok, fpok, w'. rewrite AD, X2. sp; auto; apply W3.
  - rewrite E. cbn [own]. destruct (pop_adds o) eqn:AD; auto. now rewrite EP.
  - apply R.
  - eapply follow_act; [|apply R]. intros t. destruct (N.eqb_spec t tid) as [->|]; auto.
    rewrite E. cbn [active]. now rewrite EP'.
  - exact Logic.I.
  - auto.
  - apply as_nil.
Qed.

Lemma cas_case kp s g x y tid o u i w curr cell :
  let p := remap mc (pgmap s u) i in
  let s' := PGSys (pgver s) (pgmap s)
    (fupd (pgmem s) u (fupd (pgmem s u) p (Some (if cell =? curr then w else cell)))) (pgmig s) (pgheap s)
    (fupd (pgthr s) tid (Some (o, u, if cell =? curr then QDone RInserted else QLoad i w))) in
  rel kp s g x y -> pmode s s' -> pgthr s tid = Some (o, u, QCas i w curr) ->
  prd c (pgmap s u) (pgmem s u) p = Some cell ->
  goal_ s s' y [].
Proof.
  intros p s' R PM E RD. destruct (r_tok _ _ _ _ _ _ _ _ R _ _ _ _ E) as [LK (AD & SL & FP & GC)].
  pose proof (r_thr _ _ _ _ _ _ _ _ R tid) as T. rewrite E in T. cbn [PtrGrowingRel.athr] in T.
  pose proof (amr_rd c K kp (pgmap s u) _ _ p (r_mem _ _ _ _ _ _ _ _ R u)) as RD'.
  rewrite RD in RD'. destruct RD' as [RD' G].
  assert (AT : active (pgthr s tid) = Some (o, w_ptr w)) by (rewrite E; cbn; unfold ptr_of; now rewrite AD).
  assert (OWN : own (pgthr s tid) = Some (w_ptr w)) by (rewrite E; cbn; now rewrite AD).
  assert (EA : athr kp (Some (o, u, QCas i w curr)) = Some (aop o (w_ptr w), GRun u (PCas i (aimg kp curr)))).
  { cbn. unfold ptr_of. now rewrite AD. }
  destruct SL as (W1 & W2 & W3 & W4 & W5 & W6).
  assert (OS : op_slot (aop o (w_ptr w)) = Slot (pop_key o + 1) (w_ptr w)) by (destruct o; try discriminate; reflexivity).
  destruct (N.eqb_spec cell curr) as [->|NE].
  - (* inserted *)
    set (kp' := fupd kp (w_ptr w) (Some (pop_key o))).
    assert (LE : kle kp kp').
    { intros a k Ha. unfold kp'. rewrite fupd_neq; auto. congruence. }
    assert (KW : kp' (w_ptr w) = Some (pop_key o)) by apply fupd_eq.
    assert (GW : wgood kp' w).
    { unfold PtrGrowingImg.wgood. sp; auto; [contradiction|]. intros _. exists (pop_key o). auto. }
    assert (IW : aimg kp' w = Slot (pop_key o + 1) (w_ptr w)).
    { unfold PtrGrowingImg.aimg, wcont. rewrite KW, W2. destruct (N.eqb_spec (w_ptr w) 0); [contradiction|reflexivity]. }
    set (t' := fupd (gmem g u) p (Some (Slot (pop_key o + 1) (w_ptr w)))).
    set (bp' := PDone (BRet RC_SUCCESS_IN (in_slot (aop o (w_ptr w)) (aimg kp curr)) (Some p))).
    assert (BS : bstep ac (gmap g u) (gmem g u) true (aop o (w_ptr w)) (PCas i (aimg kp curr)) = (t', bp')).
    { cbn [bstep tmc tsc acfg]. rewrite (r_map _ _ _ _ _ _ _ _ R). fold p. rewrite RD'.
      unfold cas. rewrite slot_eqb_refl, OS. reflexivity. }
    assert (AM : forall v, amr kp' (pgmem s' v) (fupd (gmem g) u t' v)).
    { intros v. unfold s'. cbn [pgmem]. unfold fupd at 1 3. destruct (N.eqb_spec v u) as [->|].
      - unfold t'. rewrite <- IW. apply amr_upd; auto. eapply amr_le; eauto. apply R.
      - eapply amr_le; eauto. apply R. }
    assert (M1 : mode ac g (GSys (gver g) (gmap g) (fupd (gmem g) u t') (gmig g)
       (fupd (gthr g) tid (Some (aop o (w_ptr w), GRun u bp'))))).
    { eapply und; eauto. }
    destruct (run_tau c K B CF HB kp s g x y tid o u _ _ _ true _ bp' R E EA eq_refl BS M1)
      as (x1 & y1 & G1 & A1 & F1 & MV & OT).
    set (g1 := GSys _ _ _ _ _) in G1, M1.
    assert (GT : gthr g1 tid = Some (aop o (w_ptr w), GRun u bp')) by (unfold g1; cbn [gthr]; apply fupd_eq).
    pose proof (grel_done c K B _ _ _ _ _ _ G1 GT) as D.
    assert (D' : ath x1 tid = ADone RInserted) by (rewrite D; destruct o; try discriminate; reflexivity).
    pose proof (f_act _ _ _ _ _ _ F1 tid _ _ AT) as XS. rewrite D' in XS. cbn in XS. destruct XS as (_ & XM & YS).
    eapply (rebuild c K B kp s g x y kp' _ _ tid _ (GSys (gver g1) (gmap g1) (gmem g1) (gmig g1) (fupd (gthr g1) tid None))
      (AObj (ast x1) (fupd (ath x1) tid AIdle)) y1 _ R LE).
    + apply R.
    + apply R.
    + reflexivity.
    + exact AM.
    + intros t. unfold g1. cbn [gthr PtrGrowingRel.athr]. unfold fupd. now destruct (t =? tid).
    + intros o' u' pc' [= <- <- <-]. split; auto. exact Logic.I.
    + intros a k. unfold kp', fupd. destruct (N.eqb_spec a (w_ptr w)) as [->|]; [|apply R].
      intros [= <-]. eauto.
    + intros t a NE O. sp; auto; [|discriminate]. unfold kp'. apply fupd_neq. intros ->. apply NE.
      eapply (r_own _ _ _ _ _ _ _ _ R); eauto.
    + intros a H. destruct (r_acc _ _ _ _ _ _ _ _ R a H) as [H'|(t & Ot)].
      * left. destruct (kp a) as [k|] eqn:Ek; [|contradiction]. rewrite (LE _ _ Ek). discriminate.
      * destruct (N.eq_dec t tid) as [->|NE]; [|eauto]. left. rewrite OWN in Ot. injection Ot as <-. rewrite KW. discriminate.
    + eapply (new_kp kp x x1 y y1 _ tid o (w_ptr w)); eauto. apply R.
    + now apply leave_follow.
    + exact YS.
    + intros t _ H. apply (m_rest _ _ _ _ _ MV t H).
    + exact A1.
    + eapply leave; eauto.
  - (* somebody else was faster *)
    set (t' := fupd (gmem g u) p (Some (aimg kp cell))).
    assert (BS : bstep ac (gmap g u) (gmem g u) true (aop o (w_ptr w)) (PCas i (aimg kp curr)) = (t', PLoad i)).
    { cbn [bstep tmc tsc acfg]. rewrite (r_map _ _ _ _ _ _ _ _ R). fold p. rewrite RD'.
      unfold cas. rewrite aimg_eqb by assumption. destruct (N.eqb_spec cell curr); [contradiction|reflexivity]. }
    assert (AM : forall v, amr kp (pgmem s' v) (fupd (gmem g) u t' v)).
    { intros v. unfold s'. cbn [pgmem]. unfold fupd at 1 3. destruct (N.eqb_spec v u) as [->|]; [|apply R].
      apply amr_upd; auto. apply R. }
    assert (M1 : mode ac g (GSys (gver g) (gmap g) (fupd (gmem g) u t') (gmig g)
       (fupd (gthr g) tid (Some (aop o (w_ptr w), GRun u (PLoad i)))))).
    { eapply (und c K B kp kp); eauto. intros a k H. exact H. }
    destruct (run_tau c K B CF HB kp s g x y tid o u _ _ _ true _ (PLoad i) R E EA eq_refl BS M1)
      as (x1 & y1 & G1 & A1 & F1 & MV & OT).
    set (g1 := GSys _ _ _ _ _) in G1, M1.
    assert (GT : gthr g1 tid = Some (aop o (w_ptr w), GRun u (PLoad i))) by (unfold g1; cbn [gthr]; apply fupd_eq).
    eapply (rebuild_same c K B kp s g x y _ tid _ g1 x1 y1 R).
    + apply R.
    + apply R.
    + reflexivity.
    + exact AM.
    + intros t. unfold g1. cbn [gthr PtrGrowingRel.athr]. unfold fupd, ptr_of. rewrite AD. now destruct (t =? tid).
    + intros o' u' pc' [= <- <- <-]. split; auto. intros _. unfold slotok. sp; auto.
    + rewrite OWN. cbn [own]. now rewrite AD.
    + eapply same_kp; [apply R|exact MV|]. intros t o' p' At AD'. destruct (N.eq_dec t tid) as [->|NT]; [|eapply OT; eauto].
      rewrite (grel_pend c K B g1 x1 tid _ _ G1 GT); [discriminate| |now apply adds_finding]. eauto.
    + eapply follow_act; [|exact F1]. intros t. destruct (N.eqb_spec t tid) as [->|]; auto. rewrite AT.
      cbn [active]. unfold ptr_of. now rewrite AD.
    + exact Logic.I.
    + intros t _ H. apply (m_rest _ _ _ _ _ MV t H).
    + exact A1.
    + exact G1.
Qed.

(** *** Migration *)

Lemma mig_case kp s g x y v' mp' me' mg' g1 :
  rel kp s g x y -> gsys_step ac B (acl K) g None g1 -> mode ac g g1 -> room ac g g1 ->
  gver g1 = v' -> gmap g1 = mp' -> (forall u, amr kp (me' u) (gmem g1 u)) -> migrel c K kp mg' (gmig g1) ->
  gthr g1 = gthr g ->
  goal_ s (PGSys v' mp' me' mg' (pgheap s) (pgthr s)) y [].
Proof.
  intros R S M RM EV EM AM MG ET.
  destruct (tau_step c K B CF HB g g1 x (acts s) (pgheap s) y (r_g _ _ _ _ _ _ _ _ R) S M RM (r_fol _ _ _ _ _ _ _ _ R))
    as (x1 & y1 & G1 & A1 & F1 & MV).
  exists kp, g1, x1, y1. split; auto.
  split; cbn [pgver pgmap pgmem pgmig pgheap pgthr]; auto; try apply R.
  - rewrite ET. apply R.
  - eapply same_kp; [apply R|exact MV|]. intros t o p At AD.
    rewrite (still_pending c K B kp s g x y g1 x1 t o p R G1); auto; [discriminate|]. now rewrite ET.
  - intros t. destruct (active (pgthr s t)) as [[o p]|] eqn:At.
    + destruct (pgthr s t) as [[[o1 u1] pc1]|]; [|discriminate]. destruct pc1; try discriminate; exact Logic.I.
    + rewrite (m_rest _ _ _ _ _ MV t At). apply R.
Qed.

Lemma grow_mode kp s g x y s' g' : rel kp s g x y -> pmode s s' -> gmig g = None -> mode ac g g'.
Proof.
  intros R PM N0. right. intros H. congruence.
Qed.

Lemma help_mode kp s s' g x y g' : rel kp s g x y -> pmode s s' ->
  amr kp (pgmem s' (pgver s)) (gmem g' (pgver s)) -> mode ac g g'.
Proof. intros R PM AM. eapply und; eauto. intros a k H. exact H. Qed.

(** Cells that do not exist are not accessed. *)
Lemma no_bad kp s s' g x y tid o u pc i p bp :
  rel kp s g x y -> pmode s s' -> pgthr s tid = Some (o, u, pc) -> ~ off_table pc ->
  athr kp (Some (o, u, pc)) = Some (aop o p, GRun u bp) ->
  (bp = PLoad i \/ exists cu, bp = PCas i cu) ->
  prd c (pgmap s u) (pgmem s u) (remap mc (pgmap s u) i) <> None.
Proof.
  intros R PM E NO EA BP RD.
  pose proof (amr_rd c K kp (pgmap s u) _ _ (remap mc (pgmap s u) i) (r_mem _ _ _ _ _ _ _ _ R u)) as RD'.
  rewrite RD in RD'.
  assert (BS : bstep ac (gmap g u) (gmem g u) true (aop o p) bp = (gmem g u, PBad)).
  { rewrite (r_map _ _ _ _ _ _ _ _ R).
    destruct BP as [->|(cu & ->)]; cbn [bstep tmc acfg]; rewrite RD'; reflexivity. }
  assert (RN : running bp = true) by (destruct BP as [->|(cu & ->)]; reflexivity).
  destruct (run_tau c K B CF HB kp s g x y tid o u pc p bp true _ PBad R E EA RN BS)
    as (x1 & y1 & G1 & _).
  { apply mode_same; [|eapply on_table_mode; eauto]. intros v q. cbn [gmem]. unfold fupd. now destruct (N.eqb_spec v u) as [->|]. }
  eapply (grel_bad c K B _ _ tid (aop o p) u G1). cbn [gthr]. apply fupd_eq.
Qed.

Lemma step_sim kp s g x y (client : pop -> Prop) e s' :
  (forall o, client o -> pop_key o < K) ->
  rel kp s g x y -> pgstep c B alloc client s e s' -> pmode s s' -> pg_room c s s' ->
  goal_ s s' y (match e with Some e => [e] | None => [] end).
Proof.
  intros CL R ST PM RM.
  inversion ST as [v mp me mg hp th tid o TN C0|v mp me mg hp th tid o u pc a hp' t' pc' TE ND AL QS
    |v mp me mg hp th tid o u r TE|v mp me hp th ins del LT|v mp me k h hp th tid HT
    |v mp me k h hp th tid pc s1 t1 k1 pc1 HT PH|v mp me k h hp th EX EA]; subst.
  - exact (inv_case _ _ _ _ _ tid o v R TN (CL o C0)).
  - (* a step of a call *)
    pose proof (r_tok _ _ _ _ _ _ _ _ R _ _ _ _ TE) as [LK TK].
    destruct pc as [|w|i w|i w curr|w curr|w out|out|r|]; cbn [qstep on_version] in *.
    + rewrite PG in QS. injection QS as <- <- <-. unfold build. rewrite PG. destruct (AL eq_refl) as [A1 A2].
      exact (alloc_case _ _ _ _ _ tid o u a u R TE A1 A2).
    + injection QS as <- <- <-. exact (try_case _ _ _ _ _ tid o u w R TE).
    + destruct (prd c (mp u) (me u) (remap mc (mp u) i)) as [curr|] eqn:RD.
      * injection QS as <- <- <-. exact (load_case c K B PG CF HB _ _ _ _ _ _ tid o u i w curr R PM TE RD).
      * exfalso. exact (no_bad _ _ _ _ _ _ tid o u _ i _ _ R PM TE (fun H => H) eq_refl (or_introl eq_refl) RD).
    + destruct (prd c (mp u) (me u) (remap mc (mp u) i)) as [cell|] eqn:RD.
      * unfold w_cas in QS. pose proof (cas_case _ _ _ _ _ tid o u i w curr cell R) as CC. cbv zeta in CC.
        cbn [pgver pgmap pgmem pgmig pgheap pgthr] in CC.
        assert (OI : wrap_add c o w RC_SUCCESS_IN (OutIs RInserted) = QDone RInserted).
        { unfold wrap_add. rewrite PG. destruct o; reflexivity. }
        destruct (cell =? curr); injection QS as <- <- <-; rewrite ?OI in *; apply CC; auto.
      * exfalso. exact (no_bad _ _ _ _ _ _ tid o u _ i _ _ R PM TE (fun H => H) eq_refl (or_intror (ex_intro _ _ eq_refl)) RD).
    + destruct TK as (KC & SL & OP). destruct (hp_key _ _ _ _ _ _ _ R KC) as [d Ed]. cbn [pgheap] in Ed. rewrite Ed in QS.
      pose proof (upd_case _ _ _ _ _ tid o u w curr _ d u R TE Ed) as UC. cbn [pgver pgmap pgmem pgmig pgheap pgthr] in UC.
      injection QS as <- <- <-. revert UC. unfold wrap_add, wrap_update. rewrite PG.
      destruct OP as [(k & f & ->)|(k & e & f & ->)]; exact (fun H => H).
    + destruct (free_case _ _ _ _ _ tid o u w out u R TE) as (hp1 & EC & GG). cbn [pgheap] in EC. rewrite EC in QS.
      injection QS as <- <- <-. exact GG.
    + destruct (read_case _ _ _ _ _ tid o u out u R TE) as (r & ER & GG). cbn [pgheap] in ER.
      destruct out; injection QS as <- <- <-; rewrite ER in *; exact GG.
    + now elim (ND r).
    + destruct TK.
  - exact (ret_case _ _ _ _ _ tid o u r R TE).
  - (* growing *)
    pose proof (r_mig _ _ _ _ _ _ _ _ R) as MG. cbn [pgmig] in MG. destruct (gmig g) eqn:EG; [contradiction|].
    pose proof (r_map _ _ _ _ _ _ _ _ R) as EM. pose proof (r_ver _ _ _ _ _ _ _ _ R) as EV. cbn [pgmap pgver] in EM, EV.
    eapply (mig_case kp _ g x y _ _ _ _ (GSys (gver g) (fupd (gmap g) (gver g + 1) (resize mc (gmap g (gver g)) ins del))
      (fupd (gmem g) (gver g + 1) (target_mem mc (resize mc (gmap g (gver g)) ins del))) (Some (0, fun _ => None)) (gthr g)) R).
    + destruct g as [gv gm ge gg gt]. cbn [gver gmap gmem gmig gthr] in *. subst gv gm gg.
      apply (g_grow ac B (acl K)). exact LT.
    + now eapply grow_mode; eauto.
    + intros _ H. now elim H.
    + exact EV.
    + cbn [gmap]. now rewrite EV, EM.
    + intros u. cbn [gmem]. rewrite EV, EM. unfold fupd. destruct (u =? v + 1); [apply (amr_target c K)|apply R].
    + split; auto. intros t. split; [reflexivity|discriminate].
    + reflexivity.
  - (* a helper joins *)
    pose proof (r_mig _ _ _ _ _ _ _ _ R) as MG. cbn [pgmig] in MG. destruct (gmig g) as [[k' h']|] eqn:EG; [|contradiction].
    destruct MG as [-> MG].
    eapply (mig_case kp _ g x y _ _ _ _ (GSys (gver g) (gmap g) (gmem g) (Some (k, fupd h' tid (Some HClaim))) (gthr g)) R).
    + destruct g as [gv gm ge gg gt]. cbn [gver gmap gmem gmig gthr] in *. subst gg.
      apply g_join. destruct (MG tid) as [-> _]. destruct HT as [->| ->]; auto.
    + eapply help_mode; eauto. cbn [pgmem gmem]. apply R.
    + intros _ H. now elim H.
    + apply R.
    + apply R.
    + apply R.
    + split; auto. intros t. unfold fupd. destruct (t =? tid); [|apply MG]. split; [reflexivity|].
      intros pc [= <-]. exact Logic.I.
    + reflexivity.
  - (* a helper makes a step *)
    pose proof (r_mig _ _ _ _ _ _ _ _ R) as MG. cbn [pgmig] in MG. destruct (gmig g) as [[k' h']|] eqn:EG; [|contradiction].
    destruct MG as [-> MG]. destruct (MG tid) as [E1 E2]. rewrite HT in E1. cbn in E1.
    pose proof (r_map _ _ _ _ _ _ _ _ R) as EM. pose proof (r_ver _ _ _ _ _ _ _ _ R) as EV. cbn [pgmap pgver] in EM, EV.
    destruct (aphstep c K kp _ _ B hp (r_hp _ _ _ _ _ _ _ _ R) _ _ _ _ _ _ _ _ _ _ PH
      (r_mem _ _ _ _ _ _ _ _ R v) (r_mem _ _ _ _ _ _ _ _ R (v + 1)) (E2 pc HT)) as (s2 & t2 & HS & A1 & A2 & P1).
    assert (AM : forall u, amr kp (fupd (fupd me v s1) (v + 1) t1 u) (fupd (fupd (gmem g) v s2) (v + 1) t2 u)).
    { intros u. unfold fupd. destruct (u =? v + 1); auto. destruct (u =? v); auto. apply R. }
    eapply (mig_case kp _ g x y _ _ _ _ (GSys (gver g) (gmap g) (fupd (fupd (gmem g) v s2) (v + 1) t2)
       (Some (k1, fupd h' tid (Some (aipc c K kp pc1)))) (gthr g)) R).
    + destruct g as [gv gm ge gg gt]. cbn [gver gmap gmem gmig gthr] in *. subst gv gm gg.
      eapply g_help; eauto.
    + eapply help_mode; eauto.
    + intros _ H. now elim H.
    + exact EV.
    + exact EM.
    + exact AM.
    + split; auto. intros t. unfold fupd. destruct (t =? tid); [|apply MG]. split; [reflexivity|].
      intros pc' [= <-]. exact P1.
    + reflexivity.
  - (* publishing *)
    pose proof (r_mig _ _ _ _ _ _ _ _ R) as MG. cbn [pgmig] in MG. destruct (gmig g) as [[k' h']|] eqn:EG; [|contradiction].
    destruct MG as [-> MG].
    pose proof (r_map _ _ _ _ _ _ _ _ R) as EM. pose proof (r_ver _ _ _ _ _ _ _ _ R) as EV. cbn [pgmap pgver] in EM, EV.
    eapply (mig_case kp _ g x y _ _ _ _ (GSys (gver g + 1) (gmap g) (gmem g) None (gthr g)) R).
    + destruct g as [gv gm ge gg gt]. cbn [gver gmap gmem gmig gthr] in *. subst gv gm gg.
      apply g_publish with (k := k) (h := h').
      * destruct EX as (t & Et). exists t. destruct (MG t) as [-> _]. now rewrite Et.
      * intros t pc Ht. destruct (MG t) as [Et _]. rewrite Et in Ht. destruct (h t) as [pc0|] eqn:E0; [|discriminate].
        cbn in Ht. injection Ht as <-. destruct (EA t pc0 E0) as [->| ->]; auto.
    + eapply help_mode; eauto. cbn [pgmem gmem]. apply R.
    + intros CP NE. destruct (RM CP) as (p & w & LP & EP & WE); [cbn; intros ?; lia|].
      exists p. cbn [tmc tsc acfg]. rewrite EV, EM. split; [exact LP|].
      pose proof (r_mem _ _ _ _ _ _ _ _ R v p) as AP. cbn [pgmem pgver] in AP, EP. rewrite EP in AP.
      destruct AP as [-> GW]. eexists. split; [reflexivity|].
      pose proof GW as (L & F & D & X). rewrite (empty_iff mk w L F) in WE. unfold PtrGrowingImg.aimg, wcont. rewrite WE.
      unfold word_is, enc. destruct (w_mark mk w) eqn:WM; [right|left; reflexivity].
      unfold w_mark in WM. apply andb_prop in WM. split; [apply WM|reflexivity].
    + cbn [gver]. now rewrite EV.
    + exact EM.
    + apply R.
    + exact Logic.I.
    + reflexivity.
Qed.

End Sim.
