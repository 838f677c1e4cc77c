(** Several threads using a growing table: from every state all calls can return. *)
From Coq Require Import NArith ZArith Bool List Lia.
From Verif Require Import Words Slot SlotFacts Mapper MapperFacts ReturnCode MapSpec LinSpec
  Base BaseInv BaseLin BaseExec BaseSolo TableSpec BaseFacts Migrate MigrateExec MigrateGeo MigrateInv GrowSpec MigrateRun MigrateHelp
  MigrateSys MigrateDone EndSpec MigrateEnd GrowFacts Growing GrowingSpec GrowingInv GrowingFacts GrowingSolo GrowingRoom
  AsyncTableInv Count GrowOom OneHandle OneHandleFacts Crowd CrowdSpec CrowdFacts CrowdCount.
Import ListNotations.
Open Scope N_scope.
Local Ltac sp := repeat match goal with |- _ /\ _ => split end.

(** FULL is an answer of linear probing only. *)
Lemma full_linear c m t b o pc t' r :
  cprob (tmc c) = true -> (forall r, pc <> PDone r) -> bstep c m t b o pc = (t', PDone r) -> rcode r <> RC_FULL.
Proof.
  intros CP ND H RC. destruct pc as [i|i curr|i curr|i curr|r0|]; cbn [bstep] in H; try discriminate.
  - destruct (rd c m t (remap (tmc c) m i)) as [s|] eqn:E; [|discriminate].
    injection H as _ H. unfold after_load in H. rewrite CP in H. cbn [negb andb] in H.
    destruct o; repeat match type of H with
      | (if ?x then _ else _) = _ => destruct x eqn:?
      end; try discriminate; try (injection H as <-; cbn in RC; discriminate); auto.
  - destruct (rd _ _ _ _); [|discriminate]. destruct (cas _ _ _ _) as [[ok ?] ?]. injection H as _ H.
    destruct ok; [injection H as <-; cbn in RC; discriminate|discriminate].
  - destruct (rd _ _ _ _); [|discriminate]. destruct (atomic_update _ _ _ _) as [[? ok] ?]. injection H as _ H.
    destruct ok; [injection H as <-; cbn in RC; discriminate|].
    destruct o; try discriminate. destruct b; [discriminate|]. injection H as <-. cbn in RC. discriminate.
  - destruct (rd _ _ _ _); [|discriminate]. destruct (atomic_delete _ _ _) as [[ok ?] ?]. injection H as _ H.
    destruct ok; [injection H as <-; cbn in RC; discriminate|discriminate].
  - now elim (ND r0).
Qed.

Lemma find_thread (P : N -> bool) n : (exists t, t < n /\ P t = true) \/ (forall t, t < n -> P t = false).
Proof.
  destruct (existsb P (nrange 0 (N.to_nat n))) eqn:E.
  - left. apply existsb_exists in E. destruct E as (t & I & E). apply in_nrange in I. exists t. split; [lia|auto].
  - right. intros t L. destruct (P t) eqn:PT; auto. assert (existsb P (nrange 0 (N.to_nat n)) = true); [|congruence].
    apply existsb_exists. exists t. split; [apply in_nrange; lia|auto].
Qed.

Section Live.
Context (c : tcfg) (B n : N) (client : op -> Prop).
Context (Hsc : wf_scfg (tsc c)) (CO : client_ok (tsc c) client) (NE : forall o, client o -> ~ erasing o).
Context (CP : cprob (tmc c) = true) (HB : 0 < B <= 2 ^ 31).
Notation sc := (tsc c).
Notation mc := (tmc c).
Notation cstep := (closed_step true c B n client).

(** Versions in the phases of the threads; nobody is told to start over. *)
Definition vers (s : ksys) : Prop :=
  let '(KSys (GSys v mp me mg th) e d l p) := s in
  (forall t u w, p t = KWant u w -> u <= v) /\
  (forall t u w, p t = KIn u w -> u <= v /\ (u = v -> mg <> None)) /\
  (mg <> None -> exists t w, t < n /\ p t = KIn v w) /\
  (forall t o u r, th t = Some (o, GRun u (PDone r)) -> retries o r = false).

Definition linv (s : ksys) : Prop :=
  kwf true n s /\ (exists x, grel c B client (k_g s) x) /\ cinv c n client s /\ vers s.

Lemma vers_init lg : vers (ksys_init c lg).
Proof. cbn. split; [discriminate|]. split; [discriminate|]. split; [congruence|discriminate]. Qed.

Lemma vers_step s x l s' : kwf true n s -> grel c B client (k_g s) x -> cinv c n client s -> vers s -> crowd_step true c B n client s l s' -> vers s'.
Proof.
  intros (W1 & W2 & W3 & W4) GR CI0 V ST. specialize (W4 eq_refl).
  destruct ST as [v mp me mg th e d l p t o L T P CLI|v mp me mg th e d l p t o L T P SY
    |v mp me mg th e d l p t o u pc b t' pc' L T P ND ST|v mp me mg th e d l p t o u r L T P R IV
    |v mp me mg th e d l p t o u r L T P R NI|v mp me mg th e d l p t o u r L T P R NI NE0
    |v mp me mg th e d l p t o u r m i x0 L T P R G C1 M|v mp me mg th e d l p t o u r m i x0 L T P R G SY C1 M CR
    |v mp me mg th e d l p t o u r m i x0 L T P R G SY C1 M CR|v mp me th e d l p t w L P NO AD
    |v mp me mg th e d l p t u w L P NV|v mp me k h th e d l p t o S0 L T P|v mp me k h th e d l p t u w L P H
    |v mp me k h th e d l p t pc s' t' k' pc' L H NE0 ST|v mp me k h th e d l p EX AL
    |v mp me mg th e d l p t o u L P LT T|v mp me mg th e d l p t o g r u L P LT T|v mp me mg th e d l p t o g u r L P LT T];
    cbn [k_g k_ph k_el k_du k_loc gthr gmig gver gmap gmem vers begin_grow] in *; destruct V as (V1 & V2 & V3 & V4);
    try (rewrite (V4 _ _ _ _ T) in R; discriminate).
  Ltac v4 V4 := let t0 := fresh "t0" in let o0 := fresh "o0" in let u0 := fresh "u0" in let r0 := fresh "r0" in let X := fresh "X" in
    intros t0 o0 u0 r0 X; unfold fupd in X; destruct (N.eqb t0 _); [congruence|eapply V4; eassumption].
  - sp; auto. v4 V4.
  - sp; auto. intros t0 o0 u0 r0 X. unfold fupd in X; destruct (N.eqb t0 _); [|eapply V4; eassumption]. injection X as -> -> X. discriminate.
  - sp; auto. intros t0 o0 u0 r0 X. unfold fupd in X; destruct (N.eqb t0 _); [|eapply V4; eassumption]. injection X as -> -> ->.
    assert (MG : mg = None).
    { destruct mg as [[k h]|]; auto. destruct (W4 ltac:(cbn; discriminate) t o0 u0 pc T) as [r1 ->]. now elim (ND r1). }
    subst mg.
    assert (NI : rcode r0 <> RC_INVALID).
    { intros RC. destruct (invalid_marked _ _ _ _ _ _ _ _ ND ST RC) as (q & y & RD & MK).
      destruct GR as (ct & mk & ts & CI & _).
      assert (u0 = v).
      { destruct CI0 as (lg & _ & _ & _ & _ & _ & _ & _ & _ & _ & RN & _). apply (RN _ _ _ _ T). now apply running_nd. }
      subst u0. pose proof (cur_tinv c B _ _ _ CI) as I. destruct CI as (lg & W & -> & _). cbn [gmap gver gmem gmig] in *.
      unfold rd in RD. destruct (N.ltb_spec q (total_slots mc (mp v))) as [LQ|]; [|discriminate].
      destruct (ti_cell _ _ _ _ _ I q LQ) as [E O]. rewrite E in RD. assert (Y : y = enc sc (ct q) false) by congruence. rewrite Y, (enc_is_marked sc Hsc) in MK by exact O. discriminate. }
    pose proof (full_linear _ _ _ _ _ _ _ _ CP ND ST) as NF.
    apply N.eqb_neq in NI, NF. unfold retries. rewrite NI, NF. now destruct o0.
  - sp; auto. v4 V4.
  - sp; auto. v4 V4.
  - sp; auto. v4 V4.
  - (* cross *) sp; auto.
    + intros t0 u0 w X. unfold fupd in X. destruct (t0 =? t); [injection X as <- _; lia|eauto].
    + intros t0 u0 w X. unfold fupd in X. destruct (t0 =? t); [discriminate|eauto].
    + intros X. elim X. now apply SY.
  - (* start *) sp; auto.
    + intros t0 u0 w0 X. unfold fupd in X. destruct (t0 =? t); [discriminate|eauto].
    + intros t0 u0 w0 X. unfold fupd in X. destruct (t0 =? t); [injection X as <- _; split; [lia|discriminate]|].
      split; [apply (V2 _ _ _ X)|discriminate].
    + intros _. exists t, w. split; auto. apply fupd_eq.
  - (* late *) sp; auto.
    + intros t0 u0 w0 X. unfold fupd in X. destruct (t0 =? t); [discriminate|eauto].
    + intros t0 u0 w0 X. unfold fupd in X. destruct (t0 =? t); [injection X as <- _; split; [eauto|intros ->; destruct NV; [lia|auto]]|].
      eapply V2; eauto.
    + intros X. destruct (V3 X) as (t0 & w0 & L0 & P0). exists t0, w0. split; auto. rewrite fupd_neq; auto. congruence.
  - (* wait *) sp; auto.
    + intros t0 u0 w0 X. unfold fupd in X. destruct (t0 =? t); [discriminate|eauto].
    + intros t0 u0 w0 X. unfold fupd in X. destruct (t0 =? t); [injection X as <- _; split; [lia|discriminate]|].
      eapply V2; eauto.
    + intros _. exists t, false. split; auto. apply fupd_eq.
  - (* join *) sp; auto. 
    + intros t0 u0 w0 X. split; [apply (V2 _ _ _ X)|discriminate].
    + intros _. apply V3. discriminate.
  - (* help *) sp; auto.
    + intros t0 u0 w0 X. split; [apply (V2 _ _ _ X)|discriminate].
    + intros _. apply V3. discriminate.
  - (* publish *) sp; auto; try congruence.
    + intros t0 u0 w0 X. specialize (V1 _ _ _ X). lia.
    + intros t0 u0 w0 X. destruct (V2 _ _ _ X). split; lia.
  - (* waited *) sp; auto.
    + intros t0 u0 w0 X. unfold fupd in X. destruct (t0 =? t); [discriminate|eauto].
    + intros t0 u0 w0 X. unfold fupd in X. destruct (t0 =? t); [discriminate|]. eapply V2; eauto.
    + intros X. destruct (V3 X) as (t0 & w0 & L0 & P0). exists t0, w0. split; auto. rewrite fupd_neq; auto.
      intros ->. rewrite P0 in P. injection P as -> _. lia.
  - (* again *) sp; auto.
    + intros t0 u0 w0 X. unfold fupd in X. destruct (t0 =? t); [discriminate|eauto].
    + intros t0 u0 w0 X. unfold fupd in X. destruct (t0 =? t); [discriminate|]. eapply V2; eauto.
    + intros X. destruct (V3 X) as (t0 & w0 & L0 & P0). exists t0, w0. split; auto. rewrite fupd_neq; auto.
      intros ->. rewrite P0 in P. injection P as -> _. lia.
    + v4 V4.
  - (* done *) sp; auto.
    + intros t0 u0 w0 X. unfold fupd in X. destruct (t0 =? t); [discriminate|eauto].
    + intros t0 u0 w0 X. unfold fupd in X. destruct (t0 =? t); [discriminate|]. eapply V2; eauto.
    + intros X. destruct (V3 X) as (t0 & w0 & L0 & P0). exists t0, w0. split; auto. rewrite fupd_neq; auto.
      intros ->. rewrite P0 in P. injection P as -> _. lia.
    + v4 V4.
Qed.

Lemma linv_step s l s' : linv s -> cstep s l s' -> linv s'.
Proof.
  intros (K & (x & GR) & CI & V) ST.
  pose proof (closed_roomy c B n client Hsc CP HB _ _ _ _ K GR CI ST) as RS.
  pose proof (cinv_step c B n client Hsc CO NE CP HB _ _ _ _ K GR CI ST) as CI'.
  pose proof (vers_step _ _ _ _ K GR CI V (proj1 ST)) as V'.
  assert (ONE : exists tr, lts_steps (roomy_step true c B n client) s tr s').
  { destruct l as [e|]; [exists [e]; eapply ls_vis; [exact RS|constructor]|exists []; eapply ls_tau; [exact RS|constructor]]. }
  destruct ONE as [tr ONE].
  destruct (roomy_sim true c B n client Hsc CO (or_intror CP) HB _ _ _ _ K ltac:(discriminate) GR ONE) as (x1 & _ & R1 & K1).
  split; auto. split; eauto.
Qed.

(** Steps in which no call begins. *)
Definition quiet (tr : list (event mop mres)) : Prop := forall t o, ~ In (EInv t o) tr.
Definition goes (s s' : ksys) : Prop := exists tr, lts_steps cstep s tr s' /\ quiet tr.

Lemma linv_steps s tr s' : linv s -> lts_steps cstep s tr s' -> linv s'.
Proof. intros I ST. induction ST; auto; apply IHST; eapply linv_step; eauto. Qed.
Lemma goes_refl s : goes s s.
Proof. exists []. split; [constructor|intros t o []]. Qed.
Lemma goes_trans s1 s2 s3 : goes s1 s2 -> goes s2 s3 -> goes s1 s3.
Proof.
  intros (tr1 & A1 & Q1) (tr2 & A2 & Q2). exists (tr1 ++ tr2). split; [eapply steps_app; eauto|].
  intros t o X. apply in_app_or in X. destruct X; [eapply Q1|eapply Q2]; eauto.
Qed.
Lemma goes_tau s s' : cstep s None s' -> goes s s'.
Proof. intros H. exists []. split; [eapply ls_tau; [exact H|constructor]|intros t o []]. Qed.
Lemma goes_ret s t r s' : cstep s (Some (ERet t r)) s' -> goes s s'.
Proof. intros H. exists [ERet t r]. split; [eapply ls_vis; [exact H|constructor]|]. intros t0 o [X|[]]. discriminate. Qed.
Lemma linv_goes s s' : linv s -> goes s s' -> linv s'.
Proof. intros I (tr & A & _). eapply linv_steps; eauto. Qed.


Ltac cl tac := split; [tac|intros ? ? ? ? X1 X2; cbn [k_g gthr begin_grow] in X1, X2; unfold fupd in X2; repeat match goal with Q : context [?a =? ?b] |- _ => destruct (N.eqb_spec a b) end; subst; congruence].

Lemma acc_join lg v mp me k h th e d l p i j t pc s' t' k' pc' : linv (KSys (GSys v mp me (Some (k, h)) th) e d l p) ->
  wf_mapper mc (mp v) lg -> acc c (mp v) (mp (v + 1)) lg i j 0 (MSys (me v) (me (v + 1)) k h (fun _ => None)) ->
  h t = Some pc -> pc <> HEnd -> hstep c (mp v) (mp (v + 1)) B (me v) (me (v + 1)) k pc = (s', t', k', pc') ->
  acc c (mp v) (mp (v + 1)) lg (i + 1) j 0 (MSys s' t' k' (fupd h t (Some pc')) (fun _ => None)).
Proof.
  intros (_ & (x & ct & mk & ts & (lg' & W' & LG & g & tct & rg & hb & MG & SI & EN) & AB & _) & _) W AC E NE0 ST. cbn [k_g gver gmap gmem] in *.
  assert (lg' = lg) by (eapply wf_inj; eauto). subst lg'.
  refine (acc_help c (mp v) (mp (v + 1)) lg g B MG Hsc (proj1 HB) LG (proj2 HB) i j 0 _ t pc s' t' k' pc' (fun _ => False) (AObj (ast x) (fun _ => AIdle)) _ AC E NE0 ST).
  exists ct, mk, tct, rg, hb. sp; auto. intros tid. reflexivity.
Qed.

(** A migration can be finished by those who take part in it. *)
Lemma helpers_end lg v mp th e d l p i j : wf_mapper mc (mp v) lg -> forall f i0 me k h, linv (KSys (GSys v mp me (Some (k, h)) th) e d l p) ->
  (exists t, t < n /\ h t <> None) ->
  acc c (mp v) (mp (v + 1)) lg i0 j 0 (MSys (me v) (me (v + 1)) k h (fun _ => None)) -> i = i0 + N.of_nat f -> bound lg + j <= i ->
  exists me' k' h', goes (KSys (GSys v mp me (Some (k, h)) th) e d l p) (KSys (GSys v mp me' (Some (k', h')) th) e d l p) /\
    (exists t, t < n /\ h' t = Some HEnd) /\ (forall t pc, t < n -> h' t = Some pc -> pc = HEnd).
Proof.
  intros W. induction f as [|f IH]; intros i0 me k h I (t0 & L0 & H0) AC EI BD.
  all: destruct (find_thread (fun t => match h t with Some HEnd | None => false | _ => true end) n) as [(t & L & X)|X].
  2, 4: exists me, k, h; split; [apply goes_refl|]; split;
    [exists t0; split; auto; specialize (X t0 L0); cbn in X; destruct (h t0) as [[]|]; congruence
    |intros t pc L E; specialize (X t L); cbn in X; rewrite E in X; destruct pc; congruence].
  all: destruct (h t) as [pc|] eqn:E; [|discriminate].
  all: assert (NE0 : pc <> HEnd) by (intros ->; discriminate).
  all: destruct (hstep c (mp v) (mp (v + 1)) B (me v) (me (v + 1)) k pc) as [[[s' t'] k'] pc'] eqn:ST.
  all: assert (STEP : cstep (KSys (GSys v mp me (Some (k, h)) th) e d l p) None
      (KSys (GSys v mp (fupd (fupd me v s') (v + 1) t') (Some (k', fupd h t (Some pc'))) th) e d l p))
    by (cl ltac:(eapply kc_help; eauto)).
  all: assert (AC' : acc c (mp v) (mp (v + 1)) lg (i0 + 1) j 0 (MSys s' t' k' (fupd h t (Some pc')) (fun _ => None))).
  1, 3: eapply acc_join; eauto.
  - destruct AC' as (ls & _ & _ & _ & Q). lia.
  - destruct (IH (i0 + 1) (fupd (fupd me v s') (v + 1) t') k' (fupd h t (Some pc'))) as (me' & k2 & h' & G & Q).
    + eapply linv_step; eauto.
    + exists t. split; auto. rewrite fupd_eq. discriminate.
    + rewrite fupd_eq, (fupd_neq _ (v + 1)) by lia. rewrite fupd_eq. exact AC'.
    + lia.
    + auto.
    + exists me', k2, h'. split; auto. eapply goes_trans; [apply goes_tau, STEP|exact G].
Qed.

Lemma migration_ends v mp me k h th e d l p : linv (KSys (GSys v mp me (Some (k, h)) th) e d l p) ->
  exists me' e' , goes (KSys (GSys v mp me (Some (k, h)) th) e d l p) (KSys (GSys (v + 1) mp me' None th) e' 0 l p).
Proof.
  intros I.
  assert (J : exists h', goes (KSys (GSys v mp me (Some (k, h)) th) e d l p) (KSys (GSys v mp me (Some (k, h')) th) e d l p) /\ exists t, t < n /\ h' t <> None).
  { destruct (find_thread (fun t => match h t with None => false | _ => true end) n) as [(t & L & X)|X].
    - exists h. split; [apply goes_refl|]. exists t. split; auto. destruct (h t); congruence.
    - pose proof I as (_ & _ & _ & _ & _ & V3 & _). destruct (V3 ltac:(discriminate)) as (t & w & L & P).
      exists (fupd h t (Some HClaim)). split; [|exists t; rewrite fupd_eq; split; auto; discriminate].
      assert (HN : h t = None) by (specialize (X t L); cbn in X; destruct (h t); congruence).
      apply goes_tau. cl ltac:(eapply kc_join; eauto). }
  destruct J as (h1 & G1 & T1). pose proof (linv_goes _ _ I G1) as I1.
  pose proof I1 as ((_ & W2 & _) & (x & ct & mk & ts & (lg & W & _) & _) & _). cbn [k_g gver gmap gmem gmig] in *.
  set (s0 := MSys (me v) (me (v + 1)) k h1 (fun _ => None)). set (ls := nrange 0 (N.to_nat n)).
  set (j := len ls + phi c (mp v) (mp (v + 1)) lg s0 ls).
  destruct (helpers_end lg v mp th e d l p (bound lg + j) j W (N.to_nat (bound lg + j)) 0 me k h1 I1 T1) as (me2 & k2 & h2 & G2 & T2 & A2).
  - exists ls. split; [apply nrange_nodup|]. split; [|split; [unfold j; apply N.le_add_r|]]; cycle 1.
    { rewrite N.mul_0_r, N.add_0_r, N.add_0_l. unfold j. fold s0. lia. }
    intros t H. apply in_nrange. split; [lia|].
    destruct (N.lt_ge_cases t n) as [|GE]; [lia|]. elim H. eapply W2; eauto.
  - lia.
  - lia.
  - exists me2, (e - d)%Z. eapply goes_trans; [exact G1|]. eapply goes_trans; [exact G2|]. apply goes_tau. cl ltac:(apply kc_publish; auto).
Qed.

(** A call can finish its accesses. *)
Lemma call_ends_solo v mp e d l p t o : t < n -> p t = KCall -> forall f me th pc t' r,
  th t = Some (o, GRun v pc) -> (forall r, pc <> PDone r) -> solo c (mp v) f (me v) o pc = (t', PDone r) ->
  exists me' th' r', goes (KSys (GSys v mp me None th) e d l p) (KSys (GSys v mp me' None th') e d l p) /\
    th' t = Some (o, GRun v (PDone r')) /\ forall t', t' <> t -> th' t' = th t'.
Proof.
  intros L P. induction f as [|f IH]; intros me th pc t' r T ND S; cbn [solo] in S.
  - injection S as _ ->. now elim (ND r).
  - destruct (bstep c (mp v) (me v) true o pc) as [t1 pc1] eqn:ST.
    assert (STEP : cstep (KSys (GSys v mp me None th) e d l p) None
       (KSys (GSys v mp (fupd me v t1) None (fupd th t (Some (o, GRun v pc1)))) e d l p)).
    { split; [eapply kc_run; eauto|]. intros ? ? ? ? X1 X2. cbn in X1, X2. unfold fupd in X2. destruct (N.eqb_spec t0 t); congruence. }
    destruct (running pc1) eqn:RU.
    + pose proof (proj1 (running_nd pc1) RU) as RU2.
      destruct (IH (fupd me v t1) (fupd th t (Some (o, GRun v pc1))) pc1 t' r) as (me' & th' & r' & G & E' & F').
      * apply fupd_eq.
      * exact RU2.
      * rewrite fupd_eq. exact S.
      * exists me', th', r'. split; [eapply goes_trans; [apply goes_tau, STEP|exact G]|]. split; auto.
        intros t2 NE2. rewrite F' by exact NE2. now apply fupd_neq.
    + destruct pc1 as [| | | |r1|]; try discriminate.
      eexists _, _, r1. split; [apply goes_tau, STEP|]. rewrite fupd_eq. split; auto. intros t2 NE2. now apply fupd_neq.
Qed.

Lemma call_ends v mp me th e d l p t o u pc : linv (KSys (GSys v mp me None th) e d l p) -> t < n -> p t = KCall ->
  th t = Some (o, GRun u pc) -> running pc = true ->
  exists me' th' r', goes (KSys (GSys v mp me None th) e d l p) (KSys (GSys v mp me' None th') e d l p) /\
    th' t = Some (o, GRun v (PDone r')) /\ forall t', t' <> t -> th' t' = th t'.
Proof.
  intros I L P T RU. pose proof (proj1 (running_nd pc) RU) as ND.
  pose proof I as (_ & (x & GR) & CI & _). destruct (cinv_vacant c B n client Hsc CP HB _ _ CI GR) as [q VQ].
  assert (u = v). { destruct CI as (lg & _ & _ & _ & _ & _ & _ & _ & _ & _ & RN & _). now apply (RN _ _ _ _ T). }
  subst u. destruct GR as (ct & mk & ts & CU & AB & TH & _). pose proof (cur_tinv c B _ _ _ CU) as TI.
  destruct (cur_wf c B _ _ _ CU) as [lg W]. cbn [k_g gver gmap gmem gmig gthr] in *.
  pose proof (vacant_content c _ _ _ _ _ Hsc TI VQ) as [LQ EQ].
  specialize (TH t). rewrite T in TH. destruct TH as [CL TH].
  assert (TV : thr_inv c (mp v) ct o pc).
  { destruct pc; try discriminate; (destruct TH as [(_ & TV & _)|[X _]]; [exact TV|cbn in X; lia]). }
  destruct (solo_terminates c (mp v) lg Hsc W (ast x) (me v) ct mk o pc TI AB) as (f & t' & r & _ & _ & SO & _); auto.
  - intros _. eauto.
  - apply (proj1 CO), CL.
  - eapply call_ends_solo; eauto.
Qed.

(** How far the threads are from the end of their calls. *)
Definition rank (x : option (op * gpc)) (q : kph) : Z :=
  match q with
  | KIn _ true => 2 | KWant _ true => 3 | KIn _ false => 7 | KWant _ false => 8
  | KCall => match x with None => 0 | Some (_, GGet) => 6 | Some (_, GRun _ pc) => if running pc then 5 else 4 end
  end%Z.
Definition ranks (s : ksys) : Z := nsum (fun t => rank (gthr (k_g s) t) (k_ph s t)) (N.to_nat n).

Lemma rank_pos x q : (0 <= rank x q <= 8)%Z.
Proof. destruct q as [|u []|u []]; cbn; try lia. destruct x as [[o [|u pc]]|]; try lia. destruct (running pc); lia. Qed.
Lemma ranks_pos s : (0 <= ranks s)%Z.
Proof. apply (nsum_bound _ 8). intros. apply rank_pos. Qed.
Lemma ranks_less s s' t : t < n -> (forall t', t' <> t -> gthr (k_g s') t' = gthr (k_g s) t' /\ k_ph s' t' = k_ph s t') ->
  (rank (gthr (k_g s') t) (k_ph s' t) < rank (gthr (k_g s) t) (k_ph s t))%Z -> (ranks s' < ranks s)%Z.
Proof.
  intros L O R. unfold ranks.
  rewrite (nsum_one (fun t => rank (gthr (k_g s) t) (k_ph s t)) (fun t => rank (gthr (k_g s') t) (k_ph s' t)) t); [cbn beta; lia|lia|].
  intros t' NE'. cbn. destruct (O t' NE') as [-> ->]. reflexivity.
Qed.

Definition rested (s : ksys) : Prop := forall t, t < n -> gthr (k_g s) t = None.
Definition huge (s : ksys) : Prop := 2 ^ 32 <= addressable_slots mc (gmap (k_g s) (gver (k_g s))).

Ltac less t := apply (ranks_less _ _ t); [assumption|intros ? ?; cbn; rewrite ?fupd_neq by assumption; auto|cbn [k_g gthr k_ph]; rewrite ?fupd_eq].

Lemma progress s : linv s -> gmig (k_g s) = None -> rested s \/ huge s \/ exists s', goes s s' /\ (ranks s' < ranks s)%Z.
Proof.
  destruct s as [[v mp me mg th] e d l p]. cbn [k_g gmig gver gmap gthr]. intros I ->.
  pose proof I as ((W1 & _ & PH & _) & _ & _ & V1 & V2 & _ & V4). cbn [k_g gthr k_ph] in *.
  destruct (find_thread (fun t => match p t with KIn _ _ => true | _ => false end) n) as [(t & L & X)|NI].
  { destruct (p t) as [| |u w] eqn:P; try discriminate. destruct (V2 _ _ _ P) as [LE NV].
    assert (LT : u < v) by (destruct (N.eq_dec u v) as [->|]; [now elim NV|lia]).
    right. right. specialize (PH t). rewrite P in PH. destruct w; cbn [ph_ok] in PH.
    - destruct PH as (o & g & r & T & _). eexists. split; [eapply goes_ret; cl ltac:(eapply kc_done; eauto)|]. less t. rewrite P. cbn. lia.
    - destruct PH as (o & [T|(g & r & T & R)]); [|rewrite (V4 _ _ _ _ T) in R; discriminate].
      eexists. split; [apply goes_tau; cl ltac:(eapply kc_waited; eauto)|]. less t. rewrite P, T. cbn. lia. }
  destruct (find_thread (fun t => match p t with KWant u _ => negb (u =? v) | _ => false end) n) as [(t & L & X)|NL].
  { destruct (p t) as [|u w|] eqn:P; try discriminate. apply negb_true_iff, N.eqb_neq in X. right. right.
    eexists. split; [apply goes_tau; cl ltac:(eapply kc_late; eauto)|]. less t. rewrite P. destruct w; cbn; lia. }
  destruct (find_thread (fun t => match th t with Some (_, GRun _ pc) => running pc | _ => false end) n) as [(t & L & X)|NR].
  { destruct (th t) as [[o [|u pc]]|] eqn:T; try discriminate. right. right.
    assert (P : p t = KCall).
    { specialize (PH t). rewrite T in PH. destruct (p t) as [|u0 []|u0 []]; auto; cbn [ph_ok] in PH.
      - destruct PH as (o1 & u1 & r1 & E & _). injection E as _ _ ->. discriminate.
      - destruct PH as (o1 & [E|(u1 & r1 & E & _)]); [discriminate|]. injection E as _ _ ->. discriminate.
      - destruct PH as (o1 & u1 & r1 & E & _). injection E as _ _ ->. discriminate.
      - destruct PH as (o1 & [E|(u1 & r1 & E & _)]); [discriminate|]. injection E as _ _ ->. discriminate. }
    destruct (call_ends _ _ _ _ _ _ _ _ _ _ _ _ I L P T X) as (me' & th' & r & G & T' & F').
    eexists. split; [exact G|]. apply (ranks_less _ _ t); auto. cbn. rewrite T', T, P. cbn. rewrite X. lia. }
  destruct (find_thread (fun t => match p t, th t with KCall, Some (_, GRun _ _) => true | _, _ => false end) n) as [(t & L & X)|ND].
  { destruct (p t) eqn:P; try discriminate. destruct (th t) as [[o [|u pc]]|] eqn:T; try discriminate. right. right.
    specialize (NR t L). cbn in NR. rewrite T in NR. destruct pc as [| | | |r|]; try discriminate. pose proof (V4 _ _ _ _ T) as R.
    assert (D : (gobs o r = RInserted \/ gobs o r = RErased) \/ (gobs o r <> RInserted /\ gobs o r <> RErased)).
    { destruct (gobs o r); try (now left; left); try (now left; right); right; split; discriminate. }
    destruct D as [G|[G1 G2]].
    - destruct (count1 (gobs o r) (l t)) as [[m i] x] eqn:C1. destruct (Z.le_gt_cases m 64) as [M|M].
      + eexists. split; [eapply goes_ret; cl ltac:(eapply kc_count; eauto)|]. less t. rewrite P, T. cbn. lia.
      + destruct (crosses e i (thresh (total_slots mc (mp v)))) eqn:CR.
        * eexists. split; [eapply goes_tau; cl ltac:(eapply kc_cross; eauto)|]. less t. rewrite P, T. cbn. lia.
        * eexists. split; [eapply goes_ret; cl ltac:(eapply kc_flush; eauto)|]. less t. rewrite P, T. cbn. lia.
    - eexists. split; [eapply goes_ret; cl ltac:(eapply kc_ret; eauto)|]. less t. rewrite P, T. cbn. lia. }
  destruct (find_thread (fun t => match p t with KWant _ _ => true | _ => false end) n) as [(t & L & X)|NW].
  { destruct (p t) as [|u w|] eqn:P; try discriminate. specialize (NL t L). cbn in NL. rewrite P in NL. apply negb_false_iff, N.eqb_eq in NL. subst u.
    right. destruct (N.lt_ge_cases (addressable_slots mc (mp v)) (2 ^ 32)) as [AD|AD]; [right|left; exact AD].
    assert (NO : true = true -> no_operation n th).
    { intros _ t0 L0. specialize (NR t0 L0). cbn in NR. destruct (th t0) as [[o0 [|u0 pc0]]|]; auto. destruct pc0; try discriminate. eauto. }
    eexists. split; [apply goes_tau; cl ltac:(eapply kc_start; eauto)|].
    less t. rewrite P. destruct w; cbn; lia. }
  destruct (find_thread (fun t => match th t with Some _ => true | _ => false end) n) as [(t & L & X)|NT].
  { right. right. destruct (th t) as [[o g]|] eqn:T; [|discriminate].
    pose proof (NW t L) as NW0. specialize (NI t L). specialize (ND t L). cbn in NI, NW0, ND. destruct (p t) eqn:P; try discriminate.
    rewrite T in ND. destruct g; [|discriminate].
    eexists. split; [apply goes_tau; split; [eapply kc_get; eauto|]|].
    - intros t0 o0 u0 pc0 _ _ (t1 & w1 & L1 & P1). cbn in P1. specialize (NW t1 L1). cbn in NW. rewrite P1 in NW. discriminate.
    - less t. rewrite P, T. cbn. destruct o; cbn; lia. }
  left. intros t L. specialize (NT t L). cbn in NT |- *. destruct (th t); [discriminate|reflexivity].
Qed.

Lemma no_dead_end s : linv s -> exists s', goes s s' /\ (rested s' \/ huge s').
Proof.
  remember (Z.to_nat (ranks s)) as f eqn:F. revert s F. induction f as [f IH] using lt_wf_ind. intros s F I.
  assert (M : exists s1, goes s s1 /\ gmig (k_g s1) = None /\ ranks s1 = ranks s).
  { destruct s as [[v mp me [[k h]|] th] e d l p].
    - destruct (migration_ends _ _ _ _ _ _ _ _ _ _ I) as (me' & e' & G). eexists. split; [exact G|]. split; reflexivity.
    - eexists. split; [apply goes_refl|]. split; reflexivity. }
  destruct M as (s1 & G1 & M1 & R1). pose proof (linv_goes _ _ I G1) as I1.
  destruct (progress s1 I1 M1) as [Q|[Q|(s2 & G2 & R2)]]; [exists s1; auto|exists s1; auto|].
  pose proof (linv_goes _ _ I1 G2) as I2. pose proof (ranks_pos s2).
  destruct (IH (Z.to_nat (ranks s2)) ltac:(lia) s2 eq_refl I2) as (s3 & G3 & Q). exists s3. split; auto.
  eapply goes_trans; [exact G1|]. eapply goes_trans; eauto.
Qed.

Lemma linv_init lg : 9 <= lg <= 32 -> (217 * Z.of_N n <= 2 ^ Z.of_N lg)%Z -> linv (ksys_init c lg).
Proof.
  intros LG NL. split; [apply kwf_init|]. split; [|split; [apply (cinv_init c B n client Hsc HB); auto|apply vers_init]].
  eexists. apply (ginit_rel c B client Hsc lg). lia.
Qed.
End Live.
