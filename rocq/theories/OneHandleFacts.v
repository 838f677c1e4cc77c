(** Growing tables used through one handle: counting used cells, single calls, growth steps. *)
From Coq Require Import NArith ZArith Bool List Lia.
From Verif Require Import Words Slot SlotFacts Mapper MapperFacts ReturnCode MapSpec LinSpec
  Base BaseInv BaseLin BaseExec BaseSolo TableSpec BaseFacts Migrate MigrateGeo MigrateInv GrowSpec EndSpec MigrateRun MigrateHelp
  MigrateSys MigrateDone MigrateEnd GrowFacts Growing GrowingSpec GrowingInv GrowingFacts GrowingSolo GrowingRoom
  Seq SeqFacts Count GrowOom MigrateExec Frozen OneHandle OneHandleSpec.
Import ListNotations.
Open Scope N_scope.

Definition b2n (b : bool) : nat := if b then 1%nat else 0%nat.

Lemma filter_upd (u u' : N -> bool) p : (forall q, q <> p -> u' q = u q) -> forall l, NoDup l -> In p l ->
  (length (filter u' l) + b2n (u p) = length (filter u l) + b2n (u' p))%nat.
Proof.
  intros H. induction 1 as [|q l NI ND IH]; intros I; [destruct I|].
  assert (SAME : ~ In p l -> filter u' l = filter u l).
  { intros NP. clear -H NP. induction l as [|q l IH]; auto. cbn. rewrite H by (intros ->; apply NP; now left).
    rewrite IH by (intros X; apply NP; now right). reflexivity. }
  cbn [filter]. destruct (N.eq_dec q p) as [->|NE].
  - rewrite SAME by exact NI. destruct (u p), (u' p); cbn; lia.
  - destruct I as [I|I]; [congruence|]. rewrite (H q NE). specialize (IH I). destruct (u q); cbn [length]; lia.
Qed.

Definition at_cell (f : slot -> bool) (t : mem) (p : N) : bool := match t p with Some s => f s | None => false end.

(** How many of the first [n] cells satisfy [f]. *)
Definition cnt (f : slot -> bool) (t : mem) (n : N) : nat := length (filter (at_cell f t) (nrange 0 (N.to_nat n))).

Lemma cnt_upd f t n p s s' : p < n -> t p = Some s ->
  (cnt f (fupd t p (Some s')) n + b2n (f s) = cnt f t n + b2n (f s'))%nat.
Proof.
  intros L E. pose proof (filter_upd (at_cell f t) (at_cell f (fupd t p (Some s'))) p) as X.
  assert (E1 : at_cell f t p = f s) by (unfold at_cell; now rewrite E).
  assert (E2 : at_cell f (fupd t p (Some s')) p = f s') by (unfold at_cell; now rewrite fupd_eq).
  rewrite E1, E2 in X. apply X.
  - intros q NE. unfold at_cell. now rewrite fupd_neq by exact NE.
  - apply nrange_nodup.
  - apply in_nrange. lia.
Qed.

Lemma cnt_same f t n p s s' : p < n -> t p = Some s -> f s' = f s -> cnt f (fupd t p (Some s')) n = cnt f t n.
Proof. intros L E F. pose proof (cnt_upd f t n p s s' L E) as X. rewrite F in X. lia. Qed.

Section Call.
Context (c : tcfg) (m : mapper) (lg : N).
Context (Hsc : wf_scfg (tsc c)) (Hm : wf_mapper (tmc c) m lg).
Notation sc := (tsc c).
Notation mc := (tmc c).
Notation rmp := (remap mc m).
Notation tot := (total_slots mc m).

Definition usd (s : slot) : bool := negb (is_empty sc s).
Definition tmb (s : slot) : bool := is_deleted sc s.

(** The loaded slot is still in the cell. *)
Definition fresh (o : op) (t : mem) (pc : bpc) : Prop :=
  match pc with
  | PCas i s => rd c m t (rmp i) = Some s /\ is_empty sc s = true /\ inserting o
  | PUpd i s => rd c m t (rmp i) = Some s /\ match o with OUpdate _ _ | OUpdateB _ _ | OIou _ _ _ => True | _ => False end
  | PDel i s => rd c m t (rmp i) = Some s /\ is_empty sc s = false /\ compare_key sc s (op_key o) = true /\ erasing o
  | _ => True
  end.

(** How a call that is done has changed the numbers of used cells and tombstones. *)
Definition tally (o : op) (r : bret) (t t' : mem) : Prop :=
  (gobs o r <> RInserted /\ gobs o r <> RErased /\ cnt usd t' tot = cnt usd t tot /\ cnt tmb t' tot = cnt tmb t tot) \/
  (gobs o r = RInserted /\ inserting o /\ cnt usd t' tot = S (cnt usd t tot) /\ cnt tmb t' tot = cnt tmb t tot) \/
  (gobs o r = RErased /\ erasing o /\ cnt usd t' tot = cnt usd t tot /\ cnt tmb t' tot = S (cnt tmb t tot)).

Lemma op_slot_counts o : valid_key sc (op_key o) -> inserting o -> usd (op_slot o) = true /\ tmb (op_slot o) = false.
Proof.
  intros (V1 & V2 & V3 & V4) IN. unfold usd, tmb, is_empty, is_deleted.
  assert (E : skey (op_slot o) = op_key o) by (destruct o; try contradiction; reflexivity).
  rewrite E, (land_bmask sc). split.
  - rewrite negb_true_iff. apply N.eqb_neq. exact V2.
  - apply N.eqb_neq. exact V3.
Qed.

Lemma empty_counts s : is_empty sc s = true -> usd s = false /\ tmb s = false.
Proof.
  intros E. unfold usd, tmb. rewrite E. split; auto. unfold is_deleted, is_empty in *.
  apply N.eqb_eq in E. apply N.eqb_neq. intros X. rewrite X, (land_bmask sc) in E.
  unfold ddummy in E. pose proof (mbit_pos sc Hsc). rewrite N.mod_small in E by lia. lia.
Qed.

Lemma deleted_counts : usd (deleted_slot sc) = true /\ tmb (deleted_slot sc) = true.
Proof.
  unfold usd, tmb, is_empty, is_deleted, deleted_slot. cbn [skey]. rewrite (land_bmask sc), N.eqb_refl.
  split; auto. rewrite negb_true_iff. apply N.eqb_neq. unfold ddummy. pose proof (mbit_pos sc Hsc).
  rewrite N.mod_small by lia. lia.
Qed.

Lemma live_counts s k : valid_key sc k -> compare_key sc s k = true -> tmb s = false.
Proof.
  intros (V1 & V2 & V3 & V4) CK. unfold tmb, is_deleted. apply N.eqb_neq. intros X.
  unfold compare_key in CK. pose proof (mbit_pos sc Hsc). destruct (sc_mark sc).
  - apply N.eqb_eq in CK. rewrite X, (land_bmask sc) in CK. unfold ddummy in CK. rewrite N.mod_small in CK by lia.
    apply V3. symmetry. exact CK.
  - apply N.eqb_eq in CK. apply V3. rewrite <- CK, X. reflexivity.
Qed.

Lemma bstep_fresh bo o t pc t' pc' :
  valid_key sc (op_key o) -> fresh o t pc -> (forall r, pc <> PDone r) -> bstep c m t bo o pc = (t', pc') ->
  bstep c m t true o pc = (t', pc') /\ fresh o t' pc' /\
  (forall r, pc' = PDone r -> tally o r t t') /\
  ((forall r, pc' <> PDone r) -> t' = t).
Proof.
  intros V F ND ST. destruct pc as [i|i s|i s|i s|r|].
  - cbn [bstep] in ST |- *. destruct (rd c m t (rmp i)) as [s|] eqn:R; injection ST as <- <-.
    2: { sp; auto; try discriminate. }
    split; auto. split; [|split; [|auto]].
    + unfold after_load. destruct o; cbn [op_key] in *;
        repeat match goal with |- context [if ?b then _ else _] => destruct b eqn:? end; cbn; auto.
    + intros r E. left. unfold after_load in E. sp; auto; destruct o; cbn [op_key] in *;
        repeat match type of E with context [if ?b then _ else _] => destruct b eqn:? end; try discriminate E; injection E as <-;
        cbn; discriminate || (intros X; discriminate).
  - destruct F as (R & E & IN). cbn [bstep] in ST |- *. rewrite R in *. rewrite cas_self in *. injection ST as <- <-.
    split; auto. split; [exact Logic.I|]. split; [|intros X; now elim (X _ eq_refl)]. intros r [= <-].
    assert (L : rmp i < tot) by (unfold rd in R; destruct (N.ltb_spec (rmp i) tot); [auto|discriminate]).
    pose proof (rd_mem _ _ _ _ _ R) as R'.
    destruct (op_slot_counts o V IN) as [A1 A2]. destruct (empty_counts s E) as [B1 B2].
    right; left. sp; auto.
    + destruct o; try contradiction; reflexivity.
    + pose proof (cnt_upd usd t tot (rmp i) s (op_slot o) L R') as X. rewrite A1, B1 in X. cbn [b2n] in X. lia.
    + apply (cnt_same _ _ _ _ s); auto. congruence.
  - destruct F as (R & O). cbn [bstep] in ST |- *. rewrite R in *.
    assert (AU : exists x d, atomic_update sc s s (op_fun o) = (x, true, Slot (skey s) d)).
    { unfold atomic_update. destruct (sc_mark sc).
      - rewrite cas_self. eauto.
      - destruct (fat (op_fun o)) as [f|]; [destruct (f (sdata s)); eauto|]. rewrite N.eqb_refl. eauto. }
    destruct AU as (x & d & AU). rewrite AU in *. injection ST as <- <-.
    split; auto. split; [exact Logic.I|]. split; [|intros X; now elim (X _ eq_refl)]. intros r [= <-].
    assert (L : rmp i < tot) by (unfold rd in R; destruct (N.ltb_spec (rmp i) tot); [auto|discriminate]).
    pose proof (rd_mem _ _ _ _ _ R) as R'.
    left. sp.
    + destruct o; try contradiction; discriminate.
    + destruct o; try contradiction; discriminate.
    + apply (cnt_same _ _ _ _ s); auto.
    + apply (cnt_same _ _ _ _ s); auto.
  - destruct F as (R & NE & CK & ER). cbn [bstep] in ST |- *. rewrite R in *. unfold atomic_delete in *. rewrite cas_self in *.
    injection ST as <- <-.
    split; auto. split; [exact Logic.I|]. split; [|intros X; now elim (X _ eq_refl)]. intros r [= <-].
    assert (L : rmp i < tot) by (unfold rd in R; destruct (N.ltb_spec (rmp i) tot); [auto|discriminate]).
    pose proof (rd_mem _ _ _ _ _ R) as R'.
    destruct deleted_counts as [A1 A2]. pose proof (live_counts s _ V CK) as B2.
    assert (B1 : usd s = true) by (unfold usd; now rewrite NE).
    right; right. sp; auto.
    + destruct o; try contradiction; reflexivity.
    + apply (cnt_same _ _ _ _ s); auto. congruence.
    + pose proof (cnt_upd tmb t tot (rmp i) s (deleted_slot sc) L R') as X. rewrite A2, B2 in X. cbn [b2n] in X. lia.
  - now elim (ND r).
  - cbn in *. injection ST as <- <-. sp; auto; discriminate.
Qed.

(** A call that runs alone, as steps of the whole system. *)
Lemma solo_one B bo client v mp e d l o : mp v = m -> valid_key sc (op_key o) -> forall n me th pc t' r,
  th 0 = Some (o, GRun v pc) -> (forall r, pc <> PDone r) -> fresh o (me v) pc ->
  solo c m n (me v) o pc = (t', PDone r) ->
  exists me' th', lts_steps (one_step c B bo client) (HSys (GSys v mp me None th) e d l HCall) []
                    (HSys (GSys v mp me' None th') e d l HCall) /\
     th' 0 = Some (o, GRun v (PDone r)) /\ me' v = t' /\ tally o r (me v) t'.
Proof.
  intros EM V. induction n as [|n IH]; intros me th pc t' r Et ND F S; cbn [solo] in S.
  - injection S as _ ->. now elim (ND r).
  - destruct (bstep c m (me v) bo o pc) as [t1 pc1] eqn:ST.
    destruct (bstep_fresh bo o (me v) pc t1 pc1 V F ND ST) as (ST' & F' & TL & SM). rewrite ST' in S.
    assert (STEP : one_step c B bo client (HSys (GSys v mp me None th) e d l HCall) None
       (HSys (GSys v mp (fupd me v t1) None (fupd th 0 (Some (o, GRun v pc1)))) e d l HCall)).
    { eapply h_run; eauto. now rewrite EM. }
    destruct (running pc1) eqn:RU.
    + pose proof (proj1 (running_nd pc1) RU) as RU2.
      destruct (IH (fupd me v t1) (fupd th 0 (Some (o, GRun v pc1))) pc1 t' r) as (me' & th' & S' & E' & M' & T').
      * apply fupd_eq.
      * exact RU2.
      * rewrite fupd_eq. exact F'.
      * rewrite fupd_eq. exact S.
      * exists me', th'. split; [eapply ls_tau; [exact STEP|exact S']|]. split; auto. split; auto.
        rewrite fupd_eq in T'. rewrite (SM RU2) in T'. exact T'.
    + destruct pc1 as [| | | |r1|]; try discriminate.
      assert (Q : r1 = r /\ t1 = t'). { clear -S. revert S. generalize n t1. clear. induction n; cbn; intros t1; [intros [= <- <-]; auto|apply IHn]. }
      destruct Q as [-> ->]. eexists _, _. split; [eapply ls_tau; [exact STEP|constructor]|]. cbn. rewrite !fupd_eq. sp; auto.
Qed.

(** Counts and cell contents. *)
Lemma cnt_content t ct : tinv c m t ct (fun _ => false) ->
  cnt usd t tot = length (filter (usedb ct) (nrange 0 (N.to_nat tot))) /\
  cnt tmb t tot = length (filter (tombb ct) (nrange 0 (N.to_nat tot))).
Proof.
  intros I. unfold cnt. split; f_equal; apply filter_ext_in; intros p Hp; apply in_nrange in Hp;
    destruct (ti_cell _ _ _ _ _ I p ltac:(lia)) as [E O]; unfold at_cell; rewrite E.
  - unfold usd, usedb. rewrite (enc_is_empty sc Hsc) by exact O. now destruct (ct p).
  - unfold tmb, tombb. rewrite (enc_is_deleted_unmarked sc Hsc) by exact O. now destruct (ct p).
Qed.

Lemma room_left t ct : tinv c m t ct (fun _ => false) -> N.of_nat (cnt usd t tot) < tot -> exists p, p < tot /\ ct p = CEmpty.
Proof.
  intros I L. destruct (cnt_content t ct I) as [E _]. rewrite E in L.
  destruct (existsb (fun p => negb (usedb ct p)) (nrange 0 (N.to_nat tot))) eqn:X.
  - apply existsb_exists in X. destruct X as (p & Hp & U). apply in_nrange in Hp. exists p. split; [lia|].
    unfold usedb in U. now destruct (ct p).
  - exfalso. assert (A : filter (usedb ct) (nrange 0 (N.to_nat tot)) = nrange 0 (N.to_nat tot)).
    { revert X. generalize (nrange 0 (N.to_nat tot)). induction l as [|p l IH]; cbn; auto. intros X.
      apply orb_false_iff in X. destruct X as [X1 X2]. apply negb_false_iff in X1. rewrite X1, IH; auto. }
    rewrite A, nrange_length in L. lia.
Qed.

End Call.

Definition liveb (ct : N -> content) (p : N) : bool := match ct p with CLive _ _ => true | _ => false end.

Lemma used_split ct l : (length (filter (usedb ct) l) = length (filter (tombb ct) l) + length (filter (liveb ct) l))%nat.
Proof. induction l as [|p l IH]; cbn; [reflexivity|]. unfold usedb, tombb, liveb in *. destruct (ct p); cbn; lia. Qed.

Lemma live_le c m lg m' t ct mk ct' :
  wf_mapper (tmc c) m lg -> tinv c m t ct mk ->
  (forall k d, (exists p, p < total_slots (tmc c) m /\ ct p = CLive k d) -> exists q, q < total_slots (tmc c) m' /\ ct' q = CLive k d) ->
  (length (filter (liveb ct) (nrange 0 (N.to_nat (total_slots (tmc c) m)))) <=
   length (filter (liveb ct') (nrange 0 (N.to_nat (total_slots (tmc c) m')))))%nat.
Proof.
  intros Hm I H. set (lv := filter (liveb ct) _).
  assert (LV : forall p, In p lv -> exists k d, p < total_slots (tmc c) m /\ ct p = CLive k d).
  { intros p Hp. apply filter_In in Hp. destruct Hp as [Hp E]. apply in_nrange in Hp. unfold liveb in E.
    destruct (ct p) as [| |k d] eqn:Q; try discriminate. exists k, d. split; [lia|reflexivity]. }
  assert (NV : NoDup lv) by (apply NoDup_filter, nrange_nodup). clearbody lv.
  rewrite <- (map_length (key_at ct)), <- (map_length (key_at ct') (filter _ _)). apply NoDup_incl_length.
  - induction NV as [|p lv NI NV IH]; cbn; constructor.
    + rewrite in_map_iff. intros (p' & E & Hp'). apply NI.
      destruct (LV p (or_introl eq_refl)) as (k1 & d1 & L1 & E1).
      destruct (LV p' (or_intror Hp')) as (k2 & d2 & L2 & E2).
      unfold key_at in E. rewrite E1, E2 in E. subst k2.
      replace p with p'; [exact Hp'|]. eapply (live_unique c m); eauto.
    + apply IH. intros p' Hp'. apply LV. now right.
  - intros k Hk. apply in_map_iff in Hk. destruct Hk as (p & E & Hp).
    destruct (LV p Hp) as (k1 & d1 & L1 & E1). unfold key_at in E. rewrite E1 in E. subst k1.
    destruct (H k d1) as (q & Lq & Eq); [eauto|]. apply in_map_iff. exists q. unfold key_at. rewrite Eq. split; auto.
    apply filter_In. split; [apply in_nrange; lia|]. unfold liveb. now rewrite Eq.
Qed.

Section Grow.
Context (c : tcfg) (B : N) (bo : bool) (client : op -> Prop).
Context (Hsc : wf_scfg (tsc c)) (HB : 0 < B <= 2 ^ 31).
Notation sc := (tsc c).
Notation mc := (tmc c).

(** The calling thread makes the whole migration. *)
Lemma help_runs v mp th e d l dn lg g s0 ct :
  migr c (mp v) (mp (v + 1)) lg g -> lg <= 31 ->
  (forall t, mhlp s0 t = None) -> mctr s0 = 0 -> (forall t, mthr s0 t = None) ->
  (exists x, mrel c (mp v) (mp (v + 1)) lg g B nobody s0 x) ->
  forall f n me k h pc mk tct rg hb,
  EndSpec.counted c (mp v) (mp (v + 1)) B nobody s0 n 1 0 (MSys (me v) (me (v + 1)) k h (mthr s0)) ->
  h 0 = Some pc -> (forall t, t <> 0 -> h t = None) ->
  MigrateRun.sinv c (mp v) (mp (v + 1)) lg g B (me v) (me (v + 1)) k h ct mk tct rg hb -> endinv lg h k ->
  f = N.to_nat (bound lg + 1 - n) ->
  exists me' k' h' mk' tct' rg' hb',
    lts_steps (one_step c B bo client) (HSys (GSys v mp me (Some (k, h)) th) e d l (HGrow dn)) []
      (HSys (GSys v mp me' (Some (k', h')) th) e d l (HGrow dn)) /\
    h' 0 = Some HEnd /\ (forall t, t <> 0 -> h' t = None) /\
    MigrateRun.sinv c (mp v) (mp (v + 1)) lg g B (me' v) (me' (v + 1)) k' h' ct mk' tct' rg' hb' /\ endinv lg h' k'.
Proof.
  intros MG LG H0 C0 T0 R0. induction f as [f IH] using (well_founded_induction Wf_nat.lt_wf).
  intros n me k h pc mk tct rg hb CT E OTH S EI Ef. destruct HB as [HB0 HB1].
  assert (D : pc = HEnd \/ pc <> HEnd) by (destruct pc; auto; right; discriminate).
  destruct D as [->|NE].
  - exists me, k, h, mk, tct, rg, hb. sp; auto. constructor.
  - destruct (hstep c (mp v) (mp (v + 1)) B (me v) (me (v + 1)) k pc) as [[[s1 t1] k1] pc1] eqn:ST.
    destruct (hstep_inv c _ _ lg g B MG Hsc HB0 _ _ _ _ _ _ _ _ _ S 0 pc s1 t1 k1 pc1 LG HB1 E ST)
      as (mk' & tct' & rg' & hb' & S' & _).
    destruct (hstep_end c _ _ lg g B MG Hsc HB0 LG HB1 _ _ _ _ _ _ _ _ ST) as [LE EE].
    pose proof (ct_help _ _ _ _ _ _ _ _ _ _ _ _ _ _ _ _ _ _ _ _ CT E NE ST) as CT1.
    assert (CO : client_ok sc nobody). { split; [intros o []|]. right; left. intros o []. }
    destruct (acc_count c _ _ lg g B MG Hsc HB0 LG HB1 nobody s0 _ _ _ _ CT1 H0 C0
       (or_intror (conj (fun (o : op) (X : nobody o) => X) T0)) CO R0) as ((l1 & _ & _ & _ & BD) & _).
    set (me1 := fupd (fupd me v s1) (v + 1) t1).
    assert (M1 : me1 v = s1) by (unfold me1; rewrite fupd_neq, fupd_eq by lia; reflexivity).
    assert (M2 : me1 (v + 1) = t1) by (unfold me1; now rewrite fupd_eq).
    destruct (IH (N.to_nat (bound lg + 1 - (n + 1)))) with (n := n + 1) (me := me1) (k := k1) (h := fupd h 0 (Some pc1)) (pc := pc1)
      (mk := mk') (tct := tct') (rg := rg') (hb := hb') as (me2 & k2 & h2 & mk2 & tct2 & rg2 & hb2 & S2 & E2 & O2 & I2 & EI2); auto.
    + lia.
    + now rewrite M1, M2.
    + intros t Nt. rewrite fupd_neq by exact Nt. auto.
    + now rewrite M1, M2.
    + intros u X. destruct (N.eq_dec u 0) as [->|Nu].
      * rewrite fupd_eq in X. injection X as ->. destruct (EE eq_refl) as [->|]; [congruence|auto].
      * rewrite fupd_neq, OTH in X by exact Nu. discriminate.
    + exists me2, k2, h2, mk2, tct2, rg2, hb2. sp; auto.
      eapply ls_tau; [|exact S2]. eapply h_help; eauto.
Qed.

Lemma grow_runs v mp me th e d l dn lg ct a :
  wf_mapper mc (mp v) lg -> lg <= 31 -> (cmap mc = false \/ cprob mc = true) ->
  tinv c (mp v) (me v) ct (fun _ => false) -> absr c (mp v) ct a ->
  (exists p, p < total_slots mc (mp v) /\ ct p = CEmpty) ->
  let m' := resize mc (mp v) (as_size e) (as_size d) in
  exists mp' me' g ct', (g = 0 \/ g = 1) /\
    lts_steps (one_step c B bo client) (HSys (begin_grow c v mp me th e d) e d l (HGrow dn)) []
      (HSys (GSys (v + 1) mp' me' None th) (e - d) 0 l (HBack dn)) /\
    mp' (v + 1) = m' /\ wf_mapper mc m' (lg + g) /\
    tinv c m' (me' (v + 1)) ct' (fun _ => false) /\ absr c m' ct' a /\
    cnt (tmb c) (me' (v + 1)) (total_slots mc m') = 0%nat /\
    Nat.add (cnt (usd c) (me' (v + 1)) (total_slots mc m')) (cnt (tmb c) (me v) (total_slots mc (mp v))) =
      cnt (usd c) (me v) (total_slots mc (mp v)).
Proof.
  intros W LG CF I A RM m'. destruct (resize_pow c (mp v) lg (as_size e) (as_size d) W LG) as [lg' EA].
  destruct (resize_migr c (mp v) lg lg' _ _ W LG CF EA) as (g & -> & MG). fold m' in MG.
  set (mp1 := fupd mp (v + 1) m'). set (me1 := fupd me (v + 1) (target_mem mc m')).
  assert (P1 : mp1 v = mp v) by (unfold mp1; now rewrite fupd_neq by lia).
  assert (P2 : mp1 (v + 1) = m') by (unfold mp1; now rewrite fupd_eq).
  assert (Q1 : me1 v = me v) by (unfold me1; now rewrite fupd_neq by lia).
  assert (Q2 : me1 (v + 1) = target_mem mc m') by (unfold me1; now rewrite fupd_eq).
  destruct HB as [HB0 HB1].
  pose proof (init_sinv c (mp v) m' lg g B MG Hsc HB0 (me v) ct I) as S0.
  pose proof (join_sinv c _ _ lg g B MG Hsc HB0 _ _ _ _ _ _ _ _ _ 0 S0 (or_introl eq_refl)) as S1.
  destruct (help_runs v mp1 th e d l dn lg g (msys_init c m' (me v) (fun _ => None)) ct) with
    (f := N.to_nat (bound lg + 1 - 0)) (n := 0) (me := me1) (k := 0) (h := fupd (fun _ : N => @None hpc) 0 (Some HClaim)) (pc := HClaim)
    (mk := fun _ : N => false) (tct := fun _ : N => CEmpty) (rg := fun _ : N => BNone) (hb := fun _ : N => @None N)
    as (me2 & k2 & h2 & mk2 & tct2 & rg2 & hb2 & S2 & E2 & O2 & I2 & EI2).
  all: rewrite ?P1, ?P2; auto.
  { exists (AObj a (fun _ => AIdle)). eapply minit; eauto. }
  { rewrite Q1, Q2. apply (ct_join c (mp v) m' B nobody (msys_init c m' (me v) (fun _ => None)) 0 0 0 (me v) (target_mem mc m') 0 (fun _ => None) _ 0); auto.
    apply ct_nil. }
  { intros t Nt. now rewrite fupd_neq by exact Nt. }
  { rewrite Q1, Q2. exact S1. }
  { intros t X. destruct (N.eq_dec t 0) as [->|Nt]; [rewrite fupd_eq in X|rewrite fupd_neq in X by exact Nt]; discriminate. }
  rewrite P1, P2 in I2.
  assert (CTR : 2 ^ lg <= k2) by (eapply EI2; eauto).
  assert (FIN : forall tid pc, h2 tid = Some pc -> pc = HEnd \/ pc = HClaim).
  { intros tid pc X. destruct (N.eq_dec tid 0) as [->|Nt]; [rewrite E2 in X; injection X as <-; auto|rewrite O2 in X by exact Nt; discriminate]. }
  assert (GAP : cprob mc = true -> exists p, p < total_slots mc (mp v) /\ ct p = CEmpty) by auto.
  pose proof (done_tinv c _ _ lg g B MG Hsc HB0 _ _ _ _ _ _ _ _ _ I2 CTR FIN GAP) as TI.
  pose proof (fun k d => done_same c _ _ lg g B MG Hsc HB0 _ _ _ _ _ _ _ _ _ I2 CTR FIN GAP k d) as DS.
  pose proof (fun q => done_no_tomb c _ _ lg g B MG Hsc HB0 _ _ _ _ _ _ _ _ _ I2 CTR FIN GAP q) as NT.
  exists mp1, me2, g, tct2. pose proof (mg_g _ _ _ _ _ MG) as GG. pose proof (mg_tgt _ _ _ _ _ MG) as WT.
  assert (TC : (length (filter (tombb tct2) (nrange 0 (N.to_nat (total_slots mc m')))) = 0)%nat).
  { destruct (filter (tombb tct2) _) as [|p l0] eqn:X; auto. exfalso.
    assert (In p (filter (tombb tct2) (nrange 0 (N.to_nat (total_slots mc m'))))) as HI by (rewrite X; now left).
    apply filter_In in HI. destruct HI as [HI1 HI2]. apply in_nrange in HI1. apply (NT p); [lia|]. unfold tombb in HI2. now destruct (tct2 p). }
  destruct (cnt_content c m' Hsc _ _ TI) as [C1 C2]. destruct (cnt_content c (mp v) Hsc _ _ I) as [C3 C4].
  sp; auto.
  - eapply ls_tau; [apply h_join; reflexivity|].
    change (@nil (event mop mres)) with (@nil (event mop mres) ++ []).
    eapply steps_app; [exact S2|]. eapply ls_tau; [apply h_publish; exact E2|constructor].
  - intros k0 d0. rewrite (A k0 d0). apply DS.
  - rewrite C2. exact TC.
  - rewrite C1, C3, C4, !used_split, TC.
    assert (X1 := live_le c (mp v) lg m' (me v) ct _ tct2 W I (fun k d => proj1 (DS k d))).
    assert (X2 := live_le c m' (lg + g) (mp v) _ tct2 _ ct WT TI (fun k d => proj2 (DS k d))). lia.
Qed.

End Grow.

(** Whether the table is doubled. *)
Lemma resize_lg c m lg g (x y : Z) :
  lg <= 31 -> wf_mapper (tmc c) m lg -> wf_mapper (tmc c) (resize (tmc c) m (as_size x) (as_size y)) (lg + g) ->
  (0 <= x < 2 ^ 60)%Z -> (0 <= y < 2 ^ 60)%Z ->
  if (x <? y)%Z || fill_above (Z.to_N (x - y)) (2 ^ lg) then g = 1 else g = 0.
Proof.
  intros L W W' Hx Hy. change (2 ^ 60)%Z with 1152921504606846976%Z in *.
  pose proof (addressable_val _ _ _ W') as E. unfold resize in E.
  destruct (Z.ltb_spec x y) as [LT|GE]; cbn [orb].
  { assert (A : w64 (as_size x + (2 ^ 64 - w64 (as_size y))) = Z.to_N (2 ^ 64 + x - y)).
    { unfold as_size, w64. change (2 ^ 64) with 18446744073709551616 in *. change (2 ^ 64)%Z with 18446744073709551616%Z in *.
      rewrite !Z.mod_small by lia. rewrite (N.mod_small (Z.to_N y)) by lia. rewrite N.mod_small by lia. lia. }
    rewrite A, (addressable_val _ _ _ W) in E.
    assert (FA : fill_above (Z.to_N (2 ^ 64 + x - y)) (2 ^ lg) = true).
    { unfold fill_above. apply N.ltb_lt. assert (2 ^ lg <= 2 ^ 31) by (apply N.pow_le_mono_r; lia).
      change (2 ^ 31) with 2147483648 in *. change (2 ^ 54) with 18014398509481984. change (2 ^ 64)%Z with 18446744073709551616%Z. lia. }
    rewrite FA in E. destruct W as [[W1 W2] _]. rewrite N.mul_comm, <- pow2_add1 in E. erewrite addressable_val in E by (apply wf_mk; lia).
    apply N.pow_inj_r in E; lia. }
  assert (A : w64 (as_size x + (2 ^ 64 - w64 (as_size y))) = Z.to_N (x - y)).
  { unfold as_size, w64. change (2 ^ 64) with 18446744073709551616 in *. change (2 ^ 64)%Z with 18446744073709551616%Z in *.
    rewrite !Z.mod_small by lia. rewrite (N.mod_small (Z.to_N y)) by lia.
    replace (Z.to_N x + (18446744073709551616 - Z.to_N y)) with (Z.to_N (x - y) + 1 * 18446744073709551616) by lia.
    rewrite N.mod_add by lia. apply N.mod_small. lia. }
  rewrite A, (addressable_val _ _ _ W) in E. destruct (fill_above _ _).
  - destruct W as [[W1 W2] _]. rewrite N.mul_comm, <- pow2_add1 in E. erewrite addressable_val in E by (apply wf_mk; lia).
    apply N.pow_inj_r in E; lia.
  - destruct W as [[W1 W2] _]. erewrite addressable_val in E by (apply wf_mk; lia). apply N.pow_inj_r in E; lia.
Qed.

(** The limit of a table of 2^lg slots. *)
Definition fl (lg : N) : Z := Z.of_N (fill_limit (2 ^ lg)).

Lemma fl_bounds lg : 9 <= lg -> (10 * fl lg <= 7 * 2 ^ Z.of_N lg /\ 6 * 2 ^ Z.of_N lg <= 10 * fl lg + 10 /\ 512 <= 2 ^ Z.of_N lg)%Z.
Proof.
  intros L. unfold fl. destruct (fill_limit_bounds (2 ^ lg)) as [A1 A2].
  assert (X : 2 ^ 9 <= 2 ^ lg) by (apply N.pow_le_mono_r; lia). change (2 ^ 9) with 512 in X.
  change 2%Z with (Z.of_N 2). rewrite <- N2Z.inj_pow. lia.
Qed.

Lemma fl_65 lg : 9 <= lg <= 31 -> (fl lg mod 65 <> 0)%Z.
Proof.
  intros [L1 L2]. assert (X : In lg (nrange 9 23)) by (apply in_nrange; lia).
  cbn [nrange In] in X. repeat (destruct X as [<-|X]; [vm_compute; discriminate|]). destruct X.
Qed.

(** The state after a call has begun. *)
Definition begin_call (o : op) (s : hsys) : hsys :=
  let g := hs_g s in
  HSys (GSys (gver g) (gmap g) (gmem g) (gmig g) (fupd (gthr g) 0 (Some (o, GGet)))) (hs_el s) (hs_du s) (hs_loc s) (hs_ph s).

Section One.
Context (c : tcfg) (B : N) (bo : bool) (client : op -> Prop).
Context (Hsc : wf_scfg (tsc c)) (CP : cprob (tmc c) = true) (HB : 0 < B <= 2 ^ 31).
Notation sc := (tsc c).
Notation mc := (tmc c).

(** Between two calls.  [q]: a bound on the number of calls so far; [ne]: nothing is ever erased; [n]: the
    number of handles; [oi], [ox]: what the other handles have inserted and erased but not published. *)
Definition oinv (ne : Prop) (n oi ox : Z) (s : hsys) (a : amap) (q : N) : Prop :=
  exists v mp me th e d u i x lg ct,
    s = HSys (GSys v mp me None th) e d (u, i, x) HCall /\ th 0 = None /\
    wf_mapper mc (mp v) lg /\ 9 <= lg <= 31 /\
    tinv c (mp v) (me v) ct (fun _ => false) /\ absr c (mp v) ct a /\
    (Z.of_nat (cnt (usd c) (me v) (total_slots mc (mp v))) - Z.of_nat (cnt (tmb c) (me v) (total_slots mc (mp v))) =
       (e + i + oi) - (d + x + ox))%Z /\
    (Z.of_nat (cnt (usd c) (me v) (total_slots mc (mp v))) <= e + i + oi)%Z /\
    (u = i + x /\ 0 <= i /\ 0 <= x /\ u <= 64 /\ 0 <= d /\ e < fl lg /\ e + i + oi <= Z.of_N q)%Z /\
    (0 <= oi <= 64 * (n - 1) /\ 0 <= ox /\ 214 * n <= 2 ^ Z.of_N lg)%Z /\
    (ne -> d = 0 /\ x = 0 /\ e mod 65 = 0)%Z.

Lemma tot_pow m lg : wf_mapper mc m lg -> total_slots mc m = 2 ^ lg.
Proof. intros W. now rewrite (total_val _ _ _ W), CP. Qed.

Lemma one_call (ne : Prop) n oi ox s a q o :
  oinv ne n oi ox s a q -> op_ok sc o -> (ne -> ~ erasing o) -> q < 2 ^ 30 ->
  exists r s' a', lts_steps (one_step c B bo client) (begin_call o s) [ERet 0 r] s' /\
    mspec false false a (spec_op sc o) a' r /\
    (oinv ne n oi ox s' a' (q + 1) \/ (hs_el s' = limit c (hs_g s') /\ ~ ne)).
Proof.
  intros (v & mp & me & th & e & d & u & i & x & lg & ct & -> & TH & W & LG & I & A & US & TM & AR & OT & NE) O NER Q.
  pose proof (fl_bounds lg (proj1 LG)) as FB. pose proof (tot_pow _ _ W) as ET.
  assert (ETZ : Z.of_N (total_slots mc (mp v)) = (2 ^ Z.of_N lg)%Z).
  { rewrite ET, N2Z.inj_pow. reflexivity. }
  destruct (room_left c (mp v) Hsc (me v) ct I ltac:(lia)) as (p0 & Lp0 & Ep0).
  assert (HE : has_empty c (mp v) ct) by (intros _; eauto).
  assert (TI0 : thr_inv c (mp v) ct o (start c (mp v) o)) by (exists 0; split; [lia|]; intros j Hj; lia).
  destruct (solo_terminates c (mp v) lg Hsc W a (me v) ct _ o (start c (mp v) o) I A HE O TI0 ltac:(discriminate))
    as (n0 & t' & r & ct' & a' & S & I' & SP & A').
  assert (NR : retries o r = false).
  { destruct (finding o) eqn:F; [destruct o; try discriminate; reflexivity|].
    destruct (solo_full c (mp v) lg Hsc W (me v) ct _ o n0 _ t' r I (fun _ => eq_refl) F (proj1 O) S) as [NF NI].
    assert (RF : rcode r <> RC_FULL) by (intros X; destruct (NF X); congruence).
    destruct o; cbn [retries]; try discriminate; rewrite ?orb_false_iff; rewrite ?N.eqb_neq; auto. }
  set (th1 := fupd th 0 (Some (o, GGet))).
  set (th2 := fupd th1 0 (Some (o, GRun v (start c (mp v) o)))).
  destruct (solo_one c (mp v) Hsc B bo client v mp e d (u, i, x) o eq_refl (proj1 O) n0 me th2 (start c (mp v) o) t' r)
    as (me' & th' & S3 & E3 & M3 & TL); auto.
  { discriminate. }
  { exact Logic.I. }
  assert (PRE : forall y s', lts_steps (one_step c B bo client) (HSys (GSys v mp me' None th') e d (u, i, x) HCall) [ERet 0 y] s' ->
     lts_steps (one_step c B bo client) (begin_call o (HSys (GSys v mp me None th) e d (u, i, x) HCall)) [ERet 0 y] s').
  { intros y s' ST. eapply ls_tau; [apply h_get; apply fupd_eq|].
    change [ERet 0 y] with ([] ++ [@ERet mop mres 0 y]). eapply steps_app; [exact S3|exact ST]. }
  assert (SP' : mspec false false a (spec_op sc o) a' (gobs o r)).
  { destruct (not_retries _ _ _ _ _ _ _ SP NR) as [N1 N2]. rewrite gobs_obs by auto. eapply mspec_weaken; eauto. }
  exists (gobs o r). subst t'.
  destruct TL as [(G1 & G2 & C1 & C2)|TL].
  { exists (HSys (GSys v mp me' None (fupd th' 0 None)) e d (u, i, x) HCall), a'. split; [|split; [exact SP'|left]].
    - apply PRE. eapply ls_vis; [eapply h_ret; eauto|constructor].
    - exists v, mp, me', (fupd th' 0 None), e, d, u, i, x, lg, ct'. rewrite C1, C2. sp; auto; lia. }
  assert (CC : exists n1 i1 x1, (gobs o r = RInserted \/ gobs o r = RErased) /\
     count1 (gobs o r) (u, i, x) = (n1, i1, x1) /\ (n1 = u + 1 /\ n1 = i1 + x1 /\ 0 <= i1 /\ 0 <= x1 /\ e + i1 + oi <= Z.of_N (q + 1))%Z /\
     (Z.of_nat (cnt (usd c) (me' v) (total_slots mc (mp v))) - Z.of_nat (cnt (tmb c) (me' v) (total_slots mc (mp v))) =
       (e + i1 + oi) - (d + x1 + ox))%Z /\
     (Z.of_nat (cnt (usd c) (me' v) (total_slots mc (mp v))) <= e + i1 + oi)%Z /\ (ne -> x1 = 0)%Z).
  { destruct TL as [(G & IN & C1 & C2)|(G & ER & C1 & C2)]; rewrite G; cbn [count1].
    - exists (u + 1)%Z, (i + 1)%Z, x. sp; auto; try lia.
    - exists (u + 1)%Z, i, (x + 1)%Z. sp; auto; try lia. intros X. now elim (NER X). }
  clear TL. destruct CC as (n1 & i1 & x1 & GC & CT & AR1 & US1 & TM1 & NX).
  destruct (Z.le_gt_cases n1 64) as [LE|GT].
  { exists (HSys (GSys v mp me' None (fupd th' 0 None)) e d (n1, i1, x1) HCall), a'. split; [|split; [exact SP'|left]].
    - apply PRE. eapply ls_vis; [eapply h_count; eauto|constructor].
    - exists v, mp, me', (fupd th' 0 None), e, d, n1, i1, x1, lg, ct'. sp; auto; try lia. }
  assert (TF : thresh (total_slots mc (mp v)) = fl lg) by (unfold thresh; now rewrite ET).
  destruct (crosses e i1 (thresh (total_slots mc (mp v)))) eqn:CR.
  2: { exists (HSys (GSys v mp me' None (fupd th' 0 None)) (e + i1) (d + x1) (0, 0, 0)%Z HCall), a'. split; [|split; [exact SP'|]].
    - apply PRE. eapply ls_vis; [eapply h_flush; eauto; lia|constructor].
    - unfold crosses in CR. rewrite TF in CR.
      assert (LL : (e + i1 <= fl lg)%Z).
      { destruct (Z.ltb_spec (fl lg) (e + i1)); [|lia]. destruct (Z.ltb_spec e (fl lg)); [discriminate|lia]. }
      destruct (Z.eq_dec (e + i1) (fl lg)) as [EQ|NQ].
      + right. cbn [hs_el hs_g]. unfold limit. cbn [gmap gver]. rewrite TF. split; auto. intros X.
        destruct (NE X) as (X1 & X2 & X3). specialize (NX X). apply (fl_65 lg LG). rewrite <- EQ.
        assert (i1 = 65)%Z as -> by lia. replace (e + 65)%Z with (e + 1 * 65)%Z by lia. rewrite Z.mod_add by lia. exact X3.
      + left. exists v, mp, me', (fupd th' 0 None), (e + i1)%Z, (d + x1)%Z, 0%Z, 0%Z, 0%Z, lg, ct'. sp; auto; try lia. }
  assert (CR' : (fl lg < e + i1)%Z).
  { unfold crosses in CR. rewrite TF in CR. apply andb_prop in CR. lia. }
  assert (L30 : lg <= 30).
  { destruct (N.le_gt_cases lg 30) as [|G]; auto. assert (lg = 31) as -> by lia. change (2 ^ Z.of_N 31)%Z with 2147483648%Z in FB.
    change (2 ^ 30) with 1073741824 in Q. lia. }
  assert (AD : addressable_slots mc (mp v) < 2 ^ 32).
  { rewrite (addressable_val _ _ _ W). apply N.pow_lt_mono_r; lia. }
  destruct (room_left c (mp v) Hsc (me' v) ct' I' ltac:(lia)) as (p1 & Lp1 & Ep1).
  destruct (grow_runs c B bo client Hsc HB v mp me' th' (e + i1) (d + x1) (0%Z, i1, x1) true lg ct' a' W ltac:(lia) (or_intror CP) I' A' ltac:(eauto))
    as (mp2 & me2 & g & ct2 & GG & S4 & P2 & W2 & I2 & A2 & T2 & U2).
  assert (P31 : (2 ^ Z.of_N lg <= 2147483648)%Z).
  { change 2147483648%Z with (2 ^ 31)%Z. apply Z.pow_le_mono_r; lia. }
  assert (D1 : (0 <= e + i1 < 2 ^ 60)%Z).
  { change (2 ^ 60)%Z with 1152921504606846976%Z. change (2 ^ 30) with 1073741824 in Q. lia. }
  assert (D2 : (0 <= d + x1 < 2 ^ 60)%Z).
  { change (2 ^ 60)%Z with 1152921504606846976%Z. change (2 ^ 30) with 1073741824 in Q. lia. }
  pose proof (resize_lg c (mp v) lg g (e + i1) (d + x1) ltac:(lia) W W2 D1 D2) as RG.
  set (m2 := resize mc (mp v) (as_size (e + i1)) (as_size (d + x1))) in *.
  exists (HSys (GSys (v + 1) mp2 me2 None (fupd th' 0 None)) (e + i1 - (d + x1)) 0 (0, 0, 0)%Z HCall), a'.
  split; [|split; [exact SP'|left]].
  - apply PRE. eapply ls_tau; [eapply h_cross; eauto; lia|].
    change [ERet 0 (gobs o r)] with ([] ++ [@ERet mop mres 0 (gobs o r)]). eapply steps_app; [exact S4|].
    eapply ls_vis; [eapply h_done; eauto|constructor].
  - exists (v + 1), mp2, me2, (fupd th' 0 None), (e + i1 - (d + x1))%Z, 0%Z, 0%Z, 0%Z, 0%Z, (lg + g), ct2. rewrite P2.
    assert (FL2 : (e + i1 - (d + x1) < fl (lg + g))%Z).
    { pose proof (fl_bounds (lg + g) ltac:(lia)) as FB2. unfold fill_above in RG.
      assert (PZ : Z.of_N (2 ^ lg) = (2 ^ Z.of_N lg)%Z) by (rewrite N2Z.inj_pow; reflexivity).
      destruct (Z.ltb_spec (e + i1) (d + x1)) as [G0|G0]; cbn [orb] in RG;
        [|destruct (N.ltb_spec (5404319552844595 * 2 ^ lg) (Z.to_N (e + i1 - (d + x1)) * 2 ^ 54)) as [G|G]]; subst g.
      - rewrite N2Z.inj_add, Z.pow_add_r in FB2 by lia. change (2 ^ Z.of_N 1)%Z with 2%Z in FB2. lia.
      - rewrite N2Z.inj_add, Z.pow_add_r in FB2 by lia. change (2 ^ Z.of_N 1)%Z with 2%Z in FB2. lia.
      - rewrite N.add_0_r in *. change (2 ^ 54) with 18014398509481984 in G. lia. }
    assert (PW : (2 ^ Z.of_N lg <= 2 ^ Z.of_N (lg + g))%Z) by (apply Z.pow_le_mono_r; lia).
    sp; auto; try lia.
Qed.

End One.

(** *** Whole executions *)

Lemma one_det c B bo client s l1 s1 l2 s2 :
  one_step c B bo client s l1 s1 -> one_step c B bo client s l2 s2 ->
  (l1 = l2 /\ s1 = s2) \/ exists o1 o2, l1 = Some (EInv 0 o1) /\ l2 = Some (EInv 0 o2).
Proof.
  intros S1 S2. inversion S1; subst; inversion S2; subst; eauto;
    try match goal with H : ?t 0 = Some _, H' : ?t 0 = Some _ |- _ => rewrite H in H'; injection H'; clear H'; intros; subst end;
    try congruence;
    try solve [exfalso; eauto];
    try solve [match goal with H : gobs _ _ = RInserted \/ _ |- _ => destruct H; congruence end].
  all: try match goal with H : bstep _ _ _ _ _ _ = _, H' : bstep _ _ _ _ _ _ = _ |- _ => rewrite H in H'; injection H'; intros; subst end.
  all: try match goal with H : hstep _ _ _ _ _ _ _ _ = _, H' : hstep _ _ _ _ _ _ _ _ = _ |- _ => rewrite H in H'; injection H'; intros; subst end.
  all: try match goal with H : count1 ?a ?b = _, H' : count1 ?a ?b = _ |- _ => rewrite H in H'; injection H'; intros; subst end.
  all: try solve [left; auto].
  all: try solve [exfalso; lia].
  all: try congruence.
Qed.

Lemma in_turn_app t l1 l2 : in_turn t (l1 ++ l2) = in_turn t l1 ++ in_turn t l2.
Proof. induction l1 as [|[o r] l1 IH]; cbn; [reflexivity|now rewrite IH]. Qed.

Lemma answers_app m1 l1 m2 l2 m3 : answers m1 l1 m2 -> answers m2 l2 m3 -> answers m1 (l1 ++ l2) m3.
Proof. induction 1; cbn; auto. intros. econstructor; eauto. Qed.

Section Runs.
Context (c : tcfg) (B : N) (bo : bool) (client : op -> Prop) (ne : Prop).
Context (Hsc : wf_scfg (tsc c)) (CP : cprob (tmc c) = true) (HB : 0 < B <= 2 ^ 31).
Context (OK : forall o, client o -> op_ok (tsc c) o) (NE : ne -> forall o, client o -> ~ erasing o).
Notation sc := (tsc c).
Notation mc := (tmc c).
Notation step := (one_step c B bo client).

(** Steps that do not end with exactly as many counted elements as the limit allows. *)
Definition off_step (s : hsys) (l : option (event mop mres)) (s' : hsys) : Prop :=
  step s l s' /\ (ne \/ hs_el s' <> limit c (hs_g s')).

Lemma oinv_init n lg : 9 <= lg <= 31 -> (1 <= n)%Z -> (214 * n <= 2 ^ Z.of_N lg)%Z -> oinv c ne n 0 0 (hsys_init c lg) amap_empty 0.
Proof.
  intros LG N1 NL. pose proof (wf_mk mc lg 0 ltac:(lia)) as W. pose proof (fresh_tinv c _ lg Hsc W) as I.
  exists 0, (fun _ => mk_mapper mc (2 ^ lg) 0), (fun _ => fresh_mem c (mk_mapper mc (2 ^ lg) 0)), (fun _ => None), 0%Z, 0%Z, 0%Z, 0%Z, 0%Z, lg, (fun _ => CEmpty).
  destruct (cnt_content c _ Hsc _ _ I) as [C1 C2].
  assert (F : forall (f : N -> bool) l, (forall p, f p = false) -> filter f l = []).
  { intros f l H. induction l as [|p l IH]; cbn; auto. now rewrite H. }
  rewrite C1, C2, !F by reflexivity. pose proof (fl_bounds lg (proj1 LG)).
  cbn [length Z.of_nat]. sp; auto; try lia. apply fresh_absr.
Qed.

(** What is known in the middle of an execution with trace [tr]. *)
Definition kinv (tr : list (event mop mres)) (s : hsys) : Prop :=
  exists ps a, answers amap_empty ps a /\
    ((tr = in_turn 0 ps /\ oinv c ne 1 0 0 s a (N.of_nat (length ps))) \/
     exists o r a2 s2, tr = in_turn 0 ps ++ [EInv 0 o] /\ mspec false false a o a2 r /\
       lts_steps step s [ERet 0 r] s2 /\
       (oinv c ne 1 0 0 s2 a2 (N.of_nat (length ps) + 1) \/ (hs_el s2 = limit c (hs_g s2) /\ ~ ne))).

Lemma oinv_idle s a q l s' : oinv c ne 1 0 0 s a q -> step s l s' -> exists o, client o /\ l = Some (EInv 0 (spec_op sc o)) /\ s' = begin_call o s.
Proof.
  intros (v & mp & me & th & e & d & u & i & x & lg & ct & -> & TH & _) ST. inversion ST; subst; try congruence. eauto.
Qed.

(** A call that is not in progress: no silent steps. *)
Lemma idle_silent s s' : gthr (hs_g s) 0 = None -> gmig (hs_g s) = None -> lts_steps step s [] s' -> s' = s.
Proof.
  intros T M ST. remember (@nil (event mop mres)) as tr. destruct ST as [|s s1 s2 tr S ST|]; [reflexivity| |discriminate].
  exfalso. inversion S; subst; cbn in *; congruence.
Qed.

Lemma after_ret s r s' : step s (Some (ERet 0 r)) s' -> gthr (hs_g s') 0 = None /\ gmig (hs_g s') = None.
Proof. intros S. inversion S; subst; cbn; rewrite ?fupd_eq; auto. Qed.

Lemma kinv_step tr s l s' : kinv tr s -> (l <> None -> N.of_nat (length tr) < 2 ^ 31) -> off_step s l s' ->
  kinv (tr ++ match l with Some e => [e] | None => [] end) s'.
Proof.
  intros (ps & a & AN & [(-> & I)|(o & r & a2 & s2 & -> & SP & LS & I2)]) LEN [ST OFF].
  - destruct (oinv_idle _ _ _ _ _ I ST) as (o & CL & -> & ->).
    assert (LL : forall ps, length (in_turn 0 ps) = (2 * length ps)%nat).
    { clear. induction ps as [|[o r] ps IH]; cbn; [reflexivity|rewrite IH; lia]. }
    specialize (LEN ltac:(discriminate)). rewrite LL in LEN. change (2 ^ 31) with (2 * 2 ^ 30) in LEN.
    destruct (one_call c B bo client Hsc CP HB ne 1 0 0 s a _ o I (OK o CL) (fun X => NE X o CL) ltac:(lia)) as (r & s2 & a2 & LS & SP & I2).
    exists ps, a. split; auto. right. exists (spec_op sc o), r, a2, s2. sp; auto.
  - inversion LS as [|? s1 ? ? S1 LS1|? ? s1 ? ? S1 LS1]; subst.
    + destruct (one_det _ _ _ _ _ _ _ _ _ ST S1) as [[-> ->]|(o1 & o2 & _ & X)]; [|discriminate].
      rewrite app_nil_r. exists ps, a. split; auto. right. exists o, r, a2, s2. sp; auto.
    + destruct (one_det _ _ _ _ _ _ _ _ _ ST S1) as [[-> ->]|(o1 & o2 & _ & X)]; [|discriminate].
      destruct (after_ret _ _ _ S1) as [T M]. pose proof (idle_silent _ _ T M LS1) as X. subst s2.
      exists (ps ++ [(o, r)]), a2. split; [eapply answers_app; eauto; econstructor; eauto; constructor|]. left. split.
      * rewrite in_turn_app, <- app_assoc. reflexivity.
      * rewrite app_length, Nat2N.inj_add. cbn [length]. destruct I2 as [I2|[I2 NN]]; auto. destruct OFF; contradiction.
Qed.

Lemma kinv_steps s tr s' : lts_steps off_step s tr s' -> forall tr0, kinv tr0 s -> N.of_nat (length (tr0 ++ tr)) <= 2 ^ 31 ->
  kinv (tr0 ++ tr) s'.
Proof.
  induction 1 as [s|s s1 s2 tr S ST IH|s e s1 s2 tr S ST IH]; intros tr0 K LEN.
  - now rewrite app_nil_r.
  - apply IH; auto. rewrite <- (app_nil_r tr0).
    apply (kinv_step _ s None); auto. congruence.
  - replace (tr0 ++ e :: tr) with ((tr0 ++ [e]) ++ tr) by (now rewrite <- app_assoc).
    apply IH; [|rewrite <- app_assoc; exact LEN]. apply (kinv_step _ s (Some e)); auto.
    intros _. rewrite app_length in LEN. cbn [length] in LEN. lia.
Qed.

Lemma will_ret s r s2 : lts_steps step s [ERet 0 r] s2 -> will_return step r s.
Proof.
  intros LS. remember [ERet 0 r] as tr eqn:E. induction LS as [|s s1 s3 tr S LS IH|s e s1 s3 tr S LS IH]; [discriminate| |].
  - apply wr_later; [eauto|]. intros l s' S'. destruct (one_det _ _ _ _ _ _ _ _ _ S S') as [[<- <-]|(o1 & o2 & X & _)]; [auto|discriminate].
  - injection E as -> ->. apply wr_now; [eauto|]. intros l s' S'.
    destruct (one_det _ _ _ _ _ _ _ _ _ S S') as [[<- <-]|(o1 & o2 & X & _)]; [auto|discriminate].
Qed.

End Runs.
