(** Several threads using a growing table: without further calls everything comes to an end. *)
From Coq Require Import NArith ZArith Bool List Lia Wf_nat.
From Verif Require Import Words Slot SlotFacts Mapper MapperFacts ReturnCode MapSpec LinSpec
  Base BaseInv BaseLin BaseExec BaseSolo TableSpec BaseFacts Raw LockFree Migrate MigrateExec MigrateGeo MigrateInv GrowSpec MigrateRun MigrateHelp
  MigrateSys MigrateDone EndSpec MigrateEnd GrowFacts Growing GrowingSpec GrowingInv GrowingFacts GrowingSolo GrowingRoom
  AsyncTableInv Count GrowOom OneHandle OneHandleFacts Crowd CrowdSpec CrowdFacts CrowdCount CrowdLive.
Import ListNotations.
Open Scope N_scope.
Local Ltac sp := repeat match goal with |- _ /\ _ => split end.

(** Circular probing: a cell ahead of every position that is not in use. *)
Lemma free_circ c m lg t q : wf_mapper (tmc c) m lg -> cprob (tmc c) = true -> q < total_slots (tmc c) m -> ~ Raw.used c t q ->
  exists E, free_at c m E t.
Proof.
  intros Hm CP L NU. pose proof (pow2_pos lg) as PP. rewrite (total_val _ _ _ Hm), CP in L.
  exists (fun i => i + (q + (2 ^ lg - i mod 2 ^ lg)) mod 2 ^ lg). intros k.
  set (i := home c m k). split.
  - rewrite (total_val _ _ _ Hm), CP.
    assert ((q + (2 ^ lg - i mod 2 ^ lg)) mod 2 ^ lg < 2 ^ lg) by (apply N.mod_lt; lia). clearbody i; revert H; generalize ((q + (2 ^ lg - i mod 2 ^ lg)) mod 2 ^ lg) as z; intros; lia.
  - intros U. apply NU. revert U. rewrite (remap_val _ _ _ Hm), CP.
    rewrite N.add_mod_idemp_r by lia.
    replace (i + (q + (2 ^ lg - i mod 2 ^ lg))) with (q + (i + (2 ^ lg - i mod 2 ^ lg)))
      by (assert (i mod 2 ^ lg < 2 ^ lg) by (apply N.mod_lt; lia); lia).
    assert (Z : (i + (2 ^ lg - i mod 2 ^ lg)) mod 2 ^ lg = 0).
    { rewrite (N.div_mod i (2 ^ lg)) at 1 by lia.
      assert (i mod 2 ^ lg < 2 ^ lg) by (apply N.mod_lt; lia).
      replace (2 ^ lg * (i / 2 ^ lg) + i mod 2 ^ lg + (2 ^ lg - i mod 2 ^ lg))
        with (0 + (i / 2 ^ lg + 1) * 2 ^ lg) by lia.
      rewrite N.mod_add by lia. apply N.mod_small. lia. }
    rewrite <- N.add_mod_idemp_r by lia. rewrite Z, N.add_0_r, N.mod_small by lia. auto.
Qed.

Lemma raw_at_inv c m lg t ct mk o pc : wf_scfg (tsc c) -> wf_mapper (tmc c) m lg -> tinv c m t ct mk -> thr_inv c m ct o pc -> (forall r, pc <> PDone r) -> raw_at c m t o pc.
Proof.
  intros Hsc Hm I T ND.
  assert (P : forall n, prefix c m ct (op_key o) n -> passed c m t (home c m (op_key o)) (home c m (op_key o) + n)).
  { intros n PX. split; [lia|]. intros j Lj. replace j with (home c m (op_key o) + (j - home c m (op_key o))) by lia.
    destruct (PX (j - home c m (op_key o)) ltac:(lia)) as [NE _].
    destruct (rd_tinv c m lg Hm t ct mk (op_key o) (j - home c m (op_key o)) I) as (RD & L & O).
    { intros j' Lj'. apply PX. lia. }
    eexists. split; [eapply rd_mem; exact RD|]. rewrite (enc_is_empty _ Hsc _ _ O). destruct (ct _); congruence. }
  destruct pc as [i|i s|i s|i s|r|]; cbn in *; try tauto; destruct T as (n & T).
  - destruct T as [-> T]. auto.
  - destruct T as (d & -> & T & _). auto.
  - destruct T as (d & -> & T & _). auto.
  - destruct T as (d & -> & T & _). auto.
Qed.

Section Ends.
Context (c : tcfg) (B n : N) (client : op -> Prop).
Context (Hsc : wf_scfg (tsc c)) (CO : client_ok (tsc c) client) (NE : forall o, client o -> ~ erasing o).
Context (CP : cprob (tmc c) = true) (HB : 0 < B <= 2 ^ 31).
Notation sc := (tsc c).
Notation mc := (tmc c).
Notation cstep := (closed_step true c B n client).
Notation linv := (CrowdLive.linv c B n client).

(** How far the threads are from the end of their calls; waiting for a migration is no progress. *)
Definition prank (x : option (op * gpc)) (q : kph) : Z :=
  match q with
  | KIn _ true => 2 | KWant _ true => 3 | KIn _ false => 6 | KWant _ false => 7
  | KCall => match x with None => 0 | Some (_, GGet) => 6 | Some (_, GRun _ pc) => if running pc then 5 else 4 end
  end%Z.
(** What a thread that waits still has to do before the next version is published. *)
Definition wrank (v : N) (x : option (op * gpc)) (q : kph) : Z :=
  match q with
  | KIn u false => if (u <? v)%N then 2 else 0
  | KCall => match x with Some (_, GGet) => 1 | _ => 0 end
  | _ => 0
  end%Z.
Definition sumof (f : option (op * gpc) -> kph -> Z) (s : ksys) : Z := nsum (fun t => f (gthr (k_g s) t) (k_ph s t)) (N.to_nat n).
Definition P (s : ksys) : Z := sumof prank s.
Definition A (s : ksys) : Z := sumof (wrank (gver (k_g s))) s.

Lemma sumof_pos f s : (forall x q, 0 <= f x q <= 7)%Z -> (0 <= sumof f s)%Z.
Proof. intros H. apply (nsum_bound _ 7). intros. apply H. Qed.
Lemma prank_pos x q : (0 <= prank x q <= 7)%Z.
Proof. destruct q as [|u []|u []]; cbn; try lia. destruct x as [[o [|u pc]]|]; try lia. destruct (running pc); lia. Qed.
Lemma wrank_pos v x q : (0 <= wrank v x q <= 7)%Z.
Proof. destruct q as [|u []|u []]; cbn; try lia. destruct x as [[o [|u pc]]|]; lia. destruct (u <? v); lia. Qed.

Lemma sumof_one f s s' t : t < n -> (forall t', t' <> t -> gthr (k_g s') t' = gthr (k_g s) t' /\ k_ph s' t' = k_ph s t') ->
  sumof f s' = (sumof f s - f (gthr (k_g s) t) (k_ph s t) + f (gthr (k_g s') t) (k_ph s' t))%Z.
Proof.
  intros L O. unfold sumof. apply (nsum_one (fun t => f (gthr (k_g s) t) (k_ph s t)) (fun t => f (gthr (k_g s') t) (k_ph s' t)) t); [lia|].
  intros t' NE'. cbn. destruct (O t' NE') as [-> ->]. reflexivity.
Qed.
Lemma sumof_same f s s' : (forall t, gthr (k_g s') t = gthr (k_g s) t /\ k_ph s' t = k_ph s t) -> sumof f s' = sumof f s.
Proof. intros O. apply nsum_ext. intros t _. destruct (O t) as [-> ->]. reflexivity. Qed.

(** What a step does that is not the beginning of a call: a thread comes closer to the end of its call, or it is a step of
    one of these kinds. *)
Inductive plain : ksys -> ksys -> Prop :=
| pl_run v mp me th e d l p t o pc b t' pc' :
    t < n -> th t = Some (o, GRun v pc) -> p t = KCall -> running pc = true -> running pc' = true ->
    bstep c (mp v) (me v) b o pc = (t', pc') ->
    plain (KSys (GSys v mp me None th) e d l p) (KSys (GSys v mp (fupd me v t') None (fupd th t (Some (o, GRun v pc')))) e d l p)
| pl_wait v mp me mg th e d l p t q :
    t < n -> (wrank v (th t) q < wrank v (th t) (p t))%Z ->
    plain (KSys (GSys v mp me mg th) e d l p) (KSys (GSys v mp me mg th) e d l (fupd p t q))
| pl_join v mp me k h th e d l p t :
    t < n -> h t = None ->
    plain (KSys (GSys v mp me (Some (k, h)) th) e d l p) (KSys (GSys v mp me (Some (k, fupd h t (Some HClaim))) th) e d l p)
| pl_help v mp me k h th e d l p t pc s' t' k' pc' :
    t < n -> h t = Some pc -> pc <> HEnd ->
    hstep c (mp v) (mp (v + 1)) B (me v) (me (v + 1)) k pc = (s', t', k', pc') ->
    plain (KSys (GSys v mp me (Some (k, h)) th) e d l p)
      (KSys (GSys v mp (fupd (fupd me v s') (v + 1) t') (Some (k', fupd h t (Some pc'))) th) e d l p)
| pl_publish v mp me k h th e d l p :
    plain (KSys (GSys v mp me (Some (k, h)) th) e d l p) (KSys (GSys (v + 1) mp me None th) (e - d) 0 l p).

Ltac drop t := left; unfold P; match goal with |- (sumof prank ?s' < sumof prank ?s)%Z => rewrite (sumof_one prank s s' t) end;
  [|assumption|intros ? ?; cbn; rewrite ?fupd_neq by assumption; auto]; cbn [k_g gthr k_ph begin_grow]; rewrite ?fupd_eq.
Ltac keep t := unfold P; match goal with |- (sumof prank ?s' <= sumof prank ?s)%Z => rewrite (sumof_one prank s s' t) end;
  [|assumption|intros ? ?; cbn; rewrite ?fupd_neq by assumption; auto]; cbn [k_g gthr k_ph begin_grow]; rewrite ?fupd_eq.

Lemma step_kinds s l s' : linv s -> cstep s l s' -> begins l = false -> (P s' < P s)%Z \/ ((P s' <= P s)%Z /\ plain s s').
Proof.
  intros I [ST _] BG. pose proof I as ((_ & _ & PH & W4) & _ & CI0 & V). specialize (W4 eq_refl).
  destruct ST as [v mp me mg th e d l p t o L T P0 CLI|v mp me mg th e d l p t o L T P0 SY
    |v mp me mg th e d l p t o u pc b t' pc' L T P0 ND ST|v mp me mg th e d l p t o u r L T P0 R IV
    |v mp me mg th e d l p t o u r L T P0 R NI|v mp me mg th e d l p t o u r L T P0 R NI NE0
    |v mp me mg th e d l p t o u r m i x0 L T P0 R G C1 M|v mp me mg th e d l p t o u r m i x0 L T P0 R G SY C1 M CR
    |v mp me mg th e d l p t o u r m i x0 L T P0 R G SY C1 M CR|v mp me th e d l p t w L P0 NO AD
    |v mp me mg th e d l p t u w L P0 NV|v mp me k h th e d l p t o S0 L T P0|v mp me k h th e d l p t u w L P0 H
    |v mp me k h th e d l p t pc s' t' k' pc' L H NE0 ST|v mp me k h th e d l p EX AL
    |v mp me mg th e d l p t o u L P0 LT T|v mp me mg th e d l p t o g r u L P0 LT T|v mp me mg th e d l p t o g u r L P0 LT T];
    cbn [k_g k_ph k_el k_du k_loc gthr gmig gver gmap gmem vers begin_grow] in *; destruct V as (V1 & V2 & V3 & V4);
    try (rewrite (V4 _ _ _ _ T) in R; discriminate); try discriminate BG.
  - drop t. rewrite T, P0. cbn. destruct o; cbn; lia.
  - destruct (running pc') eqn:RU; [|drop t; rewrite T, P0; cbn; rewrite RU, (proj2 (running_nd pc) ND); lia].
    pose proof (proj2 (running_nd pc) ND) as RP.
    assert (MG : mg = None).
    { destruct mg as [[k h]|]; auto. destruct (W4 ltac:(cbn; discriminate) t o u pc T) as [r1 ->]. now elim (ND r1). }
    assert (u = v). { destruct CI0 as (lg & _ & _ & _ & _ & _ & _ & _ & _ & _ & RN & _). now apply (RN _ _ _ _ T). }
    subst mg u. right. split; [keep t; rewrite T, P0; cbn; rewrite RU, RP; lia|]. eapply pl_run; eauto.
  - drop t. rewrite T, P0. cbn. lia.
  - drop t. rewrite T, P0. cbn. lia.
  - drop t. rewrite T, P0. cbn. lia.
  - drop t. rewrite T, P0. cbn. lia.
  - drop t. rewrite P0. destruct w; cbn; lia.
  - drop t. rewrite P0. destruct w; cbn; lia.
  - right. split; [keep t; rewrite T, P0; cbn; lia|]. apply pl_wait; auto. rewrite T, P0. cbn. rewrite N.ltb_irrefl. lia.
  - right. split; [unfold P; rewrite (sumof_same prank (KSys (GSys v mp me (Some (k, h)) th) e d l p)); [lia|auto]|]. eapply pl_join; eauto.
  - right. split; [unfold P; rewrite (sumof_same prank (KSys (GSys v mp me (Some (k, h)) th) e d l p)); [lia|auto]|]. eapply pl_help; eauto.
  - right. split; [unfold P; rewrite (sumof_same prank (KSys (GSys v mp me (Some (k, h)) th) e d l p)); [lia|auto]|]. eapply pl_publish; eauto.
  - right. split; [keep t; rewrite T, P0; cbn; lia|]. apply pl_wait; auto. rewrite T, P0. cbn. apply N.ltb_lt in LT. rewrite LT. lia.
  - exfalso. specialize (PH t). rewrite P0, T in PH. destruct PH as (o1 & [X|(u1 & r1 & X & R1)]); [discriminate|].
    rewrite <- T in X. rewrite (V4 _ _ _ _ X) in R1. discriminate.
  - drop t. rewrite P0. cbn. lia.
Qed.

Definition calm (s' s : ksys) : Prop := exists l, cstep s l s' /\ begins l = false.

(** What the running calls still have to do. *)
Definition todo (E : N -> N) (s : ksys) : Z :=
  let '(KSys (GSys v mp me mg th) e d l p) := s in
  nsum (fun t => match th t with Some (o, GRun _ pc) => if running pc then Z.of_N (left c (mp v) E (me v) o pc) else 0 | _ => 0 end%Z) (N.to_nat n).
Lemma todo_pos E s : (0 <= todo E s)%Z.
Proof.
  destruct s as [[v mp me mg th] e d l p]. unfold todo. generalize (N.to_nat n) as k. induction k as [|k IH]; cbn [nsum]; [lia|].
  assert (0 <= match th (N.of_nat k) with Some (o, GRun _ pc) => if running pc then Z.of_N (left c (mp v) E (me v) o pc) else 0 | _ => 0 end)%Z.
  { destruct (th (N.of_nat k)) as [[o [|u pc]]|]; try lia. destruct (running pc); lia. }
  lia.
Qed.

Lemma shape_sane o pc : shape c o pc -> LockFree.sane o pc.
Proof. destruct pc; cbn; auto; destruct o; cbn; tauto. Qed.

Lemma linv_free s : linv s -> exists E, free_at c (gmap (k_g s) (gver (k_g s))) E (gmem (k_g s) (gver (k_g s))).
Proof.
  intros (_ & (x & GR) & CI & _). destruct (cinv_vacant c B n client Hsc CP HB _ _ CI GR) as [q VQ].
  destruct GR as (ct & mk & ts & CU & _). destruct (cur_wf c B _ _ _ CU) as [lg W].
  pose proof (cur_tinv c B _ _ _ CU) as TI. pose proof (vacant_content c _ _ _ _ _ Hsc TI VQ) as [LQ EQ].
  eapply free_circ; eauto. intros (z & EZ & IZ). destruct (ti_cell _ _ _ _ _ TI q LQ) as [EE O].
  assert (z = enc sc (ct q) (mk q)) by congruence. subst z. rewrite (enc_is_empty _ Hsc _ _ O), EQ in IZ. discriminate.
Qed.

Lemma run_todo E v mp me th e d l p t o pc b t' pc' : linv (KSys (GSys v mp me None th) e d l p) ->
  free_at c (mp v) E (me v) -> t < n -> th t = Some (o, GRun v pc) -> running pc = true -> running pc' = true ->
  bstep c (mp v) (me v) b o pc = (t', pc') ->
  (forall q, t' q = me v q) /\
  (todo E (KSys (GSys v mp (fupd me v t') None (fupd th t (Some (o, GRun v pc')))) e d l p) < todo E (KSys (GSys v mp me None th) e d l p))%Z.
Proof.
  intros I F L T R R' ST. pose proof (proj1 (running_nd _) R) as ND. pose proof (proj1 (running_nd _) R') as ND'.
  destruct I as (_ & (x & ct & mk & ts & CU & AB & TH & _) & CI & _). pose proof (cur_tinv c B _ _ _ CU) as TI.
  destruct (cur_wf c B _ _ _ CU) as [lg W]. cbn [k_g gver gmap gmem gmig gthr] in *.
  specialize (TH t). rewrite T in TH. destruct TH as [CL TH].
  assert (TV : thr_inv c (mp v) ct o pc).
  { destruct pc; try discriminate; (destruct TH as [(_ & TV & _)|[X _]]; [exact TV|cbn in X; lia]). }
  assert (SH : LockFree.sane o pc).
  { destruct CI as (lg0 & _ & _ & _ & _ & _ & _ & _ & _ & _ & RN & _). apply shape_sane, (RN _ _ _ _ T). }
  assert (RM : raw_mem c (mp v) (me v)).
  { split; [|congruence]. intros q LQ. destruct (ti_cell _ _ _ _ _ TI q LQ) as [-> _]. discriminate. }
  destruct (at_left c (mp v) lg W E (me v) b o pc t' pc' RM (raw_at_inv _ _ _ _ _ _ _ _ Hsc W TI TV ND) SH F ST ND ND') as (SM & _ & LE).
  split; auto. unfold todo. rewrite fupd_eq.
  erewrite (nsum_one (fun t0 => match th t0 with Some (o, GRun _ pc) => if running pc then Z.of_N (left c (mp v) E (me v) o pc) else 0 | _ => 0 end)%Z _ t).
  - rewrite fupd_eq, T, R, R'. lia.
  - lia.
  - intros t0 NE0. rewrite fupd_neq by exact NE0. destruct (th t0) as [[o0 [|u0 pc0]]|]; auto. destruct (running pc0); auto.
    now rewrite (same_left c (mp v) E (me v) t').
Qed.

(** Without a migration. *)
Lemma calm_open Pn : (forall s, linv s -> (P s < Pn)%Z -> Acc calm s) -> forall s, linv s -> gmig (k_g s) = None -> (P s <= Pn)%Z -> Acc calm s.
Proof.
  intros IHP s. remember (Z.to_nat (A s)) as a eqn:EA. revert s EA. induction a as [a IHA] using lt_wf_ind.
  intros s EA I. destruct (linv_free s I) as [E F]. remember (Z.to_nat (todo E s)) as f eqn:EF. revert s EA I F EF.
  induction f as [f IHF] using lt_wf_ind. intros s EA I F EF MG PN. constructor. intros s' (l & ST & BG).
  pose proof (linv_step c B n client Hsc CO NE CP HB _ _ _ I ST) as I'.
  destruct (step_kinds _ _ _ I ST BG) as [PL|[PL K]]; [apply IHP; auto; lia|].
  destruct K as [v mp me th e d lo p t o pc b t' pc' L T P0 R R' BS|v mp me mg th e d lo p t q L W|v mp me k h th e d lo p t L H
    |v mp me k h th e d lo p t pc s' t' k' pc' L H NH HS|v mp me k h th e d lo p]; try discriminate MG.
  - cbn [k_g gver gmap gmem] in F. destruct (run_todo E _ _ _ _ e d lo p _ _ _ _ _ _ I F L T R R' BS) as [SM LT].
    refine (IHF _ _ _ _ I' _ eq_refl eq_refl _); [| | |lia].
    + rewrite EF. pose proof (todo_pos E (KSys (GSys v mp (fupd me v t') None (fupd th t (Some (o, GRun v pc')))) e d lo p)). lia.
    + rewrite EA. f_equal. unfold A. cbn [k_g gver].
      rewrite (sumof_one _ (KSys (GSys v mp me None th) e d lo p) (KSys (GSys v mp (fupd me v t') None (fupd th t (Some (o, GRun v pc')))) e d lo p) t); auto.
      * cbn [k_g gthr k_ph]. rewrite fupd_eq, T, P0. cbn. lia.
      * intros t0 NE0. cbn. now rewrite fupd_neq by exact NE0.
    + cbn [k_g gver gmap gmem]. rewrite fupd_eq. intros k. destruct (F k) as [F1 F2]. split; auto. intros (z & EZ & IZ). apply F2. exists z. now rewrite <- SM.
  - eapply IHA; [|reflexivity|exact I'|exact MG|lia]. rewrite EA.
    assert (X : (A (KSys (GSys v mp me mg th) e d lo (fupd p t q)) < A (KSys (GSys v mp me mg th) e d lo p))%Z).
    { unfold A. rewrite (sumof_one _ (KSys (GSys v mp me mg th) e d lo p) (KSys (GSys v mp me mg th) e d lo (fupd p t q)) t); auto.
      - cbn [k_g gver gthr k_ph]. rewrite fupd_eq. lia.
      - intros t0 NE0. cbn. now rewrite fupd_neq by exact NE0. }
    pose proof (sumof_pos (wrank v) (KSys (GSys v mp me mg th) e d lo (fupd p t q)) (wrank_pos v)). unfold A in *. cbn [k_g gver] in *. lia.
Qed.

(** Threads that have not joined the migration. *)
Definition apart (s : ksys) : Z :=
  match gmig (k_g s) with Some (_, h) => nsum (fun t => match h t with None => 1 | _ => 0 end)%Z (N.to_nat n) | None => 0%Z end.
Lemma apart_pos s : (0 <= apart s)%Z.
Proof. unfold apart. destruct (gmig (k_g s)) as [[k h]|]; [|lia]. apply (nsum_bound _ 1). intros t _. destruct (h t); lia. Qed.

Lemma wait_less v mp me mg th e d lo p t q : t < n -> (wrank v (th t) q < wrank v (th t) (p t))%Z ->
  (A (KSys (GSys v mp me mg th) e d lo (fupd p t q)) < A (KSys (GSys v mp me mg th) e d lo p))%Z.
Proof.
  intros L W. unfold A. rewrite (sumof_one _ (KSys (GSys v mp me mg th) e d lo p) (KSys (GSys v mp me mg th) e d lo (fupd p t q)) t); auto.
  - cbn [k_g gver gthr k_ph]. rewrite fupd_eq. lia.
  - intros t0 NE0. cbn. now rewrite fupd_neq by exact NE0.
Qed.

Lemma plain_mig v mp me k h th e d l p s1 : plain (KSys (GSys v mp me (Some (k, h)) th) e d l p) s1 ->
  (exists t q, t < n /\ (wrank v (th t) q < wrank v (th t) (p t))%Z /\ s1 = KSys (GSys v mp me (Some (k, h)) th) e d l (fupd p t q)) \/
  (exists t, t < n /\ h t = None /\ s1 = KSys (GSys v mp me (Some (k, fupd h t (Some HClaim))) th) e d l p) \/
  (exists t pc s' t' k' pc', t < n /\ h t = Some pc /\ pc <> HEnd /\
    hstep c (mp v) (mp (v + 1)) B (me v) (me (v + 1)) k pc = (s', t', k', pc') /\
    s1 = KSys (GSys v mp (fupd (fupd me v s') (v + 1) t') (Some (k', fupd h t (Some pc'))) th) e d l p) \/
  s1 = KSys (GSys (v + 1) mp me None th) (e - d) 0 l p.
Proof.
  intros K. inversion K; subst.
  - left. eauto 10.
  - right. left. eauto 10.
  - right. right. left. do 6 eexists. sp; eauto.
  - auto.
Qed.

Lemma calm_help Pn a b : (forall s, linv s -> (P s < Pn)%Z -> Acc calm s) ->
  (forall s, linv s -> gmig (k_g s) <> None -> (P s <= Pn)%Z -> (A s < a)%Z -> Acc calm s) ->
  (forall s, linv s -> gmig (k_g s) <> None -> (P s <= Pn)%Z -> (A s <= a)%Z -> (apart s < b)%Z -> Acc calm s) ->
  forall lg j v mp th e d lo p, wf_mapper mc (mp v) lg -> forall f i0 me k h, linv (KSys (GSys v mp me (Some (k, h)) th) e d lo p) ->
  (P (KSys (GSys v mp me (Some (k, h)) th) e d lo p) <= Pn)%Z -> (A (KSys (GSys v mp me (Some (k, h)) th) e d lo p) <= a)%Z ->
  (apart (KSys (GSys v mp me (Some (k, h)) th) e d lo p) <= b)%Z ->
  acc c (mp v) (mp (v + 1)) lg i0 j 0 (MSys (me v) (me (v + 1)) k h (fun _ => None)) -> bound lg + j <= i0 + N.of_nat f ->
  Acc calm (KSys (GSys v mp me (Some (k, h)) th) e d lo p).
Proof.
  intros IHP IHA IHB lg j v mp th e d lo p W. induction f as [|f IHF]; intros i0 me k h I PN AN BN AC FU; constructor; intros s' (l & ST & BG).
  all: pose proof (linv_step c B n client Hsc CO NE CP HB _ _ _ I ST) as I'.
  all: destruct (step_kinds _ _ _ I ST BG) as [PL|[PL K]]; [apply IHP; auto; lia|].
  all: destruct (plain_mig _ _ _ _ _ _ _ _ _ _ _ K) as [(t & q & L & WL & ->)|[(t & L & HT & ->)|[(t & pc & s1 & t1 & k1 & pc1 & L & HT & NH & HS & ->)| ->]]].
  1, 5: apply IHA; [exact I'|discriminate|lia|]; eapply Z.lt_le_trans; [eapply wait_less|exact AN]; assumption.
  1, 4: apply IHB; [exact I'|discriminate|lia|exact AN|]; eapply Z.lt_le_trans; [|exact BN]; unfold apart; cbn [k_g gmig];
    erewrite (nsum_one (fun t => match h t with None => 1 | _ => 0 end)%Z _ t) by first [lia|intros t0 NE0; now rewrite fupd_neq by exact NE0];
    rewrite fupd_eq, HT; lia.
  2, 4: eapply calm_open; [exact IHP|exact I'|reflexivity|lia].
  all: pose proof (acc_join c B n client Hsc HB lg _ _ _ _ _ _ _ _ _ _ _ _ _ _ _ _ _ _ I W AC HT NH HS) as AC'.
  - destruct AC' as (ls & _ & _ & _ & Q). lia.
  - eapply (IHF (i0 + 1)); [exact I'|lia|exact AN| | |lia].
    + eapply Z.le_trans; [|exact BN]. unfold apart. cbn [k_g gmig].
      erewrite (nsum_one (fun t => match h t with None => 1 | _ => 0 end)%Z _ t) by first [lia|intros t0 NE0; now rewrite fupd_neq by exact NE0].
      rewrite fupd_eq, HT. lia.
    + rewrite fupd_eq, (fupd_neq _ (v + 1)) by lia. rewrite fupd_eq. exact AC'.
Qed.

Lemma calm_closed Pn : (forall s, linv s -> (P s < Pn)%Z -> Acc calm s) ->
  forall a b s, linv s -> gmig (k_g s) <> None -> (P s <= Pn)%Z -> (A s <= Z.of_nat a)%Z -> (apart s <= Z.of_nat b)%Z -> Acc calm s.
Proof.
  intros IHP. induction a as [a IHA] using lt_wf_ind. induction b as [b IHB] using lt_wf_ind.
  intros s I MG PN AN BN. destruct s as [[v mp me [[k h]|] th] e d lo p]; [|now elim MG].
  pose proof I as ((_ & W2 & _) & (x & ct & mk & ts & (lg & W & _) & _) & _). cbn [k_g gver gmap gmem gmig] in *.
  set (s0 := MSys (me v) (me (v + 1)) k h (fun _ => None)). set (ls := nrange 0 (N.to_nat n)).
  set (j := len ls + phi c (mp v) (mp (v + 1)) lg s0 ls).
  refine (calm_help Pn (Z.of_nat a) (Z.of_nat b) IHP _ _ lg j v mp th e d lo p W (N.to_nat (bound lg + j)) 0 me k h I PN AN BN _ _).
  - intros s1 I1 MG1 P1 A1. pose proof (sumof_pos (wrank (gver (k_g s1))) s1 (wrank_pos _)). fold (A s1) in H. pose proof (apart_pos s1).
    eapply (IHA (Z.to_nat (A s1)) ltac:(lia) (Z.to_nat (apart s1))); auto; lia.
  - intros s1 I1 MG1 P1 A1 B1. pose proof (apart_pos s1). eapply (IHB (Z.to_nat (apart s1))); auto; lia.
  - exists ls. split; [apply nrange_nodup|]. split; [|split; [unfold j; apply N.le_add_r|]]; cycle 1.
    { rewrite N.mul_0_r, N.add_0_r, N.add_0_l. unfold j. fold s0. lia. }
    intros t H. apply in_nrange. split; [lia|].
    destruct (N.lt_ge_cases t n) as [|GE]; [lia|]. elim H. eapply W2; eauto.
  - lia.
Qed.

Lemma calm_acc s : linv s -> Acc calm s.
Proof.
  remember (Z.to_nat (P s)) as f eqn:F. revert s F. induction f as [f IH] using lt_wf_ind. intros s F I.
  assert (IHP : forall s1, linv s1 -> (P s1 < P s)%Z -> Acc calm s1).
  { intros s1 I1 L1. eapply IH; [|reflexivity|exact I1]. pose proof (sumof_pos prank s1 prank_pos). unfold P in *. lia. }
  destruct (gmig (k_g s)) as [x|] eqn:MG; [|eapply calm_open; eauto; lia].
  pose proof (sumof_pos (wrank (gver (k_g s))) s (wrank_pos _)) as AP. fold (A s) in AP. pose proof (apart_pos s).
  eapply (calm_closed (P s) IHP (Z.to_nat (A s)) (Z.to_nat (apart s))); auto; try lia. congruence.
Qed.

Lemma goes_first s s' : CrowdLive.goes c B n client s s' -> s' <> s -> exists l s1, cstep s l s1 /\ begins l = false.
Proof.
  intros (tr & ST & Q) D. inversion ST as [|? ? ? ? S1|? e ? ? ? S1]; subst; [congruence|eexists; eexists; split; [exact S1|reflexivity]|].
  eexists; eexists; split; [exact S1|]. destruct e as [t o|t r]; auto. elim (Q t o). now left.
Qed.

Lemma calm_progress s : linv s -> CrowdLive.rested n s \/ CrowdLive.huge c s \/ exists l s', cstep s l s' /\ begins l = false.
Proof.
  intros I. destruct s as [[v mp me [[k h]|] th] e d l p].
  - right. right. destruct (migration_ends c B n client Hsc CO NE CP HB _ _ _ _ _ _ _ _ _ _ I) as (me' & e' & G). eapply goes_first; eauto.
    intros X. injection X. lia.
  - destruct (progress c B n client Hsc CO NE CP HB _ I eq_refl) as [R|[R|(s' & G & LT)]]; auto. right. right. eapply goes_first; eauto.
    intros ->. lia.
Qed.

Lemma all_return s : linv s -> inevitable cstep (fun s' => CrowdLive.rested n s' \/ CrowdLive.huge c s') s.
Proof.
  intros I. pose proof (calm_acc s I) as AC. induction AC as [s _ IH].
  destruct (calm_progress s I) as [R|[R|EX]]; [apply in_now; auto|apply in_now; auto|]. apply in_later; auto.
  intros l s' ST BG. apply IH; [exists l; auto|]. eapply linv_step; eauto.
Qed.

(** *** Infinite schedules *)

Definition returns (l : option (event mop mres)) : bool := match l with Some (ERet _ _) => true | _ => false end.
Definition idle1 (x : option (op * gpc)) (_ : kph) : Z := match x with None => 1 | Some _ => 0 end%Z.
Lemma idle1_pos x q : (0 <= idle1 x q <= 7)%Z.
Proof. destruct x; cbn; lia. Qed.

Lemma idle_step s l s' : cstep s l s' -> returns l = false ->
  if begins l then (sumof idle1 s' < sumof idle1 s)%Z else sumof idle1 s' = sumof idle1 s.
Proof.
  intros [ST _] RT.
  assert (ONE : forall s s' t, t < n -> (forall t', t' <> t -> gthr (k_g s') t' = gthr (k_g s) t') ->
    sumof idle1 s' = (sumof idle1 s - idle1 (gthr (k_g s) t) KCall + idle1 (gthr (k_g s') t) KCall)%Z).
  { intros s0 s1 t L O. unfold sumof.
    apply (nsum_one (fun t => idle1 (gthr (k_g s0) t) (k_ph s0 t)) (fun t => idle1 (gthr (k_g s1) t) (k_ph s1 t)) t); [lia|].
    intros t' NE'. cbn. rewrite (O t' NE'). reflexivity. }
  assert (SAME : forall s s', (forall t, gthr (k_g s') t = gthr (k_g s) t) -> sumof idle1 s' = sumof idle1 s).
  { intros s0 s1 O. apply nsum_ext. intros t _. rewrite (O t). reflexivity. }
  destruct ST; cbn [begins returns] in *; try discriminate RT; try (apply SAME; intros ?; reflexivity);
    match goal with
    | L : ?t < n |- (sumof idle1 ?a < sumof idle1 ?b)%Z => rewrite (ONE b a t L) by (intros ? ?; cbn; now rewrite fupd_neq)
    | L : ?t < n |- sumof idle1 ?a = sumof idle1 ?b => rewrite (ONE b a t L) by (intros ? ?; cbn; now rewrite fupd_neq)
    end; cbn; rewrite fupd_eq; repeat match goal with X : ?th ?t = _ |- context [?th ?t] => rewrite X end; cbn; lia.
Qed.

Lemma returns_again (run : nat -> ksys) lab : linv (run O) -> (forall i, cstep (run i) (lab i) (run (S i))) ->
  forall m, exists i, (m <= i)%nat /\ returns (lab i) = true.
Proof.
  intros I0 ST. assert (INV : forall i, linv (run i)).
  { induction i as [|i IH]; auto. eapply linv_step; eauto. }
  assert (X : forall f m, (Z.to_nat (sumof idle1 (run m)) <= f)%nat -> exists i, (m <= i)%nat /\ returns (lab i) = true).
  { induction f as [f IHf] using lt_wf_ind. intros m.
    remember (run m) as s eqn:E. assert (AC : Acc calm s) by (rewrite E; apply calm_acc; auto). revert m E.
    induction AC as [s _ IH]. intros m E F. specialize (ST m) as S.
    destruct (returns (lab m)) eqn:RT; [exists m; auto|]. pose proof (idle_step _ _ _ S RT) as D.
    pose proof (sumof_pos idle1 (run (Datatypes.S m)) idle1_pos) as PS. rewrite E in F, IH.
    destruct (begins (lab m)) eqn:BG.
    - destruct (IHf (Z.to_nat (sumof idle1 (run (Datatypes.S m)))) ltac:(lia) (Datatypes.S m) (le_n _)) as (i & L & R).
      exists i. split; [lia|exact R].
    - destruct (IH (run (Datatypes.S m)) ltac:(exists (lab m); auto) (Datatypes.S m) eq_refl) as (i & L & R).
      + rewrite D. exact F.
      + exists i. split; [lia|exact R]. }
  intros m. exact (X _ m (le_n _)).
Qed.

End Ends.
