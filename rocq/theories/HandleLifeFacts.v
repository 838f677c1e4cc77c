(** Handles that come and go. *)
From Coq Require Import NArith ZArith Bool List Lia.
From Verif Require Import Words Slot SlotFacts Mapper MapperFacts ReturnCode MapSpec LinSpec
  Base BaseInv BaseLin TableSpec BaseFacts Migrate Growing GrowingSpec GrowingInv GrowingFacts
  Count GrowOom MigrateExec OneHandle OneHandleSpec OneHandleFacts ManyHandles ManyHandlesFacts HandleLife HandleLifeSpec.
Import ListNotations.
Open Scope N_scope.

Local Ltac sp := repeat match goal with |- _ /\ _ => split end.

Section Life.
Context (c : tcfg) (B : N) (bo : bool) (client : op -> Prop) (n : N).
Context (Hsc : wf_scfg (tsc c)) (CP : cprob (tmc c) = true) (HB : 0 < B <= 2 ^ 31).
Context (OK : forall o, client o -> op_ok (tsc c) o).
Notation sc := (tsc c).
Notation mc := (tmc c).
Notation step1 := (one_step c B bo client).
Notation step := (life_step c B bo client n).

(** A growth step that publishing the counters begins. *)
Lemma publish_grows nn oi ox v mp me th e d u i x a q : oinv c False nn oi ox (HSys (GSys v mp me None th) e d (u, i, x) HCall) a q -> q <= 2 ^ 30 ->
  crosses e i (thresh (total_slots mc (mp v))) = true ->
  addressable_slots mc (mp v) < 2 ^ 32 /\
  exists mp2 me2, lts_steps step1 (HSys (begin_grow c v mp me th (e + i) (d + x)) (e + i) (d + x) (0%Z, i, x) (HGrow true)) []
      (HSys (GSys (v + 1) mp2 me2 None th) (e + i - (d + x)) 0 (0%Z, i, x) (HBack true)) /\
    oinv c False nn oi ox (HSys (GSys (v + 1) mp2 me2 None th) (e + i - (d + x)) 0 (0, 0, 0)%Z HCall) a q.
Proof.
  intros (v0 & mp0 & me0 & th0 & e0 & d0 & u0 & i0 & x0 & lg & ct & X & TH & W & LG & I & A & US & TM & AR & OT & NE) Q CR.
  injection X as <- <- <- <- <- <- <- <- <-.
  pose proof (fl_bounds lg (proj1 LG)) as FB. pose proof (tot_pow c CP _ _ W) as ET.
  assert (ETZ : Z.of_N (total_slots mc (mp v)) = (2 ^ Z.of_N lg)%Z).
  { rewrite ET, N2Z.inj_pow. reflexivity. }
  assert (TF : thresh (total_slots mc (mp v)) = fl lg) by (unfold thresh; now rewrite ET).
  assert (CR' : (fl lg < e + i)%Z).
  { unfold crosses in CR. rewrite TF in CR. apply andb_prop in CR. lia. }
  assert (L30 : lg <= 30).
  { destruct (N.le_gt_cases lg 30) as [|G]; auto. assert (lg = 31) as -> by lia. change (2 ^ Z.of_N 31)%Z with 2147483648%Z in FB.
    change (2 ^ 30) with 1073741824 in Q. lia. }
  assert (AD : addressable_slots mc (mp v) < 2 ^ 32).
  { rewrite (addressable_val _ _ _ W). apply N.pow_lt_mono_r; lia. }
  split; [exact AD|].
  destruct (room_left c (mp v) Hsc (me v) ct I ltac:(lia)) as (p1 & Lp1 & Ep1).
  destruct (grow_runs c B bo client Hsc HB v mp me th (e + i) (d + x) (0%Z, i, x) true lg ct a W ltac:(lia) (or_intror CP) I A ltac:(eauto))
    as (mp2 & me2 & g & ct2 & GG & S4 & P2 & W2 & I2 & A2 & T2 & U2).
  assert (D1 : (0 <= e + i < 2 ^ 60)%Z).
  { change (2 ^ 60)%Z with 1152921504606846976%Z. change (2 ^ 30) with 1073741824 in Q. lia. }
  assert (P31 : (2 ^ Z.of_N lg <= 2147483648)%Z).
  { change 2147483648%Z with (2 ^ 31)%Z. apply Z.pow_le_mono_r; lia. }
  assert (D2 : (0 <= d + x < 2 ^ 60)%Z).
  { change (2 ^ 60)%Z with 1152921504606846976%Z. change (2 ^ 30) with 1073741824 in Q. lia. }
  pose proof (resize_lg c (mp v) lg g (e + i) (d + x) ltac:(lia) W W2 D1 D2) as RG.
  exists mp2, me2. split; [exact S4|].
  exists (v + 1), mp2, me2, th, (e + i - (d + x))%Z, 0%Z, 0%Z, 0%Z, 0%Z, (lg + g), ct2. rewrite P2.
  assert (FL2 : (e + i - (d + x) < fl (lg + g))%Z).
  { pose proof (fl_bounds (lg + g) ltac:(lia)) as FB2. unfold fill_above in RG.
    assert (PZ : Z.of_N (2 ^ lg) = (2 ^ Z.of_N lg)%Z) by (rewrite N2Z.inj_pow; reflexivity).
    destruct (Z.ltb_spec (e + i) (d + x)) as [G0|G0]; cbn [orb] in RG;
      [|destruct (N.ltb_spec (5404319552844595 * 2 ^ lg) (Z.to_N (e + i - (d + x)) * 2 ^ 54)) as [G|G]]; subst g.
    - rewrite N2Z.inj_add, Z.pow_add_r in FB2 by lia. change (2 ^ Z.of_N 1)%Z with 2%Z in FB2. lia.
    - rewrite N2Z.inj_add, Z.pow_add_r in FB2 by lia. change (2 ^ Z.of_N 1)%Z with 2%Z in FB2. lia.
    - rewrite N.add_0_r in *. change (2 ^ 54) with 18014398509481984 in G. lia. }
  assert (PW : (2 ^ Z.of_N lg <= 2 ^ Z.of_N (lg + g))%Z) by (apply Z.pow_le_mono_r; lia).
  sp; auto; try lia; tauto.
Qed.

(** Publishing without growing. *)
Lemma publish_stays nn oi ox v mp me th e d u i x a q : oinv c False nn oi ox (HSys (GSys v mp me None th) e d (u, i, x) HCall) a q ->
  crosses e i (thresh (total_slots mc (mp v))) = false -> (e + i)%Z <> limit c (GSys v mp me None th) ->
  oinv c False nn oi ox (HSys (GSys v mp me None th) (e + i) (d + x) (0, 0, 0)%Z HCall) a q.
Proof.
  intros (v0 & mp0 & me0 & th0 & e0 & d0 & u0 & i0 & x0 & lg & ct & X & TH & W & LG & I & A & US & TM & AR & OT & NE) CR NL.
  injection X as <- <- <- <- <- <- <- <- <-.
  assert (TF : thresh (total_slots mc (mp v)) = fl lg) by (unfold thresh; now rewrite (tot_pow c CP _ _ W)).
  unfold limit in NL. cbn [gmap gver] in NL. rewrite TF in NL. unfold crosses in CR. rewrite TF in CR.
  assert (LL : (e + i <= fl lg)%Z).
  { destruct (Z.ltb_spec (fl lg) (e + i)); [|lia]. destruct (Z.ltb_spec e (fl lg)); [discriminate|lia]. }
  exists v, mp, me, th, (e + i)%Z, (d + x)%Z, 0%Z, 0%Z, 0%Z, lg, ct. sp; auto; try lia; tauto.
Qed.

Lemma zsum_ext f m L1 L2 : (forall k : N, L1 k = L2 k) -> zsum f L1 m = zsum f L2 m.
Proof. intros E. induction m as [|m IH]; cbn [zsum]; auto. now rewrite IH, E. Qed.

(** Moving a handle. *)
Lemma minv_move g e d l loc k j a q : minv c False n (MHSys (HSys g e d l HCall) loc k) a q -> j < n -> j <> k -> loc j = (0, 0, 0)%Z ->
  minv c False n (MHSys (HSys g e d l HCall) (fupd loc k (0, 0, 0)%Z) j) a q.
Proof.
  intros (H1 & H2 & H3) Hj NJ Z0. cbn [mh_cur] in H1.
  assert (OTH : forall f, f (0, 0, 0)%Z = 0%Z -> others n f (MHSys (HSys g e d l HCall) (fupd loc k (0, 0, 0)%Z) j) = others n f (MHSys (HSys g e d l HCall) loc k)).
  { intros f F0. unfold others, locs. cbn [mh_s mh_loc mh_cur hs_loc].
    pose proof (zsum_upd f (fupd loc k (0, 0, 0)%Z) j l (N.to_nat n) ltac:(lia)) as E1. rewrite fupd_neq in E1 by auto. rewrite Z0 in E1.
    pose proof (zsum_upd f loc k (0, 0, 0)%Z (N.to_nat n) ltac:(lia)) as E2.
    pose proof (zsum_upd f loc k l (N.to_nat n) ltac:(lia)) as E3. lia. }
  split; [exact Hj|]. split.
  - intros i Hi. unfold locs. cbn [mh_s mh_loc mh_cur hs_loc]. destruct (N.eq_dec i j) as [->|NI].
    + rewrite fupd_eq. specialize (H2 k H1). unfold locs in H2. cbn [mh_s mh_loc mh_cur hs_loc] in H2. now rewrite fupd_eq in H2.
    + rewrite fupd_neq by exact NI. destruct (N.eq_dec i k) as [->|NK].
      * rewrite fupd_eq. cbn [okloc]. lia.
      * rewrite fupd_neq by exact NK. specialize (H2 i Hi). unfold locs in H2. cbn [mh_s mh_loc mh_cur hs_loc] in H2. now rewrite fupd_neq in H2 by exact NK.
  - rewrite !OTH by reflexivity. exact H3.
Qed.

(** *** Whole executions *)

Definition off_life (s : mhsys) (l : option (event mop mres)) (s' : mhsys) : Prop :=
  step s l s' /\ hs_el (mh_s s') <> limit c (hs_g (mh_s s')).

(** Between calls; in a call; while a table grows because a handle has published its counts. *)
Definition lkinv (tr : list (event mop mres)) (s : mhsys) : Prop :=
  exists ps a, answers amap_empty ps a /\
    ((tr = in_turn 0 ps /\ minv c False n s a (N.of_nat (length ps))) \/
     (exists o r a2 s2, tr = in_turn 0 ps ++ [EInv 0 o] /\ mspec false false a o a2 r /\
       lts_steps step1 (mh_s s) [ERet 0 r] s2 /\
       (minv c False n (MHSys s2 (mh_loc s) (mh_cur s)) a2 (N.of_nat (length ps) + 1) \/ hs_el s2 = limit c (hs_g s2))) \/
     (exists v mp me th e d l, tr = in_turn 0 ps /\ th 0 = None /\
       lts_steps step1 (mh_s s) [] (HSys (GSys v mp me None th) e d l (HBack true)) /\
       minv c False n (MHSys (HSys (GSys v mp me None th) e d (0, 0, 0)%Z HCall) (mh_loc s) (mh_cur s)) a (N.of_nat (length ps)))).

(** In a call, and while the table grows, there is only one next step. *)
Lemma only_step s l0 s0 l s' loc i : step1 s l0 s0 -> (forall o, l0 <> Some (EInv 0 o)) -> step (MHSys s loc i) l s' ->
  l = l0 /\ s' = MHSys s0 loc i.
Proof.
  intros S NI ST. inversion ST; subst.
  - eapply (in_call c B bo client n); eauto.
  - exfalso. inversion S; subst; try congruence; now elim (NI (spec_op sc o)).
  - exfalso. inversion S; subst; try congruence; now elim (NI (spec_op sc o)).
  - exfalso. inversion S; subst; congruence.
  - exfalso. inversion S; subst; cbn in *; try congruence; now elim (NI (spec_op sc o)).
Qed.

Lemma last_step v mp me th e d l0 loc i l s' : th 0 = None -> step (MHSys (HSys (GSys v mp me None th) e d l0 (HBack true)) loc i) l s' ->
  l = None /\ s' = MHSys (HSys (GSys v mp me None th) e d (0, 0, 0)%Z HCall) loc i.
Proof.
  intros T ST. inversion ST; subst; auto.
  match goal with H : many_step _ _ _ _ _ _ _ _ |- _ => inversion H; subst end.
  match goal with H : one_step _ _ _ _ _ _ _ |- _ => inversion H; subst end. congruence.
Qed.

Lemma turns_len : forall ps, length (in_turn 0 ps) = (2 * length ps)%nat.
Proof. induction ps as [|[o r] ps IH]; cbn; [reflexivity|rewrite IH; lia]. Qed.

Lemma lkinv_step tr s l s' : lkinv tr s -> N.of_nat (length tr) <= 2 ^ 31 -> (l <> None -> N.of_nat (length tr) < 2 ^ 31) -> off_life s l s' ->
  lkinv (tr ++ match l with Some e => [e] | None => [] end) s'.
Proof.
  intros (ps & a & AN & [(-> & I)|[(o & r & a2 & s2 & -> & SP & LS & I2)|(v & mp & me & th & e & d & l0 & -> & TH & LS & I)]]) LEN1 LEN [ST OFF].
  - rewrite turns_len in LEN1, LEN. change (2 ^ 31) with (2 * 2 ^ 30) in LEN1, LEN.
    inversion ST as [? ? ? MS|v mp me th e d u i x loc k T CR E1 E2 E3|v mp me th e d u i x loc k T CR AD E1 E2 E3|v mp me th e d l1 loc k T E1 E2 E3|g e d l1 loc k j T J NJ Z0 E1 E2 E3]; subst.
    + inversion MS; subst.
      * destruct I as (H1 & H2 & H3). cbn [mh_s] in H3.
        assert (X : exists o, client o /\ l = Some (EInv 0 (spec_op sc o)) /\ s'0 = begin_call o s0).
        { destruct H3 as (v & mp & me & th & e & d & u & i1 & x & lg & ct & -> & TH & _). inversion H; subst; try congruence. eauto. }
        destruct X as (o & CL & -> & ->). specialize (LEN ltac:(discriminate)).
        destruct (one_call c B bo client Hsc CP HB False _ _ _ s0 a _ o H3 (OK o CL) (fun X => False_ind _ X) ltac:(lia)) as (r & s2 & a2 & LS & SP & I2).
        exists ps, a. split; auto. right. left. exists (spec_op sc o), r, a2, s2. sp; auto.
        destruct I2 as [I2|[I2 _]]; [left|right; exact I2]. cbn [mh_loc mh_cur].
        apply (minv_call c B client False n HB (fun X => False_ind _ X) s0 a (N.of_nat (length ps)) s2 a2 _ loc i); [split; [exact H1|split; [exact H2|exact H3]]|exact I2].
      * rewrite app_nil_r. exists ps, a. split; auto. left. split; auto. apply (minv_switch c B False n HB); auto.
    + rewrite app_nil_r. exists ps, a. split; auto. left. split; auto. cbn [mh_s hs_el hs_g] in OFF.
      eapply (minv_call c B client False n HB (fun X => False_ind _ X)); [exact I|]. destruct I as (_ & _ & H3). eapply publish_stays; eauto.
    + rewrite app_nil_r. exists ps, a. split; auto. right. right. pose proof I as (_ & _ & H3). cbn [mh_s] in H3.
      destruct (publish_grows _ _ _ _ _ _ _ _ _ _ _ _ _ _ H3 ltac:(lia) CR) as (_ & mp2 & me2 & LS & O2).
      exists (v + 1), mp2, me2, th, (e + i - (d + x))%Z, 0%Z, (0%Z, i, x). sp; auto. cbn [mh_loc mh_cur].
      eapply (minv_call c B client False n HB (fun X => False_ind _ X)); [exact I|exact O2].
    + exfalso. destruct I as (_ & _ & (v0 & mp0 & me0 & th0 & e0 & d0 & u0 & i0 & x0 & lg & ct & X & _)). discriminate.
    + rewrite app_nil_r. exists ps, a. split; auto. left. split; auto. apply minv_move; auto.
  - destruct s as [s loc i]. cbn [mh_s mh_loc mh_cur] in *.
    inversion LS as [|? s1 ? ? S1 LS1|? ? s1 ? ? S1 LS1]; subst.
    + destruct (only_step _ _ _ _ _ _ _ S1 ltac:(discriminate) ST) as [-> ->].
      rewrite app_nil_r. exists ps, a. split; auto. right. left. exists o, r, a2, s2. sp; auto.
    + destruct (only_step _ _ _ _ _ _ _ S1 ltac:(discriminate) ST) as [-> ->].
      destruct (after_ret _ _ _ _ _ _ _ S1) as [T M]. pose proof (idle_silent _ _ _ _ _ _ T M LS1) as X. subst s2.
      exists (ps ++ [(o, r)]), a2. split; [eapply answers_app; eauto; econstructor; eauto; constructor|]. left. split.
      * rewrite in_turn_app, <- app_assoc. reflexivity.
      * rewrite app_length, Nat2N.inj_add. cbn [length]. destruct I2 as [I2|I2]; auto. contradiction.
  - destruct s as [s loc i]. cbn [mh_s mh_loc mh_cur] in *.
    inversion LS as [|? s1 ? ? S1 LS1|]; subst.
    + destruct (last_step _ _ _ _ _ _ _ _ _ _ _ TH ST) as [-> ->]. rewrite app_nil_r. exists ps, a. split; auto.
    + destruct (only_step _ _ _ _ _ _ _ S1 ltac:(discriminate) ST) as [-> ->].
      rewrite app_nil_r. exists ps, a. split; auto. right. right. exists v, mp, me, th, e, d, l0. sp; auto.
Qed.

Lemma lkinv_steps s tr s' : lts_steps off_life s tr s' -> forall tr0, lkinv tr0 s -> N.of_nat (length (tr0 ++ tr)) <= 2 ^ 31 ->
  lkinv (tr0 ++ tr) s'.
Proof.
  induction 1 as [s|s s1 s2 tr S ST IH|s e s1 s2 tr S ST IH]; intros tr0 K LEN.
  - now rewrite app_nil_r.
  - apply IH; auto. rewrite <- (app_nil_r tr0). apply (lkinv_step _ s None); auto; [|congruence]. rewrite app_length in LEN. lia.
  - replace (tr0 ++ e :: tr) with ((tr0 ++ [e]) ++ tr) by (now rewrite <- app_assoc).
    rewrite app_length in LEN. cbn [length] in LEN.
    apply IH; [|rewrite <- app_assoc, app_length; cbn [length app]; exact LEN]. apply (lkinv_step _ s (Some e)); auto; intros; lia.
Qed.

Lemma life_will_ret s r s2 loc i : lts_steps step1 s [ERet 0 r] s2 -> will_return step r (MHSys s loc i).
Proof.
  intros LS. remember [ERet 0 r] as tr eqn:E. induction LS as [|s s1 s3 tr S LS IH|s e s1 s3 tr S LS IH]; [discriminate| |].
  - apply wr_later; [eexists; constructor; constructor; eauto|]. intros l s' S'. destruct (only_step _ _ _ _ _ _ _ S ltac:(discriminate) S') as [-> ->]. auto.
  - injection E as -> ->. apply wr_now; [eexists; constructor; constructor; eauto|]. intros l s' S'.
    now destruct (only_step _ _ _ _ _ _ _ S ltac:(discriminate) S') as [-> ->].
Qed.

Lemma minv_ready s a q : minv c False n s a q -> ready sc client step s.
Proof.
  intros I o CL. destruct s as [s loc i]. destruct I as (_ & _ & I). cbn [mh_s] in I.
  destruct I as (v & mp & me & th & e & d & u & i1 & x & lg1 & ct & -> & TH & _). eexists. apply lf_many, mh_one. now apply h_inv.
Qed.

Lemma life_will_be s v mp me th e d l loc i a q : th 0 = None -> lts_steps step1 s [] (HSys (GSys v mp me None th) e d l (HBack true)) ->
  minv c False n (MHSys (HSys (GSys v mp me None th) e d (0, 0, 0)%Z HCall) loc i) a q ->
  will_be step (ready sc client step) (MHSys s loc i).
Proof.
  intros TH LS I. remember (@nil (event mop mres)) as tr eqn:E. remember (HSys (GSys v mp me None th) e d l (HBack true)) as z eqn:EZ.
  revert E EZ. induction LS as [s|s s1 s3 tr S LS IH|]; intros E EZ; [| |discriminate].
  - subst s. apply wb_later; [eexists; now apply lf_done|]. intros l1 s' ST. destruct (last_step _ _ _ _ _ _ _ _ _ _ _ TH ST) as [-> ->].
    split; auto. apply wb_now. eapply minv_ready; eauto.
  - apply wb_later; [eexists; constructor; constructor; eauto|]. intros l1 s' S'. destruct (only_step _ _ _ _ _ _ _ S ltac:(discriminate) S') as [-> ->].
    split; auto.
Qed.

Lemma handle_life lg tr s : 9 <= lg <= 31 -> 1 <= n -> 214 * n <= 2 ^ lg -> N.of_nat (length tr) <= 2 ^ 31 ->
  lts_steps off_life (mhsys_init c lg) tr s ->
  exists ps a, answers amap_empty ps a /\
    ((tr = in_turn 0 ps /\ will_be step (ready sc client step) s) \/
     exists o r a', tr = in_turn 0 ps ++ [EInv 0 o] /\ mspec false false a o a' r /\ will_return step r s).
Proof.
  intros LG N1 NL LEN ST.
  assert (K0 : lkinv [] (mhsys_init c lg)).
  { exists [], amap_empty. split; [constructor|]. left. split; auto. now apply (minv_init c B). }
  destruct (lkinv_steps _ _ _ ST [] K0 LEN) as (ps & a & AN & [(E & I)|[(o & r & a2 & s2 & E & SP & LS & _)|(v & mp & me & th & e & d & l & E & T & LS & I)]]);
    exists ps, a; (split; [exact AN|]); destruct s as [s loc i].
  - left. split; auto. apply wb_now. eapply minv_ready; eauto.
  - right. exists o, r, a2. sp; auto. eapply life_will_ret; eauto.
  - left. split; auto. eapply life_will_be; eauto.
Qed.

End Life.
