(** Several handles used in turn. *)
From Coq Require Import NArith ZArith Bool List Lia.
From Verif Require Import Words Slot SlotFacts Mapper MapperFacts ReturnCode MapSpec LinSpec
  Base BaseInv BaseLin TableSpec BaseFacts Migrate Growing GrowingSpec GrowingInv GrowingFacts
  Count GrowOom MigrateExec OneHandle OneHandleSpec OneHandleFacts ManyHandles.
Import ListNotations.
Open Scope N_scope.

(** *** Sums over handles *)

Definition ins_of (l : Z * Z * Z) : Z := let '(_, i, _) := l in i.
Definition del_of (l : Z * Z * Z) : Z := let '(_, _, x) := l in x.

Fixpoint zsum (f : Z * Z * Z -> Z) (L : N -> Z * Z * Z) (n : nat) : Z :=
  match n with O => 0%Z | S n => (zsum f L n + f (L (N.of_nat n)))%Z end.

Lemma zsum_out f L k y n : N.of_nat n <= k -> zsum f (fupd L k y) n = zsum f L n.
Proof. induction n as [|n IH]; intros H; cbn [zsum]; auto. rewrite IH, fupd_neq by lia. reflexivity. Qed.

Lemma zsum_upd f L k y n : k < N.of_nat n -> (zsum f (fupd L k y) n - f y = zsum f L n - f (L k))%Z.
Proof.
  induction n as [|n IH]; intros H; [lia|]. cbn [zsum]. destruct (N.eq_dec k (N.of_nat n)) as [->|NE].
  - rewrite zsum_out, fupd_eq by lia. lia.
  - rewrite fupd_neq by auto. specialize (IH ltac:(lia)). lia.
Qed.

Lemma zsum_bound f L b n : (forall j, j < N.of_nat n -> (0 <= f (L j) <= b)%Z) -> (0 <= zsum f L n <= b * Z.of_nat n)%Z.
Proof.
  induction n as [|n IH]; intros H; [cbn; lia|]. cbn [zsum].
  assert (0 <= zsum f L n <= b * Z.of_nat n)%Z by (apply IH; intros; apply H; lia).
  specialize (H (N.of_nat n) ltac:(lia)). lia.
Qed.

(** The sum over the other handles. *)
Lemma zsum_others f L b k n : k < N.of_nat n -> (forall j, j < N.of_nat n -> (0 <= f (L j) <= b)%Z) ->
  (0 <= zsum f L n - f (L k) <= b * (Z.of_nat n - 1))%Z.
Proof.
  induction n as [|n IH]; intros Hk H; [lia|]. cbn [zsum]. destruct (N.eq_dec k (N.of_nat n)) as [->|NE].
  - assert (0 <= zsum f L n <= b * Z.of_nat n)%Z by (apply zsum_bound; intros; apply H; lia). lia.
  - specialize (IH ltac:(lia) ltac:(intros; apply H; lia)). pose proof (H (N.of_nat n) ltac:(lia)). lia.
Qed.

Section Many.
Context (c : tcfg) (B : N) (bo : bool) (client : op -> Prop) (ne : Prop) (n : N).
Context (Hsc : wf_scfg (tsc c)) (CP : cprob (tmc c) = true) (HB : 0 < B <= 2 ^ 31).
Context (OK : forall o, client o -> op_ok (tsc c) o) (NE : ne -> forall o, client o -> ~ erasing o).
Notation sc := (tsc c).
Notation mc := (tmc c).
Notation step1 := (one_step c B bo client).
Notation step := (many_step c B bo client n).

(** The counts of one handle between two calls. *)
Definition okloc (l : Z * Z * Z) : Prop :=
  let '(u, i, x) := l in (u = i + x /\ 0 <= i /\ 0 <= x /\ u <= 64 /\ (ne -> x = 0))%Z.

(** The counts of all handles. *)
Definition locs (s : mhsys) : N -> Z * Z * Z := fupd (mh_loc s) (mh_cur s) (hs_loc (mh_s s)).

Definition others (f : Z * Z * Z -> Z) (s : mhsys) : Z := (zsum f (locs s) (N.to_nat n) - f (hs_loc (mh_s s)))%Z.

Definition minv (s : mhsys) (a : amap) (q : N) : Prop :=
  mh_cur s < n /\ (forall j, j < n -> okloc (locs s j)) /\
  oinv c ne (Z.of_N n) (others ins_of s) (others del_of s) (mh_s s) a q.

Lemma oinv_okloc oi ox s a q : oinv c ne (Z.of_N n) oi ox s a q -> okloc (hs_loc s).
Proof.
  intros (v & mp & me & th & e & d & u & i & x & lg & ct & -> & TH & W & LG & I & A & US & TM & AR & OT & N0). cbn [hs_loc okloc].
  sp; try lia.
Qed.

(** A call changes the counts of its handle only. *)
Lemma others_same f s s' loc i : i < n -> others f (MHSys s' loc i) = others f (MHSys s loc i).
Proof.
  intros Hi. unfold others, locs. cbn [mh_s mh_loc mh_cur].
  rewrite !(zsum_upd f loc i _ (N.to_nat n)) by lia. reflexivity.
Qed.

Lemma minv_call s a q s' a' q' loc i : minv (MHSys s loc i) a q ->
  oinv c ne (Z.of_N n) (others ins_of (MHSys s loc i)) (others del_of (MHSys s loc i)) s' a' q' -> minv (MHSys s' loc i) a' q'.
Proof.
  intros (H1 & H2 & H3) I. cbn [mh_cur] in *. split; [exact H1|]. split.
  - intros j Hj. unfold locs. cbn [mh_s mh_loc mh_cur]. destruct (N.eq_dec j i) as [->|NJ].
    + rewrite fupd_eq. eapply oinv_okloc; eauto.
    + rewrite fupd_neq by exact NJ. specialize (H2 j Hj). unfold locs in H2. cbn [mh_s mh_loc mh_cur] in H2. now rewrite fupd_neq in H2 by exact NJ.
  - rewrite !(others_same _ s s' loc i) by exact H1. exact I.
Qed.

(** Turning to another handle. *)
Lemma minv_switch g e d l loc i j a q : minv (MHSys (HSys g e d l HCall) loc i) a q -> j < n ->
  minv (MHSys (HSys g e d (fupd loc i l j) HCall) (fupd loc i l) j) a q.
Proof.
  intros (H1 & H2 & H3) Hj. cbn [mh_cur] in H1.
  assert (SAME : forall k, locs (MHSys (HSys g e d (fupd loc i l j) HCall) (fupd loc i l) j) k = fupd loc i l k).
  { intros k. unfold locs. cbn [mh_s mh_loc mh_cur hs_loc]. destruct (N.eq_dec k j) as [->|NK]; [now rewrite fupd_eq|now rewrite (fupd_neq _ j) by exact NK]. }
  assert (EQS : forall f m L1 L2, (forall k : N, L1 k = L2 k) -> zsum f L1 m = zsum f L2 m).
  { intros f m L1 L2 E. induction m as [|m IH]; cbn; auto. now rewrite IH, E. }
  assert (OK2 : forall k, k < n -> okloc (fupd loc i l k)).
  { intros k Hk. apply (H2 k Hk). }
  split; [exact Hj|]. split; [intros k Hk; rewrite SAME; auto|].
  destruct H3 as (v & mp & me & th & e1 & d1 & u & i1 & x & lg & ct & EQ & TH & W & LG & I & A & US & TM & AR & OT & N0).
  cbn [mh_s] in *. injection EQ as -> -> -> ->.
  destruct (fupd loc i (u, i1, x) j) as [[u2 i2] x2] eqn:EJ.
  pose proof (OK2 j Hj) as OJ. rewrite EJ in OJ. cbn [okloc] in OJ.
  assert (S1 : others ins_of (MHSys (HSys (GSys v mp me None th) e1 d1 (u, i1, x) HCall) loc i) = (zsum ins_of (fupd loc i (u, i1, x)) (N.to_nat n) - i1)%Z) by reflexivity.
  assert (S2 : others del_of (MHSys (HSys (GSys v mp me None th) e1 d1 (u, i1, x) HCall) loc i) = (zsum del_of (fupd loc i (u, i1, x)) (N.to_nat n) - x)%Z) by reflexivity.
  assert (S3 : others ins_of (MHSys (HSys (GSys v mp me None th) e1 d1 (u2, i2, x2) HCall) (fupd loc i (u, i1, x)) j) =
               (zsum ins_of (fupd loc i (u, i1, x)) (N.to_nat n) - i2)%Z).
  { unfold others. rewrite (EQS ins_of _ _ _ SAME). reflexivity. }
  assert (S4 : others del_of (MHSys (HSys (GSys v mp me None th) e1 d1 (u2, i2, x2) HCall) (fupd loc i (u, i1, x)) j) =
               (zsum del_of (fupd loc i (u, i1, x)) (N.to_nat n) - x2)%Z).
  { unfold others. rewrite (EQS del_of _ _ _ SAME). reflexivity. }
  rewrite S1, S2 in *. rewrite S3, S4.
  assert (B1 : forall k, k < N.of_nat (N.to_nat n) -> (0 <= ins_of (fupd loc i (u, i1, x) k) <= 64)%Z).
  { intros k Hk. rewrite N2Nat.id in Hk. specialize (OK2 k Hk). destruct (fupd loc i (u, i1, x) k) as [[? ?] ?]. cbn in *. lia. }
  assert (B2 : forall k, k < N.of_nat (N.to_nat n) -> (0 <= del_of (fupd loc i (u, i1, x) k) <= 64)%Z).
  { intros k Hk. rewrite N2Nat.id in Hk. specialize (OK2 k Hk). destruct (fupd loc i (u, i1, x) k) as [[? ?] ?]. cbn in *. lia. }
  pose proof (zsum_others ins_of _ 64 j (N.to_nat n) ltac:(lia) B1) as Z1.
  pose proof (zsum_others del_of _ 64 j (N.to_nat n) ltac:(lia) B2) as Z2. rewrite EJ in Z1, Z2. cbn [ins_of del_of] in Z1, Z2.
  exists v, mp, me, th, e1, d1, u2, i2, x2, lg, ct. sp; auto; try lia; try solve [intros X; destruct (N0 X) as (X1 & X2 & X3); sp; auto; destruct OJ as (_ & _ & _ & _ & OX); auto].
Qed.

(** *** Whole executions *)

Definition off_many (s : mhsys) (l : option (event mop mres)) (s' : mhsys) : Prop :=
  step s l s' /\ (ne \/ hs_el (mh_s s') <> limit c (hs_g (mh_s s'))).

Lemma minv_init lg : 9 <= lg <= 31 -> 1 <= n -> 214 * n <= 2 ^ lg -> minv (mhsys_init c lg) amap_empty 0.
Proof.
  intros LG N1 NL. unfold mhsys_init.
  assert (Z0 : forall j, locs (MHSys (hsys_init c lg) (fun _ => (0, 0, 0)%Z) 0) j = (0, 0, 0)%Z).
  { intros j. unfold locs. cbn. unfold fupd. now destruct (j =? 0). }
  assert (EQS : forall f m, f (0, 0, 0)%Z = 0%Z -> zsum f (locs (MHSys (hsys_init c lg) (fun _ => (0, 0, 0)%Z) 0)) m = 0%Z).
  { intros f m E. induction m as [|m IH]; cbn [zsum]; auto. rewrite IH, Z0, E. reflexivity. }
  split; [cbn; lia|]. split.
  - intros j _. rewrite Z0. cbn. lia.
  - unfold others. rewrite !EQS by reflexivity. cbn [mh_s hs_loc hsys_init ins_of del_of Z.sub].
    apply (oinv_init c B); auto; try lia; change 2%Z with (Z.of_N 2); rewrite <- N2Z.inj_pow; lia.
Qed.

Definition mkinv (tr : list (event mop mres)) (s : mhsys) : Prop :=
  exists ps a, answers amap_empty ps a /\
    ((tr = in_turn 0 ps /\ minv s a (N.of_nat (length ps))) \/
     exists o r a2 s2, tr = in_turn 0 ps ++ [EInv 0 o] /\ mspec false false a o a2 r /\
       lts_steps step1 (mh_s s) [ERet 0 r] s2 /\
       (minv (MHSys s2 (mh_loc s) (mh_cur s)) a2 (N.of_nat (length ps) + 1) \/ (hs_el s2 = limit c (hs_g s2) /\ ~ ne))).

(** In a call only the handle in use makes steps. *)
Lemma in_call s l0 s0 l s' loc i : step1 s l0 s0 -> (forall o, l0 <> Some (EInv 0 o)) -> step (MHSys s loc i) l s' ->
  l = l0 /\ s' = MHSys s0 loc i.
Proof.
  intros S NI ST. inversion ST; subst.
  - destruct (one_det _ _ _ _ _ _ _ _ _ S H4) as [[-> ->]|(o1 & o2 & X & _)]; auto; now elim (NI o1).
  - exfalso. inversion S; subst; cbn in *; try congruence; now elim (NI (spec_op sc o)).
Qed.

Lemma mkinv_step tr s l s' : mkinv tr s -> (l <> None -> N.of_nat (length tr) < 2 ^ 31) -> off_many s l s' ->
  mkinv (tr ++ match l with Some e => [e] | None => [] end) s'.
Proof.
  intros (ps & a & AN & [(-> & I)|(o & r & a2 & s2 & -> & SP & LS & I2)]) LEN [ST OFF].
  - inversion ST; subst.
    + destruct I as (H1 & H2 & H3). cbn [mh_s] in H3.
      assert (X : exists o, client o /\ l = Some (EInv 0 (spec_op sc o)) /\ s'0 = begin_call o s0).
      { destruct H3 as (v & mp & me & th & e & d & u & i1 & x & lg & ct & -> & TH & _). inversion H; subst; try congruence. eauto. }
      destruct X as (o & CL & -> & ->).
      assert (LL : forall ps, length (in_turn 0 ps) = (2 * length ps)%nat).
      { clear. induction ps as [|[o r] ps IH]; cbn; [reflexivity|rewrite IH; lia]. }
      specialize (LEN ltac:(discriminate)). rewrite LL in LEN. change (2 ^ 31) with (2 * 2 ^ 30) in LEN.
      destruct (one_call c B bo client Hsc CP HB ne _ _ _ s0 a _ o H3 (OK o CL) (fun X => NE X o CL) ltac:(lia)) as (r & s2 & a2 & LS & SP & I2).
      exists ps, a. split; auto. right. exists (spec_op sc o), r, a2, s2. sp; auto.
      destruct I2 as [I2|I2]; [left|right; exact I2]. cbn [mh_loc mh_cur].
      apply (minv_call s0 a (N.of_nat (length ps)) s2 a2 _ loc i); [split; [exact H1|split; [exact H2|exact H3]]|exact I2].
    + rewrite app_nil_r. exists ps, a. split; auto. left. split; auto. now apply minv_switch.
  - destruct s as [s loc i]. cbn [mh_s mh_loc mh_cur] in *.
    inversion LS as [|? s1 ? ? S1 LS1|? ? s1 ? ? S1 LS1]; subst.
    + destruct (in_call _ _ _ _ _ _ _ S1 ltac:(discriminate) ST) as [-> ->].
      rewrite app_nil_r. exists ps, a. split; auto. right. exists o, r, a2, s2. sp; auto.
    + destruct (in_call _ _ _ _ _ _ _ S1 ltac:(discriminate) ST) as [-> ->].
      destruct (after_ret _ _ _ _ _ _ _ S1) as [T M]. pose proof (idle_silent _ _ _ _ _ _ T M LS1) as X. subst s2.
      exists (ps ++ [(o, r)]), a2. split; [eapply answers_app; eauto; econstructor; eauto; constructor|]. left. split.
      * rewrite in_turn_app, <- app_assoc. reflexivity.
      * rewrite app_length, Nat2N.inj_add. cbn [length]. destruct I2 as [I2|[I2 NN]]; auto. destruct OFF; contradiction.
Qed.

Lemma mkinv_steps s tr s' : lts_steps off_many s tr s' -> forall tr0, mkinv tr0 s -> N.of_nat (length (tr0 ++ tr)) <= 2 ^ 31 ->
  mkinv (tr0 ++ tr) s'.
Proof.
  induction 1 as [s|s s1 s2 tr S ST IH|s e s1 s2 tr S ST IH]; intros tr0 K LEN.
  - now rewrite app_nil_r.
  - apply IH; auto. rewrite <- (app_nil_r tr0). apply (mkinv_step _ s None); auto. congruence.
  - replace (tr0 ++ e :: tr) with ((tr0 ++ [e]) ++ tr) by (now rewrite <- app_assoc).
    apply IH; [|rewrite <- app_assoc; exact LEN]. apply (mkinv_step _ s (Some e)); auto.
    intros _. rewrite app_length in LEN. cbn [length] in LEN. lia.
Qed.

Lemma many_will_ret s r s2 loc i : lts_steps step1 s [ERet 0 r] s2 -> will_return step r (MHSys s loc i).
Proof.
  intros LS. remember [ERet 0 r] as tr eqn:E. induction LS as [|s s1 s3 tr S LS IH|s e s1 s3 tr S LS IH]; [discriminate| |].
  - apply wr_later; [eexists; constructor; eauto|]. intros l s' S'. destruct (in_call _ _ _ _ _ _ _ S ltac:(discriminate) S') as [-> ->]. auto.
  - injection E as -> ->. apply wr_now; [eexists; constructor; eauto|]. intros l s' S'.
    now destruct (in_call _ _ _ _ _ _ _ S ltac:(discriminate) S') as [-> ->].
Qed.

End Many.
