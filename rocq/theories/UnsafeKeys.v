(** Whatever unsafe updates do to values, keys are safe as long as nothing is erased. *)
From Coq Require Import NArith Bool List Lia.
From Verif Require Import Words Slot SlotFacts Mapper MapperFacts ReturnCode MapSpec LinSpec
  Base BaseInv BaseLin TableSpec BaseFacts BufSpec BufFacts Tso Unsafe UnsafeSpec UnsafeFacts.
Import ListNotations.
Open Scope N_scope.

Section Keys.
Context (c : tcfg) (m : mapper) (lg : N).
Context (Hsc : wf_scfg (tsc c)) (Hm : wf_mapper (tmc c) m lg).
Context (client : call -> Prop) (CO : forall q, client q -> op_ok (tsc c) (as_safe q)).
Context (NE : forall q, client q -> ~ is_erase (as_safe q)).
Notation sc := (tsc c).
Notation mc := (tmc c).
Notation rmp := (remap mc m).
Notation hm := (home c m).
Notation tot := (total_slots mc m).
Notation spec := (mspec (sc_mark sc) (negb (cprob mc))).
Notation tinv := (tinv c m).
Notation absr := (absr c m).
Notation thr_inv := (thr_inv c m).
Notation prefix := (prefix c m).

Lemma spec_dom' inv full ma a o ma' r :
  dom ma a -> no_erase o -> mspec inv full ma o ma' r ->
  exists a' r', mspec inv full a o a' r' /\ same_but_value r r' /\ dom ma' a'.
Proof.
  intros D [N1 N2] S. destruct S;
    try (match goal with H : ma _ = None |- _ => apply D in H end);
    try (match goal with H : ma _ = Some _ |- _ => apply (dom_some _ _ _ _ D) in H; destruct H as [w H] end);
    try solve [do 2 eexists; split; [econstructor; eauto|split; [cbn; auto; reflexivity|auto using dom_set]]].
  all: try first [now elim (N1 k)|now elim (N2 k d)].
Qed.

Definition thr_k (ct : N -> content) (q : call) (x : upc) : Prop :=
  match x with
  | UAt pc => thr_inv ct (as_safe q) pc /\
              (unsafe q -> forall i s, pc = PUpd i s -> exists d, ct (rmp i) = CLive (call_key q) d)
  | UStore i s => unsafe q /\ exists n d, i = hm (call_key q) + n /\ prefix ct (call_key q) n /\
                  ct (rmp i) = CLive (call_key q) d
  end.

Lemma thr_k_write ct ct' q x :
  thr_k ct q x ->
  ((forall p, ct' p = ct p) \/
   exists p v, (forall r, ct' r = fupd ct p v r) /\ trans (ct p) v /\ v <> CTomb) ->
  thr_k ct' q x.
Proof.
  intros T EV.
  assert (K : forall p d, ct p = CLive (call_key q) d -> exists d', ct' p = CLive (call_key q) d').
  { intros p d C. destruct EV as [EV|(p' & v & EV & TR & NT)]; rewrite EV; eauto.
    destruct (N.eq_dec p p') as [->|X]; [rewrite fupd_eq|rewrite fupd_neq by exact X; eauto].
    rewrite C in TR. inversion TR; subst; eauto. congruence. }
  destruct x as [pc|i s]; cbn in *.
  - destruct T as [T1 T2]. split.
    + destruct EV as [EV|(p & v & EV & TR & NT)]; [eapply thr_inv_ext; eauto|].
      eapply thr_inv_ext; [exact EV|]. apply thr_inv_write; auto.
    + intros U i s E. destruct (T2 U i s E) as [d D]. eauto.
  - destruct T as (U & n & d & -> & P & C). split; auto. destruct (K _ _ C) as [d' C']. exists n, d'. sp; auto.
    destruct EV as [EV|(p & v & EV & TR & _)].
    + intros j Hj. rewrite EV. auto.
    + intros j Hj. rewrite EV. apply (prefix_trans c m ct (call_key q) n p v P TR j Hj).
Qed.

Definition thr_rel ct (x : option (call * upc)) (y : astat mop mres) : Prop :=
  match x with
  | None => y = AIdle
  | Some (q, x) =>
      client q /\ thr_k ct q x /\
      match x with
      | UAt (PDone r) => exists r', y = ADone r' /\ same_but_value (obs (as_safe q) r) r'
      | _ => y = APend (spec_op sc (as_safe q))
      end
  end.

Definition rel (s : usys) (x : aobj amap mop mres) : Prop :=
  exists ct mk a, tinv (umem s) ct mk /\ absr ct a /\ dom a (ast x) /\
  (forall u, thr_rel ct (uthr s u) (ath x u)).

Lemma rel_upd ct th th' u v v' :
  (forall w, w <> u -> thr_rel ct (th w) (th' w)) -> thr_rel ct v v' ->
  forall w, thr_rel ct (fupd th u v w) (fupd th' u v' w).
Proof. intros H K w. unfold fupd. destruct (N.eqb_spec w u); auto. Qed.

Lemma rel_upd1 ct th th' u v :
  (forall w, w <> u -> thr_rel ct (th w) (th' w)) -> thr_rel ct v (th' u) ->
  forall w, thr_rel ct (fupd th u v w) (th' w).
Proof. intros H K w. unfold fupd. destruct (N.eqb_spec w u) as [->|]; auto. Qed.

Lemma no_erase_op q : client q -> no_erase (spec_op sc (as_safe q)).
Proof. intros C. pose proof (NE q C) as X. destruct (as_safe q); cbn in *; split; try discriminate; now elim X. Qed.

Lemma thr_u_k ct q x : thr_u c m ct q x -> thr_k ct q x.
Proof. destruct x; cbn; auto. intros (U & n & d & A & B & C & _). eauto 10. Qed.

Lemma keys_sim s x l s' :
  rel s x -> u_step c m client s l s' ->
  exists x' tr, Forall2 same_event (match l with Some e => [e] | None => [] end) tr /\
    asteps spec x tr x' /\ rel s' x'.
Proof.
  intros (ct & mk & a & I & A & D & T) ST. destruct x as [b th']. cbn in *.
  destruct ST as [s l s' ST|t th p s0 M L E].
  2:{ exists (AObj b th'), []. split; [constructor|]. split; [apply as_nil|]. exists ct, (fupd mk p true), a. cbn in *. sp; auto.
    destruct (ti_cell _ _ _ _ _ I p L) as [E' _]. rewrite E in E'. injection E' as ->.
    now apply tinv_mark. }
  destruct ST as [t th u q E CL|t th u q pc bb t' pc' E ND NU ST|t th u q i s curr E U R|t th u q i curr E|t th u q r E]; cbn in *.
  - pose proof (T u) as Tu. rewrite E in Tu. cbn in Tu.
    exists (AObj b (fupd th' u (APend (spec_op sc (as_safe q))))), [EInv u (spec_op sc (as_safe q))].
    split; [repeat constructor|]. split.
    + eapply as_vis; [|apply as_nil]. now apply a_inv.
    + exists ct, mk, a. cbn. sp; auto. apply rel_upd; auto. cbn. sp; auto.
      * exists 0. split; [lia|]. intros j Hj. lia.
      * intros _ i s. discriminate.
  - pose proof (T u) as Tu. rewrite E in Tu. destruct Tu as (CL & [TI TU] & ATH).
    destruct (bstep_ok c m lg Hsc Hm a t ct mk (as_safe q) pc bb t' pc' I A (CO q CL) TI ND ST)
      as (ct' & I' & TI' & EV & EFF).
    assert (ATH' : th' u = APend (spec_op sc (as_safe q))).
    { destruct pc; auto. now elim (ND r). }
    assert (TU' : thr_k ct' q (UAt pc')).
    { apply thr_u_k. exact (run_upd c m lg Hsc Hm t ct ct' mk q pc bb t' pc' I (CO q CL) TI ND NU ST I' TI'). }
    assert (OTH : forall w, w <> u -> thr_rel ct' (th w) (th' w)).
    { intros w N. specialize (T w). destruct (th w) as [[q' x']|] eqn:Ew; auto.
      destruct T as (CL' & TW & AW). cbn. sp; auto. eapply thr_k_write; eauto.
      destruct EV as [EV|(p & v & EV & _ & _ & TR & ER)]; auto. right. exists p, v. sp; auto.
      intros ->. apply (NE q CL). now apply ER. }
    destruct EFF as [(r & a' & -> & SP & A')|(ND' & A')].
    + destruct (spec_dom' _ _ _ b _ _ _ D (no_erase_op q CL) SP) as (b' & r' & SP' & SR & D').
      exists (AObj b' (fupd th' u (ADone r'))), []. split; [constructor|]. split.
      * eapply as_tau; [|apply as_nil]. eapply a_lin; eauto.
      * exists ct', mk, a'. cbn. sp; auto. apply rel_upd; [eauto|]. cbn. sp; auto; try apply TU'. exists r'. auto.
    + exists (AObj b th'), []. split; [constructor|]. split; [apply as_nil|]. exists ct', mk, a. cbn. sp; auto.
      apply rel_upd1; [eauto|]. cbn. sp; auto; try apply TU'. destruct pc'; auto. now elim (ND' r).
  - pose proof (T u) as Tu. rewrite E in Tu. destruct Tu as (CL & [TI TU] & ATH).
    exists (AObj b th'), []. split; [constructor|]. split; [apply as_nil|]. exists ct, mk, a. cbn. sp; auto.
    apply rel_upd1; auto. cbn. sp; auto.
    destruct (TU U i s eq_refl) as [d C]. destruct TI as (n & d' & -> & P & _).
    exists n, d. sp; auto.
  - pose proof (T u) as Tu. rewrite E in Tu. destruct Tu as (CL & (U & n & d & -> & P & C) & ATH).
    set (p := rmp (hm (call_key q) + n)) in *.
    destruct (rd_tinv c m lg Hm _ _ _ _ _ I P) as (R & L & O). fold p in R, L, O.
    apply rd_mem in R. set (d' := fn (op_fun (as_safe q)) (sdata curr)).
    assert (VK : valid_key sc (call_key q)) by apply (CO q CL).
    assert (AV : a (call_key q) = Some d) by (apply A; eauto).
    destruct (dom_some _ _ _ _ D AV) as [w BV].
    set (ct' := fupd ct p (CLive (call_key q) d')).
    assert (I' : tinv (store_word t (p, d')) ct' mk).
    { unfold store_word. cbn. rewrite R.
      replace (Slot (skey (enc sc (ct p) (mk p))) d') with (enc sc (CLive (call_key q) d') (mk p)).
      - apply tinv_write; auto.
        + rewrite C. constructor.
        + rewrite C in O. exact O.
        + intros k x. rewrite C. discriminate.
        + rewrite C. discriminate.
      - rewrite C. destruct (mk p); reflexivity. }
    set (r := BRet RC_SUCCESS_UP (fst (non_atomic_update sc curr (op_fun (as_safe q)))) (Some p)).
    assert (SP : exists v v', spec b (spec_op sc (as_safe q)) (fupd b (call_key q) (Some v)) (RUpdated v')).
    { destruct q as [o|k f|k d0 f]; [contradiction| |]; unfold call_key in *; cbn in BV |- *;
        do 2 eexists; econstructor; eauto. }
    destruct SP as (v & v' & SP).
    exists (AObj (fupd b (call_key q) (Some v)) (fupd th' u (ADone (RUpdated v')))), []. split; [constructor|]. split.
    + eapply as_tau; [|apply as_nil]. eapply a_lin; eauto.
    + exists ct', mk, (fupd a (call_key q) (Some d')). cbn. sp; auto.
      * eapply absr_update; eauto.
      * now apply dom_set.
      * apply rel_upd.
        -- intros x N. specialize (T x). destruct (th x) as [[q' x']|] eqn:Ew; auto.
           destruct T as (CL' & TW & AW). cbn. sp; auto. eapply thr_k_write; eauto.
           right. exists p, (CLive (call_key q) d'). sp; auto; [rewrite C; constructor|discriminate].
        -- cbn. sp; auto; [intros _ i s; discriminate|]. exists (RUpdated v'). split; auto.
           destruct q; [contradiction| |]; exact Logic.I.
  - pose proof (T u) as Tu. rewrite E in Tu. destruct Tu as (CL & TI & r' & ATH & SB).
    exists (AObj b (fupd th' u AIdle)), [ERet u r']. split; [repeat constructor; auto|]. split.
    + eapply as_vis; [|apply as_nil]. now apply a_ret.
    + exists ct, mk, a. cbn. sp; auto. apply rel_upd; auto. reflexivity.
Qed.

Theorem unsafe_keys tr s :
  lts_steps (u_step c m client) (usys_init c m) tr s -> atomic_but_values spec tr.
Proof.
  intros ST.
  assert (R : rel (usys_init c m) (AObj amap_empty (fun _ => AIdle))).
  { exists (fun _ => CEmpty), (fun _ => false), amap_empty. cbn. sp; auto.
    - eapply fresh_tinv; eauto.
    - apply fresh_absr.
    - apply dom_refl. }
  enough (X : exists x tr', Forall2 same_event tr tr' /\ asteps spec (AObj amap_empty (fun _ => AIdle)) tr' x).
  { destruct X as (x & tr' & F & L). exists tr'. split; auto. exists x. exact L. }
  revert R. generalize (AObj (Op := mop) (Res := mres) amap_empty (fun _ => AIdle)).
  induction ST as [s|s s1 s2 tr S ST IH|s e s1 s2 tr S ST IH]; intros x R.
  - exists x, []. split; constructor.
  - destruct (keys_sim _ _ _ _ R S) as (x1 & t1 & F1 & L1 & R1). destruct (IH x1 R1) as (x2 & t2 & F2 & L2).
    inversion F1; subst. exists x2, t2. split; auto. change t2 with ([] ++ t2). eapply asteps_app; eauto.
  - destruct (keys_sim _ _ _ _ R S) as (x1 & t1 & F1 & L1 & R1). destruct (IH x1 R1) as (x2 & t2 & F2 & L2).
    exists x2, (t1 ++ t2). split; [change (e :: tr) with ([e] ++ tr); now apply Forall2_app|]. eapply asteps_app; eauto.
Qed.

End Keys.
