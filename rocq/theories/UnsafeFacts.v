(** Unsafe updates that are kept apart are atomic. *)
From Coq Require Import NArith Bool List Lia.
From Verif Require Import Words Slot SlotFacts Mapper MapperFacts ReturnCode MapSpec LinSpec
  Base BaseInv BaseLin TableSpec BaseFacts Migrate GrowSpec GrowFacts Tso Unsafe UnsafeSpec.
Import ListNotations.
Open Scope N_scope.

Section Apart.
Context (c : tcfg) (m : mapper) (lg : N).
Context (Hsc : wf_scfg (tsc c)) (Hm : wf_mapper (tmc c) m lg).
Notation sc := (tsc c).
Notation mc := (tmc c).
Notation rmp := (remap mc m).
Notation hm := (home c m).
Notation tot := (total_slots mc m).
Notation spec := (mspec (sc_mark sc) (negb (cprob mc))).
Notation tinv := (tinv c m).
Notation absr := (absr c m).
Notation thr_inv := (thr_inv c m).
Notation prefix := (prefix c m).

Definition calls_ok (client : call -> Prop) : Prop :=
  (forall q, client q -> op_ok sc (as_safe q)) /\
  (sc_mark sc = true \/ (forall q, client q -> ~ is_erase (as_safe q)) \/
   (forall q, client q -> ~ is_update (as_safe q))).

(** A call in progress; the cell an unsafe update has found keeps its key, and its value
    once it is read. *)
Definition thr_u (ct : N -> content) (q : call) (x : upc) : Prop :=
  match x with
  | UAt pc => thr_inv ct (as_safe q) pc /\
              (unsafe q -> forall i s, pc = PUpd i s -> exists d, ct (rmp i) = CLive (call_key q) d)
  | UStore i s => unsafe q /\ exists n d, i = hm (call_key q) + n /\ prefix ct (call_key q) n /\
                  ct (rmp i) = CLive (call_key q) d /\ sdata s = d
  end.

Lemma load_upd t ct mk o i b t' j s :
  tinv t ct mk -> valid_key sc (op_key o) -> thr_inv ct o (PLoad i) ->
  bstep c m t b o (PLoad i) = (t', PUpd j s) -> exists d, ct (rmp j) = CLive (op_key o) d.
Proof.
  intros I V (n & -> & P) ST. destruct (rd_tinv c m lg Hm _ _ _ _ _ I P) as (R & L & O).
  cbn [bstep] in ST. rewrite R in ST.
  assert (X : after_load c m o (hm (op_key o) + n) (rmp (hm (op_key o) + n))
    (enc sc (ct (rmp (hm (op_key o) + n))) (mk (rmp (hm (op_key o) + n)))) = PUpd j s) by congruence.
  pose proof (enc_compare_key sc Hsc _ _ (op_key o) O V) as C.
  assert (Y : hm (op_key o) + n = j /\ compare_key sc (enc sc (ct (rmp (hm (op_key o) + n))) (mk (rmp (hm (op_key o) + n)))) (op_key o) = true).
  { destruct o; cbn [after_load op_key] in *;
      repeat match type of X with context [if ?y then _ else _] => destruct y end; try discriminate;
      injection X as -> _; auto. }
  destruct Y as [<- Y]. rewrite C in Y. destruct (ct (rmp (hm (op_key o) + n))) as [| |k d]; try discriminate.
  apply N.eqb_eq in Y. subst k. eauto.
Qed.

(** What a call finds when it starts to update. *)
Lemma run_upd t ct ct' mk q pc b t' pc' :
  tinv t ct mk -> op_ok sc (as_safe q) -> thr_inv ct (as_safe q) pc -> (forall r, pc <> PDone r) ->
  (unsafe q -> forall i s, pc <> PUpd i s) -> bstep c m t b (as_safe q) pc = (t', pc') ->
  tinv t' ct' mk -> thr_inv ct' (as_safe q) pc' -> thr_u ct' q (UAt pc').
Proof.
  intros I OK TI ND NU ST I' TI'. split; auto. intros U j s ->. destruct pc as [i|i y|i y|i y|r|].
    - destruct (load_upd t ct mk (as_safe q) i b t' j s I (proj1 OK) TI ST) as [d D].
      assert (t' = t) by (cbn [bstep] in ST; destruct (rd c m t (rmp i)); now inversion ST). subst t'.
      destruct TI as (n & -> & P).
      assert (j = hm (op_key (as_safe q)) + n).
      { destruct TI' as (n' & d' & -> & P' & _).
        cbn [bstep] in ST. destruct (rd c m t (rmp (hm (op_key (as_safe q)) + n))); [|discriminate].
        assert (X : after_load c m (as_safe q) (hm (op_key (as_safe q)) + n) (rmp (hm (op_key (as_safe q)) + n)) s0
           = PUpd (hm (op_key (as_safe q)) + n') s) by congruence.
        destruct (as_safe q); cbn [after_load op_key] in *;
          repeat match type of X with context [if ?y then _ else _] => destruct y end; try discriminate;
          injection X as X; congruence. }
      subst j. exists d.
      destruct (rd_tinv c m lg Hm _ _ _ _ _ I P) as (R1 & L1 & O1).
      destruct (ti_cell _ _ _ _ _ I' _ L1) as [R2 O2].
      apply rd_mem in R1. rewrite R1 in R2. injection R2 as R2.
      eapply enc_inj in R2; eauto. destruct R2 as [R2 _]. rewrite <- R2. exact D.
    - cbn [bstep] in ST. destruct (rd c m t (rmp i)); [|discriminate].
      destruct (cas _ _ _ _) as [[[] ?] ?]; discriminate.
    - now elim (NU U i y).
    - cbn [bstep] in ST. destruct (rd c m t (rmp i)); [|discriminate].
      destruct (atomic_delete _ _ _) as [[[] ?] ?]; discriminate.
    - now elim (ND r).
    - cbn in ST. discriminate.
Qed.

(** A step that keeps the value of a key keeps the cell it is in. *)
Lemma keep t ct ct' mk a a' p k d :
  tinv t ct mk -> absr ct a -> absr ct' a' -> p < tot -> ct p = CLive k d -> a' k = a k ->
  ((forall p, ct' p = ct p) \/
   exists q v, (forall r, ct' r = fupd ct q v r) /\ q < tot /\ mk q = false /\ trans (ct q) v /\ (v = CTomb -> True)) ->
  ct' p = CLive k d.
Proof.
  intros I A A' L C E EV. assert (X : a' k = Some d) by (rewrite E; apply A; eauto).
  apply A' in X. destruct X as (p' & L' & C').
  destruct EV as [EV|(q & v & EV & Lq & _ & TR & _)]; [now rewrite EV|].
  rewrite EV in *. destruct (N.eq_dec p q) as [->|N1]; [|now rewrite fupd_neq].
  destruct (N.eq_dec p' q) as [->|N2]; [rewrite fupd_eq in *; auto|].
  rewrite fupd_neq in C' by exact N2. elim N2. eapply live_unique; eauto.
Qed.

Lemma spec_other inv full a o a' r k :
  mspec inv full a o a' r -> k <> mop_key o -> a' k = a k.
Proof. intros S N. inversion S; subst; cbn in N; auto; unfold fupd; destruct (N.eqb_spec k k0); congruence. Qed.

Lemma spec_quiet (o : op) a a' r k :
  spec a (spec_op sc o) a' r -> ~ is_update o -> ~ is_erase o -> a k <> None -> a' k = a k.
Proof.
  intros S NU NE K. destruct o; cbn in NU, NE; try (now elim NU); try (now elim NE); cbn in S;
    inversion S; subst; auto; unfold fupd; destruct (N.eqb_spec k k0); congruence.
Qed.

Definition thr_rel (client : call -> Prop) ct (x : option (call * upc)) (y : astat mop mres) : Prop :=
  match x with
  | None => y = AIdle
  | Some (q, x) =>
      client q /\ thr_u ct q x /\
      match x with UAt (PDone r) => y = ADone (obs (as_safe q) r) | _ => y = APend (spec_op sc (as_safe q)) end
  end.

Definition rel (client : call -> Prop) (s : usys) (x : aobj amap mop mres) : Prop :=
  exists ct mk, tinv (umem s) ct mk /\ absr ct (ast x) /\
  (forall u, thr_rel client ct (uthr s u) (ath x u)).

Lemma rel_upd client ct th th' u v v' :
  (forall w, w <> u -> thr_rel client ct (th w) (th' w)) -> thr_rel client ct v v' ->
  forall w, thr_rel client ct (fupd th u v w) (fupd th' u v' w).
Proof. intros H K w. unfold fupd. destruct (N.eqb_spec w u); auto. Qed.

Lemma rel_upd1 client ct th th' u v :
  (forall w, w <> u -> thr_rel client ct (th w) (th' w)) -> thr_rel client ct v (th' u) ->
  forall w, thr_rel client ct (fupd th u v w) (th' w).
Proof. intros H K w. unfold fupd. destruct (N.eqb_spec w u) as [->|]; auto. Qed.

(** Cells change, but those that unsafe updates have found do not. *)
Lemma thr_u_write ct ct' q x :
  thr_u ct q x ->
  ((forall p, ct' p = ct p) \/
   exists p v, (forall r, ct' r = fupd ct p v r) /\ trans (ct p) v /\
     (v = CTomb -> sc_mark sc = true \/ ~ is_update (as_safe q))) ->
  (unsafe q -> forall p d, ct p = CLive (call_key q) d -> ct' p = CLive (call_key q) d) ->
  thr_u ct' q x.
Proof.
  intros T EV K. destruct x as [pc|i s]; cbn in *.
  - destruct T as [T1 T2]. split.
    + destruct EV as [EV|(p & v & EV & TR & CL)]; [eapply thr_inv_ext; eauto|].
      eapply thr_inv_ext; [exact EV|]. apply thr_inv_write; auto.
    + intros U i s E. destruct (T2 U i s E) as [d D]. exists d. now apply K.
  - destruct T as (U & n & d & -> & P & C & S). split; auto. exists n, d. sp; auto.
    destruct EV as [EV|(p & v & EV & TR & _)].
    + intros j Hj. rewrite EV. auto.
    + intros j Hj. rewrite EV. apply (prefix_trans c m ct (call_key q) n p v P TR j Hj).
Qed.

Lemma changing_iff q : changing q <-> is_update (as_safe q) \/ is_erase (as_safe q).
Proof. unfold changing. destruct (as_safe q); cbn; tauto. Qed.

Lemma sim client s x l s' :
  calls_ok client -> rel client s x -> careful (u_step c m client) s l s' ->
  exists x', asteps spec x (match l with Some e => [e] | None => [] end) x' /\ rel client s' x'.
Proof.
  intros [CO CM] (ct & mk & I & A & T) (ST & AP & _). destruct x as [a th']. cbn in *.
  destruct ST as [s l s' ST|t th p s0 M L E].
  2:{ (* marking *)
    exists (AObj a th'). split; [apply as_nil|]. exists ct, (fupd mk p true). cbn in *. sp; auto.
    destruct (ti_cell _ _ _ _ _ I p L) as [E' _]. rewrite E in E'. injection E' as ->.
    now apply tinv_mark. }
  destruct ST as [t th u q E CL|t th u q pc b t' pc' E ND NU ST|t th u q i s curr E U R|t th u q i curr E|t th u q r E]; cbn in *.
  - pose proof (T u) as Tu. rewrite E in Tu. cbn in Tu. eexists. split.
    + eapply as_vis; [|apply as_nil]. now apply a_inv.
    + exists ct, mk. cbn. sp; auto. apply rel_upd; auto. cbn. sp; auto.
      * exists 0. split; [lia|]. intros j Hj. lia.
      * intros _ i s. discriminate.
  - (* a step as in Base.v *)
    pose proof (T u) as Tu. rewrite E in Tu. destruct Tu as (CL & [TI TU] & ATH).
    destruct (bstep_ok c m lg Hsc Hm a t ct mk (as_safe q) pc b t' pc' I A (CO q CL) TI ND ST)
      as (ct' & I' & TI' & EV & EFF).
    assert (ATH' : th' u = APend (spec_op sc (as_safe q))).
    { destruct pc; auto. now elim (ND r). }
    assert (TU' : thr_u ct' q (UAt pc')) by exact (run_upd t ct ct' mk q pc b t' pc' I (CO q CL) TI ND NU ST I' TI').
    assert (OTH : forall a', absr ct' a' ->
      (a' = a \/ exists r, spec a (spec_op sc (as_safe q)) a' r) ->
      forall w, w <> u -> thr_rel client ct' (th w) (th' w)).
    { intros a' A' EA w NE. specialize (T w). destruct (th w) as [[q' x']|] eqn:Ew; auto.
      destruct T as (CL' & TW & AW). cbn. sp; auto. eapply thr_u_write; eauto.
      - destruct EV as [EV|(p & v & EV & _ & _ & TR & ER)]; auto. right. exists p, v. sp; auto.
        intros ->. specialize (ER eq_refl). destruct CM as [CM|[CM|CM]]; auto. now elim (CM q CL).
      - intros U p d C. assert (VP : p < tot \/ ~ p < tot) by lia. destruct VP as [VP|VP].
        2:{ destruct EV as [EV|(p' & v & EV & Lp & _)]; rewrite EV; auto. rewrite fupd_neq; auto. intros ->. auto. }
        eapply keep with (ct := ct) (a := a) (a' := a'); eauto.
        + destruct EA as [->|[r SP]]; auto.
          destruct (N.eq_dec (call_key q') (call_key q)) as [EK|NK].
          * assert (NC : ~ changing q).
            { intros CH. apply (AP w u q' q x' (UAt pc) NE Ew E U CH). exact EK. }
            rewrite changing_iff in NC. eapply spec_quiet; eauto.
            assert (a (call_key q') = Some d) by (apply A; eauto). congruence.
          * eapply spec_other; eauto. intros X. apply NK. rewrite X. unfold call_key.
            destruct (as_safe q); reflexivity.
        + destruct EV as [EV|(p' & v & EV & R1 & R2 & R3 & _)]; auto. right. exists p', v. sp; auto. }
    destruct EFF as [(r & a' & -> & SP & A')|(ND' & A')].
    + exists (AObj a' (fupd th' u (ADone (obs (as_safe q) r)))). split.
      * eapply as_tau; [|apply as_nil]. eapply a_lin; eauto.
      * exists ct', mk. cbn. sp; auto. apply rel_upd; [eauto|]. cbn. sp; auto; apply TU'.
    + exists (AObj a th'). split; [apply as_nil|]. exists ct', mk. cbn. sp; auto.
      apply rel_upd1; [eauto|]. cbn. sp; auto; try apply TU'. destruct pc'; auto. now elim (ND' r).
  - (* the value is read *)
    pose proof (T u) as Tu. rewrite E in Tu. destruct Tu as (CL & [TI TU] & ATH).
    exists (AObj a th'). split; [apply as_nil|]. exists ct, mk. cbn. sp; auto.
    apply rel_upd1; auto. cbn. sp; auto.
    destruct (TU U i s eq_refl) as [d D]. destruct TI as (n & d' & -> & P & _).
    exists n, d. sp; auto.
    destruct (rd_tinv c m lg Hm _ _ _ _ _ I P) as (R1 & L1 & O1). rewrite R1 in R. injection R as <-.
    rewrite sdata_enc. unfold call_key in D. rewrite D. reflexivity.
  - (* the value is written *)
    pose proof (T u) as Tu. rewrite E in Tu. destruct Tu as (CL & (U & n & d & -> & P & C & SD) & ATH).
    set (p := rmp (hm (call_key q) + n)) in *.
    destruct (rd_tinv c m lg Hm _ _ _ _ _ I P) as (R & L & O). fold p in R, L, O.
    apply rd_mem in R. set (d' := fn (op_fun (as_safe q)) (sdata curr)).
    assert (VK : valid_key sc (call_key q)) by apply (CO q CL).
    assert (AV : a (call_key q) = Some d) by (apply A; eauto).
    set (ct' := fupd ct p (CLive (call_key q) d')).
    assert (I' : tinv (store_word t (p, d')) ct' mk).
    { unfold store_word. cbn. rewrite R.
      replace (Slot (skey (enc sc (ct p) (mk p))) d') with (enc sc (CLive (call_key q) d') (mk p)).
      - apply tinv_write; auto.
        + rewrite C. constructor.
        + rewrite C in O. exact O.
        + intros k x. rewrite C. discriminate.
        + rewrite C. discriminate.
      - rewrite C. destruct (mk p); reflexivity. }
    set (r := BRet RC_SUCCESS_UP (fst (non_atomic_update sc curr (op_fun (as_safe q)))) (Some p)).
    exists (AObj (fupd a (call_key q) (Some d')) (fupd th' u (ADone (obs (as_safe q) r)))). split.
    + eapply as_tau; [|apply as_nil]. eapply a_lin; eauto.
      destruct q as [o|k f|k d0 f]; [contradiction| |]; unfold call_key in *; cbn in AV |- *; unfold d'; cbn; rewrite SD;
        unfold fun_ret; cbn.
      * replace (if sc_mark sc then f else f) with f by (destruct (sc_mark sc); reflexivity).
        assert (X : forall r, (forall x, r x = f x) -> spec a (MUpdate k f r) (fupd a k (Some (f d))) (RUpdated (f d)))
          by (intros r0 X; rewrite <- (X d) at 2; constructor; auto).
        apply X. intros x. destruct (sc_mark sc); reflexivity.
      * assert (X : forall r, (forall x, r x = f x) -> spec a (MInsertOrUpdate k d0 f r) (fupd a k (Some (f d))) (RUpdated (f d)))
          by (intros r0 X; rewrite <- (X d) at 2; constructor; auto).
        apply X. intros x. destruct (sc_mark sc); reflexivity.
    + exists ct', mk. cbn. sp; auto.
      * eapply absr_update; eauto.
      * apply rel_upd.
        -- intros w NE. specialize (T w). destruct (th w) as [[q' x']|] eqn:Ew; auto.
           destruct T as (CL' & TW & AW). cbn. sp; auto. eapply thr_u_write; eauto.
           ++ right. exists p, (CLive (call_key q) d'). sp; auto; [rewrite C; constructor|discriminate].
           ++ intros U' p' x C'. unfold ct'. rewrite fupd_neq; auto. intros ->.
              rewrite C in C'. injection C' as EK _.
              apply (AP w u q' q x' (UStore (hm (call_key q) + n) curr) NE Ew E U'); [|now symmetry].
              apply changing_iff. left. destruct q; [contradiction|exact Logic.I|exact Logic.I].
        -- cbn. sp; auto. intros _ i s. discriminate.
  - pose proof (T u) as Tu. rewrite E in Tu. destruct Tu as (CL & TI & ATH). eexists. split.
    + eapply as_vis; [|apply as_nil]. now apply a_ret.
    + exists ct, mk. cbn. sp; auto. apply rel_upd; auto. reflexivity.
Qed.

Lemma sim_trace client s x tr s' :
  calls_ok client -> rel client s x -> lts_steps (careful (u_step c m client)) s tr s' ->
  exists x', asteps spec x tr x' /\ rel client s' x'.
Proof.
  intros CO R ST. revert x R. induction ST as [s|s s1 s2 tr S ST IH|s e s1 s2 tr S ST IH]; intros x R.
  - exists x. split; [apply as_nil|exact R].
  - destruct (sim client s x None s1 CO R S) as (x1 & A1 & R1).
    destruct (IH x1 R1) as (x2 & A2 & R2). exists x2. split; auto.
    change tr with ([] ++ tr). eapply asteps_app; eauto.
  - destruct (sim client s x (Some e) s1 CO R S) as (x1 & A1 & R1).
    destruct (IH x1 R1) as (x2 & A2 & R2). exists x2. split; auto.
    change (e :: tr) with ([e] ++ tr). eapply asteps_app; eauto.
Qed.

Lemma rel_init client : rel client (usys_init c m) (AObj amap_empty (fun _ => AIdle)).
Proof.
  exists (fun _ => CEmpty), (fun _ => false). cbn. sp; auto.
  - eapply fresh_tinv; eauto.
  - apply fresh_absr.
Qed.

Theorem careful_linearizable client :
  calls_ok client -> linearizable spec (careful (u_step c m client)) (usys_init c m) amap_empty.
Proof.
  intros CO tr s ST. destruct (sim_trace client _ _ tr s CO (rel_init client) ST) as (x & A & _). exists x. exact A.
Qed.

End Apart.

Lemma fair_calls_ok c client : wf_scfg (tsc c) -> fair_calls (tsc c) client -> calls_ok c client.
Proof.
  intros W [A B]. split.
  - intros q C. destruct (A q C) as [K F]. split; [now apply user_key_valid|].
    destruct (as_safe q); cbn in *; try (intros g x; discriminate); exact F.
  - destruct B as [B|[B|B]]; auto.
Qed.

(** *** Growing in phases *)
Section Phases.
Context (sc : scfg) (mc : mcfg) (hash : N -> N) (client : call -> Prop).
Context (CT : cell_type sc) (F : fair_calls sc client) (CF : cmap mc = false \/ cprob mc = true).
Notation c := (TCfg sc mc hash).
Notation spec := (mspec (sc_mark sc) (negb (cprob mc))).

Lemma phases_inv lg m t tr :
  phases c client lg m t tr ->
  wf_mapper mc m lg /\ exists ct x, tinv c m t ct (fun _ => false) /\ absr c m ct (ast x) /\
    (forall u, ath x u = AIdle) /\ asteps spec (AObj amap_empty (fun _ => AIdle)) tr x.
Proof.
  pose proof (cell_type_wf _ CT) as W0.
  assert (CO : calls_ok c client) by (apply fair_calls_ok; auto).
  induction 1 as [lg LG|lg m t tr tr' s L IH ST NT U|lg lg' m t tr ins del B tr' s L IH LG HB E ST FIN V]; cbn [tmc tsc] in *.
  - split; [now apply wf_mk|]. exists (fun _ => CEmpty), (AObj amap_empty (fun _ => AIdle)). sp; auto.
    + eapply (fresh_tinv c (sized mc lg 0) lg); eauto. now apply wf_mk.
    + apply fresh_absr.
    + apply as_nil.
  - destruct IH as (W & ct & x & I & A & ID & AS). split; auto.
    assert (R : rel c m client (USys t idle) x) by (exists ct, (fun _ => false); cbn; auto).
    destruct (sim_trace c m lg W0 W client _ _ tr' s CO R ST) as (x' & AS' & ct' & mk' & I' & A' & T').
    exists ct', x'. sp; auto.
    + eapply unmarked_tinv with (mk := mk'); eauto.
    + intros u. specialize (T' u). rewrite NT in T'. exact T'.
    + clear - AS AS'. revert AS'. induction AS; cbn; intros; auto; [eapply as_tau|eapply as_vis]; eauto.
  - destruct IH as (W & ct & x & I & A & ID & AS).
    destruct (quiet_move sc mc hash CT CF lg lg' m t ct (ast x) ins del B tr' s W I A LG HB E ST FIN) as (W' & tct & T1 & T2 & _).
    { eapply (vacant_quiet sc mc hash); eauto. }
    split; auto. exists tct, x. sp; auto.
Qed.

Lemma phases_linearizable lg m t tr :
  phases c client lg m t tr ->
  linearizable_trace spec amap_empty tr /\
  exists x, asteps spec (AObj amap_empty (fun _ => AIdle)) tr x /\ stored sc (cells_of mc lg) t (ast x).
Proof.
  intros P. destruct (phases_inv _ _ _ _ P) as (W & ct & x & I & A & _ & AS).
  split; [exists x; exact AS|]. exists x. split; auto. eapply stored_iff'; eauto.
Qed.

End Phases.
