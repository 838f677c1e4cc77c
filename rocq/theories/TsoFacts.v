(** Tables of fixed size behind store buffers. *)
From Coq Require Import NArith Bool List Lia.
From Verif Require Import Words Slot SlotFacts Mapper MapperFacts ReturnCode MapSpec LinSpec HistSpec
  Base BaseInv BaseLin BufSpec BufFacts Tso.
Import ListNotations.
Open Scope N_scope.

(** *** Without plain stores the buffers stay empty. *)
Section Locked.
Context (c : tcfg) (m : mapper) (plain : functor -> bool) (client : op -> Prop).
Context (NP : forall o i s, client o -> plain_store c plain o (PUpd i s) = false).

Definition same_sys (s : tsys) (b : bsys) : Prop :=
  xmem s = bmem b /\ (forall u, xbuf s u = []) /\ (forall u, xthr s u = bthr b u) /\
  (forall u o pc, xthr s u = Some (o, pc) -> client o).

Lemma locked_step s b l s' :
  same_sys s b -> tso_step c m plain client s l s' ->
  exists b', bsys_step c m client b l b' /\ same_sys s' b'.
Proof.
  intros (M & Q & T & C) ST. destruct b as [bt bth]. cbn in M, T.
  assert (UP : forall th u v, (forall w, th w = bth w) -> forall w, fupd th u v w = fupd bth u v w).
  { intros th u v H w. unfold fupd. destruct (w =? u); auto. }
  assert (CU : forall (th : N -> option (op * bpc)) u o (pc : bpc), (forall w o pc, th w = Some (o, pc) -> client o) -> client o ->
    forall w o' pc', fupd th u (Some (o, pc)) w = Some (o', pc') -> client o').
  { intros th u o pc H Co w o' pc'. unfold fupd. destruct (w =? u); [congruence|exact (H w o' pc')]. }
  destruct ST; cbn in *; subst bt.
  - eexists. split; [apply bs_inv; eauto; rewrite <- T; auto|]. repeat split; cbn; eauto.
  - pose proof (Q u) as Qu. cbn in H0. rewrite Qu in H0. cbn [view fold_left] in H0.
    assert (t' = t).
    { cbn [bstep] in H0. destruct (rd c m t (remap (tmc c) m i)); now inversion H0. }
    subst t'. eexists. split; [eapply bs_run with (b := b); [rewrite <- T; eassumption|discriminate|exact H0]|].
    repeat split; cbn; eauto.
  - pose proof (NP o i curr (C _ _ _ H)) as X. cbn in X. rewrite X in H0. discriminate.
  - eexists. split; [eapply bs_run; [rewrite <- T; eassumption|eassumption|eassumption]|].
    repeat split; cbn; eauto.
  - rewrite Q in H. discriminate.
  - eexists. split; [eapply bs_mark; eauto|]. repeat split; cbn; eauto.
  - eexists. split; [eapply bs_ret; rewrite <- T; eassumption|]. repeat split; cbn; eauto.
    intros w o' pc'. unfold fupd. destruct (w =? u); [discriminate|exact (C w o' pc')].
Qed.

Lemma locked_steps s tr s' b :
  same_sys s b -> lts_steps (tso_step c m plain client) s tr s' ->
  exists b', lts_steps (bsys_step c m client) b tr b' /\ same_sys s' b'.
Proof.
  intros R ST. revert b R. induction ST as [s|s s1 s2 tr S ST IH|s e s1 s2 tr S ST IH]; intros b R.
  - exists b. split; [apply ls_nil|exact R].
  - destruct (locked_step _ _ _ _ R S) as (b1 & S1 & R1). destruct (IH _ R1) as (b2 & L & R2).
    exists b2. split; auto. eapply ls_tau; eauto.
  - destruct (locked_step _ _ _ _ R S) as (b1 & S1 & R1). destruct (IH _ R1) as (b2 & L & R2).
    exists b2. split; auto. eapply ls_vis; eauto.
Qed.

Lemma locked_init : same_sys (tso_init c m) (bsys_init c m).
Proof. repeat split; cbn; auto. discriminate. Qed.

End Locked.

(** *** With plain stores the table is a map behind store buffers. *)
Section Buffered.
Context (c : tcfg) (m : mapper) (lg : N).
Context (Hsc : wf_scfg (tsc c)) (Hm : wf_mapper (tmc c) m lg) (SM : sc_mark (tsc c) = false).
Context (plain : functor -> bool) (client : op -> Prop) (CO : forall o, client o -> op_ok (tsc c) o).
Context (NE : forall o, client o -> ~ is_erase o).
Notation sc := (tsc c).
Notation mc := (tmc c).
Notation rmp := (remap mc m).
Notation tot := (total_slots mc m).
Notation spec := (mspec false (negb (cprob mc))).
Notation tinv := (tinv c m).
Notation absr := (absr c m).
Notation thr_inv := (thr_inv c m).

Definition stores (mo : mop) : Prop :=
  exists o, client o /\ mo = spec_op sc o /\ is_update o /\ plain (op_fun o) = true.

Definition samek (ct ct' : N -> content) : Prop :=
  forall p, ct' p = ct p \/ exists k d d', ct p = CLive k d /\ ct' p = CLive k d'.

Lemma samek_refl ct : samek ct ct.
Proof. left; reflexivity. Qed.
Lemma samek_sym ct ct' : samek ct ct' -> samek ct' ct.
Proof. intros H p. destruct (H p) as [E|(k & d & d' & E & E')]; [left; auto|right; exists k, d', d; auto]. Qed.
Lemma samek_trans a b d : samek a b -> samek b d -> samek a d.
Proof.
  intros H K p. destruct (H p) as [E|(k & x & y & E & E')], (K p) as [F|(k' & x' & y' & F & F')].
  - left. congruence.
  - right. exists k', x', y'. split; congruence.
  - right. exists k, x, y. split; congruence.
  - right. rewrite E' in F. injection F as -> ->. exists k', x, y'. auto.
Qed.
Lemma samek_write ct p k d d' : ct p = CLive k d -> samek ct (fupd ct p (CLive k d')).
Proof.
  intros E q. destruct (N.eq_dec q p) as [->|X]; [right; exists k, d, d'; now rewrite fupd_eq|left; now apply fupd_neq].
Qed.

Lemma prefix_samek ct ct' k n : samek ct ct' -> prefix c m ct k n -> prefix c m ct' k n.
Proof.
  intros S P j Hj. destruct (P j Hj) as [A B]. destruct (S (rmp (home c m k + j))) as [E|(k' & d & d' & E & E')].
  - rewrite E. auto.
  - rewrite E'. split; [discriminate|]. intros d0 [= -> <-]. now apply (B d).
Qed.

Lemma thr_samek ct ct' o pc : samek ct ct' -> thr_inv ct o pc -> thr_inv ct' o pc.
Proof.
  intros S. assert (PE : forall k n, prefix c m ct k n -> prefix c m ct' k n) by (intros; eapply prefix_samek; eauto).
  destruct pc as [i|i s|i s|i s|r|]; cbn; auto.
  - intros (n & ? & ?). eauto.
  - intros (n & d & ? & ? & ?). exists n, d. auto.
  - intros (n & d & ? & ? & ? & ? & H3). exists n, d. sp; auto. intros M. destruct (H3 M) as [d' E].
    destruct (S (rmp i)) as [E'|(k' & x & y & E1 & E2)]; [rewrite E'; eauto|].
    rewrite E in E1. injection E1 as <- <-. eauto.
  - intros (n & d & ? & ? & ?). exists n, d. auto.
Qed.

(** A buffered store and its counterpart in the queue. *)
Definition entry (ct : N -> content) (w : write) (w' : N * N) : Prop :=
  fst w < tot /\ snd w = snd w' /\ valid_key sc (fst w') /\ exists d0, ct (fst w) = CLive (fst w') d0.

Lemma entry_samek ct ct' w w' : samek ct ct' -> entry ct w w' -> entry ct' w w'.
Proof.
  intros S (L & E & V & d0 & C). unfold entry. sp; auto.
  destruct (S (fst w)) as [E'|(k' & x & y & E1 & E2)]; [rewrite E'; eauto|].
  rewrite C in E1. injection E1 as <- <-. eauto.
Qed.

Lemma entries_samek ct ct' q q' : samek ct ct' -> Forall2 (entry ct) q q' -> Forall2 (entry ct') q q'.
Proof. intros S F. induction F; constructor; auto. eapply entry_samek; eauto. Qed.

Lemma drain_ok t ct mk a w w' :
  tinv t ct mk -> absr ct a -> entry ct w w' ->
  exists ct', tinv (store_word t w) ct' mk /\ absr ct' (fupd a (fst w') (Some (snd w'))) /\ samek ct ct'.
Proof.
  intros I A (L & E & V & d0 & C). destruct w as [p d], w' as [k d']. cbn in *. subst d'.
  destruct (ti_cell _ _ _ _ _ I p L) as [X O]. rewrite C in X, O.
  assert (M0 : mk p = false).
  { destruct (mk p) eqn:M; auto. destruct O as [O _]. rewrite (O eq_refl) in SM. discriminate. }
  exists (fupd ct p (CLive k d)). sp.
  - unfold store_word. cbn. rewrite X, M0. cbn.
    replace (Slot k d) with (enc sc (CLive k d) (mk p)) by (rewrite M0; reflexivity).
    eapply tinv_write; eauto.
    + rewrite C. constructor.
    + rewrite C. discriminate.
    + rewrite C. discriminate.
  - eapply absr_update; eauto.
  - eapply samek_write; eauto.
Qed.

Lemma view_ok t ct mk a q q' :
  tinv t ct mk -> absr ct a -> Forall2 (entry ct) q q' ->
  exists ct', tinv (view t q) ct' mk /\ absr ct' (see a q') /\ samek ct ct'.
Proof.
  intros I A F. revert t ct a I A F. revert q'. induction q as [|w q IH]; intros q' t ct a I A F; inversion F; subst.
  - exists ct. sp; auto. apply samek_refl.
  - destruct (drain_ok t ct mk a w y I A H1) as (ct1 & I1 & A1 & S1).
    destruct (IH l' _ _ _ I1 A1 (entries_samek _ _ _ _ S1 H3)) as (ct2 & I2 & A2 & S2).
    exists ct2. sp; auto. eapply samek_trans; eauto.
Qed.

Lemma absr_fun ct ct' a a' : (forall p, ct' p = ct p) -> absr ct a -> absr ct' a' -> forall k, a' k = a k.
Proof.
  intros E A A' k. destruct (a k) as [d|] eqn:X.
  - apply A'. apply A in X. destruct X as (p & L & C). exists p. split; auto. congruence.
  - destruct (a' k) as [d|] eqn:Y; auto. apply A' in Y. destruct Y as (p & L & C).
    rewrite E in C. assert (a k = Some d) by (apply A; eauto). congruence.
Qed.

Definition rel (s : tsys) (x : bufobj) : Prop :=
  exists ct mk, tinv (xmem s) ct mk /\ absr ct (bo_map x) /\
  (forall u, Forall2 (entry ct) (xbuf s u) (bo_queue x u)) /\
  (forall u, match xthr s u with
             | None => bo_call x u = AIdle
             | Some (o, pc) =>
                 client o /\ thr_inv ct o pc /\
                 match pc with
                 | PDone r => bo_call x u = ADone (obs o r)
                 | _ => bo_call x u = APend (spec_op sc o)
                 end
             end).

Definition thr_rel ct (x : option (op * bpc)) (y : astat mop mres) : Prop :=
  match x with
  | None => y = AIdle
  | Some (o, pc) =>
      client o /\ thr_inv ct o pc /\
      match pc with PDone r => y = ADone (obs o r) | _ => y = APend (spec_op sc o) end
  end.

Lemma thr_rel_samek ct ct' x y : samek ct ct' -> thr_rel ct x y -> thr_rel ct' x y.
Proof.
  intros S. destruct x as [[o pc]|]; cbn; auto. intros (A & B & C). sp; auto. eapply thr_samek; eauto.
Qed.

Lemma rel_upd ct th th' u v v' :
  (forall w, thr_rel ct (th w) (th' w)) -> thr_rel ct v v' ->
  forall w, thr_rel ct (fupd th u v w) (fupd th' u v' w).
Proof. intros H K w. unfold fupd. destruct (w =? u); auto. Qed.

Lemma rel_upd1 ct th th' u v :
  (forall w, thr_rel ct (th w) (th' w)) -> thr_rel ct v (th' u) ->
  forall w, thr_rel ct (fupd th u v w) (th' w).
Proof.
  intros H K w. destruct (N.eq_dec w u) as [->|X]; [rewrite fupd_eq; auto|rewrite fupd_neq by exact X; auto].
Qed.

(** A response with an empty buffer is one with an empty queue. *)
Definition bstep_of (s : tsys) (x : bufobj) (l : option (event mop mres)) (x' : bufobj) : Prop :=
  bufstep spec stores x l x' /\
  forall t r, l = Some (ERet t r) -> xbuf s t = [] -> bo_queue x t = [].

Lemma buf_sim s x l s' :
  rel s x -> tso_step c m plain client s l s' ->
  exists x', lts_steps (bstep_of s) x (match l with Some e => [e] | None => [] end) x' /\ rel s' x'.
Proof.
  intros (ct & mk & I & A & Q & T) ST. destruct x as [a q' th']. cbn in *.
  change (forall u, thr_rel ct (xthr s u) (th' u)) in T.
  destruct ST as [t q th u o E CL|t q th u o i b t' pc' E ST|t q th u o i curr qn pc' E PS ST
    |t q th u o pc b t' pc' E NL ND PS QE ST|t q th u w l QE|t q th p s0 M L E|t q th u o r E]; cbn in *.
  - pose proof (T u) as Tu. rewrite E in Tu. cbn in Tu.
    eexists. split; [eapply ls_vis; [split; [now apply bo_inv|discriminate]|apply ls_nil]|].
    exists ct, mk. cbn. sp; auto. change (forall w, thr_rel ct (fupd th u (Some (o, start c m o)) w) (fupd th' u (APend (spec_op sc o)) w)).
    apply rel_upd; auto. cbn. sp; auto. exists 0. split; [lia|]. intros j Hj. lia.
  - (* load *)
    pose proof (T u) as Tu. rewrite E in Tu. destruct Tu as (CL & TI & ATH).
    destruct (view_ok t ct mk a (q u) (q' u) I A (Q u)) as (ctv & Iv & Av & Sv).
    pose proof (thr_samek _ _ _ _ Sv TI) as TIv.
    assert (ND : forall r, PLoad i <> PDone r) by discriminate.
    destruct (bstep_ok c m lg Hsc Hm _ _ ctv mk o _ b t' pc' Iv Av (CO o CL) TIv ND ST)
      as (ct' & I' & TI' & EV & EFF).
    assert (T' : t' = view t (q u)).
    { cbn [bstep] in ST. destruct (rd c m (view t (q u)) (rmp i)); now inversion ST. }
    subst t'.
    assert (EQ : forall p, ct' p = ctv p).
    { destruct EV as [EV|(p & v & EV & LP & _)]; auto. intros r. destruct (N.eq_dec r p) as [->|X].
      - destruct (ti_cell _ _ _ _ _ Iv p LP) as [X1 O1], (ti_cell _ _ _ _ _ I' p LP) as [X2 O2].
        rewrite X1 in X2. injection X2 as X2. eapply enc_inj in X2; eauto. symmetry. apply X2.
      - rewrite EV. now apply fupd_neq. }
    assert (TIc : thr_inv ct o pc').
    { eapply thr_samek; [apply samek_sym; exact Sv|]. eapply thr_inv_ext; [|exact TI'].
      intros p. symmetry. apply EQ. }
    rewrite SM in EFF. destruct EFF as [(r & a' & -> & SP & A')|(ND' & A')].
    + exists (BufObj a q' (fupd th' u (ADone (obs o r)))). split.
      * eapply ls_tau; [|apply ls_nil]. split; [|discriminate]. eapply bo_read; eauto. eapply absr_fun; eauto.
      * exists ct, mk. cbn. sp; auto. apply (rel_upd ct th th' u (Some (o, PDone r)) (ADone (obs o r))); auto.
        cbn. sp; auto.
    + exists (BufObj a q' th'). split; [apply ls_nil|]. exists ct, mk. cbn. sp; auto.
      apply (rel_upd1 ct th th' u (Some (o, pc'))); auto. cbn. sp; auto. destruct pc'; auto. now elim (ND' r).
  - (* plain store *)
    pose proof (T u) as Tu. rewrite E in Tu. destruct Tu as (CL & TI & ATH).
    destruct (view_ok t ct mk a (q u) (q' u) I A (Q u)) as (ctv & Iv & Av & Sv).
    pose proof (thr_samek _ _ _ _ Sv TI) as TIv.
    cbn in PS. apply andb_true_iff in PS. destruct PS as [_ PS].
    destruct (fat (op_fun o)) as [g|] eqn:FA; [|discriminate].
    destruct TIv as (n & d & -> & P & Ec & UO & LV). destruct (LV SM) as [d0 C].
    set (p := rmp (home c m (op_key o) + n)) in *.
    destruct (rd_tinv c m lg Hm _ _ _ _ _ Iv P) as (R & LP & OK). fold p in R, LP, OK.
    assert (M0 : mk p = false).
    { destruct (mk p) eqn:M; auto. destruct OK as [OK _]. rewrite (OK eq_refl) in SM. discriminate. }
    rewrite C, M0 in R. cbn in R.
    unfold put in ST. fold p in ST. rewrite R, FA in ST. cbn [sdata] in ST.
    destruct (g d0) as [x r] eqn:G. injection ST as <- <-.
    set (rr := BRet RC_SUCCESS_UP (Slot (get_key sc curr) r) (Some p)).
    assert (ST : bstep c m (view t (q u)) false o (PUpd (home c m (op_key o) + n) curr)
                 = (fupd (view t (q u)) p (Some (Slot (op_key o) x)), PDone rr)).
    { cbn [bstep]. fold p. rewrite R. unfold atomic_update. rewrite SM, FA. cbn [sdata skey]. rewrite G. reflexivity. }
    assert (TIv : thr_inv ctv o (PUpd (home c m (op_key o) + n) curr)).
    { exists n, d. sp; auto. }
    assert (ND : forall r, PUpd (home c m (op_key o) + n) curr <> PDone r) by discriminate.
    destruct (bstep_ok c m lg Hsc Hm _ _ ctv mk o _ false _ _ Iv Av (CO o CL) TIv ND ST)
      as (ct' & I' & TI' & EV & EFF).
    rewrite SM in EFF. destruct EFF as [(r0 & a' & [= <-] & SP & A')|(ND' & _)]; [|now elim (ND' rr)].
    assert (VK : valid_key sc (op_key o)) by apply (CO o CL).
    assert (C' : ct' p = CLive (op_key o) x).
    { destruct (ti_cell _ _ _ _ _ I' p LP) as [X2 O2]. rewrite fupd_eq in X2. injection X2 as X2.
      rewrite M0 in X2, O2.
      assert (O3 : ok_content sc (CLive (op_key o) x) false) by (split; [discriminate|exact VK]).
      change (Slot (op_key o) x) with (enc sc (CLive (op_key o) x) false) in X2.
      eapply enc_inj in X2; eauto. symmetry. apply X2. }
    assert (KS : mop_key (spec_op sc o) = op_key o) by (destruct o; reflexivity).
    assert (OB : obs o rr = RUpdated r) by (destruct o; try contradiction; reflexivity).
    exists (BufObj a (fupd q' u (q' u ++ [(op_key o, x)])) (fupd th' u (ADone (obs o rr)))). split.
    + eapply ls_tau; [|apply ls_nil]. split; [|discriminate]. rewrite <- KS, OB. rewrite OB in SP. eapply bo_store; eauto.
      * exists o. sp; auto.
      * rewrite KS. apply Av. exists p. split; eauto.
      * rewrite KS. apply A'. exists p. split; eauto.
    + exists ct, mk. cbn. sp; auto.
      * intros w. destruct (N.eq_dec w u) as [->|X]; [|rewrite !fupd_neq by exact X; auto].
        rewrite !fupd_eq. apply Forall2_app; auto. constructor; [|constructor]. unfold entry. cbn. sp; auto.
        destruct (samek_sym _ _ Sv p) as [Y|(k & y & y' & Y1 & Y2)]; [rewrite Y; eauto|].
        rewrite C in Y1. injection Y1 as <- <-. eauto.
      * apply (rel_upd ct th th' u (Some (o, PDone rr)) (ADone (obs o rr))); auto. cbn. sp; auto.
  - (* locked instruction *)
    pose proof (T u) as Tu. rewrite E in Tu. destruct Tu as (CL & TI & ATH).
    destruct (bstep_ok c m lg Hsc Hm _ _ ct mk o pc b t' pc' I A (CO o CL) TI ND ST)
      as (ct' & I' & TI' & EV & EFF).
    assert (ATH' : th' u = APend (spec_op sc o)) by (destruct pc; auto; now elim (ND r)).
    assert (ST1 : forall w o' pc'', thr_inv ct o' pc'' -> th w = Some (o', pc'') -> thr_inv ct' o' pc'').
    { intros w o' pc'' TW Ew. destruct EV as [EV|(p & v & EV & _ & _ & TR & ER)]; [eapply thr_inv_ext; eauto|].
      eapply thr_inv_ext; [exact EV|]. apply thr_inv_write; auto. intros ->. now elim (NE o CL (ER eq_refl)). }
    assert (T' : forall w, thr_rel ct' (th w) (th' w)).
    { intros w. specialize (T w). destruct (th w) as [[o' pc'']|] eqn:Ew; auto. destruct T as (X & Y & Z).
      cbn. sp; auto. eapply ST1; eauto. }
    assert (Q' : forall w, Forall2 (entry ct') (q w) (q' w)).
    { intros w. specialize (Q w). induction Q as [|y y' l l' H Q IH]; constructor; auto.
      destruct H as (H1 & H2 & H3 & d0 & H4). unfold entry. sp; auto.
      destruct EV as [EV|(p & v & EV & _ & _ & TR & ER)]; [rewrite EV; eauto|].
      rewrite EV. destruct (N.eq_dec (fst y) p) as [X|X]; [|rewrite fupd_neq by exact X; eauto].
      rewrite X, fupd_eq. rewrite X in H4. rewrite H4 in TR. inversion TR; subst; eauto.
      now elim (NE o CL (ER eq_refl)). }
    rewrite SM in EFF. destruct EFF as [(r & a' & -> & SP & A')|(ND' & A')].
    + exists (BufObj a' q' (fupd th' u (ADone (obs o r)))). split.
      * eapply ls_tau; [|apply ls_nil]. split; [|discriminate]. eapply bo_lock; eauto.
        specialize (Q u). rewrite QE in Q. now inversion Q.
      * exists ct', mk. cbn. sp; auto. apply (rel_upd ct' th th' u (Some (o, PDone r)) (ADone (obs o r))); auto.
        cbn. sp; auto.
    + exists (BufObj a q' th'). split; [apply ls_nil|]. exists ct', mk. cbn. sp; auto.
      apply (rel_upd1 ct' th th' u (Some (o, pc'))); auto. cbn. sp; auto. destruct pc'; auto. now elim (ND' r).
  - (* a store reaches memory *)
    pose proof (Q u) as Qu. rewrite QE in Qu. inversion Qu as [|w1 w' l1 l' EN F X1 X2]; subst.
    destruct (drain_ok t ct mk a w w' I A EN) as (ct' & I' & A' & S').
    exists (BufObj (fupd a (fst w') (Some (snd w'))) (fupd q' u l') th'). split.
    + eapply ls_tau; [|apply ls_nil]. split; [|discriminate]. destruct w' as [k d]. apply bo_flush. symmetry. exact X2.
    + exists ct', mk. cbn. sp; auto.
      * intros v. destruct (N.eq_dec v u) as [->|X]; [rewrite !fupd_eq|rewrite !fupd_neq by exact X];
          eapply entries_samek; eauto.
      * intros v. apply (thr_rel_samek ct ct' (th v) (th' v)); auto.
  - congruence.
  - pose proof (T u) as Tu. rewrite E in Tu. destruct Tu as (CL & TI & ATH).
    eexists. split; [eapply ls_vis; [split; [now apply bo_ret|]|apply ls_nil]; intros t0 r0 [= <- <-] Q0; cbn in *; specialize (Q u); rewrite Q0 in Q; now inversion Q|].
    exists ct, mk. cbn. sp; auto. apply (rel_upd ct th th' u None AIdle); auto. reflexivity.
Qed.

Lemma steps_app {S E : Type} (step : S -> option E -> S -> Prop) x tr y tr' z :
  lts_steps step x tr y -> lts_steps step y tr' z -> lts_steps step x (tr ++ tr') z.
Proof. induction 1; cbn; intros; auto; [eapply ls_tau|eapply ls_vis]; eauto. Qed.

Lemma steps_weak {S E : Type} (step step' : S -> option E -> S -> Prop) x tr y :
  (forall x l y, In l (None :: map Some tr) -> step x l y -> step' x l y) -> lts_steps step x tr y -> lts_steps step' x tr y.
Proof.
  intros W ST. induction ST; [constructor|eapply ls_tau; eauto; apply W; auto; now left|].
  eapply ls_vis.
  - apply W; eauto. right. now left.
  - apply IHST. intros x l y I. apply W. destruct I as [I|I]; [left; exact I|right; right; exact I].
Qed.

Lemma rel_init : rel (tso_init c m) bufobj_init.
Proof.
  exists (fun _ => CEmpty), (fun _ => false). cbn. sp; auto.
  - eapply fresh_tinv; eauto.
  - apply fresh_absr.
Qed.

Theorem tso_buffered tr s :
  lts_steps (tso_step c m plain client) (tso_init c m) tr s -> buffered spec stores tr.
Proof.
  intros ST. pose proof rel_init as R.
  unfold buffered. revert R. generalize bufobj_init. induction ST as [s|s s1 s2 tr S ST IH|s e s1 s2 tr S ST IH]; intros x R.
  - exists x. apply ls_nil.
  - destruct (buf_sim _ _ _ _ R S) as (x1 & L1 & R1). destruct (IH x1 R1) as (x2 & L2).
    exists x2. change tr with ([] ++ tr). eapply steps_app; eauto. eapply steps_weak; [|exact L1]. intros ? ? ? _ H. apply H.
  - destruct (buf_sim _ _ _ _ R S) as (x1 & L1 & R1). destruct (IH x1 R1) as (x2 & L2).
    exists x2. change (e :: tr) with ([e] ++ tr). eapply steps_app; eauto. eapply steps_weak; [|exact L1]. intros ? ? ? _ H. apply H.
Qed.

Notation tso_fenced := (tso_fenced c m plain client).

Theorem tso_fenced_buffered tr s :
  lts_steps tso_fenced (tso_init c m) tr s ->
  exists x, lts_steps (bufstep_fenced (negb (cprob mc)) stores) bufobj_init tr x.
Proof.
  intros ST. pose proof rel_init as R.
  revert R. generalize bufobj_init. induction ST as [s|s s1 s2 tr [S F] ST IH|s e s1 s2 tr [S F] ST IH]; intros x R.
  - exists x. apply ls_nil.
  - destruct (buf_sim _ _ _ _ R S) as (x1 & L1 & R1). destruct (IH x1 R1) as (x2 & L2).
    exists x2. change tr with ([] ++ tr). eapply steps_app; eauto. eapply steps_weak; [|exact L1].
    intros x' l y' I [H K]. split; auto. destruct I as [<-|[]]. discriminate.
  - destruct (buf_sim _ _ _ _ R S) as (x1 & L1 & R1). destruct (IH x1 R1) as (x2 & L2).
    exists x2. change (e :: tr) with ([e] ++ tr). eapply steps_app; eauto. eapply steps_weak; [|exact L1].
    intros x' l y' I [H K]. split; auto. destruct I as [<-|[<-|[]]]; [discriminate|].
    intros t r X. eapply K; eauto.
Qed.

(** Calls of the clients only. *)
Lemma tso_calls tr s0 s :
  lts_steps (tso_step c m plain client) s0 tr s ->
  forall u mo, In (EInv u mo) tr -> exists o, client o /\ mo = spec_op sc o.
Proof.
  intros ST. induction ST as [s|s s1 s2 tr S ST IH|s e s1 s2 tr S ST IH]; intros u mo I; [contradiction|eauto|].
  destruct I as [->|I]; [|eauto]. inversion S; subst. eauto.
Qed.

Lemma client_no_erase tr s0 s :
  lts_steps (tso_step c m plain client) s0 tr s -> forall u mo, In (EInv u mo) tr -> no_erase mo.
Proof.
  intros ST u mo I. destruct (tso_calls _ _ _ ST u mo I) as (o & C & ->). pose proof (NE o C) as X.
  destruct o; cbn in *; split; try discriminate; intros; now elim X.
Qed.

(** Functions that store a constant and report it. *)
Definition constant (f : functor) (d : N) : Prop := forall x, fn f x = d /\ fun_ret sc f x = d.

Context (CONST : forall o, client o -> is_update o -> plain (op_fun o) = true -> exists d, constant (op_fun o) d).

Lemma stores_const o m0 m' w v d : stores o -> spec m0 o m' (RUpdated w) -> m0 (mop_key o) = Some v ->
  m' (mop_key o) = Some d -> w = d /\ overwrites (negb (cprob mc)) o d.
Proof.
  intros (o' & C & -> & U & P) S M M'. destruct (CONST o' C U P) as (d' & K).
  destruct o'; cbn in U; try contradiction; cbn in *;
    (inversion S; subst; try congruence; rewrite fupd_eq in M'; injection M' as <-;
     match goal with |- context [fun_ret sc _ ?v1] => rewrite (proj2 (K v1)), (proj1 (K v1)) end; split; auto;
     intros a w A; cbn in *; rewrite <- (proj1 (K w)) at 1; rewrite <- (proj2 (K w)); constructor; auto).
Qed.

Theorem tso_fenced_atomic tr s :
  lts_steps tso_fenced (tso_init c m) tr s -> linearizable_trace spec amap_empty tr.
Proof.
  intros ST. destruct (tso_fenced_buffered _ _ ST) as (x & L).
  eapply fenced_atomic; [exact stores_const| |exact L].
  eapply client_no_erase. eapply steps_weak; [|exact ST]. intros ? ? ? _ H. apply H.
Qed.

Theorem tso_keys tr s :
  lts_steps (tso_step c m plain client) (tso_init c m) tr s -> atomic_but_values spec tr.
Proof. intros ST. eapply buffered_keys; [eapply client_no_erase|eapply tso_buffered]; eauto. Qed.

End Buffered.
