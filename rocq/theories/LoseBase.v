(** Tables of fixed size whose cells cannot be marked, under any mix of calls. *)
From Coq Require Import NArith Bool List Lia.
From Verif Require Import Words Slot SlotFacts Mapper MapperFacts ReturnCode MapSpec LinSpec
  Base BaseInv BaseLin GrowingInv LoseSpec LoseFacts.
Import ListNotations.
Open Scope N_scope.

Section B.
Context (c : tcfg) (m : mapper) (lg : N).
Context (Hsc : wf_scfg (tsc c)) (Hm : wf_mapper (tmc c) m lg) (SM : sc_mark (tsc c) = false).
Context (client : op -> Prop) (CO : forall o, client o -> op_ok (tsc c) o).
Notation sc := (tsc c).
Notation mc := (tmc c).
Notation rmp := (remap mc m).
Notation spec := (mspec false (negb (cprob mc))).

Lemma spec_key o : mop_key (spec_op sc o) = op_key o.
Proof. destruct o; reflexivity. Qed.
Lemma spec_updates o : is_update o -> updates (spec_op sc o) = true.
Proof. destruct o; cbn; tauto. Qed.

(** A step after which no other call is about to update a deleted cell. *)
Lemma run_clean t th x tid o pc b t' pc' :
  sys_rel c m client (BSys t th) x -> th tid = Some (o, pc) -> (forall r, pc <> PDone r) ->
  bstep c m t b o pc = (t', pc') ->
  (forall u o' i s, u <> tid -> th u = Some (o', PUpd i s) -> ~ gone c t' (rmp i)) ->
  exists x', asteps spec x [] x' /\ sys_rel c m client (BSys t' (fupd th tid (Some (o, pc')))) x'.
Proof.
  intros (ct & mk & I & A & T) E ND ST SAFE. destruct x as [a th']. cbn in *.
  pose proof (T tid) as Tt. cbn in Tt. rewrite E in Tt. destruct Tt as (CL & TI & ATH).
  destruct (bstep_ok c m lg Hsc Hm a t ct mk o pc b t' pc' I A (CO o CL) TI ND ST)
    as (ct' & I' & TI' & EV & EFF).
  assert (STAB : forall u o' pc'', u <> tid -> th u = Some (o', pc'') -> thr_inv c m ct' o' pc'').
  { intros u o' pc'' NE Eu. specialize (T u). cbn in T. rewrite Eu in T. destruct T as (CL' & TI'' & _).
    destruct EV as [EV|(p & v & EV & LP & M0 & TR & ER)].
    - eapply thr_inv_ext; eauto.
    - eapply thr_inv_ext; eauto. apply thr_inv_write_gen; auto.
      intros ->. right. right. intros i s -> X. eapply (SAFE u o' i s); eauto. rewrite X. unfold gone.
      destruct (ti_cell _ _ _ _ _ I' p LP) as [C _]. rewrite C, EV, fupd_eq, M0. reflexivity. }
  assert (ATH' : th' tid = APend (spec_op sc o)).
  { destruct pc; auto. now elim (ND r). }
  assert (OTH : forall st, forall u, u <> tid ->
     match th u with
     | None => fupd th' tid st u = AIdle
     | Some (o0, pc0) => client o0 /\ thr_inv c m ct' o0 pc0 /\
         match pc0 with PDone r => fupd th' tid st u = ADone (obs o0 r)
                   | _ => fupd th' tid st u = APend (spec_op sc o0) end
     end).
  { intros st u NE. specialize (T u). cbn in T. rewrite fupd_neq by exact NE.
    destruct (th u) as [[o0 pc0]|] eqn:Eu; auto. sp; try apply T. eapply STAB; eauto. }
  rewrite SM in EFF.
  destruct EFF as [(r & a' & -> & SP & A')|(ND' & A')].
  + exists (AObj a' (fupd th' tid (ADone (obs o r)))). split.
    * eapply as_tau; [|apply as_nil]. eapply a_lin; eauto.
    * exists ct', mk. cbn. sp; auto. intros u. destruct (N.eq_dec u tid) as [->|NE].
      -- rewrite !fupd_eq. sp; auto.
      -- rewrite (fupd_neq th) by exact NE. apply OTH; exact NE.
  + exists (AObj a th'). split; [apply as_nil|].
    exists ct', mk. cbn. sp; auto. intros u. destruct (N.eq_dec u tid) as [->|NE].
    * rewrite fupd_eq. sp; auto. destruct pc'; auto. now elim (ND' r).
    * rewrite (fupd_neq th) by exact NE. specialize (OTH (th' u) u NE).
      specialize (T u). cbn in T. destruct (th u) as [[o0 pc0]|] eqn:Eu; auto.
      sp; try apply T. eapply STAB; eauto.
Qed.

(** A call of the system and of the clean one. *)
Definition tlike (tn : mem) (f : bool) (x y : option (op * bpc)) : Prop :=
  x = y \/ exists o i k d, x = Some (o, PUpd i (Slot k d)) /\ y = Some (o, PLoad i) /\ f = true /\ is_update o /\
           gone c tn (rmp i).

Definition brel (s : bsys) (w : wobj) : Prop :=
  exists tn thn x fl, sys_rel c m client (BSys tn thn) x /\ wrel x fl w /\ same sc (bmem s) tn /\
    forall u, tlike tn (fl u) (bthr s u) (thn u).

(** Calls about to update a cell that is deleted in [t'] go back. *)
Definition back (t' : mem) (tid : N) (thn : N -> option (op * bpc)) : N -> option (op * bpc) :=
  fun u => match thn u with
           | Some (o, PUpd i s) =>
               if u =? tid then Some (o, PUpd i s)
               else if gone_dec c t' (rmp i) then Some (o, PLoad i) else Some (o, PUpd i s)
           | y => y
           end.

Lemma back_cases t' tid thn u :
  back t' tid thn u = thn u \/
  exists o i s, u <> tid /\ thn u = Some (o, PUpd i s) /\ back t' tid thn u = Some (o, PLoad i) /\ gone c t' (rmp i).
Proof.
  unfold back. destruct (thn u) as [[o [i|i s|i s|i s|r|]]|]; auto.
  destruct (N.eqb_spec u tid); auto. destruct (gone_dec c t' (rmp i)); auto.
  right. exists o, i, s. auto.
Qed.

Lemma back_rel t t' tid thn x : sys_rel c m client (BSys t thn) x -> sys_rel c m client (BSys t (back t' tid thn)) x.
Proof.
  intros (ct & mk & I & A & T). exists ct, mk. sp; auto. intros u. specialize (T u). cbn [bthr] in *.
  destruct (back_cases t' tid thn u) as [->|(o & i & s & _ & E & -> & _)]; auto.
  rewrite E in T. destruct T as (CL & (n & d & E1 & P & _) & AT). sp; auto. exists n. auto.
Qed.

Lemma lose_run t th w tid o pc b t' pc' :
  brel (BSys t th) w -> th tid = Some (o, pc) -> (forall r, pc <> PDone r) ->
  bstep c m t b o pc = (t', pc') ->
  exists w', lts_steps (wstep spec) w [] w' /\ brel (BSys t' (fupd th tid (Some (o, pc')))) w'.
Proof.
  intros (tn & thn & x & fl & R & W & S & L) E ND ST. cbn [bmem bthr] in *.
  pose proof (L tid) as Lt. rewrite E in Lt.
  pose proof R as R0. destruct R0 as (ct & mk & I & A & T). cbn [bmem bthr] in *.
  destruct Lt as [Et|(o1 & i & k & d & E1 & E2 & F & U & G)].
  - symmetry in Et. pose proof (T tid) as Tt. rewrite Et in Tt. destruct Tt as (CL & TI & ATH).
    destruct (same_bstep c m lg Hsc Hm SM t tn ct mk b o pc t' pc' S I (CO o CL) TI ST) as (tn' & STn & S').
    set (thb := back tn' tid thn).
    assert (Eb : thb tid = Some (o, pc)).
    { unfold thb, back. rewrite Et, N.eqb_refl. destruct pc; reflexivity. }
    destruct (run_clean tn thb x tid o pc b tn' pc' (back_rel _ _ _ _ _ R) Eb ND STn) as (x' & AS & R').
    { intros u o' i s NE Eu X. unfold thb, back in Eu.
      destruct (thn u) as [[o0 [j|j s0|j s0|j s0|r|]]|]; try discriminate.
      destruct (N.eqb_spec u tid); [contradiction|].
      destruct (gone_dec c tn' (rmp j)) as [Y|Y]; [discriminate|]. injection Eu as <- <- <-. contradiction. }
    destruct (lift_steps _ _ _ _ AS fl w W) as (w' & fl' & WS & W' & MON & HIT).
    exists w'. split; [exact WS|]. exists tn', (fupd thb tid (Some (o, pc'))), x', fl'.
    sp; auto. cbn [bmem bthr]. intros u. destruct (N.eq_dec u tid) as [->|NE]; [rewrite !fupd_eq; now left|].
    rewrite !fupd_neq by exact NE.
    destruct (L u) as [Lu|(o1 & i & k & d & E1 & E2 & F & U & G)].
    + rewrite Lu. destruct (back_cases tn' tid thn u) as [EB|(o1 & i & s & _ & E1 & EB & G)]; fold thb in EB; rewrite EB; [now left|].
      right. pose proof (T u) as Tu. rewrite E1 in Tu. destruct Tu as (CLu & (n & d & Ei & P & Es & U & LV) & ATu).
      exists o1, i, (op_key o1), d. rewrite E1. subst s. sp; auto.
      destruct (LV SM) as [d' EL]. rewrite Ei in *.
      destruct (rd_tinv c m lg Hm _ _ _ _ _ I P) as (RD & LT & OK).
      apply rd_some in RD. rewrite (no_marks c m SM _ _ _ _ I LT), EL in RD.
      assert (NG : ~ gone c tn (rmp (home c m (op_key o1) + n))).
      { unfold gone. rewrite RD. intros [= X _]. elim (valid_dd c (op_key o1)); [apply CO; auto|exact X]. }
      destruct (bstep_gone c m lg Hm SM _ _ _ _ _ _ _ _ _ I (CO o CL) TI STn G NG) as (ER & (d0 & Q) & DN).
      rewrite RD in Q. injection Q as KEY _.
      assert (AT1 : ath x tid = APend (spec_op sc o)) by (destruct pc; auto; now elim (ND r)).
      destruct R' as (ct2 & mk2 & _ & _ & T2). cbn [bthr] in T2.
      eapply (HIT eq_refl tid (spec_op sc o) AT1) with (o' := spec_op sc o1).
      * pose proof (T2 tid) as X. rewrite fupd_eq, DN in X. destruct X as (_ & _ & X). rewrite X.
        destruct o; try contradiction; reflexivity.
      * pose proof (T2 u) as X. rewrite fupd_neq in X by exact NE. rewrite EB in X. apply X.
      * rewrite !spec_key. exact KEY.
    + assert (EB : thb u = Some (o1, PLoad i)) by (unfold thb, back; rewrite E2; reflexivity).
      rewrite EB. right. exists o1, i, k, d. sp; auto.
      * apply MON; auto. intros ? [].
      * eapply (bstep_keeps c m lg Hsc Hm SM); eauto.
  - injection E1 as <- ->. pose proof (T tid) as Tt. rewrite E2 in Tt. destruct Tt as (CL & (n & Ei & P) & ATH). subst i.
    destruct (rd_tinv c m lg Hm _ _ _ _ _ I P) as (RD & LT & OK).
    destruct (dead_step c m SM t tn b o _ _ t' pc' S G LT U (ex_intro _ k (ex_intro _ d eq_refl)) (proj2 (CO o CL)) ST)
      as (S' & [(r & v & -> & OB & _)|[->|(k0 & f & r & -> & -> & OB & _)]]).
    + destruct (lift_lost spec x fl w tid (spec_op sc o) v W ATH F (spec_updates o U)) as (w' & WS & W').
      exists w'. split; [exact WS|]. eexists tn, (fupd thn tid (Some (o, PDone r))), _, fl. split; [|split; [exact W'|]].
      * exists ct, mk. cbn [bmem bthr ast ath]. sp; auto. intros u. destruct (N.eq_dec u tid) as [->|NE].
        -- rewrite !fupd_eq. sp; auto; [exact Logic.I|]. now rewrite OB.
        -- rewrite !fupd_neq by exact NE. apply T.
      * cbn [bmem bthr]. split; [exact S'|]. intros u. destruct (N.eq_dec u tid) as [->|NE]; [rewrite !fupd_eq; now left|].
        rewrite !fupd_neq by exact NE. apply L.
    + exists w. split; [apply ls_nil|]. exists tn, thn, x, fl. sp; auto. cbn [bmem bthr].
      intros u. destruct (N.eq_dec u tid) as [->|NE]; [rewrite !fupd_eq, E2; now left|].
      rewrite !fupd_neq by exact NE. apply L.
    + destruct x as [a th']. cbn [ast ath] in *.
      assert (AS : asteps spec (AObj a th') [] (AObj a (fupd th' tid (ADone (obs (OUpdateB k0 f) r))))).
      { eapply as_tau; [|apply as_nil]. eapply a_lin; eauto. rewrite OB. constructor. }
      destruct (lift_steps _ _ _ _ AS fl w W) as (w' & fl' & WS & W' & MON & _).
      exists w'. split; [exact WS|]. eexists tn, (fupd thn tid (Some (OUpdateB k0 f, PDone r))), _, fl'. split; [|split; [exact W'|]].
      * exists ct, mk. cbn [bmem bthr ast ath]. sp; auto. intros u. destruct (N.eq_dec u tid) as [->|NE].
        -- rewrite !fupd_eq. sp; auto.
        -- rewrite !fupd_neq by exact NE. apply T.
      * cbn [bmem bthr]. split; [exact S'|]. intros u. destruct (N.eq_dec u tid) as [->|NE]; [rewrite !fupd_eq; now left|].
        rewrite !fupd_neq by exact NE. destruct (L u) as [Lu|(o1 & i & k1 & d1 & E1' & E2' & F' & U' & G')]; [now left|].
        right. exists o1, i, k1, d1. sp; auto. apply MON; auto. intros ? [].
Qed.

Lemma lose_sim s w l s' :
  brel s w -> bsys_step c m client s l s' ->
  exists w', lts_steps (wstep spec) w (match l with Some e => [e] | None => [] end) w' /\ brel s' w'.
Proof.
  intros R ST. destruct ST as [t th tid o E CL|t th tid o pc b t' pc' E ND ST|t th p s0 M L E|t th tid o r E].
  - destruct R as (tn & thn & x & fl & (ct & mk & I & A & T) & W & S & L). destruct x as [a th']. cbn [bmem bthr ast ath] in *.
    assert (En : thn tid = None).
    { destruct (L tid) as [X|(o1 & i & k & d & E1 & _)]; congruence. }
    pose proof (T tid) as Tt. rewrite En in Tt.
    assert (AS : asteps spec (AObj a th') [EInv tid (spec_op sc o)] (AObj a (fupd th' tid (APend (spec_op sc o))))).
    { eapply as_vis; [|apply as_nil]. now apply a_inv. }
    destruct (lift_steps _ _ _ _ AS fl w W) as (w' & fl' & WS & W' & MON & _).
    exists w'. split; [exact WS|]. eexists tn, (fupd thn tid (Some (o, start c m o))), _, fl'. split; [|split; [exact W'|]].
    + exists ct, mk. cbn [bmem bthr ast ath]. sp; auto. intros u. destruct (N.eq_dec u tid) as [->|NE].
      * rewrite !fupd_eq. sp; try reflexivity; auto. exists 0. split; [lia|]. intros j Hj. lia.
      * rewrite !fupd_neq by exact NE. apply T.
    + cbn [bmem bthr]. split; [exact S|]. intros u. destruct (N.eq_dec u tid) as [->|NE]; [rewrite !fupd_eq; now left|].
      rewrite !fupd_neq by exact NE. destruct (L u) as [Lu|(o1 & i & k1 & d1 & E1' & E2' & F' & U' & G')]; [now left|].
      right. exists o1, i, k1, d1. sp; auto. apply MON; auto. intros o' [[= X _]|[]]. congruence.
  - eapply lose_run; eauto.
  - congruence.
  - destruct R as (tn & thn & x & fl & (ct & mk & I & A & T) & W & S & L). destruct x as [a th']. cbn [bmem bthr ast ath] in *.
    assert (En : thn tid = Some (o, PDone r)).
    { destruct (L tid) as [X|(o1 & i & k & d & E1 & _)]; congruence. }
    pose proof (T tid) as Tt. rewrite En in Tt. destruct Tt as (CL & TI & ATH).
    assert (AS : asteps spec (AObj a th') [ERet tid (obs o r)] (AObj a (fupd th' tid AIdle))).
    { eapply as_vis; [|apply as_nil]. now apply a_ret. }
    destruct (lift_steps _ _ _ _ AS fl w W) as (w' & fl' & WS & W' & MON & _).
    exists w'. split; [exact WS|]. eexists tn, (fupd thn tid None), _, fl'. split; [|split; [exact W'|]].
    + exists ct, mk. cbn [bmem bthr ast ath]. sp; auto. intros u. destruct (N.eq_dec u tid) as [->|NE].
      * rewrite !fupd_eq. reflexivity.
      * rewrite !fupd_neq by exact NE. apply T.
    + cbn [bmem bthr]. split; [exact S|]. intros u. destruct (N.eq_dec u tid) as [->|NE]; [rewrite !fupd_eq; now left|].
      rewrite !fupd_neq by exact NE. destruct (L u) as [Lu|(o1 & i & k1 & d1 & E1' & E2' & F' & U' & G')]; [now left|].
      right. exists o1, i, k1, d1. sp; auto. apply MON; auto. intros o' [X|[]]. discriminate X.
Qed.

Lemma lose_trace s w tr s' :
  brel s w -> lts_steps (bsys_step c m client) s tr s' ->
  exists w', lts_steps (wstep spec) w tr w' /\ brel s' w'.
Proof.
  intros R ST. revert w R. induction ST as [s|s s1 s2 tr S ST IH|s e s1 s2 tr S ST IH]; intros w R.
  - exists w. split; [apply ls_nil|exact R].
  - destruct (lose_sim _ _ _ _ R S) as (w1 & A1 & R1). destruct (IH _ R1) as (w2 & A2 & R2).
    exists w2. split; auto. change tr with ([] ++ tr). eapply wsteps_app; eauto.
  - destruct (lose_sim _ _ _ _ R S) as (w1 & A1 & R1). destruct (IH _ R1) as (w2 & A2 & R2).
    exists w2. split; auto. change (e :: tr) with ([e] ++ tr). eapply wsteps_app; eauto.
Qed.

Lemma lose_init : brel (bsys_init c m) winit.
Proof.
  exists (fresh_mem c m), (fun _ => None), (AObj amap_empty (fun _ => AIdle)), (fun _ => false).
  split; [apply (init_rel c m lg Hsc Hm)|]. split; [split; [reflexivity|intros t; reflexivity]|].
  split; [apply same_refl|]. intros u. now left.
Qed.

Theorem base_lose tr s :
  lts_steps (bsys_step c m client) (bsys_init c m) tr s -> atomic_but_lost spec tr.
Proof. intros ST. destruct (lose_trace _ _ _ _ lose_init ST) as (w & A & _). exists w. exact A. Qed.

End B.
