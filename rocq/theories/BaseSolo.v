(** Calls running alone terminate. *)
From Coq Require Import NArith Bool List Lia.
From Verif Require Import Words Slot SlotFacts Mapper MapperFacts ReturnCode MapSpec LinSpec
  Base BaseInv BaseLin BaseExec.
Import ListNotations.
Open Scope N_scope.

Section Solo.
Context (c : tcfg) (m : mapper) (lg : N).
Context (Hsc : wf_scfg (tsc c)) (Hm : wf_mapper (tmc c) m lg).
Notation sc := (tsc c).
Notation mc := (tmc c).
Notation tot := (total_slots mc m).
Notation addr := (addressable_slots mc m).
Notation rmp := (remap mc m).
Notation hm := (home c m).
Notation spec := (mspec (sc_mark sc) (negb (cprob mc))).

Lemma solo_add n1 n2 t o pc :
  solo c m (n1 + n2) t o pc = let '(t', pc') := solo c m n1 t o pc in solo c m n2 t' o pc'.
Proof.
  revert t pc. induction n1 as [|n1 IH]; intros t pc; cbn; [reflexivity|].
  destruct (bstep c m t true o pc) as [t' pc']. apply IH.
Qed.

(** The result of a solo run: the call is done, with a result and effect allowed
    by the specification. *)
Definition solo_done (a : amap) (t : mem) (mk : cmark) (o : op) (pc : bpc) : Prop :=
  exists n t' r ct' a', solo c m n t o pc = (t', PDone r) /\ tinv c m t' ct' mk /\
    spec a (spec_op sc o) a' (obs o r) /\ absr c m ct' a'.

Lemma solo_step a t ct mk o pc :
  tinv c m t ct mk -> absr c m ct a -> op_ok sc o -> thr_inv c m ct o pc ->
  (forall r, pc <> PDone r) ->
  forall t' pc', bstep c m t true o pc = (t', pc') ->
  (forall ct', tinv c m t' ct' mk -> absr c m ct' a -> thr_inv c m ct' o pc' ->
     (forall p, ct' p = ct p) \/
     (exists p v, (forall q, ct' q = fupd ct p v q) /\ p < tot /\ trans (ct p) v) ->
     (forall r, pc' <> PDone r) ->
     solo_done a t' mk o pc') ->
  solo_done a t mk o pc.
Proof.
  intros I A O T ND t' pc' ST K.
  destruct (bstep_ok c m lg Hsc Hm a t ct mk o pc true t' pc' I A O T ND ST)
    as (ct' & I' & T' & EV & EFF).
  destruct EFF as [(r & a' & -> & SP & A')|(ND' & A')].
  - exists 1%nat, t', r, ct', a'. cbn. rewrite ST. auto.
  - assert (EV' : (forall p, ct' p = ct p) \/
       (exists p v, (forall q, ct' q = fupd ct p v q) /\ p < tot /\ trans (ct p) v)).
    { destruct EV as [EV|(p & v & E1 & E2 & _ & E3 & _)]; [now left|right; eauto]. }
    destruct (K ct' I' A' T' EV' ND') as (n & t2 & r & ct2 & a2 & S2 & R).
    exists (S n), t2, r, ct2, a2. split; [|exact R]. cbn. now rewrite ST.
Qed.

(** A compare-and-swap directly after the load succeeds. *)
Lemma solo_cas a t ct mk o n :
  tinv c m t ct mk -> absr c m ct a -> op_ok sc o -> prefix c m ct (op_key o) n ->
  let i := hm (op_key o) + n in
  let s := enc sc (ct (rmp i)) (mk (rmp i)) in
  forall pc, (pc = PCas i s \/ pc = PUpd i s \/ pc = PDel i s) -> thr_inv c m ct o pc ->
  solo_done a t mk o pc.
Proof.
  intros I A O P i s pc EP T.
  destruct (rd_tinv c m lg Hm _ _ _ _ _ I P) as (R & _ & _). fold i in R. fold s in R.
  assert (ND : forall r, pc <> PDone r) by (destruct EP as [-> |[-> | ->]]; discriminate).
  destruct (bstep c m t true o pc) as [t' pc'] eqn:ST.
  eapply solo_step; eauto. intros ct' _ _ _ _ ND'. exfalso.
  destruct EP as [-> |[-> | ->]]; cbn [bstep] in ST; rewrite R in ST.
  - unfold cas in ST. rewrite slot_eqb_refl in ST. injection ST as <- <-. eapply ND'; reflexivity.
  - unfold atomic_update, cas in ST. rewrite slot_eqb_refl in ST.
    destruct (sc_mark sc).
    + injection ST as <- <-. eapply ND'; reflexivity.
    + destruct (fat (op_fun o)) as [g|].
      * destruct (g (sdata s)). injection ST as <- <-. eapply ND'; reflexivity.
      * rewrite N.eqb_refl in ST. injection ST as <- <-. eapply ND'; reflexivity.
  - unfold atomic_delete, cas in ST. rewrite slot_eqb_refl in ST.
    injection ST as <- <-. eapply ND'; reflexivity.
Qed.

(** The decisions after a load. *)
Lemma after_load_cases o i p s :
  (exists r, after_load c m o i p s = PDone r) \/ after_load c m o i p s = PCas i s \/
  after_load c m o i p s = PUpd i s \/ after_load c m o i p s = PDel i s \/
  (after_load c m o i p s = PLoad (i + 1) /\ is_empty sc s = false).
Proof.
  destruct o; cbn; repeat (match goal with |- context [if ?b then _ else _] => destruct b eqn:? end);
    eauto 7.
Qed.

Lemma solo_load a t ct mk o : forall dist n,
  tinv c m t ct mk -> absr c m ct a -> op_ok sc o -> prefix c m ct (op_key o) n ->
  ct (rmp (hm (op_key o) + (n + N.of_nat dist))) = CEmpty ->
  solo_done a t mk o (PLoad (hm (op_key o) + n)).
Proof.
  induction dist as [|dist IH]; intros n I A O P E.
  all: set (i := hm (op_key o) + n).
  all: assert (T : thr_inv c m ct o (PLoad i)) by (exists n; auto).
  all: destruct (rd_tinv c m lg Hm _ _ _ _ _ I P) as (R & L & OC); fold i in R, L, OC.
  all: set (s := enc sc (ct (rmp i)) (mk (rmp i))) in *.
  all: assert (ST : bstep c m t true o (PLoad i) = (t, after_load c m o i (rmp i) s))
         by (cbn [bstep]; rewrite R; reflexivity).
  all: eapply solo_step; eauto; [discriminate|]; intros ct' I' A' T' EV ND.
  all: destruct (after_load_cases o i (rmp i) s) as [(r & Q)|[Q|[Q|[Q|(Q & QE)]]]];
    rewrite Q in *; try (now elim (ND r)).
  all: assert (EQ : forall p, p < tot -> ct' p = ct p)
    by (intros p Hp; destruct (ti_cell _ _ _ _ _ I p Hp) as [C1 O1];
        destruct (ti_cell _ _ _ _ _ I' p Hp) as [C2 O2];
        rewrite C1 in C2; injection C2 as C2;
        destruct (enc_inj sc Hsc _ _ _ _ O1 O2 C2); auto).
  all: assert (ES : s = enc sc (ct' (rmp i)) (mk (rmp i))) by (unfold s; now rewrite EQ).
  all: try (pose proof T' as T0; destruct T' as (n' & d' & T1 & T2 & _);
    assert (n' = n) by (unfold i in *; lia); subst n';
    eapply (solo_cas a t ct' mk o n); [exact I'|exact A'|exact O|exact T2| |exact T0];
    fold i; rewrite <- ES; auto).
  - exfalso. unfold s in QE. rewrite (enc_is_empty sc Hsc _ _ OC) in QE.
    change (N.of_nat 0) with 0 in E. rewrite N.add_0_r in E. fold i in E.
    rewrite E in QE. discriminate.
  - destruct T' as (n' & E' & P'). assert (n' = n + 1) by (unfold i in *; lia). subst n'.
    rewrite E'.
    assert (P2 : prefix c m ct (op_key o) (n + 1)).
    { intros j Hj. assert (Lj : rmp (hm (op_key o) + j) < tot).
      { destruct (N.eq_dec j n) as [->|]; [exact L|].
        eapply (prefix_bound c m lg Hm); [exact I|]. intros j' Hj'. apply P. lia. }
      specialize (P' j Hj). now rewrite EQ in P'. }
    apply IH; auto.
    replace (n + 1 + N.of_nat dist) with (n + N.of_nat (S dist)) by lia. exact E.
Qed.

(** There is an empty cell somewhere ahead on every path. *)
Definition has_empty (ct : N -> content) : Prop :=
  cprob mc = true -> exists q, q < tot /\ ct q = CEmpty.

Lemma empty_ahead t ct mk k n :
  tinv c m t ct mk -> has_empty ct -> prefix c m ct k n ->
  exists dist, ct (rmp (hm k + (n + N.of_nat dist))) = CEmpty.
Proof.
  intros I HE P. destruct (cprob mc) eqn:CP.
  - destruct (HE CP) as (q & Hq & E).
    set (i := hm k + n). pose proof (pow2_pos lg) as PP.
    rewrite (total_val _ _ _ Hm), CP in Hq.
    exists (N.to_nat ((q + (2 ^ lg - i mod 2 ^ lg)) mod 2 ^ lg)).
    rewrite N2Nat.id. rewrite N.add_assoc. fold i.
    rewrite (remap_val _ _ _ Hm), CP.
    rewrite N.add_mod_idemp_r by lia.
    replace (i + (q + (2 ^ lg - i mod 2 ^ lg))) with (q + (i + (2 ^ lg - i mod 2 ^ lg)))
      by (assert (i mod 2 ^ lg < 2 ^ lg) by (apply N.mod_lt; lia); lia).
    assert (Z : (i + (2 ^ lg - i mod 2 ^ lg)) mod 2 ^ lg = 0).
    { rewrite (N.div_mod i (2 ^ lg)) at 1 by lia.
      assert (i mod 2 ^ lg < 2 ^ lg) by (apply N.mod_lt; lia).
      replace (2 ^ lg * (i / 2 ^ lg) + i mod 2 ^ lg + (2 ^ lg - i mod 2 ^ lg))
        with (0 + (i / 2 ^ lg + 1) * 2 ^ lg) by lia.
      rewrite N.mod_add by lia. apply N.mod_small. lia. }
    rewrite <- N.add_mod_idemp_r by lia. rewrite Z, N.add_0_r, N.mod_small by lia. exact E.
  - pose proof (hm_lt c m lg Hm k) as HL.
    assert (B : hm k + n <= 2 ^ lg + 301).
    { destruct (N.le_gt_cases (hm k + n) (2 ^ lg + 301)) as [|G]; [assumption|exfalso].
      destruct (P (2 ^ lg + 301 - hm k)) as [F _]; [lia|]. apply F.
      rewrite (remap_val _ _ _ Hm), CP.
      apply (ti_over _ _ _ _ _ I CP).
      - rewrite (addressable_val _ _ _ Hm). lia.
      - rewrite (total_val _ _ _ Hm), CP. lia. }
    exists (N.to_nat (2 ^ lg + 301 - hm k - n)).
    rewrite N2Nat.id, (remap_val _ _ _ Hm), CP.
    apply (ti_over _ _ _ _ _ I CP).
    + rewrite (addressable_val _ _ _ Hm). lia.
    + rewrite (total_val _ _ _ Hm), CP. lia.
Qed.

Lemma solo_terminates a t ct mk o pc :
  tinv c m t ct mk -> absr c m ct a -> has_empty ct -> op_ok sc o -> thr_inv c m ct o pc ->
  (forall r, pc <> PDone r) -> solo_done a t mk o pc.
Proof.
  intros I A HE O T ND.
  assert (LD : forall ct', tinv c m t ct' mk -> True) by auto. clear LD.
  assert (LOAD : forall t ct i, tinv c m t ct mk -> absr c m ct a -> has_empty ct ->
            thr_inv c m ct o (PLoad i) -> solo_done a t mk o (PLoad i)).
  { intros t1 ct1 i I1 A1 HE1 (n & -> & P).
    destruct (empty_ahead _ _ _ _ _ I1 HE1 P) as [dist E].
    eapply solo_load; eauto. }
  destruct pc as [i|i s|i s|i s|r|].
  - eapply LOAD; eauto.
  - destruct (bstep c m t true o (PCas i s)) as [t' pc'] eqn:ST.
    eapply solo_step; eauto. intros ct' I' A' T' EV ND'.
    assert (pc' = PLoad i).
    { cbn [bstep] in ST. destruct (rd c m t (rmp i)); [|injection ST as <- <-; contradiction].
      destruct (cas sc s0 s (op_slot o)) as [[[|] ?] ?]; injection ST as <- <-;
        [now elim (ND' (BRet RC_SUCCESS_IN (in_slot o s) (Some (rmp i))))|reflexivity]. }
    subst pc'. eapply LOAD; eauto. intros CP. destruct (HE CP) as (q & Hq & E).
    destruct EV as [EV|(p & v & EV & Lp & TR)]; [exists q; rewrite EV; auto|].
    destruct (ti_cell _ _ _ _ _ I p Lp) as [C1 O1].
    destruct (ti_cell _ _ _ _ _ I' p Lp) as [C2 O2].
    cbn [bstep] in ST. destruct (rd c m t (rmp i)) as [cell|] eqn:RD; [|discriminate].
    apply rd_mem in RD. unfold cas in ST. destruct (slot_eqb cell s); [discriminate|].
    injection ST as <- . assert (EQ : forall x, fupd t (rmp i) (Some cell) x = t x).
    { intros x. unfold fupd. destruct (N.eqb_spec x (rmp i)); congruence. }
    rewrite EQ, C1 in C2. injection C2 as C2. destruct (enc_inj sc Hsc _ _ _ _ O1 O2 C2) as [EC _].
    exists q. split; auto. rewrite EV. unfold fupd. destruct (N.eqb_spec q p) as [->|]; auto.
    rewrite EV, fupd_eq in EC. congruence.
  - destruct (bstep c m t true o (PUpd i s)) as [t' pc'] eqn:ST.
    eapply solo_step; eauto. intros ct' I' A' T' EV ND'.
    assert (Q : pc' = PLoad i /\ forall x, t' x = t x).
    { cbn [bstep] in ST. destruct (rd c m t (rmp i)) as [cell|] eqn:RD; [|injection ST as <- <-; contradiction].
      apply rd_mem in RD.
      assert (EQ : forall x, fupd t (rmp i) (Some cell) x = t x).
      { intros x. unfold fupd. destruct (N.eqb_spec x (rmp i)); congruence. }
      destruct (atomic_update sc cell s (op_fun o)) as [[res ok] cell'] eqn:AU.
      destruct ok; injection ST as <- <-.
      - now elim (ND' (BRet RC_SUCCESS_UP res (Some (rmp i)))).
      - split; [destruct o; reflexivity|].
        assert (cell' = cell) as ->; [|exact EQ].
        unfold atomic_update, cas in AU. destruct (sc_mark sc).
        + destruct (slot_eqb cell s); injection AU; congruence.
        + destruct (fat (op_fun o)) as [g|]; [destruct (g (sdata cell)); discriminate|].
          destruct (sdata cell =? sdata s); injection AU; congruence. }
    destruct Q as [-> EQ]. eapply LOAD; eauto. intros CP. destruct (HE CP) as (q & Hq & E).
    exists q. split; auto.
    destruct (ti_cell _ _ _ _ _ I q Hq) as [C1 O1].
    destruct (ti_cell _ _ _ _ _ I' q Hq) as [C2 O2].
    rewrite EQ, C1 in C2. injection C2 as C2. destruct (enc_inj sc Hsc _ _ _ _ O1 O2 C2). congruence.
  - destruct (bstep c m t true o (PDel i s)) as [t' pc'] eqn:ST.
    eapply solo_step; eauto. intros ct' I' A' T' EV ND'.
    assert (Q : pc' = PLoad i /\ forall x, t' x = t x).
    { cbn [bstep] in ST. destruct (rd c m t (rmp i)) as [cell|] eqn:RD; [|injection ST as <- <-; contradiction].
      apply rd_mem in RD.
      assert (EQ : forall x, fupd t (rmp i) (Some cell) x = t x).
      { intros x. unfold fupd. destruct (N.eqb_spec x (rmp i)); congruence. }
      unfold atomic_delete, cas in ST. destruct (slot_eqb cell s); injection ST as <- <-.
      - now elim (ND' (BRet RC_SUCCESS_DEL empty_slot None)).
      - auto. }
    destruct Q as [-> EQ]. eapply LOAD; eauto. intros CP. destruct (HE CP) as (q & Hq & E).
    exists q. split; auto.
    destruct (ti_cell _ _ _ _ _ I q Hq) as [C1 O1].
    destruct (ti_cell _ _ _ _ _ I' q Hq) as [C2 O2].
    rewrite EQ, C1 in C2. injection C2 as C2. destruct (enc_inj sc Hsc _ _ _ _ O1 O2 C2). congruence.
  - now elim (ND r).
  - contradiction.
Qed.

End Solo.
