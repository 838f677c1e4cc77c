(** The system of calls on a table of pointer cells: invariant, simulation of
    the atomic map, destruction. *)
From Coq Require Import NArith Bool List Lia.
From Verif Require Import Words Slot Mapper MapperFacts ReturnCode MapSpec LinSpec Base BaseInv
  Migrate Ptr PtrSpec PtrWords PtrInv PtrMove PtrGrow PtrSys.
Import ListNotations.
Open Scope N_scope.

Lemma lin_app {St Op Res} (spec : St -> Op -> St -> Res -> Prop) x tr y tr' z :
  asteps spec x tr y -> asteps spec y tr' z -> asteps spec x (tr ++ tr') z.
Proof. induction 1; cbn; intros; auto; [eapply as_tau|eapply as_vis]; eauto. Qed.

Section Sys.
Context (c : pcfg) (alloc : N -> Prop) (client : pop -> Prop) (gb : bool).
Notation good := (gb = true).
Context (HA : forall a, alloc a -> 0 < a < 2 ^ 48).
Context (HG : pgrow c = true ->
  (forall a, alloc a -> a <> 2 ^ 32) /\ (cmap (pmc c) = false \/ cprob (pmc c) = true)).
Context (HC : good -> forall o, client o -> print_ok c o).
Notation mk := (pmk c).
Notation mc := (pmc c).

Record qinv (s : psys) : Prop := {
  qi_map : exists lg, wf_mapper mc (pmap s) lg;
  qi_tab : pinv c alloc good (pmap s) (pheap s) (ptab s);
  qi_thr : forall tid o pc, pthr s tid = Some (o, pc) ->
    pthr_ok c alloc good (pmap s) (pheap s) (ptab s) o pc /\ (good -> print_ok c o);
  qi_own : forall i j o pc o' pc' a, pthr s i = Some (o, pc) -> pthr s j = Some (o', pc') ->
    owns o pc a -> owns o' pc' a -> i = j;
  qi_all : forall a, pheap s a <> None ->
    alloc a /\ ((exists p, p < total_slots mc (pmap s) /\ cellp (ptab s) p a) \/
                (exists tid o pc, pthr s tid = Some (o, pc) /\ owns o pc a))
}.

(** The atomic map sees the contents and the progress of the calls. *)
Definition qrel (s : psys) (x : aobj amap mop mres) : Prop :=
  qinv s /\ (good -> pabs c (pmap s) (pheap s) (ptab s) (ast x) /\
    forall tid, ath x tid = match pthr s tid with Some (o, pc) => pstat o pc | None => AIdle end).

Lemma init_rel lg : 1 <= lg <= 63 -> qrel (psys_init c lg) (AObj amap_empty (fun _ => AIdle)).
Proof.
  intros L. pose proof (wf_mk mc lg 0 L) as W. set (m := mk_mapper mc (2 ^ lg) 0) in *.
  assert (NC : forall p a, ~ cellp (pfresh c m) p a).
  { intros p a (w & E & P & NZ). unfold pfresh in E. destruct (p <? total_slots mc m); [|discriminate].
    injection E as <-. apply NZ. rewrite <- P. reflexivity. }
  split.
  - split; cbn [psys_init pmap pheap ptab pthr].
    + exists lg. exact W.
    + fold m. split.
      * intros p Lp. exists empty_word. unfold pfresh. destruct (N.ltb_spec p (total_slots mc m)); [|lia].
        sp; auto; try (intros _; unfold w_mark; apply andb_false_r); try reflexivity.
      * intros p a _ C. elim (NC p a C).
      * intros p q a _ _ C. elim (NC p a C).
      * intros p a k _ C. elim (NC p a C).
      * intros _ p a _ _ C. exact (NC p a C).
      * intros _ p w k _ E NZ. elim (NC p (w_ptr w)). now apply cellp_some.
      * intros _ p q a b k _ _ C. elim (NC p a C).
    + discriminate.
    + discriminate.
    + intros a X. now elim X.
  - intros _. split; [|reflexivity]. intros k d. split; [discriminate|].
    intros (p & x & _ & C & _). elim (NC p x C).
Qed.

Lemma rel_step s e s' x : qrel s x -> psys_step c alloc client s e s' ->
  exists x', qrel s' x' /\
    (good -> asteps (pspec c) x (match e with Some v => [v] | None => [] end) x').
Proof.
  intros [Q G] S.
  destruct S as [hp m t th tid o E CL|hp m t th tid o pc a0 hp' t' pc' E ND AL ST|hp m t th p w MK NG L E
    |hp m t th ins del lg B s PG OFF LGE LG BB MS FIN V|hp m t th tid o r E];
    destruct Q as [(lg0 & W) QT QH QO QA]; cbn [pheap pmap ptab pthr] in *.
  - (* invocation *)
    exists (AObj (ast x) (fupd (ath x) tid (APend (pspec_op o)))).
    assert (NS : pslot (pstart c m o) = if pop_adds o then None else Some 0).
    { unfold pstart. destruct (pop_adds o); auto. destruct (pgrow c); auto. }
    assert (NO : forall a, ~ owns o (pstart c m o) a).
    { intros a (A & w & X & _). rewrite NS, A in X. discriminate. }
    split; [split|].
    + split; cbn [pheap pmap ptab pthr]; eauto.
      * intros i o' pc' Ei. unfold fupd in Ei. destruct (N.eqb_spec i tid) as [->|]; [|eauto].
        injection Ei as <- <-. split; [|eauto]. unfold pstart. destruct (pop_adds o) eqn:A; [exact A|].
        assert (SO : slot_ok c alloc m hp t o 0) by (intros X; congruence).
        destruct (pgrow c) eqn:PG; cbn; sp; auto.
        -- intros _ X. congruence.
        -- exists 0. split; [lia|]. intros j Lj. lia.
      * intros i j o1 pc1 o2 pc2 a Ei Ej O1 O2. unfold fupd in Ei, Ej.
        destruct (N.eqb_spec i tid) as [->|]; [injection Ei as <- <-; elim (NO a O1)|].
        destruct (N.eqb_spec j tid) as [->|]; [injection Ej as <- <-; elim (NO a O2)|]. eauto.
      * intros a X. destruct (QA a X) as [A [C|(i & o' & pc' & Ei & O)]]; split; auto.
        right. exists i, o', pc'. split; auto. unfold fupd. destruct (N.eqb_spec i tid) as [->|]; congruence.
    + cbn [pheap pmap ptab pthr ast ath]. intros g. destruct (G g) as [G1 G2]. split; auto.
      intros i. unfold fupd. destruct (i =? tid); auto. unfold pstart. destruct (pop_adds o); auto.
      destruct (pgrow c); auto.
    + intros g. destruct (G g) as [G1 G2]. destruct x as [a ath]. cbn in *. eapply as_vis; [|constructor].
      apply a_inv. now rewrite G2, E.
  - (* a step of a call *)
    destruct (QH _ _ _ E) as [T PR].
    pose proof (run_ok c alloc good HA m lg0 W _ _ _ _ _ _ _ _ QT T PR ND AL ST) as R.
    assert (NEW : good -> exists x', (pabs c m hp' t' (ast x') /\
       forall i, ath x' i = match fupd th tid (Some (o, pc')) i with Some (o, pc) => pstat o pc | None => AIdle end)
       /\ asteps (pspec c) x [] x').
    { intros g. destruct (G g) as [G1 G2].
      destruct (so_lin _ _ _ _ _ _ _ _ _ _ _ _ R g _ G1) as (a' & PA & LN). destruct x as [a ath]. cbn in *.
      destruct LN as [[SS EA]|(SS & r & SR & SP)].
      - exists (AObj a ath). cbn. sp; [| |constructor].
        + intros k d. rewrite <- EA. apply PA.
        + intros i. unfold fupd. destruct (N.eqb_spec i tid) as [->|]; auto. rewrite G2, E. auto.
      - exists (AObj a' (fupd ath tid (ADone r))). cbn. sp; auto.
        + intros i. unfold fupd. destruct (i =? tid); auto.
        + eapply as_tau; [|constructor]. eapply a_lin; eauto. rewrite G2, E. auto. }
    assert (QI : qinv (PSys hp' m t' (fupd th tid (Some (o, pc'))))).
    { split; cbn [pheap pmap ptab pthr]; eauto.
      - apply R.
      - intros i o' pc1 Ei. unfold fupd in Ei. destruct (N.eqb_spec i tid) as [->|NE].
        + injection Ei as <- <-. split; auto. apply R.
        + destruct (QH _ _ _ Ei) as [T' PR']. split; auto.
          apply (so_oth _ _ _ _ _ _ _ _ _ _ _ _ R); auto. intros a O1 O2. apply NE. eapply QO; eauto.
      - assert (OWN : forall j o2 pc2 a, j <> tid -> th j = Some (o2, pc2) -> owns o2 pc2 a -> owns o pc' a -> False).
        { intros j o2 pc2 a NE Ej O2 O1. destruct (so_own _ _ _ _ _ _ _ _ _ _ _ _ R a O1) as [O|[PA ->]].
          - apply NE. eapply QO; eauto.
          - destruct (AL PA) as [_ FR]. destruct (QH _ _ _ Ej) as [T' _].
            destruct (owns_ok _ _ _ _ _ _ _ _ _ T' O2) as (_ & X & _). congruence. }
        intros i j o1 pc1 o2 pc2 a Ei Ej O1 O2. unfold fupd in Ei, Ej.
        destruct (N.eqb_spec i tid) as [->|NI]; destruct (N.eqb_spec j tid) as [->|NJ]; auto.
        + injection Ei as <- <-. elim (OWN j o2 pc2 a NJ Ej O2 O1).
        + injection Ej as <- <-. elim (OWN i o1 pc1 a NI Ei O1 O2).
        + eauto.
      - intros a X. destruct (so_all _ _ _ _ _ _ _ _ _ _ _ _ R a X) as [Y|[A O]].
        + destruct (QA a Y) as [A [(p & Lp & C)|(i & o' & pc1 & Ei & O)]]; split; auto.
          * left. exists p. split; auto. now apply (so_cell _ _ _ _ _ _ _ _ _ _ _ _ R).
          * destruct (N.eq_dec i tid) as [->|NE].
            -- rewrite E in Ei. injection Ei as <- <-.
               destruct (so_lost _ _ _ _ _ _ _ _ _ _ _ _ R a O) as [Z|[Z|Z]]; [contradiction| |auto].
               right. exists tid, o, pc'. rewrite fupd_eq. auto.
            -- right. exists i, o', pc1. rewrite fupd_neq by exact NE. auto.
        + split; auto. right. exists tid, o, pc'. rewrite fupd_eq. auto. }
    (* under [good] the abstract step exists; otherwise keep x *)
    clear ST. revert G NEW. generalize QI. clear. intros QI G NEW.
    assert (EX : exists x', (good -> (pabs c m hp' t' (ast x') /\
       forall i, ath x' i = match fupd th tid (Some (o, pc')) i with Some (o, pc) => pstat o pc | None => AIdle end)
       /\ asteps (pspec c) x [] x')).
    { destruct gb; [|exists x; discriminate]. destruct (NEW eq_refl) as (x' & X). exists x'. auto. }
    destruct EX as (x' & EX). exists x'. split; [split; auto|].
    + intros g. apply EX; auto.
    + intros g. apply EX; auto.
  - (* a cell is marked *)
    assert (WL : w < 2 ^ 64).
    { destruct (pi_cell _ _ _ _ _ _ QT p L) as (w' & E' & X & _). rewrite E in E'. injection E' as <-. auto. }
    pose proof (fun q a => mark_cellp t p w q a E WL) as MC.
    exists x. split; [split|].
    + split; cbn [pheap pmap ptab pthr]; eauto.
      * eapply pinv_mark; eauto.
      * intros i o pc Ei. destruct (QH _ _ _ Ei) as [T PR]. split; auto.
        apply (thr_tab c alloc good m hp t _ p o pc); auto.
        -- split; [intros q NE; now apply fupd_neq|]. intros a C. now apply MC.
        -- intros a C NC. apply MC in C. contradiction.
      * intros a X. destruct (QA a X) as [A [(q & Lq & C)|O]]; split; auto. left. exists q. split; auto. now apply MC.
    + cbn [pheap pmap ptab pthr]. intros g. destruct (G g) as [G1 G2]. split; auto.
      intros k d. rewrite (G1 k d). split; intros (q & b & Lq & C & Hb); exists q, b; sp; auto; now apply MC.
    + intros _. constructor.
  - (* growth *)
    destruct (HG PG) as [HD CF]. rewrite (addressable_val _ _ _ W) in LGE.
    apply N.pow_inj_r in LGE; [|lia]. subst lg0.
    destruct (move_ok c alloc good HA HD CF PG hp m lg W t QT ins del B s LG BB MS FIN V) as (lg' & W' & QT' & SET).
    set (m' := resize mc m ins del) in *.
    assert (HLD : forall o w, held c good m hp t o w -> held c good m' hp (pmtgt s) o w).
    { intros o w (p & Lp & C & HK). destruct (SET (w_ptr w)) as [X _]. destruct X as (q & Lq & Cq); [eauto|].
      exists q. auto. }
    assert (SLT : forall o w, slot_ok c alloc m hp t o w -> slot_ok c alloc m' hp (pmtgt s) o w).
    { intros o w SO A. destruct (SO A) as (S1 & S2 & S3 & S4 & S5). sp; auto. intros q Lq C.
      destruct (SET (w_ptr w)) as [_ X]. destruct X as (p & Lp & Cp); [eauto|]. exact (S5 p Lp Cp). }
    assert (OUT : forall o out, out_ok c good m hp t o out -> out_ok c good m' hp (pmtgt s) o out).
    { intros o [r|w|w]; cbn; auto; intros []; auto. }
    exists x. split; [split|].
    + split; cbn [pheap pmap ptab pthr]; eauto.
      * intros i o pc Ei. destruct (QH _ _ _ Ei) as [T PR]. split; auto. specialize (OFF _ _ _ Ei).
        destruct pc; cbn in T, OFF |- *; try contradiction; auto.
        -- destruct T. auto.
        -- destruct T as (T1 & T2 & T3). auto.
        -- destruct T as (T1 & T2 & T3). auto.
      * intros a X. destruct (QA a X) as [A [C|O]]; split; auto. left. now apply SET.
    + cbn [pheap pmap ptab pthr]. intros g. destruct (G g) as [G1 G2]. split; auto.
      intros k d. rewrite (G1 k d). split; intros (q & b & Lq & C & Hb).
      * destruct (SET b) as [X _]. destruct X as (r & Lr & Cr); eauto 6.
      * destruct (SET b) as [_ X]. destruct X as (r & Lr & Cr); eauto 6.
    + intros _. constructor.
  - (* return *)
    exists (AObj (ast x) (fupd (ath x) tid AIdle)). split; [split|].
    + split; cbn [pheap pmap ptab pthr]; eauto.
      * intros i o' pc' Ei. unfold fupd in Ei. destruct (i =? tid); [discriminate|eauto].
      * intros i j o1 pc1 o2 pc2 a Ei Ej. unfold fupd in Ei, Ej.
        destruct (i =? tid); [discriminate|]. destruct (j =? tid); [discriminate|]. eauto.
      * intros a X. destruct (QA a X) as [A [C|(i & o' & pc' & Ei & O)]]; split; auto.
        right. exists i, o', pc'. split; auto. unfold fupd. destruct (N.eqb_spec i tid) as [->|]; auto.
        rewrite E in Ei. injection Ei as <- <-. destruct O as (_ & w & X' & _). discriminate.
    + cbn [pheap pmap ptab pthr ast ath]. intros g. destruct (G g) as [G1 G2]. split; auto.
      intros i. unfold fupd. destruct (i =? tid); auto.
    + intros g. destruct (G g) as [G1 G2]. destruct x as [a ath]. cbn in *. eapply as_vis; [|constructor].
      apply a_ret. now rewrite G2, E.
Qed.

Lemma rel_steps s tr s' x : qrel s x -> lts_steps (psys_step c alloc client) s tr s' ->
  exists x', qrel s' x' /\ (good -> asteps (pspec c) x tr x').
Proof.
  intros R ST. revert x R. induction ST as [s|s s1 s2 tr S ST IH|s e s1 s2 tr S ST IH]; intros x R.
  - exists x. split; auto. intros _. constructor.
  - destruct (rel_step _ _ _ _ R S) as (y & Ry & Y). destruct (IH y Ry) as (z & Rz & Z).
    exists z. split; auto. intros g. change tr with ([] ++ tr). eapply lin_app; eauto.
  - destruct (rel_step _ _ _ _ R S) as (y & Ry & Y). destruct (IH y Ry) as (z & Rz & Z).
    exists z. split; auto. intros g. change (e :: tr) with ([e] ++ tr). eapply lin_app; eauto.
Qed.

End Sys.

(** *** Destruction *)

Lemma cleanup_ok t n : forall p hp,
  (forall q, p <= q < p + N.of_nat n -> exists w, t q = Some w /\ (w_ptr w <> 0 -> hp (w_ptr w) <> None)) ->
  (forall q r a, p <= q < p + N.of_nat n -> p <= r < p + N.of_nat n -> cellp t q a -> cellp t r a -> q = r) ->
  exists hp', cleanup_cells t n p hp = Some hp' /\
    forall a, hp' a <> None <-> (hp a <> None /\ forall q, p <= q < p + N.of_nat n -> ~ cellp t q a).
Proof.
  induction n as [|n IH]; intros p hp H1 H2.
  - exists hp. split; auto. intros a. split; [|tauto]. intros X. split; auto. intros q Lq. lia.
  - cbn [cleanup_cells]. destruct (H1 p) as (w & E & A); [lia|]. rewrite E. unfold w_cleanup.
    destruct (N.eqb_spec (w_ptr w) 0) as [Z|NZ].
    + destruct (IH (p + 1) hp) as (hp' & E' & X).
      { intros q Lq. apply H1. lia. } { intros q r a Lq Lr. apply H2; lia. }
      exists hp'. split; auto. intros a. rewrite (X a). split; intros [Y1 Y2]; split; auto.
      * intros q Lq C. destruct (N.eq_dec q p) as [->|NE].
        -- destruct C as (v & Ev & <- & NZ). rewrite E in Ev. injection Ev as <-. contradiction.
        -- apply (Y2 q); auto. lia.
      * intros q Lq. apply Y2. lia.
    + specialize (A NZ). destruct (hp (w_ptr w)) as [v|] eqn:Hw; [|contradiction].
      pose proof (cellp_some _ _ _ E NZ) as CP.
      destruct (IH (p + 1) (fupd hp (w_ptr w) None)) as (hp' & E' & X).
      { intros q Lq. destruct (H1 q) as (w' & Eq & A'); [lia|]. exists w'. split; auto. intros NZ'.
        rewrite fupd_neq; auto. intros X.
        assert (q = p) by (apply (H2 q p (w_ptr w)); auto; try lia; exists w'; auto). lia. }
      { intros q r a Lq Lr. apply H2; lia. }
      exists hp'. split; auto. intros a. rewrite (X a). unfold fupd. split.
      * intros [Y1 Y2]. destruct (N.eqb_spec a (w_ptr w)) as [EQ|NE]; [now elim Y1|]. split; auto.
        intros q Lq C. destruct (N.eq_dec q p) as [->|NQ]; [|apply (Y2 q); auto; lia].
        apply NE. eapply cellp_fun; eauto.
      * intros [Y1 Y2]. split.
        -- destruct (N.eqb_spec a (w_ptr w)) as [EQ|NE]; auto. subst a. elim (Y2 p); auto. lia.
        -- intros q Lq. apply Y2. lia.
Qed.

Lemma destroy_ok c alloc gb s : qinv c alloc gb s ->
  (forall tid o pc a, pthr s tid = Some (o, pc) -> ~ owns o pc a) ->
  exists hp', destroy c (pmap s) (ptab s) (pheap s) = Some hp' /\ forall a, hp' a = None.
Proof.
  intros [_ QT _ _ QA] NO. unfold destroy.
  destruct (cleanup_ok (ptab s) (N.to_nat (total_slots (pmc c) (pmap s))) 0 (pheap s)) as (hp' & E & X).
  - intros q Lq. rewrite N2Nat.id in Lq. destruct (pi_cell _ _ _ _ _ _ QT q) as (w & E & _); [lia|].
    exists w. split; auto. intros NZ. apply hkey_none. apply (pi_live _ _ _ _ _ _ QT q); [lia|]. now apply cellp_some.
  - intros q r a Lq Lr. rewrite N2Nat.id in *. apply (pi_inj _ _ _ _ _ _ QT); lia.
  - exists hp'. split; auto. intros a. destruct (hp' a) eqn:Ea; auto. exfalso.
    assert (Y : hp' a <> None) by congruence. apply X in Y. destruct Y as [Y1 Y2].
    destruct (QA a Y1) as [_ [(q & Lq & C)|(tid & o & pc & Et & O)]].
    + apply (Y2 q); auto. rewrite N2Nat.id. lia.
    + eapply NO; eauto.
Qed.
