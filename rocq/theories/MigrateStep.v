(** Preservation of the migration invariant by the steps of helpers. *)
From Coq Require Import NArith Bool List Lia.
From Verif Require Import Words Slot SlotFacts Mapper MapperFacts MapSpec LinSpec Base BaseInv BaseLin
  Migrate MigrateGeo MigrateInv.
Import ListNotations.
Open Scope N_scope.

Section Step.
Context (c : tcfg) (ms mt : mapper) (lg g B : N) (MG : migr c ms mt lg g).
Context (Hsc : wf_scfg (tsc c)) (HB : 0 < B).
Set Default Proof Using "All".
Notation sc := (tsc c).
Notation mc := (tmc c).
Notation cap := (2 ^ lg).
Notation tcap := (2 ^ (lg + g)).
Notation ttot := (total_slots mc mt).
Notation stot := (total_slots mc ms).
Notation addr := (addressable_slots mc ms).
Notation sp := (remap mc ms).
Notation tp := (remap mc mt).
Notation hm := (home c ms).
Notation th := (home c mt).
Notation owner := (owner c lg g).
Notation off := (off c mt g).
Notation bend := (bend lg B).
Notation extent := (extent lg B).
Notation fz := (fz c).
Notation proc := (proc c ms).
Notation flight := (flight c ms).
Notation start_ok := (start_ok c lg B).
Notation bst_ok := (bst_ok c ms lg B).
Notation inited := (inited c mt lg g).
Notation glob := (glob c ms mt lg g B).
Notation mkinv := (mkinv c ms).
Notation sfree := (sfree c ms).
Let Hm := mg_src _ _ _ _ _ MG.
Let Ht := mg_tgt _ _ _ _ _ MG.

(** Status after advancing to [i]. *)
Definition adv (s r i : N) : bst := if i <? bend s then B1 r i false else B2 r i false.

Lemma adv_region s r i : region (adv s r i) = Some (r, i) /\ rstart (adv s r i) = Some r.
Proof. unfold adv. destruct (i <? bend s); auto. Qed.

(** Marks only grow. *)
Definition mono (mk mk' : cmark) : Prop := forall p, mk p = true -> mk' p = true.

Lemma fz_mono mk mk' p : mono mk mk' -> fz mk p -> fz mk' p.
Proof. intros M F S. apply M, F, S. Qed.

Lemma start_mono ct mk mk' s r : mono mk mk' -> start_ok ct mk s r -> start_ok ct mk' s r.
Proof.
  intros M (H & H1 & H2). unfold MigrateInv.start_ok. sp; auto; try lia.
  destruct H2 as [(H2 & H3 & H4)|H2]; [left|right]; auto. sp; auto. eapply fz_mono; eauto.
Qed.

Lemma bst_mono ct mk mk' s b : mono mk mk' -> bst_ok ct mk s b -> bst_ok ct mk' s b.
Proof.
  intros M. destruct b; cbn; auto.
  - intros (H & H1 & H2). sp; auto; try lia; [eapply start_mono; eauto|].
    intros x Hx. eapply fz_mono; eauto.
  - intros (H & H1 & H2 & H3). sp; auto; try lia; try apply H3; [eapply start_mono; eauto|].
    intros x Hx. eapply fz_mono; eauto.
  - intros (H & H1 & H2 & H3 & H4 & H5). sp; auto; try lia;
      [eapply start_mono; eauto| |eapply fz_mono; eauto].
    intros x Hx. eapply fz_mono; eauto.
Qed.

(** *** Changes of the source: marks, and cells that are not frozen *)

Lemma glob_src src tgt ctr ct mk tct rg src' ct' mk' :
  glob src tgt ctr ct mk tct rg -> tinv c ms src' ct' mk' -> mono mk mk' ->
  (forall p, fz mk p -> ct' p = ct p) -> (forall p, ct p <> CEmpty -> ct' p <> CEmpty) ->
  glob src' tgt ctr ct' mk' tct rg.
Proof.
  intros GL I M F N.
  assert (FP : forall p, proc rg p -> fz mk p).
  { intros p (s & r & i & x & R & Hx & <-). pose proof (g_st GL s) as O.
    destruct (rg s); try discriminate; injection R as <- <-.
    - destruct O as (_ & _ & O). apply O; lia.
    - destruct O as (_ & _ & O & _). apply O; lia.
    - destruct O as (_ & _ & O & _). apply O; lia. }
  assert (SO : forall s r, start_ok ct mk s r -> start_ok ct' mk' s r).
  { intros s r (H & H1 & H2). unfold MigrateInv.start_ok. sp; auto; try lia.
    destruct H2 as [(H2 & H3 & H4)|H2]; [left|right]; auto. sp; auto; [rewrite F; auto|eapply fz_mono; eauto]. }
  split; try apply GL; auto.
  - intros s. pose proof (g_st GL s) as O. destruct (rg s); cbn in *; auto.
    + destruct O as (O & O1 & O2). sp; auto; lia.
    + destruct O as (O & O1). sp; auto.
    + destruct O as (O & O1 & O2). sp; auto; try lia. intros; eapply fz_mono; eauto.
    + destruct O as (O & O1 & O2 & O3 & O4). sp; auto; try lia. intros; eapply fz_mono; eauto.
    + destruct O as (O & O1 & O2 & O3 & O4 & O5). sp; auto; try lia.
      * intros; eapply fz_mono; eauto.
      * rewrite F; auto.
      * eapply fz_mono; eauto.
  - intros q L NE. destruct (g_own GL q L NE) as [P C]. auto.
  - intros q k d L E. destruct (g_l1 GL q k d L E) as (p & L' & P & C).
    exists p. sp; auto. rewrite F; auto.
  - intros p k d P C. rewrite F in C by auto. eapply (g_l2 GL); eauto.
Qed.

(** *** Clearing a target cell that is empty anyway *)

Lemma glob_clear src tgt ctr ct mk tct rg q :
  glob src tgt ctr ct mk tct rg -> q < ttot -> tct q = CEmpty ->
  glob src (fupd tgt q (Some empty_slot)) ctr ct mk tct rg.
Proof.
  intros GL L E. split; try apply GL.
  - intros q' L'. destruct (N.eq_dec q' q) as [->|NE].
    + rewrite fupd_eq, E. left. reflexivity.
    + rewrite fupd_neq by exact NE. now apply GL.
  - intros CP q' H. destruct (N.eq_dec q' q) as [->|NE].
    + rewrite fupd_eq. discriminate.
    + rewrite fupd_neq by exact NE. now apply GL.
  - intros p P q' L' O. destruct (N.eq_dec q' q) as [->|NE].
    + rewrite fupd_eq. discriminate.
    + rewrite fupd_neq by exact NE. now apply (g_init GL p).
Qed.

(** *** Changes of the block status *)

Lemma proc_upd rg s b p :
  (forall r i, region b = Some (r, i) -> forall x, r <= x < i -> proc rg (sp x) \/ sp x = p) ->
  (forall r i, region (rg s) = Some (r, i) -> exists i', region b = Some (r, i') /\ i <= i') ->
  (forall q, proc (fupd rg s b) q -> proc rg q \/ q = p) /\
  (forall q, proc rg q -> proc (fupd rg s b) q).
Proof.
  intros H1 H2. split.
  - intros q (s' & r & i & x & R & Hx & <-). destruct (N.eq_dec s' s) as [->|NE].
    + rewrite fupd_eq in R. eapply H1; eauto.
    + rewrite fupd_neq in R by exact NE. left. exists s', r, i, x. auto.
  - intros q (s' & r & i & x & R & Hx & <-). destruct (N.eq_dec s' s) as [->|NE].
    + destruct (H2 _ _ R) as (i' & R' & L). exists s, r, i', x. rewrite fupd_eq. sp; auto; lia.
    + exists s', r, i, x. rewrite fupd_neq by exact NE. auto.
Qed.

(** A status change that processes nothing. *)
Lemma glob_quiet src tgt ctr ct mk tct rg s b :
  glob src tgt ctr ct mk tct rg -> rg s <> BNone -> b <> BNone -> bst_ok ct mk s b ->
  (forall q, proc (fupd rg s b) q <-> proc rg q) ->
  (forall s1 s2 r e r' x, extent s1 (fupd rg s b s1) = Some (r, e) ->
     rstart (fupd rg s b s2) = Some r' -> r < x < e -> sp x <> r') ->
  glob src tgt ctr ct mk tct (fupd rg s b).
Proof.
  intros GL NB NB' O P S. split; try apply GL; auto.
  - intros s' H. destruct (N.eq_dec s' s) as [->|NE]; [now apply GL|].
    rewrite fupd_neq in H by exact NE. now apply GL.
  - intros n H H'. destruct (N.eq_dec (n * B) s) as [->|NE].
    + now rewrite fupd_eq.
    + rewrite fupd_neq by exact NE. now apply GL.
  - intros s'. destruct (N.eq_dec s' s) as [->|NE].
    + now rewrite fupd_eq.
    + rewrite fupd_neq by exact NE. apply GL.
  - intros p Hp. apply GL. now apply P.
  - intros q L NE. rewrite P. now apply GL.
  - intros q k d L E. destruct (g_l1 GL q k d L E) as (p & ? & ? & ?).
    exists p. rewrite P. auto.
  - intros p k d Hp. rewrite P in Hp. now apply (g_l2 GL).
Qed.

Lemma sep_same rg s b :
  (forall s1 s2 r e r' x, extent s1 (rg s1) = Some (r, e) ->
     rstart (rg s2) = Some r' -> r < x < e -> sp x <> r') ->
  rstart b = rstart (rg s) ->
  (forall r e, extent s b = Some (r, e) -> sfree rg r e) ->
  forall s1 s2 r e r' x, extent s1 (fupd rg s b s1) = Some (r, e) ->
     rstart (fupd rg s b s2) = Some r' -> r < x < e -> sp x <> r'.
Proof.
  intros S RS F s1 s2 r e r' x E R Hx.
  assert (R' : rstart (rg s2) = Some r').
  { destruct (N.eq_dec s2 s) as [->|NE]; [rewrite fupd_eq in R; congruence|].
    now rewrite fupd_neq in R by exact NE. }
  destruct (N.eq_dec s1 s) as [->|NE].
  - rewrite fupd_eq in E. eapply F; eauto.
  - rewrite fupd_neq in E by exact NE. eapply S; eauto.
Qed.

(** Raising or lowering the flag. *)
Lemma glob_flag src tgt ctr ct mk tct rg s r i fl fl' :
  glob src tgt ctr ct mk tct rg ->
  (rg s = B1 r i fl -> glob src tgt ctr ct mk tct (fupd rg s (B1 r i fl'))) /\
  (rg s = B2 r i fl -> ct (sp i) <> CEmpty -> glob src tgt ctr ct mk tct (fupd rg s (B2 r i fl'))).
Proof.
  intros GL. split; intros E.
  - apply glob_quiet; auto; try congruence; try discriminate.
    + pose proof (g_st GL s) as O. rewrite E in O. exact O.
    + intros q. unfold proc. split; intros (s' & r' & i' & x & R & Hx & Q).
      * destruct (N.eq_dec s' s) as [->|NE].
        -- rewrite fupd_eq in R. exists s, r', i', x. rewrite E. auto.
        -- rewrite fupd_neq in R by exact NE. exists s', r', i', x. auto.
      * destruct (N.eq_dec s' s) as [->|NE].
        -- exists s, r', i', x. rewrite fupd_eq. rewrite E in R. auto.
        -- exists s', r', i', x. rewrite fupd_neq by exact NE. auto.
    + apply sep_same; [apply GL|rewrite E; reflexivity|].
      intros r0 e X. eapply (sfree_extent MG Hsc HB GL s). rewrite E. exact X.
  - intros NE'. apply glob_quiet; auto; try congruence; try discriminate.
    + pose proof (g_st GL s) as O. rewrite E in O.
      destruct O as (? & ? & ? & ? & ?). cbn. sp; auto.
    + intros q. unfold proc. split; intros (s' & r' & i' & x & R & Hx & Q).
      * destruct (N.eq_dec s' s) as [->|NE].
        -- rewrite fupd_eq in R. exists s, r', i', x. rewrite E. auto.
        -- rewrite fupd_neq in R by exact NE. exists s', r', i', x. auto.
      * destruct (N.eq_dec s' s) as [->|NE].
        -- exists s, r', i', x. rewrite fupd_eq. rewrite E in R. auto.
        -- exists s', r', i', x. rewrite fupd_neq by exact NE. auto.
    + apply sep_same; [apply GL|rewrite E; reflexivity|].
      intros r0 e X. eapply (sfree_extent MG Hsc HB GL s). rewrite E. exact X.
Qed.

(** Advancing over the current cell. *)
Lemma adv_rg src tgt ctr ct mk tct rg s r i fl :
  glob src tgt ctr ct mk tct rg -> rg s = B1 r i fl \/ rg s = B2 r i fl -> fz mk (sp i) ->
  (rg s = B2 r i fl -> ct (sp i) <> CEmpty) ->
  let b := adv s r (i + 1) in
  bst_ok ct mk s b /\
  (forall q, proc (fupd rg s b) q <-> proc rg q \/ q = sp i) /\
  (forall s1 s2 r e r' x, extent s1 (fupd rg s b s1) = Some (r, e) ->
     rstart (fupd rg s b s2) = Some r' -> r < x < e -> sp x <> r').
Proof.
  intros GL E F NE b. pose proof (g_st GL s) as O.
  destruct (adv_region s r (i + 1)) as [AR AS]. fold b in AR, AS.
  assert (RI : r <= i).
  { destruct E as [E|E]; rewrite E in O; cbn in O.
    - lia.
    - destruct O as ((O & _) & O' & _). lia. }
  assert (RG : region (rg s) = Some (r, i)) by (destruct E as [E|E]; rewrite E; reflexivity).
  assert (RS : rstart (rg s) = Some r) by (destruct E as [E|E]; rewrite E; reflexivity).
  assert (FR : forall x, r <= x < i + 1 -> fz mk (sp x)).
  { intros x Hx. destruct (N.eq_dec x i) as [->|]; auto.
    destruct E as [E|E]; rewrite E in O; apply O; lia. }
  sp.
  - unfold b, adv. destruct (N.ltb_spec (i + 1) (bend s)) as [L|L].
    + destruct E as [E|E]; rewrite E in O; cbn in *.
      * destruct O as (O & O1 & O2). sp; auto; lia.
      * destruct O as (O & O1 & O2). lia.
    + destruct E as [E'|E']; rewrite E' in O; cbn in *.
      * destruct O as (O & O1 & O2). sp; auto; try discriminate. intros x Hx. lia.
      * destruct O as (O & O1 & O2 & O3 & O4). sp; auto; try discriminate; try lia.
        intros x Hx. destruct (N.eq_dec x i) as [->|]; auto. apply O3. lia.
  - intros q. destruct (proc_upd rg s b (sp i)) as [P1 P2].
    + intros r0 i0 R x Hx. rewrite AR in R. injection R as <- <-.
      destruct (N.eq_dec x i) as [->|]; auto. left. exists s, r, i, x. sp; auto; lia.
    + intros r0 i0 R. rewrite RG in R. injection R as <- <-. exists (i + 1). split; auto. lia.
    + split; auto. intros [P| ->]; auto. exists s, r, (i + 1), i. rewrite fupd_eq. sp; auto; lia.
  - apply sep_same; [apply GL|congruence|].
    intros r0 e X. unfold b, adv in X. destruct E as [E|E]; rewrite E in O; cbn in O.
    + assert (X' : (r0, e) = (r, bend s)).
      { destruct (N.ltb_spec (i + 1) (bend s)); cbn in X; injection X as <- <-; auto.
        f_equal. lia. }
      injection X' as -> ->. eapply (sfree_extent MG Hsc HB GL s). rewrite E. reflexivity.
    + destruct O as ((O & _) & O' & _). destruct (N.ltb_spec (i + 1) (bend s)); [lia|].
      cbn in X. injection X as <- <-. eapply sfree_ext2; eauto.
Qed.

Lemma rg_not_none (rg : N -> bst) s r i fl : rg s = B1 r i fl \/ rg s = B2 r i fl -> rg s <> BNone.
Proof. intros [E|E]; congruence. Qed.

Lemma adv_not_none s r i : adv s r i <> BNone.
Proof. unfold adv. destruct (i <? bend s); discriminate. Qed.

(** ... without an element. *)
Lemma glob_adv_plain src tgt ctr ct mk tct rg s r i fl :
  glob src tgt ctr ct mk tct rg -> rg s = B1 r i fl \/ rg s = B2 r i fl -> fz mk (sp i) ->
  (rg s = B2 r i fl -> ct (sp i) <> CEmpty) -> inited tgt (sp i) ->
  (forall k d, ct (sp i) <> CLive k d) ->
  glob src tgt ctr ct mk tct (fupd rg s (adv s r (i + 1))).
Proof.
  intros GL E F NE IN NL. destruct (adv_rg _ _ _ _ _ _ _ _ _ _ _ GL E F NE) as (O & P & S).
  split; try apply GL; auto.
  - intros s' H. destruct (N.eq_dec s' s) as [->|X]; [apply GL; eapply rg_not_none; eauto|].
    rewrite fupd_neq in H by exact X. now apply GL.
  - intros n H H'. destruct (N.eq_dec (n * B) s) as [->|X].
    + rewrite fupd_eq. apply adv_not_none.
    + rewrite fupd_neq by exact X. now apply GL.
  - intros s'. destruct (N.eq_dec s' s) as [->|X].
    + now rewrite fupd_eq.
    + rewrite fupd_neq by exact X. apply GL.
  - intros p Hp. apply P in Hp as [Hp| ->]; auto. now apply GL.
  - intros q L X. destruct (g_own GL q L X) as [Hp C]. split; auto. apply P. auto.
  - intros q k d L X. destruct (g_l1 GL q k d L X) as (p & ? & ? & ?).
    exists p. sp; auto. apply P. auto.
  - intros p k d Hp X. apply P in Hp as [Hp| ->].
    + eapply (g_l2 GL); eauto.
    + now elim (NL k d).
Qed.

(** The probe sequence of the current element stays on initialised cells of the
    region. *)
Lemma probe_cell src tgt ctr ct mk tct rg s r i fl k d n :
  glob src tgt ctr ct mk tct rg -> rg s = B1 r i fl \/ rg s = B2 r i fl ->
  sp i < stot -> ct (sp i) = CLive k d ->
  (forall j, j < n -> tct (tp (th k + j)) <> CEmpty) ->
  tp (th k + n) < ttot /\
  (exists x, r <= x <= i /\ sp x = owner (tp (th k + n))) /\
  ct (owner (tp (th k + n))) <> CEmpty.
Proof.
  intros GL E LI CL PF.
  destruct (home_in_region MG Hsc HB GL s r i fl k d E LI CL)
    as (m & NR & Q & PR).
  pose proof (probe_in_region MG Hsc HB GL s r i fl k d n m E LI CL NR Q PF) as OF.
  set (q := tp (th k + n)) in *.
  assert (OW : owner q = sp (hm k + off k n)) by apply (owner_probe c ms mt lg g MG).
  assert (OX : exists x, r <= x <= i /\ sp x = owner q).
  { exists (i - m + off k n). split; [lia|]. rewrite OW.
    pose proof (sp_sub c ms mt lg g MG (hm k + m) i m ltac:(lia) ltac:(lia) Q) as Q'.
    replace (hm k + m - m) with (hm k) in Q' by lia.
    symmetry. apply (sp_add c ms mt lg g MG). exact Q'. }
  split; [|split; [exact OX|]].
  - unfold q. destruct (cprob mc) eqn:CP; [apply (remap_lt _ _ _ Ht); exact CP|].
    rewrite (ttot_val c ms mt lg g MG), CP.
    destruct (N.lt_ge_cases q (tcap + 1024)) as [|GE]; auto. exfalso.
    assert (LE : sp i <= cap + 301).
    { destruct E as [E|E].
      - destruct (pos1_bound MG Hsc HB GL _ _ _ _ E) as (-> & _ & ?). lia.
      - apply (pos_bound MG Hsc HB GL _ _ _ _ E). exact CP. }
    destruct OX as (x & Hx & Qx). rewrite (sp_val c ms mt lg g MG), CP in Qx.
    rewrite (sp_val c ms mt lg g MG), CP in LE.
    assert (OL : owner q <= cap + 301) by lia.
    unfold MigrateGeo.owner in OL. destruct (mg_cfg _ _ _ _ _ MG) as [X|X]; [rewrite X in OL|congruence].
    assert (D : cap + 512 <= q / 2 ^ g).
    { apply N.div_le_lower_bound; [apply N.pow_nonzero; lia|].
      rewrite (tcap_eq lg g) in GE.
      destruct (mg_g _ _ _ _ _ MG) as [Eg|Eg]; rewrite Eg in *;
        [change (2 ^ 0) with 1 in *|change (2 ^ 1) with 2 in *]; lia. }
    lia.
  - rewrite OW. destruct (N.eq_dec (off k n) m) as [->|NM].
    + rewrite Q. congruence.
    + apply PR. lia.
Qed.

(** ... storing its element. *)
Lemma glob_adv_store src tgt ctr ct mk tct rg s r i fl k d n :
  glob src tgt ctr ct mk tct rg -> rg s = B1 r i fl \/ rg s = B2 r i fl -> fz mk (sp i) ->
  inited tgt (sp i) -> sp i < stot -> ct (sp i) = CLive k d ->
  (forall j, j < n -> tct (tp (th k + j)) <> CEmpty) -> tct (tp (th k + n)) = CEmpty ->
  glob src (fupd tgt (tp (th k + n)) (Some (Slot k d))) ctr ct mk
    (fupd tct (tp (th k + n)) (CLive k d)) (fupd rg s (adv s r (i + 1))).
Proof.
  intros GL E F IN LI CL PF EM.
  assert (NE : rg s = B2 r i fl -> ct (sp i) <> CEmpty) by (intros _; congruence).
  destruct (adv_rg _ _ _ _ _ _ _ _ _ _ _ GL E F NE) as (O & P & S).
  destruct (probe_cell _ _ _ _ _ _ _ _ _ _ _ _ _ n GL E LI CL PF) as (LQ & OX & CO).
  set (q := tp (th k + n)) in *.
  assert (RI : forall x, r <= x <= i -> proc (fupd rg s (adv s r (i + 1))) (sp x)).
  { intros x Hx. exists s, r, (i + 1), x. rewrite fupd_eq. destruct (adv_region s r (i + 1)).
    sp; auto; lia. }
  assert (VK : valid_key sc k).
  { destruct (ti_cell _ _ _ _ _ (g_src GL) (sp i) LI) as [_ [_ V]].
    now rewrite CL in V. }
  assert (NP : ~ proc rg (sp i)).
  { destruct E as [E|E]; [eapply cur1_not_proc; eauto|eapply cur2_not_proc; eauto]. }
  assert (NK : forall q' d', q' < ttot -> tct q' <> CLive k d').
  { intros q' d' L' X. destruct (g_l1 GL q' k d' L' X) as (p & Lp & Pp & Cp).
    assert (p = sp i) as ->; [|contradiction].
    eapply live_unique; eauto. apply GL. }
  split; try apply GL; auto.
  - intros q' L'. destruct (N.eq_dec q' q) as [->|X].
    + rewrite !fupd_eq. left. reflexivity.
    + rewrite !fupd_neq by exact X. now apply GL.
  - intros q' L'. destruct (N.eq_dec q' q) as [->|X].
    + rewrite !fupd_eq. split; [split; [discriminate|exact VK]|discriminate].
    + rewrite !fupd_neq by exact X. now apply GL.
  - intros CP q' H. destruct (N.eq_dec q' q) as [->|X].
    + rewrite fupd_eq. discriminate.
    + rewrite fupd_neq by exact X. now apply GL.
  - intros s' H. destruct (N.eq_dec s' s) as [->|X]; [apply GL; eapply rg_not_none; eauto|].
    rewrite fupd_neq in H by exact X. now apply GL.
  - intros n' H H'. destruct (N.eq_dec (n' * B) s) as [->|X].
    + rewrite fupd_eq. apply adv_not_none.
    + rewrite fupd_neq by exact X. now apply GL.
  - intros s'. destruct (N.eq_dec s' s) as [->|X].
    + now rewrite fupd_eq.
    + rewrite fupd_neq by exact X. apply GL.
  - intros p Hp q' L' O'. destruct (N.eq_dec q' q) as [->|X].
    + rewrite fupd_eq. discriminate.
    + rewrite fupd_neq by exact X. apply P in Hp as [Hp| ->]; auto.
      now apply (g_init GL p).
  - intros q' L' X. destruct (N.eq_dec q' q) as [->|Y].
    + destruct OX as (x & Hx & Qx). split; [rewrite <- Qx; auto|exact CO].
    + rewrite fupd_neq in X by exact Y.
      destruct (g_own GL q' L' X) as [Hp C]. split; auto. apply P. auto.
  - intros q' k' d' L' X. destruct (N.eq_dec q' q) as [->|Y].
    + rewrite fupd_eq in X. injection X as <- <-. exists (sp i). sp; auto. apply RI.
      destruct OX as (x & Hx & _). lia.
    + rewrite fupd_neq in X by exact Y.
      destruct (g_l1 GL q' k' d' L' X) as (p & ? & ? & ?).
      exists p. sp; auto. apply P. auto.
  - intros p k' d' Hp X. apply P in Hp as [Hp| ->].
    + destruct (g_l2 GL p k' d' Hp X) as (q' & L' & Y).
      exists q'. split; auto. rewrite fupd_neq; auto. intros ->. congruence.
    + rewrite CL in X. injection X as <- <-. exists q. split; auto. apply fupd_eq.
  - intros q' k' d' L' X. destruct (N.eq_dec q' q) as [->|Y].
    + rewrite fupd_eq in X. injection X as <- <-. exists n. split; auto.
      intros j Hj. assert (NQ : tp (th k + j) <> q) by (intros Z; apply (PF j Hj); rewrite Z; exact EM).
      rewrite fupd_neq by exact NQ. split; auto. intros d' Z.
      destruct (N.lt_ge_cases (tp (th k + j)) ttot) as [LJ|GJ]; [eapply NK; eauto|].
      destruct (cprob mc) eqn:CP.
      * pose proof (remap_lt _ _ _ Ht (th k + j) CP). lia.
      * rewrite (tp_val c ms mt lg g MG), CP in GJ. unfold q in LQ.
        rewrite (tp_val c ms mt lg g MG), CP in LQ. lia.
    + rewrite fupd_neq in X by exact Y.
      destruct (g_reach GL q' k' d' L' X) as (n' & E' & P').
      exists n'. split; auto. eapply prefix_trans; eauto. rewrite EM. constructor.
Qed.

End Step.

Arguments glob_src {c ms mt lg g B} MG Hsc HB {src tgt ctr ct mk tct rg}.
Arguments glob_clear {c ms mt lg g B} MG Hsc HB {src tgt ctr ct mk tct rg}.
Arguments glob_quiet {c ms mt lg g B} MG Hsc HB {src tgt ctr ct mk tct rg}.
Arguments glob_flag {c ms mt lg g B} MG Hsc HB {src tgt ctr ct mk tct rg}.
Arguments adv_rg {c ms mt lg g B} MG Hsc HB {src tgt ctr ct mk tct rg}.
Arguments glob_adv_plain {c ms mt lg g B} MG Hsc HB {src tgt ctr ct mk tct rg}.
Arguments probe_cell {c ms mt lg g B} MG Hsc HB {src tgt ctr ct mk tct rg}.
Arguments glob_adv_store {c ms mt lg g B} MG Hsc HB {src tgt ctr ct mk tct rg}.
Arguments proc_upd {c ms mt lg g B} MG Hsc HB {rg}.
Arguments sep_same {c ms mt lg g B} MG Hsc HB {rg}.
Arguments rg_not_none {c ms mt lg g B} MG Hsc HB {rg}.
Arguments fz_mono {c ms mt lg g B} MG Hsc HB.
Arguments start_mono {c ms mt lg g B} MG Hsc HB.
Arguments bst_mono {c ms mt lg g B} MG Hsc HB.
Arguments adv_region {c ms mt lg g B} MG Hsc HB.
Arguments adv_not_none {c ms mt lg g B} MG Hsc HB.
