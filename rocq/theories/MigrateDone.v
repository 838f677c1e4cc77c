(** What a finished migration leaves behind. *)
From Coq Require Import NArith Bool List Lia.
From Verif Require Import Words Slot SlotFacts Mapper MapperFacts MapSpec LinSpec Base BaseInv BaseLin
  Migrate MigrateGeo MigrateInv MigrateStep MigrateRun MigrateHelp.
Import ListNotations.
Open Scope N_scope.

(** Pigeonhole. *)
Lemma pigeon (R : N -> N -> Prop) :
  (forall x x' y, R x y -> R x' y -> x = x') ->
  forall l l', NoDup l -> (forall x, In x l -> exists y, In y l' /\ R x y) ->
  (length l <= length l')%nat.
Proof.
  intros INJ. induction l as [|x l IH]; intros l' ND H; cbn; [lia|].
  inversion ND as [|? ? NI ND']; subst.
  destruct (H x (or_introl eq_refl)) as (y & Iy & Ry).
  destruct (in_split _ _ Iy) as (l1 & l2 & ->).
  assert (L : (length l <= length (l1 ++ l2))%nat).
  { apply IH; auto. intros x' Ix'. destruct (H x' (or_intror Ix')) as (y' & Iy' & Ry').
    exists y'. split; auto. apply in_app_or in Iy'. apply in_or_app.
    destruct Iy' as [|[<-|]]; auto. exfalso. apply NI. rewrite (INJ x x' y); auto. }
  rewrite app_length in *. cbn. lia.
Qed.

Lemma nseq_nodup a n : NoDup (nseq a n).
Proof.
  revert a. induction n as [|n IH]; intros a; cbn; constructor; auto.
  rewrite in_nseq. lia.
Qed.

Lemma nseq_length a n : length (nseq a n) = n.
Proof. revert a. induction n as [|n IH]; intros a; cbn; auto. Qed.

(** Left end of a run. *)
Lemma run_start (P : N -> Prop) (dec : forall x, P x \/ ~ P x) a b :
  a <= b -> (forall x, a <= x <= b -> P x) ->
  exists h, h <= a /\ (forall x, h <= x <= b -> P x) /\ (h = 0 \/ ~ P (h - 1)).
Proof.
  revert b. induction a as [|a IH] using N.peano_ind; intros b L H.
  - exists 0. sp; auto. lia.
  - destruct (dec a) as [Pa|Na].
    + destruct (IH b ltac:(lia)) as (h & H1 & H2 & H3).
      { intros x Hx. destruct (N.eq_dec x a) as [->|]; auto. apply H. lia. }
      exists h. sp; auto. lia.
    + exists (N.succ a). sp; auto; try lia. right. now replace (N.succ a - 1) with a by lia.
Qed.

Section Done.
Context (c : tcfg) (ms mt : mapper) (lg g B : N) (MG : migr c ms mt lg g).
Context (Hsc : wf_scfg (tsc c)) (HB : 0 < B).
Set Default Proof Using "All".
Notation sc := (tsc c).
Notation mc := (tmc c).
Notation cap := (2 ^ lg).
Notation tcap := (2 ^ (lg + g)).
Notation ttot := (total_slots mc mt).
Notation stot := (total_slots mc ms).
Notation sp := (remap mc ms).
Notation tp := (remap mc mt).
Notation hm := (home c ms).
Notation th := (home c mt).
Notation owner := (owner c lg g).
Notation bend := (bend lg B).
Notation proc := (proc c ms).
Notation inited := (inited c mt lg g).
Notation glob := (glob c ms mt lg g B).
Notation mkinv := (mkinv c ms).
Notation sinv := (sinv c ms mt lg g B).
Let Hm := mg_src _ _ _ _ _ MG.
Let Ht := mg_tgt _ _ _ _ _ MG.

(** *** The beginning *)

Lemma init_sinv src ct :
  tinv c ms src ct (fun _ => false) ->
  sinv src (target_mem mc mt) 0 (fun _ => None) ct (fun _ => false)
    (fun _ => CEmpty) (fun _ => BNone) (fun _ => None).
Proof.
  intros I. split.
  - split; try (intros; congruence); auto.
    + intros q L. unfold target_mem. destruct (_ && _); auto.
    + intros q L. split; [|discriminate]. split; [discriminate|exact Logic.I].
    + intros CP q Hq. unfold target_mem. rewrite CP, (addressable_val _ _ _ Ht).
      destruct (N.leb_spec tcap q); [|lia]. destruct (N.ltb_spec q ttot); [|lia]. discriminate.
    + exists 0. reflexivity.
    + intros n L. lia.
    + intros s. exact Logic.I.
    + intros s s' r b r' x E. discriminate.
    + intros p (s & r & i & x & R & _). discriminate.
    + intros p k d (s & r & i & x & R & _). discriminate.
  - intros p L X. discriminate.
  - split; try discriminate.
Qed.

Lemma join_sinv src tgt ctr hs ct mk tct rg hb tid :
  sinv src tgt ctr hs ct mk tct rg hb -> hs tid = None \/ hs tid = Some HEnd ->
  sinv src tgt ctr (fupd hs tid (Some HClaim)) ct mk tct rg hb.
Proof.
  intros S E. pose proof (s_thr S) as T. split; try apply S. split; try apply T.
  - intros t pc X. destruct (N.eq_dec t tid) as [->|NE].
    + rewrite fupd_eq in X. injection X as <-. destruct (hb tid) eqn:Hb; auto.
      exfalso. destruct E as [E|E]; [eapply (t_dom T); eauto|].
      pose proof (t_pc T _ _ E) as Y. rewrite Hb in Y. exact Y.
    + rewrite fupd_neq in X by exact NE. now apply (t_pc T).
  - intros t s X. unfold fupd. destruct (t =? tid); [discriminate|]. eapply (t_dom T); eauto.
Qed.

Lemma cpd : cprob mc = true \/ cprob mc = false.
Proof. destruct (cprob mc); auto. Qed.

(** *** The end *)

Section E.
Context (src tgt : mem) (ctr : N) (hs : N -> option hpc) (ct : N -> content) (mk : cmark)
  (tct : N -> content) (rg : N -> bst) (hb : N -> option N) (S : sinv src tgt ctr hs ct mk tct rg hb).
Context (CTR : cap <= ctr) (FIN : forall tid pc, hs tid = Some pc -> pc = HEnd \/ pc = HClaim).
Context (GAP : cprob mc = true -> exists p, p < stot /\ ct p = CEmpty).
Let GL := s_glob S.
Let T := s_thr S.

Lemma block_done s : (exists n, s = n * B) -> s < cap ->
  (rg s = BNo \/ exists r i, rg s = BDone r i).
Proof.
  intros [n ->] L. pose proof (g_all GL n ltac:(lia) L) as NB.
  destruct (active (rg (n * B))) eqn:A.
  - exfalso. destruct (t_act T _ A) as [t X]. pose proof (t_dom T _ _ X) as D.
    destruct (hs t) as [pc|] eqn:Y; [|congruence]. pose proof (t_pc T _ _ Y) as Z.
    rewrite X in Z. destruct (FIN _ _ Y) as [->| ->]; exact Z.
  - destruct (rg (n * B)); try discriminate; try congruence; eauto.
Qed.

(** A cell of a block is processed by that block, or all cells of the block up
    to it are in use. *)
Lemma cell_cases p : p < cap ->
  proc rg p \/ (ct p <> CEmpty /\ (cprob mc = true \/ 0 < p)).
Proof.
  intros L. destruct (in_block MG Hsc HB p L) as (n & Hn & LN).
  pose proof (g_st GL (n * B)) as O.
  destruct (block_done (n * B)) as [E|(r & i & E)]; eauto; rewrite E in O.
  - destruct O as [O1 O2]. right. split; [apply O1; lia|]. destruct O2; auto. right. lia.
  - destruct O as ((O1 & O2 & O3) & O4 & _).
    destruct (N.le_gt_cases r p) as [G|G].
    + left. exists (n * B), r, i, p. rewrite E. sp; auto; try lia.
      apply (sp_small c ms mt lg g MG). exact L.
    + right. split; [apply O2; lia|]. destruct O3 as [(_ & _ & [O3|O3])|[_ O3]]; auto.
      * right. lia.
      * lia.
Qed.

(** The cell after a processed one is processed, unless it is empty. *)
Lemma proc_next x : proc rg (sp x) -> ct (sp (x + 1)) <> CEmpty -> proc rg (sp (x + 1)).
Proof.
  intros (s & r & i & y & R & Hy & Q) NE.
  assert (NB : rg s <> BNone) by (intros X; rewrite X in R; discriminate).
  destruct (g_blk GL s NB) as (HN & _ & LS).
  pose proof (g_st GL s) as O.
  destruct (block_done s HN LS) as [E|(r0 & i0 & E)]; rewrite E in *; [discriminate|].
  injection R as <- <-. destruct O as (_ & _ & _ & _ & CE & _).
  assert (Q' : sp (x + 1) = sp (y + 1)).
  { symmetry. apply (sp_add c ms mt lg g MG). exact Q. }
  rewrite Q' in *. destruct (N.eq_dec (y + 1) i0) as [EX|NX]; [exfalso; apply NE; rewrite EX; exact CE|].
  exists s, r0, i0, (y + 1). rewrite E. sp; auto; lia.
Qed.

Lemma walk p0 n : p0 < cap -> proc rg p0 -> (cprob mc = true \/ p0 + n < cap) -> proc rg (sp (p0 + n)).
Proof.
  intros L P. induction n as [|n IH] using N.peano_ind; intros H.
  - rewrite N.add_0_r, (sp_small c ms mt lg g MG); auto.
  - assert (IH' : proc rg (sp (p0 + n))) by (apply IH; destruct H; [auto|right; lia]).
    replace (p0 + N.succ n) with (p0 + n + 1) by lia.
    assert (LX : sp (p0 + n + 1) < cap).
    { rewrite (sp_val c ms mt lg g MG). destruct cpd as [CP|CP]; rewrite CP.
      - apply N.mod_lt. pose proof (cap_pos lg). lia.
      - destruct H; [congruence|lia]. }
    destruct (cell_cases _ LX) as [|[NE _]]; auto. now apply proc_next.
Qed.

Lemma cover p : p < cap -> proc rg p.
Proof.
  intros L. pose proof (cap_pos lg) as CPOS. destruct cpd as [CP|CP].
  - destruct (GAP CP) as (p0 & L0 & E0).
    assert (C0 : p0 < cap) by (rewrite (stot_val c ms mt lg g MG), CP in L0; exact L0).
    destruct (cell_cases p0 C0) as [P0|[X _]]; [|congruence].
    pose proof (walk p0 (cap + p - p0) C0 P0 (or_introl CP)) as W.
    replace (p0 + (cap + p - p0)) with (p + 1 * cap) in W by lia.
    rewrite (sp_val c ms mt lg g MG), CP, N.mod_add, N.mod_small in W by lia. exact W.
  - destruct (cell_cases 0 CPOS) as [P0|[_ [X|X]]]; [|congruence|lia].
    pose proof (walk 0 p CPOS P0 ltac:(lia)) as W.
    rewrite N.add_0_l, (sp_small c ms mt lg g MG) in W by exact L. exact W.
Qed.

(** Occupied cells behind the end of the table. *)
Lemma cover_over n : cprob mc = false -> (forall x, cap <= x < cap + n -> ct x <> CEmpty) ->
  forall x, cap <= x < cap + n -> proc rg x.
Proof.
  intros CP. pose proof (cap_pos lg) as CPOS.
  assert (SX : forall x, sp x = x) by (intros x; rewrite (sp_val c ms mt lg g MG), CP; reflexivity).
  intros H x. induction x as [|x IH] using N.peano_ind; intros Hx; [lia|].
  replace (N.succ x) with (sp (x + 1)) by (rewrite SX; lia). apply proc_next.
  - rewrite SX. destruct (N.eq_dec (N.succ x) cap) as [E|NE].
    + apply cover. lia.
    + apply IH. lia.
  - rewrite SX. apply H. lia.
Qed.

Lemma live_cover p k d : p < stot -> ct p = CLive k d -> proc rg p.
Proof.
  intros L E. destruct (N.lt_ge_cases p cap) as [|G]; [now apply cover|].
  pose proof (stot_val c ms mt lg g MG) as SV. destruct cpd as [CP|CP]; rewrite CP in SV; [lia|].
  apply (cover_over (p - cap + 1) CP); [|lia].
  intros x Hx. destruct (N.eq_dec x p) as [->|NE]; [congruence|].
  destruct (ti_reach _ _ _ _ _ (g_src GL) p k d L E) as (n & Q & P).
  pose proof (hm_cap c ms mt lg g MG k) as HL.
  rewrite (sp_val c ms mt lg g MG), CP in Q.
  destruct (P (x - hm k) ltac:(lia)) as [NX _].
  rewrite (sp_val c ms mt lg g MG), CP in NX. now replace (hm k + (x - hm k)) with x in NX by lia.
Qed.

Lemma all_inited q : q < ttot -> tgt q = Some (enc sc (tct q) false).
Proof.
  intros L. destruct (g_tgt GL q L) as [|[E _]]; auto. exfalso.
  destruct (N.lt_ge_cases q tcap) as [LC|GC].
  - apply (g_init GL (owner q) (cover _ (owner_cap c lg g q LC)) q L eq_refl E).
  - pose proof (ttot_val c ms mt lg g MG) as TV. destruct cpd as [CP|CP]; rewrite CP in TV; [lia|].
    apply (g_over GL CP q); auto.
Qed.

Lemma tgt_unique q q' k d d' :
  q < ttot -> q' < ttot -> tct q = CLive k d -> tct q' = CLive k d' -> q = q'.
Proof.
  intros L L' E E'.
  destruct (g_reach GL q k d L E) as (n & En & Pn).
  destruct (g_reach GL q' k d' L' E') as (n' & En' & Pn').
  destruct (N.lt_trichotomy n n') as [X|[->|X]].
  - destruct (Pn' n X) as [_ F]. rewrite En in F. now elim (F d).
  - congruence.
  - destruct (Pn n' X) as [_ F]. rewrite En' in F. now elim (F d').
Qed.

Lemma tgt_over q : cprob mc = false -> tcap + 300 < q -> q < ttot -> tct q = CEmpty.
Proof.
  intros CP G L. destruct (tct q) as [| |k d] eqn:E; auto; exfalso.
  { now destruct (g_tok GL q L). }
  assert (CM : cmap mc = false) by (destruct (mg_cfg _ _ _ _ _ MG); congruence).
  assert (TX : forall x, tp x = x) by (intros x; rewrite (tp_val c ms mt lg g MG), CP; reflexivity).
  assert (SX : forall x, sp x = x) by (intros x; rewrite (sp_val c ms mt lg g MG), CP; reflexivity).
  assert (TL : forall k, th k < tcap) by (intros k'; apply (hm_lt c mt (lg + g) Ht)).
  destruct (g_reach GL q k d L E) as (n & En & Pn). rewrite TX in En.
  destruct (run_start (fun x => tct x <> CEmpty)) with (a := th k) (b := q)
    as (h & H1 & H2 & H3).
  { intros x. destruct (tct x); [right|left|left]; congruence. }
  { lia. }
  { intros x Hx. destruct (N.eq_dec x q) as [->|NE]; [congruence|].
    destruct (Pn (x - th k) ltac:(lia)) as [X _]. rewrite TX in X.
    now replace (th k + (x - th k)) with x in X by lia. }
  set (R := fun x p => exists k d, x < ttot /\ tct x = CLive k d /\ ct p = CLive k d).
  assert (GP := pow2_pos g).
  assert (LEN : (length (nseq h (N.to_nat (q - h + 1))) <=
                 length (nseq (h / 2 ^ g) (N.to_nat (cap + 301 - h / 2 ^ g))))%nat).
  { apply (pigeon R).
    - intros x x' y (k1 & d1 & A1 & A2 & A3) (k2 & d2 & B1 & B2 & B3).
      rewrite A3 in B3. injection B3 as <- <-. eapply tgt_unique; eauto.
    - apply nseq_nodup.
    - intros x Ix. apply in_nseq_N in Ix.
      assert (LX : x < ttot) by lia.
      assert (NX : tct x <> CEmpty) by (apply H2; lia).
      destruct (tct x) as [| |k' d'] eqn:EX; [congruence|now destruct (g_tok GL x LX)|].
      destruct (g_l1 GL x k' d' LX EX) as (p & LP & _ & CPP).
      exists p. split; [|exists k', d'; auto].
      apply in_nseq_N.
      (* home of the element *)
      destruct (g_reach GL x k' d' LX EX) as (n' & En' & Pn'). rewrite TX in En'.
      assert (HH : h <= th k').
      { destruct (N.le_gt_cases h (th k')) as [|LT]; auto. exfalso.
        destruct H3 as [->|H3]; [lia|].
        destruct (Pn' (h - 1 - th k') ltac:(lia)) as [X _]. rewrite TX in X.
        replace (th k' + (h - 1 - th k')) with (h - 1) in X by lia. auto. }
      pose proof (th_val c ms mt lg g MG k') as TV. rewrite CM in TV.
      assert (HD : h / 2 ^ g <= hm k').
      { rewrite <- TV. apply N.div_le_mono; lia. }
      destruct (ti_reach _ _ _ _ _ (g_src GL) p k' d' LP CPP) as (n2 & Q2 & _).
      rewrite SX in Q2.
      assert (PO : p <= cap + 300).
      { destruct (N.le_gt_cases p (cap + 300)) as [|GT]; auto. exfalso.
        pose proof (ti_over _ _ _ _ _ (g_src GL) CP p) as Y.
        rewrite (addressable_val _ _ _ Hm) in Y. specialize (Y GT LP). congruence. }
      assert (h / 2 ^ g <= cap).
      { apply N.div_le_upper_bound; [lia|]. rewrite <- N.mul_comm, <- (tcap_eq lg g).
        pose proof (TL k). lia. }
      lia. }
  rewrite !nseq_length in LEN.
  assert (HLT : h < tcap) by (pose proof (TL k); lia).
  rewrite (tcap_eq lg g) in *.
  destruct (mg_g _ _ _ _ _ MG) as [Eg|Eg]; rewrite Eg in *.
  - change (2 ^ 0) with 1 in *. rewrite N.div_1_r in LEN. lia.
  - change (2 ^ 1) with 2 in *. pose proof (N.div_mod h 2 ltac:(lia)).
    pose proof (N.mod_lt h 2 ltac:(lia)). lia.
Qed.

Theorem done_tinv : tinv c mt tgt tct (fun _ => false).
Proof.
  split.
  - intros q L. split; [now apply all_inited|]. now apply (g_tok GL).
  - apply (g_reach GL).
  - intros CP q G L. rewrite (addressable_val _ _ _ Ht) in G. now apply tgt_over.
Qed.

Theorem done_same k d :
  (exists p, p < stot /\ ct p = CLive k d) <-> (exists q, q < ttot /\ tct q = CLive k d).
Proof.
  split.
  - intros (p & L & E). eapply (g_l2 GL p); eauto. eapply live_cover; eauto.
  - intros (q & L & E). destruct (g_l1 GL q k d L E) as (p & L' & _ & E'). eauto.
Qed.

Theorem done_no_tomb q : q < ttot -> tct q <> CTomb.
Proof. intros L. now apply (g_tok GL). Qed.

End E.
End Done.
