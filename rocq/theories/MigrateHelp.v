(** Every step of a helper preserves the invariant of the migration. *)
From Coq Require Import NArith Bool List Lia.
From Verif Require Import Words Slot SlotFacts Mapper MapperFacts MapSpec LinSpec Base BaseInv BaseLin
  Migrate MigrateGeo MigrateInv MigrateStep MigrateRun.
Import ListNotations.
Open Scope N_scope.

Section Help.
Context (c : tcfg) (ms mt : mapper) (lg g B : N) (MG : migr c ms mt lg g).
Context (Hsc : wf_scfg (tsc c)) (HB : 0 < B).
Set Default Proof Using "All".
Notation sc := (tsc c).
Notation mc := (tmc c).
Notation cap := (2 ^ lg).
Notation tcap := (2 ^ (lg + g)).
Notation ttot := (total_slots mc mt).
Notation stot := (total_slots mc ms).
Notation addr := (addressable_slots mc ms).
Notation sp := (remap mc ms).
Notation tp := (remap mc mt).
Notation hm := (home c ms).
Notation th := (home c mt).
Notation owner := (owner c lg g).
Notation bend := (bend lg B).
Notation extent := (extent lg B).
Notation fz := (fz c).
Notation proc := (proc c ms).
Notation flight := (flight c ms).
Notation start_ok := (start_ok c lg B).
Notation bst_ok := (bst_ok c ms lg B).
Notation inited := (inited c mt lg g).
Notation glob := (glob c ms mt lg g B).
Notation mkinv := (mkinv c ms).
Notation sfree := (sfree c ms).
Notation adv := (adv lg B).
Notation hinv := (hinv c ms mt lg g B).
Notation thrinv := (thrinv c ms mt lg g B).
Notation sinv := (sinv c ms mt lg g B).
Let Hm := mg_src _ _ _ _ _ MG.
Let Ht := mg_tgt _ _ _ _ _ MG.

(** *** Changes of the status of a block *)

Lemma quiet_proc rg s b :
  region b = None \/ region b = region (rg s) ->
  region (rg s) = None \/ region b = region (rg s) ->
  forall q, proc (fupd rg s b) q <-> proc rg q.
Proof.
  intros H1 H2 q. split; intros (s' & r & i & x & R & Hx & Q); exists s', r, i, x; sp; auto; try lia.
  - destruct (N.eq_dec s' s) as [->|NE]; [|now rewrite fupd_neq in R by exact NE].
    rewrite fupd_eq in R. destruct H1; congruence.
  - destruct (N.eq_dec s' s) as [->|NE]; [|now rewrite fupd_neq by exact NE].
    rewrite fupd_eq. destruct H2; congruence.
Qed.

Lemma glob_search src tgt ctr ct mk tct rg s i b :
  glob src tgt ctr ct mk tct rg -> rg s = B0 i -> (b = BNo \/ exists j, b = B0 j) ->
  bst_ok ct mk s b -> glob src tgt ctr ct mk tct (fupd rg s b).
Proof.
  intros GL E Hb O.
  assert (X : region b = None /\ rstart b = None /\ extent s b = None /\ b <> BNone).
  { destruct Hb as [->|[j ->]]; sp; auto; discriminate. }
  destruct X as (X1 & X2 & X3 & X4).
  apply (glob_quiet MG Hsc HB); auto; try congruence.
  - apply quiet_proc; rewrite ?E; auto.
  - apply (sep_same MG Hsc HB).
    + intros s1 s2 r e r' x. apply (g_sep GL).
    + rewrite E. exact X2.
    + intros r e Y. congruence.
Qed.

Lemma glob_start src tgt ctr ct mk tct rg s i :
  glob src tgt ctr ct mk tct rg -> rg s = B0 i -> ct i = CEmpty -> fz mk i ->
  glob src tgt ctr ct mk tct (fupd rg s (B1 i i false)).
Proof.
  intros GL E CE F. pose proof (g_st GL s) as O. rewrite E in O. destruct O as (O1 & O2 & O3).
  assert (NS : rg s <> BNone) by congruence.
  destruct (g_blk GL s NS) as ((n & En) & S1 & S2).
  pose proof (bend_le MG Hsc HB s) as BL.
  assert (BU : forall s' y, rg s' <> BNone -> s' <= y < bend s' -> s <= y < bend s -> s' = s).
  { intros s' y N' H H'. destruct (g_blk GL s' N') as ((n' & E') & _).
    unfold MigrateInv.bend in H, H'. rewrite E', En.
    f_equal. apply (block_unique MG Hsc HB n' n y); lia. }
  apply (glob_quiet MG Hsc HB); auto; try discriminate.
  - cbn. unfold MigrateInv.start_ok. sp; auto; try lia; intros; lia.
  - intros q. split; intros (s' & r & j & x & R & Hx & Q); exists s', r, j, x; sp; auto; try lia.
    + destruct (N.eq_dec s' s) as [->|NE]; [|now rewrite fupd_neq in R by exact NE].
      rewrite fupd_eq in R. injection R as <- <-. lia.
    + destruct (N.eq_dec s' s) as [->|NE]; [|now rewrite fupd_neq by exact NE].
      rewrite E in R. discriminate.
  - intros s1 s2 r e r' x X R Hx.
    destruct (N.eq_dec s1 s) as [->|N1].
    + rewrite fupd_eq in X. injection X as <- <-.
      rewrite (sp_small c ms mt lg g MG) by lia.
      destruct (N.eq_dec s2 s) as [->|N2].
      * rewrite fupd_eq in R. injection R as <-. lia.
      * rewrite fupd_neq in R by exact N2.
        destruct (start_facts MG Hsc HB GL s2 r' R) as [(A & _) _].
        intros ->. apply N2. apply (BU s2 r'); auto; try lia.
        intros Y. rewrite Y in R. discriminate.
    + rewrite fupd_neq in X by exact N1. destruct (N.eq_dec s2 s) as [->|N2].
      * rewrite fupd_eq in R. injection R as <-. intros Q.
        assert (NX : rg s1 <> BNone) by (intros Y; rewrite Y in X; discriminate).
        assert (RS : rstart (rg s1) = Some r).
        { destruct (rg s1); try discriminate; injection X as <- _; reflexivity. }
        destruct (start_facts MG Hsc HB GL s1 r RS) as [(A & _) _].
        assert (Y : x < bend s1 -> False).
        { intros L. pose proof (bend_le MG Hsc HB s1). apply N1. apply (BU s1 x); auto; try lia.
          rewrite (sp_small c ms mt lg g MG) in Q by lia. lia. }
        pose proof (g_st GL s1) as O. destruct (rg s1) eqn:Z; try discriminate; injection X as <- <-.
        -- lia.
        -- destruct O as (_ & _ & _ & O & _).
           destruct (N.lt_ge_cases x (bend s1)); [auto|]. apply (O x); [lia|congruence].
        -- destruct O as (_ & _ & _ & O & _).
           destruct (N.lt_ge_cases x (bend s1)); [auto|]. apply (O x); [lia|congruence].
      * rewrite fupd_neq in R by exact N2. eapply (g_sep GL s1 s2); eauto.
Qed.

Lemma glob_finish src tgt ctr ct mk tct rg s r i fl :
  glob src tgt ctr ct mk tct rg -> rg s = B2 r i fl -> ct (sp i) = CEmpty -> fz mk (sp i) ->
  glob src tgt ctr ct mk tct (fupd rg s (BDone r i)).
Proof.
  intros GL E CE F. pose proof (g_st GL s) as O. rewrite E in O.
  destruct O as (O1 & O2 & O3 & O4 & O5).
  apply (glob_quiet MG Hsc HB); auto; try congruence; try discriminate.
  - cbn. sp; auto.
  - apply quiet_proc; rewrite E; auto.
  - apply (sep_same MG Hsc HB).
    + intros s1 s2 r1 e r' x. apply (g_sep GL).
    + rewrite E. reflexivity.
    + intros r1 e Y. injection Y as <- <-. eapply (sfree_extent MG Hsc HB GL s). rewrite E. reflexivity.
Qed.

(** *** Marks *)

Lemma mkinv_upd (ct : N -> content) mk mk' (rg rg' : N -> bst) :
  mkinv ct mk rg ->
  (forall p, p < stot -> mk' p = true ->
     mk p = true \/ ct p = CEmpty \/ proc rg' p \/ flight rg' p) ->
  (forall q, proc rg q -> proc rg' q) ->
  (forall p, flight rg p -> proc rg' p \/ flight rg' p) -> mkinv ct mk' rg'.
Proof.
  intros M N P F p L H. destruct (N p L H) as [X|X]; auto.
  destruct (M p L X) as [Y|[Y|Y]]; auto. 
Qed.

Lemma flight_upd rg s b p :
  flight rg p -> (forall r i, rg s = B1 r i true \/ rg s = B2 r i true -> p = sp i ->
                  proc (fupd rg s b) p \/ flight (fupd rg s b) p) ->
  proc (fupd rg s b) p \/ flight (fupd rg s b) p.
Proof.
  intros (s' & r & i & E & Q) H. destruct (N.eq_dec s' s) as [->|NE]; [eauto|].
  right. exists s', r, i. rewrite fupd_neq by exact NE. auto.
Qed.

Lemma hinv_none ct mk tgt tct pc s : hinv ct mk tgt tct pc s BNone -> False.
Proof.
  destruct pc; cbn; try tauto; intros H;
    repeat match goal with
    | X : _ /\ _ |- _ => destruct X
    | X : exists _, _ |- _ => destruct X
    | X : match ?o with Some _ => _ | None => _ end |- _ => destruct o
    end; discriminate.
Qed.

(** *** The theorem *)

Section T.
Context (src tgt : mem) (ctr : N) (hs : N -> option hpc) (ct : N -> content) (mk : cmark)
  (tct : N -> content) (rg : N -> bst) (hb : N -> option N) (S : sinv src tgt ctr hs ct mk tct rg hb).
Context (tid : N).
Let GL := s_glob S.
Let MK := s_mk S.
Let T := s_thr S.

Definition good (src' tgt' : mem) (ctr' : N) (pc' : hpc) : Prop :=
  exists mk' tct' rg' hb', sinv src' tgt' ctr' (fupd hs tid (Some pc')) ct mk' tct' rg' hb' /\
                           mono mk mk'.

Lemma mono_refl m : mono m m. Proof. now intros p H. Qed.

Lemma others_same tid' pc s' :
  hb tid' = Some s' -> hs tid' = Some pc -> hinv ct mk tgt tct pc s' (rg s') ->
  hinv ct mk tgt tct pc s' (rg s').
Proof. auto. Qed.

(** A step that changes neither memory nor ghosts. *)
Lemma good_stay s pc0 pc' :
  hs tid = Some pc0 -> hb tid = Some s -> hinv ct mk tgt tct pc' s (rg s) ->
  good src tgt ctr pc'.
Proof.
  intros E Hb H. exists mk, tct, rg, hb. split; [|apply mono_refl].
  split; auto. eapply (thr_keep MG Hsc HB mk tgt tct rg tid s pc'); eauto.
Qed.

(** A step that changes marks and the status of the helper's block. *)
Lemma good_mark s pc0 pc' src' mk' b :
  hs tid = Some pc0 -> hb tid = Some s -> mono mk mk' ->
  glob src' tgt ctr ct mk' tct (fupd rg s b) -> mkinv ct mk' (fupd rg s b) ->
  hinv ct mk' tgt tct pc' s b -> good src' tgt ctr pc'.
Proof.
  intros E Hb M G K H. exists mk', tct, (fupd rg s b), hb. split; auto. split; auto.
  eapply (thr_keep MG Hsc HB mk' tgt tct (fupd rg s b) tid s pc'); eauto.
  - intros s' N. now rewrite fupd_neq.
  - intros. eapply (hinv_stable MG Hsc HB); eauto.
  - now rewrite fupd_eq.
Qed.

Lemma good_leave s pc0 src' mk' b :
  hs tid = Some pc0 -> hb tid = Some s -> mono mk mk' ->
  glob src' tgt ctr ct mk' tct (fupd rg s b) -> mkinv ct mk' (fupd rg s b) ->
  active b = false -> good src' tgt ctr HClaim.
Proof.
  intros E Hb M G K H. exists mk', tct, (fupd rg s b), (fupd hb tid None). split; auto. split; auto.
  eapply (thr_leave MG Hsc HB mk' tgt tct (fupd rg s b) tid s); eauto.
  - intros s' N. now rewrite fupd_neq.
  - intros. eapply (hinv_stable MG Hsc HB); eauto.
  - now rewrite fupd_eq.
Qed.

(** A step that clears a target cell. *)
Lemma good_clear s pc0 pc' q :
  hs tid = Some pc0 -> hb tid = Some s -> q < ttot -> tct q = CEmpty ->
  hinv ct mk (fupd tgt q (Some empty_slot)) tct pc' s (rg s) ->
  good src (fupd tgt q (Some empty_slot)) ctr pc'.
Proof.
  intros E Hb L Q H. exists mk, tct, rg, hb. split; [|apply mono_refl]. split; auto.
  - now apply (glob_clear MG Hsc HB).
  - eapply (thr_keep MG Hsc HB mk _ tct rg tid s pc'); eauto.
    intros. eapply (hinv_stable MG Hsc HB); eauto; [apply mono_refl|].
    intros q' X. unfold fupd. destruct (q' =? q); auto; discriminate.
Qed.

(** Reading a source cell. *)
Lemma rd_src p : p < stot -> rd c ms src p = Some (enc sc (ct p) (mk p)) /\ ok_content sc (ct p) (mk p).
Proof.
  intros L. destruct (ti_cell _ _ _ _ _ (g_src GL) p L) as [E O]. split; auto.
  unfold rd. destruct (N.ltb_spec p stot); [exact E|lia].
Qed.

Lemma idle_keep mk' tgt' (tct' : N -> content) rg' pc' :
  hb tid = None -> (pc' = HClaim \/ pc' = HEnd) ->
  (forall tid' pc s', hb tid' = Some s' -> hs tid' = Some pc ->
     hinv ct mk tgt tct pc s' (rg s') -> hinv ct mk' tgt' tct' pc s' (rg' s')) ->
  (forall s, active (rg' s) = true -> active (rg s) = true) ->
  thrinv ct mk' tgt' tct' rg' (fupd hs tid (Some pc')) hb.
Proof.
  intros Hb P H A. split.
  - intros t pc E. destruct (N.eq_dec t tid) as [->|NE].
    + rewrite fupd_eq in E. injection E as <-. rewrite Hb. exact P.
    + rewrite fupd_neq in E by exact NE. pose proof (t_pc T _ _ E) as X.
      destruct (hb t) eqn:Y; eauto.
  - intros t s E. destruct (N.eq_dec t tid) as [->|NE]; [congruence|].
    rewrite fupd_neq by exact NE. eapply (t_dom T); eauto.
  - apply T.
  - intros s X. apply (t_act T). auto.
Qed.

Lemma step_claim src' tgt' ctr' pc' :
  lg <= 31 -> B <= 2 ^ 31 ->
  hs tid = Some HClaim -> hstep c ms mt B src tgt ctr HClaim = (src', tgt', ctr', pc') ->
  good src' tgt' ctr' pc'.
Proof.
  intros LG LB E ST. pose proof (t_pc T _ _ E) as X.
  destruct (hb tid) as [s0|] eqn:Hb; [destruct X|]. clear X.
  cbn in ST. injection ST as <- <- <- <-.
  pose proof (addressable_val _ _ _ Hm) as AV. rewrite AV.
  destruct (N.ltb_spec ctr cap) as [L|L].
  - unfold block_end; rewrite <- AV, (bend_val MG Hsc HB) by auto.
    set (b := if cprob mc || (0 <? ctr) then B0 ctr else B1 0 0 false).
    assert (Bb : (b = B0 ctr /\ (cprob mc = true \/ 0 < ctr)) \/
                 (b = B1 0 0 false /\ cprob mc = false /\ ctr = 0)).
    { unfold b. destruct (cprob mc) eqn:CP; cbn [orb].
      - left. auto.
      - destruct (N.ltb_spec 0 ctr); [left|right]; sp; auto. lia. }
    destruct (glob_new MG Hsc HB b GL L Bb) as (RN & G' & P).
    exists mk, tct, (fupd rg ctr b), (fupd hb tid (Some ctr)). split; [|apply mono_refl].
    assert (HN : forall t, hb t = Some ctr -> False).
    { intros t Y. pose proof (t_dom T _ _ Y) as Z. destruct (hs t) as [pc|] eqn:W; [|congruence].
      pose proof (t_pc T _ _ W) as V. rewrite Y, RN in V.
      eapply hinv_none; eauto. }
    split; auto.
    + eapply mkinv_upd; eauto.
      * intros q. apply P.
      * intros p F. apply flight_upd; auto. intros r i [Y|Y]; congruence.
    + assert (HP : hinv ct mk tgt tct (enter c ms mt ctr (bend ctr)) ctr (fupd rg ctr b ctr)).
      { rewrite fupd_eq. unfold enter. unfold b. destruct (cprob mc || (0 <? ctr)) eqn:Q.
        - destruct (N.ltb_spec ctr (bend ctr)) as [_|Y].
          + cbn. auto.
          + unfold MigrateInv.bend in Y. lia.
        - destruct Bb as [[_ Bb]|(Bb & CP & Z)].
          + apply orb_false_iff in Q. destruct Q as [Q1 Q2]. apply N.ltb_ge in Q2.
            destruct Bb; [congruence|lia].
          + rewrite Z in *.
            pose proof (after0_inv MG Hsc HB 0 0 G') as Y. rewrite fupd_eq, Bb in Y. now apply Y. }
      split.
      * intros t pc W. destruct (N.eq_dec t tid) as [->|NE].
        -- rewrite fupd_eq in W. rewrite fupd_eq. injection W as <-. exact HP.
        -- rewrite fupd_neq in W by exact NE. rewrite fupd_neq by exact NE.
           pose proof (t_pc T _ _ W) as X. destruct (hb t) as [s'|] eqn:Y; auto.
           rewrite fupd_neq; auto. intros ->. eapply HN; eauto.
      * intros t s Y. destruct (N.eq_dec t tid) as [->|NE].
        -- rewrite fupd_eq. discriminate.
        -- rewrite fupd_neq in Y by exact NE. rewrite fupd_neq by exact NE. eapply (t_dom T); eauto.
      * intros t1 t2 s Y1 Y2.
        destruct (N.eq_dec t1 tid) as [->|N1]; destruct (N.eq_dec t2 tid) as [->|N2]; auto.
        -- rewrite fupd_eq in Y1. rewrite fupd_neq in Y2 by exact N2. injection Y1 as <-.
           exfalso; eauto.
        -- rewrite fupd_eq in Y2. rewrite fupd_neq in Y1 by exact N1. injection Y2 as <-.
           exfalso; eauto.
        -- rewrite fupd_neq in Y1, Y2 by assumption. eapply (t_uniq T); eauto.
      * intros s A. destruct (N.eq_dec s ctr) as [->|NE].
        -- exists tid. apply fupd_eq.
        -- rewrite fupd_neq in A by exact NE. destruct (t_act T _ A) as [t Y].
           exists t. rewrite fupd_neq; auto. intros ->. congruence.
  - exists mk, tct, rg, hb. split; [|apply mono_refl]. split; auto.
    + assert (NC : exists n, ctr + B = n * B).
      { destruct (g_ctr GL) as [n Q]. exists (n + 1). rewrite Q. lia. }
      split; try exact NC; try apply GL.
      * intros s NB. destruct (g_blk GL s NB) as (A1 & A2 & A3). sp; auto. lia.
      * intros n H1 H2. apply (g_all GL); auto. lia.
    + apply idle_keep; auto.
Qed.

Lemma step_0load e i src' tgt' ctr' pc' :
  hs tid = Some (H0Load e i) -> hstep c ms mt B src tgt ctr (H0Load e i) = (src', tgt', ctr', pc') ->
  good src' tgt' ctr' pc'.
Proof.
  intros E ST. pose proof (t_pc T _ _ E) as X.
  destruct (hb tid) as [s|] eqn:Hb; [|destruct X; discriminate].
  destruct X as [-> R]. pose proof (g_st GL s) as O. rewrite R in O. destruct O as (O1 & O2 & O3).
  pose proof (bend_le MG Hsc HB s) as BL.
  assert (L : i < stot) by (rewrite (stot_val c ms mt lg g MG); destruct (cprob mc); lia).
  destruct (rd_src i L) as [Q Ok]. cbn in ST. rewrite Q in ST.
  rewrite (enc_is_empty sc Hsc _ _ Ok) in ST.
  destruct (ct i) eqn:CE.
  - injection ST as <- <- <- <-. eapply good_stay; eauto. rewrite R. cbn. sp; auto.
    rewrite (enc_is_empty sc Hsc); auto.
  - assert (X : forall x, s <= x < i + 1 -> ct x <> CEmpty).
    { intros x Hx. destruct (N.eq_dec x i) as [->|]; [congruence|apply O2; lia]. }
    destruct (N.ltb_spec (i + 1) (bend s)) as [Y|Y]; injection ST as <- <- <- <-.
    + eapply (good_mark s _ _ _ mk (B0 (i + 1))); eauto.
      * apply mono_refl.
      * eapply glob_search; eauto. cbn. sp; auto; lia.
      * eapply mkinv_upd; eauto.
        -- intros q. apply quiet_proc; rewrite R; auto.
        -- intros p F. apply flight_upd; auto. intros r j [Z|Z]; congruence.
      * cbn. auto.
    + eapply (good_leave s _ _ mk BNo); eauto.
      * apply mono_refl.
      * eapply glob_search; eauto. cbn. sp; auto. intros x Hx. apply X. lia.
      * eapply mkinv_upd; eauto.
        -- intros q. apply quiet_proc; rewrite R; auto.
        -- intros p F. apply flight_upd; auto. intros r j [Z|Z]; congruence.
  - assert (X : forall x, s <= x < i + 1 -> ct x <> CEmpty).
    { intros x Hx. destruct (N.eq_dec x i) as [->|]; [congruence|apply O2; lia]. }
    destruct (N.ltb_spec (i + 1) (bend s)) as [Y|Y]; injection ST as <- <- <- <-.
    + eapply (good_mark s _ _ _ mk (B0 (i + 1))); eauto.
      * apply mono_refl.
      * eapply glob_search; eauto. cbn. sp; auto; lia.
      * eapply mkinv_upd; eauto.
        -- intros q. apply quiet_proc; rewrite R; auto.
        -- intros p F. apply flight_upd; auto. intros r j [Z|Z]; congruence.
      * cbn. auto.
    + eapply (good_leave s _ _ mk BNo); eauto.
      * apply mono_refl.
      * eapply glob_search; eauto. cbn. sp; auto. intros x Hx. apply X. lia.
      * eapply mkinv_upd; eauto.
        -- intros q. apply quiet_proc; rewrite R; auto.
        -- intros p F. apply flight_upd; auto. intros r j [Z|Z]; congruence.
Qed.


Lemma step_0mark e i curr src' tgt' ctr' pc' :
  hs tid = Some (H0Mark e i curr) ->
  hstep c ms mt B src tgt ctr (H0Mark e i curr) = (src', tgt', ctr', pc') ->
  good src' tgt' ctr' pc'.
Proof.
  intros E ST. pose proof (t_pc T _ _ E) as X.
  destruct (hb tid) as [s|] eqn:Hb; [|destruct X; discriminate].
  destruct X as (-> & R & EM & CN). pose proof (g_st GL s) as O. rewrite R in O. destruct O as (O1 & O2 & O3).
  pose proof (bend_le MG Hsc HB s) as BL.
  assert (L : i < stot) by (rewrite (stot_val c ms mt lg g MG); destruct (cprob mc); lia).
  destruct (rd_src i L) as [Q Ok]. cbn [hstep] in ST. rewrite Q in ST.
  destruct (atomic_mark sc (enc sc (ct i) (mk i)) curr) as [[ok cell'] curr'] eqn:A.
  injection ST as <- <- <- <-.
  destruct (mark_step MG Hsc HB (g_src GL) L Q A) as (mk' & I' & M & OT & _ & K).
  assert (G' : glob (fupd src i (Some cell')) tgt ctr ct mk' tct rg).
  { eapply (glob_src MG Hsc HB); eauto. }
  destruct K as [(-> & F & -> & EQ)|(-> & SM & MK' & NEQ & CU)].
  - assert (CE : ct i = CEmpty).
    { destruct (sc_mark sc) eqn:SM; auto. rewrite (EQ eq_refl) in EM.
      rewrite (enc_is_empty sc Hsc _ _ Ok) in EM. destruct (ct i); congruence. }
    pose proof (glob_start _ _ _ _ _ _ _ s i G' R CE F) as G2.
    eapply (good_mark s _ _ _ mk' (B1 i i false)); eauto.
    + eapply mkinv_upd; eauto.
      * intros p Lp Hp. destruct (N.eq_dec p i) as [->|NE]; auto. rewrite OT in Hp; auto.
      * intros q (s' & r & j & x & RR & Hx & QQ). exists s', r, j, x. sp; auto; try lia.
        rewrite fupd_neq; auto. intros ->. rewrite R in RR. discriminate.
      * intros p FL. apply flight_upd; auto. intros r j [Z|Z]; congruence.
    + pose proof (after0_inv MG Hsc HB s i G2) as Y. rewrite fupd_eq in Y. now apply Y.
  - eapply (good_mark s _ _ _ mk' (B0 i)); eauto.
    + eapply glob_search; eauto. cbn. sp; auto; lia.
    + eapply mkinv_upd; eauto.
      * intros p Lp Hp. destruct (N.eq_dec p i) as [->|NE]; [left; congruence|]. rewrite OT in Hp; auto.
      * intros q. apply quiet_proc; rewrite R; auto.
      * intros p FL. apply flight_upd; auto. intros r j [Z|Z]; congruence.
    + cbn. auto.
Qed.

Lemma fupd_none (t : mem) q v q' : fupd t q (Some v) q' = None -> q' <> q /\ t q' = None.
Proof.
  destruct (N.eq_dec q' q) as [->|NE]; [rewrite fupd_eq; discriminate|].
  rewrite fupd_neq; auto.
Qed.

Lemma step_1init e i l src' tgt' ctr' pc' :
  hs tid = Some (H1Init e i l) ->
  hstep c ms mt B src tgt ctr (H1Init e i l) = (src', tgt', ctr', pc') ->
  good src' tgt' ctr' pc'.
Proof.
  intros E ST. pose proof (t_pc T _ _ E) as X.
  destruct (hb tid) as [s|] eqn:Hb; [|destruct X; discriminate].
  destruct X as (-> & R & H1 & H2). pose proof (g_st GL s) as O. rewrite R in O. destruct O as (_ & O & _).
  destruct l as [|q l]; cbn [hstep] in ST.
  - injection ST as <- <- <- <-. eapply good_stay; eauto.
    unfold next1. destruct (N.ltb_spec i (bend s)); [|lia]. cbn. split; auto. exists i. split; auto.
    intros p Hp q Lq Oq N. destruct (H2 q Lq); auto. lia.
  - destruct (H1 q (or_introl eq_refl)) as [Lq Oq].
    destruct (N.ltb_spec q ttot) as [_|]; [|lia]. injection ST as <- <- <- <-.
    eapply good_clear; eauto; [eapply (ahead_free MG Hsc HB GL); eauto|].
    assert (H2' : forall q', q' < ttot -> i <= owner q' < bend s ->
                  fupd tgt q (Some empty_slot) q' = None -> In q' l).
    { intros q' L' O' N'. apply fupd_none in N'. destruct N' as [NE N'].
      destruct (H2 q' L' O' N') as [|]; auto. congruence. }
    destruct l as [|q2 l].
    + unfold next1. destruct (N.ltb_spec i (bend s)); [|lia]. cbn. split; auto. exists i. split; auto.
      intros p Hp q' Lq' Oq' N. destruct (H2' q' Lq'); auto. lia.
    + cbn. sp; auto. intros q' I'. apply H1. right. exact I'.
Qed.

Lemma step_1load e i src' tgt' ctr' pc' :
  hs tid = Some (H1Load e i) ->
  hstep c ms mt B src tgt ctr (H1Load e i) = (src', tgt', ctr', pc') ->
  good src' tgt' ctr' pc'.
Proof.
  intros E ST. pose proof (t_pc T _ _ E) as X.
  destruct (hb tid) as [s|] eqn:Hb; [|destruct X; discriminate].
  destruct X as (-> & r & R & IN).
  destruct (pos1_bound MG Hsc HB GL s r i false R) as (SI & L & LC).
  destruct (rd_src i L) as [Q Ok]. cbn [hstep] in ST. rewrite Q in ST.
  injection ST as <- <- <- <-. eapply good_stay; eauto. cbn. split; auto. exists r. sp; auto.
  intros SM. rewrite SI. f_equal. destruct (mk i) eqn:M; auto. destruct Ok as [Ok _].
  specialize (Ok eq_refl). congruence.
Qed.

(** After a successful mark of the current cell. *)
Lemma after_mark src2 mk' s r i ph :
  hb tid = Some s -> hs tid <> None ->
  mono mk mk' -> (forall q, q <> sp i -> mk' q = mk q) -> fz mk' (sp i) ->
  glob src2 tgt ctr ct mk' tct rg ->
  match ph with
  | Some e => e = bend s /\ rg s = B1 r i false /\ (forall p, i <= p < e -> inited tgt p)
  | None => rg s = B2 r i false /\ inited tgt (sp i) /\ ct (sp i) <> CEmpty
  end ->
  sp i < stot ->
  good src2 tgt ctr
    (if negb (is_empty sc (enc sc (ct (sp i)) (mk (sp i)))) &&
        negb (is_deleted sc (enc sc (ct (sp i)) (mk (sp i))))
     then ins_start c mt ph (i + 1) (enc sc (ct (sp i)) (mk (sp i)))
     else after_insert c ms mt ph (i + 1)).
Proof.
  intros Hb HS M OT F G' PH L.
  destruct (hs tid) as [pc0|] eqn:E; [|congruence]. clear HS.
  destruct (rd_src (sp i) L) as [_ Ok].
  assert (RR : rg s = B1 r i false \/ rg s = B2 r i false) by (destruct ph; [left|right]; apply PH).
  assert (NE : rg s = B2 r i false -> ct (sp i) <> CEmpty).
  { intros X. destruct ph; [destruct PH as (_ & PH & _); congruence|apply PH]. }
  assert (IN : inited tgt (sp i)).
  { destruct ph as [e|]; [|apply PH]. destruct PH as (-> & R & PH).
    pose proof (g_st GL s) as O. rewrite R in O. destruct O as (_ & O & _).
    destruct (pos1_bound MG Hsc HB GL s r i false R) as (-> & _ & _). apply PH. lia. }
  rewrite (enc_is_empty sc Hsc _ _ Ok).
  assert (CL : ct (sp i) <> CEmpty -> mk (sp i) = false)
    by (intros X; eapply (cur_clean MG Hsc HB GL); eauto).
  (* no element *)
  assert (PLAIN : (forall k d, ct (sp i) <> CLive k d) ->
                  good src2 tgt ctr (after_insert c ms mt ph (i + 1))).
  { intros NL.
    pose proof (glob_adv_plain MG Hsc HB s r i false G' RR F NE IN NL) as G2.
    destruct (adv_rg MG Hsc HB s r i false G' RR F NE) as (_ & P & _).
    eapply (good_mark s _ _ _ mk' (adv s r (i + 1))); eauto.
    - eapply mkinv_upd; eauto.
      + intros p Lp Hp. destruct (N.eq_dec p (sp i)) as [->|NX].
        * right; right; left. apply P. auto.
        * rewrite OT in Hp; auto.
      + intros q Hq. apply P. auto.
      + intros p FL. apply flight_upd; auto. intros r' j [Z|Z] _; destruct RR; congruence.
    - destruct ph as [e|].
      + destruct PH as (-> & R & PH).
        pose proof (next1_inv MG Hsc HB s r (i + 1) G2) as Y. rewrite fupd_eq in Y. apply Y; auto.
        intros p Hp. apply PH. lia.
      + destruct PH as (R & _ & _). pose proof (g_st GL s) as O. rewrite R in O. destruct O as (_ & O & _).
        assert (AE : adv s r (i + 1) = B2 r (i + 1) false).
        { unfold MigrateStep.adv. destruct (N.ltb_spec (i + 1) (bend s)); auto. lia. }
        pose proof (start2_inv MG Hsc HB s r (i + 1) G2) as Y. rewrite fupd_eq in Y. now apply Y. }
  destruct (ct (sp i)) as [| |k d] eqn:CT.
  - apply PLAIN. discriminate.
  - rewrite (CL ltac:(discriminate)) in *. rewrite (enc_is_deleted_unmarked sc Hsc _ Ok).
    apply PLAIN. discriminate.
  - rewrite (CL ltac:(discriminate)) in *. rewrite (enc_is_deleted_unmarked sc Hsc _ Ok).
    cbn [negb andb]. unfold ins_start. rewrite (enc_get_key sc Hsc _ _ Ok).
    cbn [enc skey].
    destruct (glob_flag MG Hsc HB s r i false true G') as [F1 F2].
    destruct ph as [e|].
    + destruct PH as (-> & R & PH).
      eapply (good_mark s _ _ _ mk' (B1 r i true)); eauto.
      * eapply mkinv_upd; eauto.
        -- intros p Lp Hp. destruct (N.eq_dec p (sp i)) as [->|NX].
           ++ right; right; right. exists s, r, i. rewrite fupd_eq. auto.
           ++ rewrite OT in Hp; auto.
        -- intros q. apply quiet_proc; rewrite R; auto.
        -- intros p FL. apply flight_upd; auto. intros r' j [Z|Z]; congruence.
      * cbn. exists r, i, k, d, 0. sp; auto; try lia.
    + destruct PH as (R & PH & _).
      eapply (good_mark s _ _ _ mk' (B2 r i true)); eauto.
      * apply F2; auto. congruence.
      * eapply mkinv_upd; eauto.
        -- intros p Lp Hp. destruct (N.eq_dec p (sp i)) as [->|NX].
           ++ right; right; right. exists s, r, i. rewrite fupd_eq. auto.
           ++ rewrite OT in Hp; auto.
        -- intros q. apply quiet_proc; rewrite R; auto.
        -- intros p FL. apply flight_upd; auto. intros r' j [Z|Z]; congruence.
      * cbn. exists r, i, k, d, 0. sp; auto; try lia.
Qed.

Lemma step_1mark e i curr src' tgt' ctr' pc' :
  hs tid = Some (H1Mark e i curr) ->
  hstep c ms mt B src tgt ctr (H1Mark e i curr) = (src', tgt', ctr', pc') ->
  good src' tgt' ctr' pc'.
Proof.
  intros E ST. pose proof (t_pc T _ _ E) as X.
  destruct (hb tid) as [s|] eqn:Hb; [|destruct X; discriminate].
  destruct X as (-> & r & R & IN & CN).
  destruct (pos1_bound MG Hsc HB GL s r i false R) as (SI & L & LC).
  destruct (rd_src i L) as [Q Ok]. cbn [hstep] in ST. rewrite Q in ST.
  destruct (atomic_mark sc (enc sc (ct i) (mk i)) curr) as [[ok cell'] curr'] eqn:A.
  injection ST as <- <- <- <-.
  destruct (mark_step MG Hsc HB (g_src GL) L Q A) as (mk' & I' & M & OT & _ & K).
  assert (G' : glob (fupd src i (Some cell')) tgt ctr ct mk' tct rg).
  { eapply (glob_src MG Hsc HB); eauto. }
  destruct K as [(-> & F & -> & EQ)|(-> & SM & MK' & NEQ & CU)].
  - assert (CE : curr = enc sc (ct (sp i)) (mk (sp i))).
    { rewrite SI. destruct (sc_mark sc) eqn:SM; auto. rewrite CN by auto. rewrite SI. f_equal.
      destruct (mk i) eqn:Y; auto. destruct Ok as [Ok _]. specialize (Ok eq_refl). congruence. }
    rewrite CE.
    apply (after_mark (fupd src i (Some cell')) mk' s r i (Some (bend s))); rewrite ?SI; auto.
    congruence.
  - eapply (good_mark s _ _ _ mk' (B1 r i false)); eauto.
    + apply (glob_flag MG Hsc HB s r i false false G'). exact R.
    + eapply mkinv_upd; eauto.
      * intros p Lp Hp. destruct (N.eq_dec p i) as [->|NE]; [left; congruence|]. rewrite OT in Hp; auto.
      * intros q. apply quiet_proc; rewrite R; auto.
      * intros p FL. apply flight_upd; auto. intros r' j [Z|Z]; congruence.
    + cbn. split; auto. exists r. auto.
Qed.

Lemma step_2init i l src' tgt' ctr' pc' :
  hs tid = Some (H2Init i l) ->
  hstep c ms mt B src tgt ctr (H2Init i l) = (src', tgt', ctr', pc') ->
  good src' tgt' ctr' pc'.
Proof.
  intros E ST. pose proof (t_pc T _ _ E) as X.
  destruct (hb tid) as [s|] eqn:Hb; [|destruct X; discriminate].
  destruct X as (r & R & H1 & H2).
  destruct l as [|q l]; cbn [hstep] in ST.
  - injection ST as <- <- <- <-. eapply good_stay; eauto. cbn. split; [eauto|].
    intros q Lq Oq N. destruct (H2 q Lq); auto.
  - destruct (H1 q (or_introl eq_refl)) as [Lq Oq].
    destruct (N.ltb_spec q ttot) as [_|]; [|lia]. injection ST as <- <- <- <-.
    eapply good_clear; eauto; [eapply (cur_free MG Hsc HB GL); eauto|].
    assert (H2' : forall q', q' < ttot -> owner q' = sp i ->
                  fupd tgt q (Some empty_slot) q' = None -> In q' l).
    { intros q' L' O' N'. apply fupd_none in N'. destruct N' as [NE N'].
      destruct (H2 q' L' O' N') as [|]; auto. congruence. }
    destruct l as [|q2 l].
    + cbn. split; [eauto|]. intros q' Lq' Oq' N. destruct (H2' q' Lq'); auto.
    + cbn. exists r. sp; auto. intros q' I'. apply H1. right. exact I'.
Qed.

Lemma step_2load i src' tgt' ctr' pc' :
  hs tid = Some (H2Load i) ->
  hstep c ms mt B src tgt ctr (H2Load i) = (src', tgt', ctr', pc') ->
  good src' tgt' ctr' pc'.
Proof.
  intros E ST. pose proof (t_pc T _ _ E) as X.
  destruct (hb tid) as [s|] eqn:Hb; [|destruct X; discriminate].
  destruct X as ([r R] & IN).
  destruct (pos_bound MG Hsc HB GL s r i false R) as (L & _).
  destruct (rd_src (sp i) L) as [Q Ok]. cbn [hstep] in ST. rewrite Q in ST.
  injection ST as <- <- <- <-. eapply good_stay; eauto. cbn. sp; eauto.
Qed.

Lemma step_2mark i curr src' tgt' ctr' pc' :
  hs tid = Some (H2Mark i curr) ->
  hstep c ms mt B src tgt ctr (H2Mark i curr) = (src', tgt', ctr', pc') ->
  good src' tgt' ctr' pc'.
Proof.
  intros E ST. pose proof (t_pc T _ _ E) as X.
  destruct (hb tid) as [s|] eqn:Hb; [|destruct X; discriminate].
  destruct X as ([r R] & IN & m0 & CU & Ok0 & MM).
  destruct (pos_bound MG Hsc HB GL s r i false R) as (L & _).
  destruct (rd_src (sp i) L) as [Q Ok]. cbn [hstep] in ST. rewrite Q in ST.
  destruct (atomic_mark sc (enc sc (ct (sp i)) (mk (sp i))) curr) as [[ok cell'] curr'] eqn:A.
  injection ST as <- <- <- <-.
  destruct (mark_step MG Hsc HB (g_src GL) L Q A) as (mk' & I' & M & OT & _ & K).
  assert (G' : glob (fupd src (sp i) (Some cell')) tgt ctr ct mk' tct rg).
  { eapply (glob_src MG Hsc HB); eauto. }
  assert (CL : ct (sp i) <> CEmpty -> mk (sp i) = false)
    by (intros X; eapply (cur_clean MG Hsc HB GL); eauto).
  assert (FIN : ct (sp i) = CEmpty -> fz mk' (sp i) ->
                good (fupd src (sp i) (Some cell')) tgt ctr HClaim).
  { intros CE F. eapply (good_leave s _ _ mk' (BDone r i)); eauto.
    - eapply glob_finish; eauto.
    - eapply mkinv_upd; eauto.
      + intros p Lp Hp. destruct (N.eq_dec p (sp i)) as [->|NE]; auto. rewrite OT in Hp; auto.
      + intros q. apply quiet_proc; rewrite R; auto.
      + intros p FL. apply flight_upd; auto. intros r' j [Z|Z]; congruence. }
  destruct K as [(-> & F & -> & EQ)|(-> & SM & MK' & NEQ & CU')].
  - assert (CE : curr = enc sc (ct (sp i)) (mk (sp i))).
    { destruct (sc_mark sc) eqn:SM; auto. rewrite CU. f_equal.
      destruct Ok as [Ok _], Ok0 as [Ok0 _].
      destruct (mk (sp i)); [rewrite Ok in SM by auto; discriminate|].
      destruct m0; auto. rewrite Ok0 in SM by auto; discriminate. }
    rewrite CE. rewrite (enc_is_empty sc Hsc _ _ Ok). destruct (ct (sp i)) eqn:CT; auto.
    + pose proof (after_mark (fupd src (sp i) (Some cell')) mk' s r i None) as Y.
      rewrite CT in Y. rewrite (enc_is_empty sc Hsc _ _ Ok) in Y. cbn [negb andb] in Y.
      rewrite (CL ltac:(discriminate)) in *. rewrite (enc_is_deleted_unmarked sc Hsc _ Ok) in *.
      cbn [negb andb] in Y. apply Y; auto; try congruence. sp; auto. discriminate.
    + pose proof (after_mark (fupd src (sp i) (Some cell')) mk' s r i None) as Y.
      rewrite CT in Y. rewrite (enc_is_empty sc Hsc _ _ Ok) in Y. cbn [negb andb] in Y.
      rewrite (CL ltac:(discriminate)) in *. rewrite (enc_is_deleted_unmarked sc Hsc _ Ok) in *.
      cbn [negb andb] in Y. apply Y; auto; try congruence. sp; auto. discriminate.
  - (* a failed mark: somebody else marked the cell, which is empty *)
    assert (ME : mk (sp i) = true /\ ct (sp i) = CEmpty).
    { destruct (mk (sp i)) eqn:MI.
      - split; auto. destruct (ct (sp i)) eqn:CT; auto; exfalso;
          specialize (CL ltac:(discriminate)); discriminate.
      - destruct m0; [discriminate (MM eq_refl)|]. congruence. }
    destruct ME as [ME CE].
    assert (EC : is_empty sc curr' = true).
    { destruct CU' as [->| ->]; [rewrite CU|]; rewrite (enc_is_empty sc Hsc); auto; now rewrite CE. }
    rewrite EC. apply FIN; auto. intros _. now apply M.
Qed.

Lemma step_ins ph i sl j src' tgt' ctr' pc' :
  hs tid = Some (HIns ph i sl j) ->
  hstep c ms mt B src tgt ctr (HIns ph i sl j) = (src', tgt', ctr', pc') ->
  good src' tgt' ctr' pc'.
Proof.
  intros E ST. pose proof (t_pc T _ _ E) as X.
  destruct (hb tid) as [s|] eqn:Hb; [|destruct X; discriminate].
  pose proof X as X0.
  destruct X as (r & x & k & d & n & H1 & H2 & H3 & H4 & H5 & H6 & H7 & H8).
  assert (RR : rg s = B1 r x true \/ rg s = B2 r x true) by (destruct ph; [left|right]; apply H2).
  destruct (probe_cell MG Hsc HB s r x true k d n GL RR H3 H4 H8) as (LQ & (y & Hy & OQ) & _).
  rewrite <- H7 in LQ, OQ.
  assert (IX : inited tgt (sp x)).
  { destruct ph as [e|]; [|apply H2]. destruct H2 as (-> & R & PH).
    pose proof (g_st GL s) as O. rewrite R in O. destruct O as (_ & O & _).
    destruct (pos1_bound MG Hsc HB GL s r x true R) as (-> & _ & _). apply PH. lia. }
  assert (NN : tgt (tp j) <> None).
  { destruct (N.eq_dec y x) as [->|NE]; [apply IX; auto|].
    apply (g_init GL (sp y)); auto. exists s, r, x, y. sp; auto; try lia.
    destruct RR as [RR|RR]; now rewrite RR. }
  assert (RD : rd c mt tgt (tp j) = Some (enc sc (tct (tp j)) false)).
  { unfold rd. destruct (N.ltb_spec (tp j) ttot); [|lia].
    destruct (g_tgt GL (tp j) LQ) as [Y|[Y _]]; congruence. }
  destruct (g_tok GL (tp j) LQ) as [Ok NT].
  cbn [hstep] in ST. rewrite RD, (enc_is_empty sc Hsc _ _ Ok) in ST. injection ST as <- <- <- <-.
  eapply good_stay; eauto.
  destruct (tct (tp j)) eqn:TC.
  - cbn. split; auto.
  - congruence.
  - cbn. exists r, x, k, d, (n + 1). sp; auto; try lia.
    intros j' L'. destruct (N.eq_dec j' n) as [->|NE]; [rewrite <- H7; congruence|]. apply H8. lia.
Qed.

Lemma step_set ph i sl j src' tgt' ctr' pc' :
  hs tid = Some (HSet ph i sl j) ->
  hstep c ms mt B src tgt ctr (HSet ph i sl j) = (src', tgt', ctr', pc') ->
  good src' tgt' ctr' pc'.
Proof.
  intros E ST. pose proof (t_pc T _ _ E) as X.
  destruct (hb tid) as [s|] eqn:Hb; [|destruct X; discriminate].
  destruct X as [X EM]. pose proof X as X0.
  destruct X as (r & x & k & d & n & H1 & H2 & H3 & H4 & H5 & H6 & H7 & H8).
  assert (RR : rg s = B1 r x true \/ rg s = B2 r x true) by (destruct ph; [left|right]; apply H2).
  destruct (probe_cell MG Hsc HB s r x true k d n GL RR H3 H4 H8) as (LQ & _ & _).
  rewrite <- H7 in LQ.
  assert (IX : inited tgt (sp x)).
  { destruct ph as [e|]; [|apply H2]. destruct H2 as (-> & R & PH).
    pose proof (g_st GL s) as O. rewrite R in O. destruct O as (_ & O & _).
    destruct (pos1_bound MG Hsc HB GL s r x true R) as (-> & _ & _). apply PH. lia. }
  rewrite H7 in EM.
  pose proof (glob_adv_store MG Hsc HB s r x true k d n GL RR H5 IX H3 H4 H8 EM) as G2.
  assert (NE : rg s = B2 r x true -> ct (sp x) <> CEmpty) by (intros _; congruence).
  destruct (adv_rg MG Hsc HB s r x true GL RR H5 NE) as (_ & P & _).
  rewrite <- H7 in G2, EM. rewrite <- H6 in G2.
  cbn [hstep] in ST. destruct (N.ltb_spec (tp j) ttot); [|lia]. injection ST as <- <- <- <-.
  exists mk, (fupd tct (tp j) (CLive k d)), (fupd rg s (adv s r (x + 1))), hb.
  split; [|apply mono_refl].
  assert (TG : forall q, tgt q <> None -> fupd tgt (tp j) (Some sl) q <> None).
  { intros q Y. unfold fupd. destruct (q =? tp j); auto; discriminate. }
  split; auto.
  - eapply mkinv_upd; eauto.
    + intros q Hq. apply P. auto.
    + intros p FL. apply flight_upd; auto. intros r' y Z ->. left. apply P. right.
      destruct RR, Z; congruence.
  - eapply (thr_keep MG Hsc HB mk _ _ _ tid s); eauto.
    + intros s' N. now rewrite fupd_neq.
    + intros t pc s' NS Ht' Hp HI.
      eapply (hinv_stable MG Hsc HB); eauto; [apply mono_refl| |].
      * intros q Y. unfold fupd. destruct (q =? tp j); auto; discriminate.
      * intros ph' i' sl' j' ->. apply fupd_neq. intros Q.
        destruct HI as [HI _].
        apply (set_disjoint MG Hsc HB s' ph' i' sl' j' s ph i sl j GL NS HI X0 Q).
    + rewrite fupd_eq. rewrite H1. destruct ph as [e|]; cbn [after_insert].
      * destruct H2 as (-> & R & PH).
        pose proof (next1_inv MG Hsc HB s r (x + 1) G2) as Y. rewrite fupd_eq in Y. apply Y; auto.
        intros p Hp q Lq Oq. apply TG. apply (PH p); auto. lia.
      * destruct H2 as (R & _). pose proof (g_st GL s) as O. rewrite R in O. destruct O as (_ & O & _).
        assert (AE : adv s r (x + 1) = B2 r (x + 1) false).
        { unfold MigrateStep.adv. destruct (N.ltb_spec (x + 1) (bend s)); auto. lia. }
        pose proof (start2_inv MG Hsc HB s r (x + 1) G2) as Y. rewrite fupd_eq in Y. now apply Y.
Qed.

Theorem hstep_inv pc src' tgt' ctr' pc' :
  lg <= 31 -> B <= 2 ^ 31 ->
  hs tid = Some pc -> hstep c ms mt B src tgt ctr pc = (src', tgt', ctr', pc') ->
  good src' tgt' ctr' pc'.
Proof.
  intros LG LB E ST. destruct pc.
  - eapply step_claim; eauto.
  - cbn in ST. injection ST as <- <- <- <-. exists mk, tct, rg, hb. split; [|apply mono_refl].
    pose proof (t_pc T _ _ E) as X. destruct (hb tid) as [s|] eqn:Hb; [destruct X|].
    split; auto. apply idle_keep; auto.
  - eapply step_0load; eauto.
  - eapply step_0mark; eauto.
  - eapply step_1init; eauto.
  - eapply step_1load; eauto.
  - eapply step_1mark; eauto.
  - eapply step_2init; eauto.
  - eapply step_2load; eauto.
  - eapply step_2mark; eauto.
  - eapply step_ins; eauto.
  - eapply step_set; eauto.
  - pose proof (t_pc T _ _ E) as X. destruct (hb tid) as [s|] eqn:Hb; [destruct X|].
    destruct X; discriminate.
Qed.

End T.
End Help.
