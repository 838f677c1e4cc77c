(** Growth keeps the elements of a table of pointer cells. *)
From Coq Require Import NArith Bool List Lia.
From Verif Require Import Words Slot SlotFacts Mapper MapperFacts ReturnCode MapSpec LinSpec Base
  BaseInv TableSpec Migrate GrowSpec MigrateGeo MigrateSys GrowFacts Ptr PtrSpec PtrWords PtrInv PtrMove.
Import ListNotations.
Open Scope N_scope.

Lemma resize_size mc m lg ins del : wf_mapper mc m lg -> lg <= 31 ->
  exists lg', addressable_slots mc (resize mc m ins del) = 2 ^ lg' /\ wf_mapper mc (resize mc m ins del) lg'.
Proof.
  intros W L. assert (LW := W). destruct LW as [L1 _].
  unfold resize. rewrite (addressable_val _ _ _ W).
  set (ab := fill_above (w64 (ins + (2 ^ 64 - w64 del))) (2 ^ lg)).
  exists (lg + if ab then 1 else 0).
  assert (E : (if ab then 2 ^ lg * 2 else 2 ^ lg) = 2 ^ (lg + if ab then 1 else 0)).
  { destruct ab; [rewrite pow2_add1; lia|now rewrite N.add_0_r]. }
  rewrite E. assert (W' : wf_mapper mc (mk_mapper mc (2 ^ (lg + (if ab then 1 else 0)))
     (if cmap mc then 2 ^ lg else if ab then 1 else 0)) (lg + if ab then 1 else 0)).
  { apply wf_mk. destruct ab; lia. }
  split; auto. now apply addressable_val.
Qed.

(** The elements of a finite table as a map. *)
Lemma abs_exists c m ct : (forall p k d, p < total_slots (tmc c) m -> ct p = CLive k d -> d = 0) ->
  exists a, absr c m ct a.
Proof.
  intros Z.
  pose (f := fun k p => match ct p with CLive k' _ => k' =? k | _ => false end).
  exists (fun k => if existsb (f k) (nseq 0 (N.to_nat (total_slots (tmc c) m))) then Some 0 else None).
  intros k d. destruct (existsb (f k) _) eqn:E.
  - apply existsb_exists in E. destruct E as (p & IN & F). apply in_nseq_N in IN. unfold f in F.
    destruct (ct p) as [| |k' d'] eqn:C; try discriminate. apply N.eqb_eq in F. subst k'.
    assert (p < total_slots (tmc c) m) by lia.
    pose proof (Z p k d' H C). subst d'. split.
    + intros [= <-]. eauto.
    + intros (q & Lq & Cq). pose proof (Z q k d Lq Cq). congruence.
  - split; [discriminate|]. intros (p & L & C). exfalso.
    assert (X : existsb (f k) (nseq 0 (N.to_nat (total_slots (tmc c) m))) = true).
    { apply existsb_exists. exists p. split; [apply in_nseq_N; lia|]. unfold f. rewrite C. apply N.eqb_refl. }
    congruence.
Qed.

Section Grow.
Context (c : pcfg) (alloc : N -> Prop) (good : Prop).
Context (HA : forall a, alloc a -> 0 < a < 2 ^ 48) (HD : forall a, alloc a -> a <> 2 ^ 32).
Context (CF : cmap (pmc c) = false \/ cprob (pmc c) = true) (PG : pgrow c = true).
Notation mk := (pmk c).
Notation mc := (pmc c).

Section One.
Context (hp : heap) (m : mapper) (lg : N) (Hm : wf_mapper (pmc c) m lg) (t : wmem).
Notation ic := (TCfg (psc (pmk c)) (pmc c) (whash (pmk c) (phash c) hp)).
Notation tot := (total_slots mc m).
Context (I : pinv c alloc good m hp t).

Definition ict (p : N) : content :=
  match t p with
  | Some w => if w_ptr w =? 0 then CEmpty else CLive (wkey mk w) 0
  | None => CEmpty
  end.
Definition imem (p : N) : option slot := if p <? tot then option_map (img mk) (t p) else None.
Definition cut (p : N) : option N := if p <? tot then t p else None.

Lemma cell_wok p w : p < tot -> t p = Some w -> wok mk hp w /\ w_mark mk w = false.
Proof.
  intros L E. destruct (pi_cell _ _ _ _ _ _ I p L) as (w' & E' & W & F & M).
  rewrite E in E'. injection E' as <-. split; auto. unfold wok. sp; auto.
  - destruct (N.eq_dec (w_ptr w) 0) as [->|NZ]; [discriminate|].
    apply HD. apply (pi_live _ _ _ _ _ _ I p _ L (cellp_some _ _ _ E NZ)).
  - intros NZ. apply (pi_live _ _ _ _ _ _ I p _ L (cellp_some _ _ _ E NZ)).
Qed.

Lemma img_unmarked w : w < 2 ^ 64 -> w_mark mk w = false -> img mk w = Slot (wkey mk w) 0.
Proof.
  intros L M. unfold img, wkey, w_mark in *. destruct mk; auto. cbn [andb] in M.
  rewrite odd_mod in M. apply negb_false_iff in M. apply N.eqb_eq in M. rewrite M. f_equal. lia.
Qed.

Lemma wkey_inj w w' : w < 2 ^ 64 -> w' < 2 ^ 64 -> w_mark mk w = false -> w_mark mk w' = false ->
  wkey mk w = wkey mk w' -> w = w'.
Proof.
  intros L L' M M' E. apply (img_inj mk); auto. rewrite !img_unmarked by assumption. now rewrite E.
Qed.

Lemma ict_live p k d : p < tot -> ict p = CLive k d <->
  exists w, t p = Some w /\ w_ptr w <> 0 /\ k = wkey mk w /\ d = 0.
Proof.
  intros L. unfold ict. destruct (t p) as [w|].
  - destruct (N.eqb_spec (w_ptr w) 0) as [Z|NZ]; split.
    + discriminate.
    + intros (w' & [= <-] & X & _). contradiction.
    + intros [= <- <-]. exists w. auto.
    + intros (w' & [= <-] & _ & -> & ->). reflexivity.
  - split; [discriminate|]. intros (w' & X & _). discriminate.
Qed.

Lemma key_home w k d : hp (w_ptr w) = Some (k, d) -> home ic m (wkey mk w) = phome c m k.
Proof.
  intros E. unfold home, phome, hashk, phk, whash. cbn [thash tmc]. now rewrite wkey_ptr, E.
Qed.

Lemma src_tinv : tinv ic m imem ict (fun _ => false).
Proof.
  assert (CW : forall p w, p < tot -> t p = Some w -> w_ptr w <> 0 -> valid_key (psc mk) (wkey mk w)).
  { intros p w L E NZ. destruct (cell_wok p w L E) as [(W & F & D & K) M].
    assert (KL := wkey_lt mk w W). assert (KZ : wkey mk w <> 0).
    { intros Z. apply (wkey_zero mk w W F) in Z. contradiction. }
    unfold valid_key, psc. cbn [sc_w sc_mark]. change (66 - 1) with 65.
    change (2 ^ 66) with 73786976294838206464. change (2 ^ 65) with 36893488147419103232.
    change (2 ^ 64) with 18446744073709551616 in KL.
    sp; try lia; rewrite N.mod_small by lia; exact KZ. }
  split; cbn [tmc tsc].
  - intros p L. unfold imem. destruct (N.ltb_spec p tot); [|lia].
    destruct (pi_cell _ _ _ _ _ _ I p L) as (w & E & W & F & M). specialize (M PG). rewrite E. cbn.
    unfold ict. rewrite E. destruct (N.eqb_spec (w_ptr w) 0) as [Z|NZ].
    + rewrite (no_ptr mk w W (F Z) Z), M. split; [apply (f_equal Some), img_zero|].
      split; [discriminate|exact Logic.I].
    + rewrite img_unmarked by assumption. split; [reflexivity|]. split; [discriminate|]. eapply CW; eauto.
  - intros p k d L E. apply ict_live in E; auto. destruct E as (w & E & NZ & -> & ->).
    pose proof (cellp_some _ _ _ E NZ) as C.
    destruct (pi_live _ _ _ _ _ _ I p _ L C) as [_ K].
    destruct (hkey hp (w_ptr w)) as [k|] eqn:HK; [|contradiction].
    destruct (pi_reach _ _ _ _ _ _ I p _ k L C HK) as (n & En & Pn).
    apply hkey_some in HK. destruct HK as [d HK]. rewrite (key_home w k d HK).
    exists n. split; auto. intros j Lj. rewrite (key_home w k d HK). cbn [tmc].
    destruct (Pn j Lj) as ((b & Cb) & NE).
    assert (Lq : remap mc m (phome c m k + j) < tot).
    { apply (cell_bound c alloc False HA m lg Hm hp t k j).
      - split; try apply I; intros [].
      - intros j' Lj'. destruct (Pn j') as ((b' & Cb') & _); [lia|]. exists b'. split; [exact Cb'|intros []]. }
    destruct Cb as (v & Ev & Ep & NZv). split.
    + unfold ict. rewrite Ev. rewrite Ep. destruct (N.eqb_spec b 0); [contradiction|discriminate].
    + intros d' E'. apply ict_live in E'; auto. destruct E' as (v' & Ev' & _ & Ek & _).
      rewrite Ev in Ev'. injection Ev' as <-.
      destruct (cell_wok p w L E) as [(W & _) M]. destruct (cell_wok _ v Lq Ev) as [(W' & _) M'].
      assert (X : w = v) by (apply wkey_inj; auto). subst v.
      apply NE. apply (pi_inj _ _ _ _ _ _ I _ p (w_ptr w)); auto. exists w. auto.
  - intros CP p G L. unfold ict. destruct (t p) as [w|] eqn:E; auto.
    destruct (N.eqb_spec (w_ptr w) 0); auto.
    elim (pi_over _ _ _ _ _ _ I CP p (w_ptr w) G L). now apply cellp_some.
Qed.

(** What growth leaves. *)
Lemma move_ok ins del B s :
  lg <= 31 -> 0 < B <= 2 ^ 31 ->
  pmsteps c m (resize mc m ins del) B hp (pminit c (resize mc m ins del) t) s -> pmfinished s ->
  (cprob mc = true -> exists p w, p < tot /\ t p = Some w /\ w_empty mk w = true) ->
  exists lg', wf_mapper mc (resize mc m ins del) lg' /\
    pinv c alloc good (resize mc m ins del) hp (pmtgt s) /\
    (forall a, (exists p, p < tot /\ cellp t p a) <->
               (exists q, q < total_slots mc (resize mc m ins del) /\ cellp (pmtgt s) q a)).
Proof.
  intros LG [B0 BL] ST FIN V. set (mt := resize mc m ins del) in *.
  destruct (resize_size mc m lg ins del Hm LG) as (lg' & EA & Wt). fold mt in EA, Wt.
  destruct (resize_migr ic m lg lg' ins del Hm LG CF EA) as (g & -> & MG). cbn [tmc] in MG. fold mt in MG.
  exists (lg + g). split; auto.
  (* cells outside of the table do not matter *)
  assert (CUT : exists s2, pmsteps c m mt B hp (pminit c mt cut) s2 /\ pmfinished s2 /\
                  (forall q, pmtgt s2 q = pmtgt s q)).
  { assert (G : forall x x', pmsteps c m mt B hp x x' -> forall src,
       (forall p, p < tot -> src p = pmsrc x p) ->
       exists src', pmsteps c m mt B hp (PMSys src (pmtgt x) (pmctr x) (pmhlp x))
                      (PMSys src' (pmtgt x') (pmctr x') (pmhlp x')) /\
                    (forall p, p < tot -> src' p = pmsrc x' p)).
    { intros x x' XS. induction XS as [x|x x1 x2 S XS IH]; intros src EQ.
      - exists src. destruct x. cbn. split; [constructor|auto].
      - assert (X : exists src1, pmstep c m mt B hp (PMSys src (pmtgt x) (pmctr x) (pmhlp x))
                      (PMSys src1 (pmtgt x1) (pmctr x1) (pmhlp x1)) /\
                    (forall p, p < tot -> src1 p = pmsrc x1 p)).
        { destruct S as [sx tx kx h tid E|sx tx kx h tid pc s' t' k' pc' E STP]; cbn in *.
          - exists src. split; auto. now constructor.
          - assert (R : forall p, prd c m src p = prd c m sx p).
            { intros p. unfold prd. destruct (N.ltb_spec p tot); auto. }
            assert (U : forall q v, forall p, p < tot -> fupd src q v p = fupd sx q v p).
            { intros q v p L. unfold fupd. destruct (p =? q); auto. }
            assert (Y : exists src1, phstep c m mt B hp src tx kx pc = (src1, t', k', pc') /\
                           (forall p, p < tot -> src1 p = s' p)).
            { destruct pc; cbn [phstep] in *; rewrite ?R.
              all: repeat match type of STP with
                   | context [match prd ?a ?b ?d ?e with Some _ => _ | None => _ end] =>
                       destruct (prd a b d e) eqn:?
                   | context [let '(_, _) := w_atomic_mark ?a ?b ?e in _] =>
                       destruct (w_atomic_mark a b e) as [[? ?] ?] eqn:?
                   | context [match ?l with [] => _ | _ :: _ => _ end] => is_var l; destruct l
                   | context [if ?p <? total_slots ?a ?b then _ else _] => destruct (p <? total_slots a b)
                   end; injection STP as <- <- <- <-; eexists; split; try reflexivity; auto. }
            destruct Y as (src1 & Y1 & Y2). exists src1. split; auto. econstructor; eauto. }
        destruct X as (src1 & X1 & X2). destruct (IH src1 X2) as (src2 & Z1 & Z2).
        exists src2. split; auto. econstructor; eauto. }
    destruct (G _ _ ST cut) as (src' & X & _).
    { intros p L. unfold cut. destruct (N.ltb_spec p tot); [reflexivity|lia]. }
    exists (PMSys src' (pmtgt s) (pmctr s) (pmhlp s)). sp; auto. }
  destruct CUT as (s2 & ST2 & FIN2 & TG).
  (* the same migration of in-place cells *)
  assert (R0 : sr c hp (pminit c mt cut) (msys_init ic mt imem (fun _ => None))).
  { unfold sr. cbn. sp; auto.
    - intros p. unfold cut, imem. destruct (N.ltb_spec p tot); auto.
      destruct (t p) as [w|] eqn:E; cbn; auto. split; auto. now apply (cell_wok p w).
    - intros p. unfold ptarget, target_mem.
      destruct (negb (cprob mc) && (addressable_slots mc mt <=? p) && (p <? total_slots mc mt)); auto.
      split; [f_equal; symmetry; apply img_zero|]. apply wok_zero. }
  destruct (pmsteps_sim c m mt B hp _ _ _ ST2 R0) as (y & YS & R).
  pose proof (sr_finished c hp _ _ R FIN2) as YF.
  assert (ZD : forall p k d, p < tot -> ict p = CLive k d -> d = 0).
  { intros p k d L E. apply ict_live in E; auto. destruct E as (w & _ & _ & _ & ->). reflexivity. }
  destruct (abs_exists ic m ict ZD) as [a A].
  assert (HSC : wf_scfg (tsc ic)) by (cbn; unfold wf_scfg, psc; cbn; lia).
  pose proof (minit ic m mt lg g B MG HSC B0 LG BL imem ict a nobody src_tinv A) as M0.
  destruct (msim_alone ic m mt lg g B MG HSC B0 LG BL _ _ _ _ (fun _ : N => eq_refl : mthr (msys_init ic mt imem (fun _ => None)) _ = None) M0 YS) as (NT & MR & _).
  destruct (mdone ic m mt lg g B MG HSC B0 LG BL _ _ _ MR YF) as (tct & T1 & T2 & T3).
  { intros CP ct' mk' I'. destruct (V CP) as (p & w & L & E & EW). exists p. split; auto.
    assert (VQ : vac (psc mk) (msrc y) p).
    { apply (vac_quiet (psc mk) mc _ m mt B _ _ _ p (fun _ : N => eq_refl : mthr (msys_init ic mt imem (fun _ => None)) _ = None) YS).
      cbn. unfold vac, imem. destruct (N.ltb_spec p tot); [|lia]. rewrite E. cbn. exists (img mk w).
      split; auto. destruct (cell_wok p w L E) as [(W & F & _) M]. left.
      rewrite (empty_iff mk w W F) in EW. apply N.eqb_eq in EW.
      rewrite (no_ptr mk w W (F EW) EW), M. now rewrite img_zero. }
    destruct VQ as (x & Ex & Wx). destruct (ti_cell _ _ _ _ _ I' p L) as [E' O].
    rewrite Ex in E'. injection E' as ->.
    pose proof (enc_is_empty (tsc ic) HSC _ _ O) as EE.
    assert (IE : is_empty (tsc ic) (enc (tsc ic) (ct' p) (mk' p)) = true).
    { unfold is_empty. rewrite land_bmask by exact HSC. cbn [tsc] in *.
      destruct Wx as [->|[_ ->]]; [reflexivity|]. unfold psc, mbit. cbn [sc_w].
      change (66 - 1) with 65. rewrite N.add_0_l. reflexivity. }
    rewrite IE in EE. destruct (ct' p); congruence. }
  cbn [ast] in T2.
  (* reading off the target *)
  destruct R as (_ & RT & _).
  assert (CELL : forall q, q < total_slots mc mt ->
     exists w, pmtgt s q = Some w /\ wok mk hp w /\ w_mark mk w = false /\
       (w_ptr w = 0 -> w_fp mk w = 0) /\
       tct q = (if w_ptr w =? 0 then CEmpty else CLive (wkey mk w) 0)).
  { intros q L. destruct (ti_cell _ _ _ _ _ T1 q L) as [E O]. specialize (RT q). rewrite TG in RT.
    destruct (pmtgt s q) as [w|]; [|congruence]. destruct RT as [RT W]. rewrite E in RT.
    injection RT as RT. cbn [tsc] in RT. exists w.
    assert (M : w_mark mk w = false /\ tct q = if w_ptr w =? 0 then CEmpty else CLive (wkey mk w) 0).
    { destruct W as (W & F & _).
      assert (KL := wkey_lt mk w W). change (2 ^ 64) with 18446744073709551616 in KL.
      assert (UM : skey (img mk w) < 2 ^ 65 -> w_mark mk w = false).
      { unfold img, w_mark. destruct mk; auto. cbn [skey andb]. rewrite odd_mod. intros X.
        destruct (N.eqb_spec (w mod 2) 0) as [|NZ]; auto. exfalso.
        assert (1 * 2 ^ 65 <= w mod 2 * 2 ^ 65) by (apply N.mul_le_mono_r; lia).
        change (2 ^ 65) with 36893488147419103232 in *. lia. }
      destruct (tct q) as [| |k d] eqn:Et.
      - cbn in RT. assert (U : w_mark mk w = false) by (apply UM; rewrite <- RT; reflexivity).
        split; auto. rewrite (img_unmarked w W U) in RT. injection RT as RT. symmetry in RT.
        apply (wkey_zero mk w W F) in RT. now rewrite RT.
      - elim (T3 q L Et).
      - cbn in RT. destruct O as [_ O]. cbn [tsc] in O.
        assert (U : w_mark mk w = false).
        { apply UM. rewrite <- RT. cbn [skey].
          destruct (T2 k d) as [_ T2']. assert (AK : a k = Some d) by (apply T2'; eauto).
          apply A in AK. destruct AK as (p & L' & E'). apply ict_live in E'; auto.
          destruct E' as (v & Ev & _ & -> & _). destruct (cell_wok p v L' Ev) as [(Wv & _) _].
          pose proof (wkey_lt mk v Wv) as X. eapply N.lt_trans; [exact X|reflexivity]. }
        split; auto. rewrite (img_unmarked w W U) in RT. injection RT as -> ->.
        destruct (N.eqb_spec (w_ptr w) 0) as [Z|]; auto. exfalso.
        apply (wkey_zero mk w W F) in Z. destruct O as (_ & O & _). rewrite Z in O. now elim O. }
    destruct M as [M1 M2]. sp; auto. apply W. }
  (* every word of the target is a word of the source and vice versa *)
  assert (FWD : forall p w, p < tot -> t p = Some w -> w_ptr w <> 0 ->
                exists q, q < total_slots mc mt /\ pmtgt s q = Some w).
  { intros p w L E NZ. destruct (cell_wok p w L E) as [(W & _) M].
    assert (AK : a (wkey mk w) = Some 0).
    { apply A. exists p. split; auto. apply ict_live; auto. exists w. auto. }
    apply T2 in AK. destruct AK as (q & Lq & Eq). exists q. split; auto.
    destruct (CELL q Lq) as (v & Ev & Wv & Mv & _ & Tv). rewrite Tv in Eq.
    destruct (N.eqb_spec (w_ptr v) 0); [discriminate|]. injection Eq as Eq.
    rewrite Ev. f_equal. apply wkey_inj; auto. apply Wv. }
  assert (BWD : forall q w, q < total_slots mc mt -> pmtgt s q = Some w -> w_ptr w <> 0 ->
                exists p, p < tot /\ t p = Some w).
  { intros q w Lq Eq NZ. destruct (CELL q Lq) as (v & Ev & Wv & Mv & _ & Tv).
    rewrite Eq in Ev. injection Ev as <-. destruct (N.eqb_spec (w_ptr w) 0); [contradiction|].
    assert (AK : a (wkey mk w) = Some 0) by (apply T2; eauto).
    apply A in AK. destruct AK as (p & L & E). exists p. split; auto. apply ict_live in E; auto.
    destruct E as (v & Ev & NZv & Ek & _). rewrite Ev. f_equal. symmetry. destruct (cell_wok p v L Ev) as [(W & _) M].
    apply wkey_inj; auto. apply Wv. }
  assert (TINJ : forall q r w, q < total_slots mc mt -> r < total_slots mc mt ->
            pmtgt s q = Some w -> pmtgt s r = Some w -> w_ptr w <> 0 -> q = r).
  { intros q r w Lq Lr Eq Er NZ. destruct (CELL q Lq) as (v & Ev & _ & _ & _ & Tv).
    destruct (CELL r Lr) as (v' & Ev' & _ & _ & _ & Tv'). rewrite Eq in Ev. injection Ev as <-.
    rewrite Er in Ev'. injection Ev' as <-. destruct (N.eqb_spec (w_ptr w) 0); [contradiction|].
    eapply (live_unique ic mt); eauto. }
  assert (PW : forall p p' w w', p < tot -> p' < tot -> t p = Some w -> t p' = Some w' ->
               w_ptr w <> 0 -> w_ptr w = w_ptr w' -> w = w').
  { intros p p' w w' L L' E E' NZ Ep.
    assert (X : p = p').
    { apply (pi_inj _ _ _ _ _ _ I p p' (w_ptr w)); auto; [exists w; auto|exists w'; auto]. }
    subst p'. congruence. }
  split.
  2: { intros a'. split.
    - intros (p & L & w & E & <- & NZ). destruct (FWD p w L E NZ) as (q & Lq & Eq).
      exists q. split; auto. exists w. auto.
    - intros (q & Lq & w & Eq & <- & NZ). destruct (BWD q w Lq Eq NZ) as (p & L & E).
      exists p. split; auto. exists w. auto. }
  split.
  - intros q Lq. destruct (CELL q Lq) as (w & E & W & M & F & _). exists w. sp; auto. apply W.
  - intros q b Lq (w & Eq & <- & NZ). destruct (BWD q w Lq Eq NZ) as (p & L & E).
    apply (pi_live _ _ _ _ _ _ I p); auto. exists w. auto.
  - intros q r b Lq Lr (w & Eq & <- & NZ) (w' & Er & Ep & _).
    destruct (BWD q w Lq Eq NZ) as (p & L & E).
    destruct (BWD r w' Lr Er) as (p' & L' & E'); [congruence|].
    assert (w = w') by (eapply (PW p p'); eauto). subst w'. eapply TINJ; eauto.
  - intros q b k Lq (w & Eq & <- & NZ) HK. destruct (CELL q Lq) as (v & Ev & W & M & F & Tv).
    rewrite Eq in Ev. injection Ev as <-. destruct (N.eqb_spec (w_ptr w) 0); [contradiction|].
    destruct (ti_reach _ _ _ _ _ T1 q _ _ Lq Tv) as (n' & En & Pn). cbn [tmc] in *.
    apply hkey_some in HK. destruct HK as [d HK].
    assert (HH : home ic mt (wkey mk w) = phome c mt k).
    { unfold home, phome, hashk, phk, whash. cbn [thash tmc]. now rewrite wkey_ptr, HK. }
    rewrite HH in *. exists n'. split; auto. intros j Lj. destruct (Pn j Lj) as [P1 P2].
    rewrite HH in *. cbn [tmc] in *.
    assert (Lr : remap mc mt (phome c mt k + j) < total_slots mc mt).
    { rewrite <- HH. apply (prefix_bound ic mt (lg + g) Wt _ _ _ (wkey mk w) j T1).
      intros j' Lj'. apply Pn. lia. }
    destruct (CELL _ Lr) as (v & Ev & _ & _ & _ & Tv'). split.
    + exists (w_ptr v). destruct (N.eqb_spec (w_ptr v) 0) as [Z|NZv]; [contradiction|].
      exists v. auto.
    + intros X. rewrite X in P2. exact (P2 0 Tv).
  - intros CP q b G Lq (w & Eq & <- & NZ). pose proof (ti_over _ _ _ _ _ T1 CP q G Lq) as TE.
    destruct (CELL q Lq) as (v & Ev & _ & _ & _ & Tv). rewrite Eq in Ev. injection Ev as <-.
    destruct (N.eqb_spec (w_ptr w) 0); [contradiction|]. congruence.
  - intros gd q w k Lq Eq NZ HK. destruct (BWD q w Lq Eq NZ) as (p & L & E).
    now apply (pi_fp _ _ _ _ _ _ I gd p w k).
  - intros gd q r b b' k Lq Lr (w & Eq & <- & NZ) (w' & Er & <- & NZ') HK HK'.
    destruct (BWD q w Lq Eq NZ) as (p & L & E). destruct (BWD r w' Lr Er NZ') as (p' & L' & E').
    assert (X : p = p').
    { apply (pi_key _ _ _ _ _ _ I gd p p' (w_ptr w) (w_ptr w') k); auto; [exists w; auto|exists w'; auto]. }
    subst p'. rewrite E in E'. injection E' as <-. eapply TINJ; eauto.
Qed.

End One.
End Grow.
