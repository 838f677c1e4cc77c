(** Further facts about migrations: blocks, bounds, and tables too large for the
    block distribution. *)
From Coq Require Import NArith Bool List Lia.
From Verif Require Import Words Slot SlotFacts Mapper MapperFacts MapSpec LinSpec Base BaseInv BaseLin
  TableSpec BaseFacts Migrate GrowSpec MigrateGeo MigrateInv MigrateStep MigrateRun MigrateHelp MigrateDone
  MigrateSys GrowFacts.
Import ListNotations.
Open Scope N_scope.

Lemma step_ctr c ms mt B client s e s' :
  msys_step c ms mt B client s e s' -> mctr s' = mctr s \/ mctr s' = mctr s + B.
Proof.
  intros [x t k h th tid E|x t k h th tid pc x' t' k' pc' E ST|x t k h th tid o E CL
         |x t k h th tid o pc b x' pc' E ND ST|x t k h th tid o r E]; cbn; auto.
  destruct pc; cbn [hstep] in ST;
    repeat match type of ST with
    | context [match rd ?a ?b ?d ?e with Some _ => _ | None => _ end] => destruct (rd a b d e)
    | context [let '(_, _) := ?x in _] => destruct x
    | context [match ?l with [] => _ | _ :: _ => _ end] => destruct l
    | context [if ?b then _ else _] => destruct b
    end; injection ST as _ _ <- _; auto.
Qed.

Lemma ne_start2 c ms mt i : start2 c ms mt i <> HEnd.
Proof. unfold start2. destruct (init_one _ _ _); discriminate. Qed.
Lemma ne_next1 c ms mt e i : next1 c ms mt e i <> HEnd.
Proof. unfold next1. destruct (i <? e); [discriminate|apply ne_start2]. Qed.
Lemma ne_after0 c ms mt e i : after0 c ms mt e i <> HEnd.
Proof.
  unfold after0. destruct (i <? e); [|discriminate].
  destruct (init_range _ _ _ _); [apply ne_next1|discriminate].
Qed.
Lemma ne_enter c ms mt a e : enter c ms mt a e <> HEnd.
Proof.
  unfold enter. destruct (_ || _); [|apply ne_after0]. destruct (a <? e); discriminate.
Qed.

(** *** Blocks *)

Definition covers (p : N) (b : N * N) : bool := (fst b <=? p) && (p <? snd b).

Section Blocks.
Context (c : tcfg) (ms mt : mapper) (lg B : N) (client : op -> Prop).
Context (W : wf_mapper (tmc c) ms lg) (LG : lg <= 31) (HB : 0 < B) (LB : B <= 2 ^ 31).
Notation cap := (2 ^ lg).

Lemma block_end_val a : a < cap -> block_end B cap a = N.min (a + B) cap.
Proof.
  intros L. assert (C : cap <= 2 ^ 31) by (apply pow2_le; lia).
  unfold block_end, w32. change (2 ^ 32) with (2 * 2 ^ 31).
  rewrite !N.mod_small; lia.
Qed.

Lemma claims_inv src l s :
  claims c ms mt B client (msys_init c mt src idle) l s ->
  (forall b, In b l -> fst b < snd b /\ snd b <= cap /\ snd b - fst b <= B) /\
  (forall p, p < cap ->
     length (filter (covers p) l) = if p <? mctr s then 1%nat else 0%nat).
Proof.
  remember (msys_init c mt src idle) as s0 eqn:E0. induction 1 as [s|s l s1 e s2 H IH ST]; subst s.
  - split; [intros b []|]. intros p L. cbn. destruct (N.ltb_spec p 0); [lia|reflexivity].
  - destruct (IH eq_refl) as [IH1 IH2]. clear IH.
    unfold handed. rewrite (addressable_val _ _ _ W).
    destruct (N.eqb_spec (mctr s1) (mctr s2)) as [EQ|NE].
    { cbn. split; auto. intros p L. rewrite IH2 by exact L. now rewrite EQ. }
    destruct (step_ctr _ _ _ _ _ _ _ _ ST) as [X|X]; [congruence|]. rewrite X.
    destruct (N.ltb_spec (mctr s1) cap) as [L|L].
    + rewrite block_end_val by exact L. cbn [app]. split.
      * intros b [<-|I]; [cbn; lia|auto].
      * intros p Lp. cbn [filter]. unfold covers at 1. cbn [fst snd].
        specialize (IH2 p Lp). revert IH2.
        destruct (N.leb_spec (mctr s1) p); destruct (N.ltb_spec p (N.min (mctr s1 + B) cap));
          destruct (N.ltb_spec p (mctr s1)); destruct (N.ltb_spec p (mctr s1 + B)); cbn [andb length];
          intros ->; lia.
    + cbn. split; auto. intros p Lp. rewrite IH2 by exact Lp.
      destruct (N.ltb_spec p (mctr s1)); destruct (N.ltb_spec p (mctr s1 + B)); lia.
Qed.

Lemma claims_end src l s :
  claims c ms mt B client (msys_init c mt src idle) l s ->
  forall tid, mhlp s tid = Some HEnd -> cap <= mctr s.
Proof.
  remember (msys_init c mt src idle) as s0 eqn:E0. induction 1 as [s|s l s1 e s2 H IH ST]; subst s.
  - discriminate.
  - specialize (IH eq_refl). pose proof (step_ctr _ _ _ _ _ _ _ _ ST) as X.
    destruct ST as [x t k h th tid E|x t k h th tid pc x' t' k' pc' E ST|x t k h th tid o E CL
         |x t k h th tid o pc b x' pc' E ND ST|x t k h th tid o r E]; cbn in *; auto.
    + intros u. unfold fupd. destruct (u =? tid); [discriminate|apply IH].
    + assert (Y : pc' = HEnd -> pc = HEnd \/ cap <= k').
      { clear - ST W HB. pose proof (addressable_val _ _ _ W) as AV.
        destruct pc; cbn [hstep] in ST;
        repeat match type of ST with
        | context [match rd ?a ?b ?d ?e with Some _ => _ | None => _ end] => destruct (rd a b d e)
        | context [let '(_, _) := ?x in _] => destruct x
        | context [match ?l with [] => _ | _ :: _ => _ end] => destruct l
        | context [if ?b then _ else _] => destruct b eqn:?
        end; injection ST as <- <- <- <-; try discriminate; auto;
        try (intros X; exfalso; revert X;
          first [apply ne_enter|apply ne_after0|apply ne_next1|apply ne_start2]).
        all: try (intros Z; exfalso; revert Z; unfold after_insert, ins_start;
                  repeat match goal with |- context [match ?z with _ => _ end] => destruct z end;
                  first [discriminate|apply ne_next1|apply ne_start2]).
        intros _. right. apply N.ltb_ge in Heqb. rewrite AV in Heqb. lia. }
      intros u. unfold fupd. destruct (N.eqb_spec u tid) as [->|NE].
      * intros [= EQ]. destruct (Y EQ) as [Z|Z]; auto. subst pc. specialize (IH tid E). lia.
      * intros Eu. specialize (IH u Eu). lia.
Qed.

End Blocks.

(** *** Tables of 2^32 slots and more *)

Lemma w32_big lg : 32 <= lg -> w32 (2 ^ lg) = 0.
Proof.
  intros L. unfold w32. replace lg with (32 + (lg - 32)) by lia. rewrite N.pow_add_r, N.mul_comm.
  apply N.mod_mul. discriminate.
Qed.

Lemma big_step c ms mt lg B src tgt ctr pc src' tgt' ctr' pc' :
  wf_mapper (tmc c) ms lg -> 32 <= lg -> pc = HClaim \/ pc = HEnd ->
  hstep c ms mt B src tgt ctr pc = (src', tgt', ctr', pc') ->
  src' = src /\ tgt' = tgt /\ (pc' = HClaim \/ pc' = HEnd).
Proof.
  intros W L [-> | ->] ST; cbn in ST; injection ST as <- <- <- <-; auto.
  split; [|split]; auto.
  destruct (_ <? _); auto. left. rewrite (addressable_val _ _ _ W). unfold block_end. rewrite w32_big by exact L.
  rewrite N.min_0_r. unfold enter, after0.
  assert ((ctr <? 0) = false) as -> by (apply N.ltb_ge; lia).
  now destruct (_ || _).
Qed.

Lemma big_run c ms mt lg B src tr s :
  wf_mapper (tmc c) ms lg -> 32 <= lg ->
  lts_steps (msys_step c ms mt B nobody) (msys_init c mt src idle) tr s ->
  mtgt s = target_mem (tmc c) mt.
Proof.
  intros W L ST.
  assert (K : forall s tr s', lts_steps (msys_step c ms mt B nobody) s tr s' ->
     (forall tid, mthr s tid = None) -> (forall tid pc, mhlp s tid = Some pc -> pc = HClaim \/ pc = HEnd) ->
     mtgt s' = mtgt s).
  { clear - W L. induction 1 as [s|s s1 s2 tr S ST IH|s e s1 s2 tr S ST IH]; intros NT HP; auto.
    all: assert (X : (forall tid, mthr s1 tid = None) /\ mtgt s1 = mtgt s /\
              (forall tid pc, mhlp s1 tid = Some pc -> pc = HClaim \/ pc = HEnd)).
    1, 3: destruct S as [x t k h th tid E|x t k h th tid pc x' t' k' pc' E STP|x t k h th tid o E CL
             |x t k h th tid o pc b x' pc' E ND STP|x t k h th tid o r E]; cbn in NT, HP |- *;
          try (rewrite NT in E; discriminate); try (now elim CL).
    1, 3: split; [|split]; auto; intros u pc; unfold fupd; destruct (u =? tid); [|apply HP];
          intros [= <-]; auto.
    1, 2: destruct (big_step _ _ _ _ _ _ _ _ _ _ _ _ _ W L (HP _ _ E) STP) as (-> & -> & P);
          split; [|split]; auto; intros u pc0; unfold fupd; destruct (u =? tid); [intros [= <-]; auto|apply HP].
    all: destruct X as (X1 & X2 & X3); rewrite <- X2; apply IH; auto. }
  rewrite (K _ _ _ ST); auto. intros tid pc. discriminate.
Qed.

(** *** Circular tables without a vacant cell *)

Section Full.
Context (c : tcfg) (ms mt : mapper) (lg B : N) (src : mem).
Context (W : wf_mapper (tmc c) ms lg) (CP : cprob (tmc c) = true).
Context (FULL : forall p, p < 2 ^ lg -> exists x, src p = Some x /\ is_empty (tsc c) x = false).

Definition searching (pc : hpc) : Prop :=
  match pc with HClaim | HEnd => True | H0Load e i => i < e <= 2 ^ lg | _ => False end.

Lemma block_end_cap a : block_end B (2 ^ lg) a <= 2 ^ lg.
Proof.
  unfold block_end, w32. pose proof (pow2_pos lg).
  pose proof (N.mod_le (2 ^ lg) (2 ^ 32) ltac:(discriminate)). lia.
Qed.

Lemma full_step tgt ctr pc src' tgt' ctr' pc' :
  searching pc -> hstep c ms mt B src tgt ctr pc = (src', tgt', ctr', pc') ->
  src' = src /\ tgt' = tgt /\ searching pc'.
Proof.
  intros S ST. destruct pc; cbn [hstep searching] in *; try contradiction; injection ST as <- <- <- <-;
    split; auto; split; auto.
  - destruct (_ <? _); [|exact Logic.I]. rewrite (addressable_val _ _ _ W). unfold enter. rewrite CP. cbn.
    destruct (N.ltb_spec ctr (block_end B (2 ^ lg) ctr)); cbn; auto.
    split; auto. apply block_end_cap.
  - destruct (FULL i ltac:(lia)) as (x & E & NE).
    unfold rd. rewrite (total_val _ _ _ W), CP.
    destruct (N.ltb_spec i (2 ^ lg)); [|lia]. rewrite E, NE.
    destruct (N.ltb_spec (i + 1) e); cbn; auto. lia.
Qed.

Lemma full_run tr s :
  lts_steps (msys_step c ms mt B nobody) (msys_init c mt src idle) tr s ->
  mtgt s = target_mem (tmc c) mt.
Proof.
  intros ST.
  assert (K : forall s tr s', lts_steps (msys_step c ms mt B nobody) s tr s' ->
     (forall tid, mthr s tid = None) -> msrc s = src ->
     (forall tid pc, mhlp s tid = Some pc -> searching pc) ->
     mtgt s' = mtgt s).
  { clear - W CP FULL. induction 1 as [s|s s1 s2 tr S ST IH|s e s1 s2 tr S ST IH]; intros NT SR HP; auto.
    all: assert (X : (forall tid, mthr s1 tid = None) /\ msrc s1 = src /\ mtgt s1 = mtgt s /\
              (forall tid pc, mhlp s1 tid = Some pc -> searching pc)).
    1, 3: destruct S as [x t k h th tid E|x t k h th tid pc x' t' k' pc' E STP|x t k h th tid o E CL
             |x t k h th tid o pc b x' pc' E ND STP|x t k h th tid o r E]; cbn in NT, HP, SR |- *;
          try (rewrite NT in E; discriminate); try (now elim CL); subst x.
    1, 3: split; [|split; [|split]]; auto; intros u pc; unfold fupd; destruct (u =? tid); [|apply HP];
          intros [= <-]; exact Logic.I.
    1, 2: destruct (full_step _ _ _ _ _ _ _ (HP _ _ E) STP) as (-> & -> & P);
          split; [|split; [|split]]; auto; intros u pc0; unfold fupd; destruct (u =? tid); [intros [= <-]; auto|apply HP].
    all: destruct X as (X1 & X2 & X3 & X4); rewrite <- X3; apply IH; auto. }
  rewrite (K _ _ _ ST); auto. intros tid pc. discriminate.
Qed.
End Full.

(** *** Helpers never leave the tables *)

Section Bounds.
Context (sc : scfg) (mc : mcfg) (hash : N -> N) (client : op -> Prop).
Context (CT : cell_type sc) (F : fair sc client) (CF : cmap mc = false \/ cprob mc = true).
Notation c := (TCfg sc mc hash).

Lemma mrel_good ms mt lg g B cl s x tid pc :
  mrel c ms mt lg g B cl s x -> mhlp s tid = Some pc -> pc <> HBad.
Proof.
  intros (ct & mk & tct & rg & hb & S & _) E ->. pose proof (t_pc (s_thr S) _ _ E) as X.
  destruct (hb tid); [exact X|destruct X; discriminate].
Qed.

Lemma helpers_quiet lg lg' m t ins del B tr s tid pc :
  life c client lg m t -> lg <= 31 -> 0 < B <= 2 ^ 31 ->
  addressable_slots mc (resize mc m ins del) = 2 ^ lg' ->
  lts_steps (msys_step c m (resize mc m ins del) B nobody)
    (msys_init c (resize mc m ins del) t idle) tr s ->
  mhlp s tid = Some pc -> pc <> HBad.
Proof.
  intros L LG [B0 BL] E ST.
  destruct (life_inv sc mc hash client CT F CF lg m t L) as (W & ct & a & I & A).
  pose proof (cell_type_wf _ CT) as Hsc.
  destruct (resize_migr c m lg lg' ins del W LG CF E) as (g & -> & MG).
  pose proof (minit c m _ lg g B MG Hsc B0 LG BL t ct a nobody I A) as R0.
  destruct (msim_alone c m _ lg g B MG Hsc B0 LG BL
    (msys_init c (resize mc m ins del) t idle) _ tr s (fun _ => eq_refl) R0 ST) as (_ & R & _).
  intros H. eapply mrel_good; eauto.
Qed.

Lemma helpers_busy lg lg' m t ins del B tr s tid pc :
  life c client lg m t -> lg <= 31 -> 0 < B <= 2 ^ 31 -> sc_mark sc = true ->
  addressable_slots mc (resize mc m ins del) = 2 ^ lg' ->
  lts_steps (calm_step c m (resize mc m ins del) B client)
    (msys_init c (resize mc m ins del) t idle) tr s ->
  mhlp s tid = Some pc -> pc <> HBad.
Proof.
  intros L LG [B0 BL] SM E ST.
  destruct (life_inv sc mc hash client CT F CF lg m t L) as (W & ct & a & I & A).
  pose proof (cell_type_wf _ CT) as Hsc.
  destruct (resize_migr c m lg lg' ins del W LG CF E) as (g & -> & MG).
  pose proof (minit c m _ lg g B MG Hsc B0 LG BL t ct a client I A) as R0.
  destruct (msim_trace c m _ lg g B MG Hsc B0 LG BL client _ _ tr s (fair_ok _ _ Hsc F) SM R0 ST) as (x & _ & R).
  intros H. eapply mrel_good; eauto.
Qed.
End Bounds.

Lemma claims_exist c ms mt B client s tr s' :
  lts_steps (msys_step c ms mt B client) s tr s' -> exists l, claims c ms mt B client s l s'.
Proof.
  intros ST.
  assert (K : forall s0 l0, claims c ms mt B client s0 l0 s -> exists l, claims c ms mt B client s0 l s').
  { induction ST as [s|s s1 s2 tr S ST IH|s e s1 s2 tr S ST IH]; intros s0 l0 H; eauto.
    - eapply IH. eapply cl_step; eauto.
    - eapply IH. eapply cl_step; eauto. }
  eapply K. constructor.
Qed.
