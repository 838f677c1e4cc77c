(** The table theorems in the vocabulary of TableSpec. *)
From Coq Require Import NArith Bool List Lia.
From Verif Require Import Words Slot SlotFacts Mapper MapperFacts ReturnCode MapSpec LinSpec
  Base BaseInv BaseLin BaseExec BaseSolo TableSpec.
Import ListNotations.
Open Scope N_scope.

Lemma cell_type_wf sc : cell_type sc -> wf_scfg sc.
Proof. intros [m [-> | ->]]; unfold wf_scfg; cbn; lia. Qed.

Lemma mod_zero_cases k b : 0 < b -> k < 2 * b -> (k mod b = 0 <-> k = 0 \/ k = b).
Proof.
  intros Hb Hk. split.
  - intros E. destruct (N.lt_ge_cases k b) as [L|G].
    + rewrite N.mod_small in E by exact L. auto.
    + right. replace k with (k - b + 1 * b) in E by lia.
      rewrite N.mod_add in E by lia. rewrite N.mod_small in E by lia. lia.
  - intros [-> | ->]; [apply N.mod_0_l; lia|apply N.mod_same; lia].
Qed.

Lemma user_key_valid sc k : wf_scfg sc -> (user_key sc k <-> valid_key sc k).
Proof.
  intros W. unfold user_key, valid_key.
  pose proof (mbit_pos sc W) as P. pose proof (pow_w sc W) as E. unfold mbit in *.
  set (b := 2 ^ (sc_w sc - 1)) in *. rewrite E. destruct (sc_mark sc) eqn:M.
  - split.
    + intros H. split; [lia|]. split; [rewrite N.mod_small; lia|]. split; [lia|auto]. intros; lia.
    + intros (H1 & H2 & H3 & H4). specialize (H4 eq_refl). rewrite N.mod_small in H2 by exact H4. lia.
  - split.
    + intros (H1 & H2 & H3 & H4). split; auto. split; [|split; auto; discriminate].
      intros H. apply mod_zero_cases in H; lia.
    + intros (H1 & H2 & H3 & H4). split; auto.
      assert (~ (k = 0 \/ k = b)) by (rewrite <- mod_zero_cases by lia; auto). lia.
Qed.

Lemma fair_ok sc client : wf_scfg sc -> fair sc client -> client_ok sc client.
Proof.
  intros W [A B]. split.
  - intros o C. destruct (A o C) as [K F]. split; [now apply user_key_valid|].
    destruct o; cbn; try (intros g x; discriminate); exact F.
  - destruct B as [B|[B|B]].
    + now left.
    + right; left. intros o C. specialize (B o C). now destruct o.
    + right; right. intros o C. specialize (B o C). now destruct o.
Qed.

Section Facts.
Context (sc : scfg) (mc : mcfg) (hash : N -> N) (lg gh : N).
Context (CT : cell_type sc) (LG : 1 <= lg <= 63).
Notation c := (TCfg sc mc hash).
Notation m := (sized mc lg gh).
Notation tot := (cells_of mc lg).

Lemma wfs : wf_scfg sc. Proof. now apply cell_type_wf. Qed.
Lemma wfm : wf_mapper mc m lg. Proof. now apply wf_mk. Qed.
Lemma tot_eq : total_slots mc m = tot.
Proof. rewrite (total_val _ _ _ wfm). reflexivity. Qed.

Lemma home_eq k : home c m k = home_of mc lg (w64 (hash k)).
Proof. unfold home, home_of, hashk. cbn [tmc thash]. apply (map_val _ _ _ wfm). Qed.
Lemma probe_eq k n : remap mc m (home c m k + n) = probe_of mc lg (w64 (hash k)) n.
Proof. rewrite (remap_val _ _ _ wfm), home_eq. reflexivity. Qed.

Notation reachable := (table_reachable c m).

Lemma reach_rel client s : client_ok sc client -> reachable client s ->
  exists x, sys_rel c m client s x.
Proof.
  intros CO [tr ST].
  destruct (sim_trace c m lg wfs wfm client _ _ tr s CO (init_rel c m lg wfs wfm client) ST) as (x & _ & R).
  eauto.
Qed.

Lemma word_enc v mk k :
  ok_content sc v mk -> valid_key sc k ->
  (word_is sc (enc sc v mk) k <-> exists d, v = CLive k d).
Proof.
  intros O V. pose proof wfs as W. unfold word_is.
  pose proof (mbit_pos sc W) as P. pose proof (pow_w sc W) as PW.
  destruct V as (V1 & V2 & V3 & V4).
  assert (NM : forall d, v = CLive k d -> skey (enc sc v false) = k) by (intros d ->; reflexivity).
  assert (EX : skey (enc sc v false) = k -> exists d, v = CLive k d).
  { destruct v as [| |k' d']; cbn; intros E.
    - subst k. elim V2. apply N.mod_0_l. unfold mbit in P; lia.
    - unfold ddummy, mbit in E. congruence.
    - exists d'. congruence. }
  destruct mk.
  - rewrite (key_enc_marked sc W v O). destruct (O) as [M _]. specialize (M eq_refl). specialize (V4 M).
    pose proof (content_key_small sc W v true O M) as S. unfold mbit in *. split.
    + intros [E|[_ E]]; [lia|]. apply EX. lia.
    + intros [d E]. right. split; auto. rewrite (NM d E). reflexivity.
  - split.
    + intros [E|[M E]]; auto. specialize (V4 M). exfalso.
      pose proof (content_key_small sc W v false O M) as S. unfold mbit in *. lia.
    + intros [d E]. left. eapply NM; eauto.
Qed.

Lemma word_empty v mk :
  ok_content sc v mk -> (word_is sc (enc sc v mk) 0 <-> v = CEmpty).
Proof.
  intros O. pose proof wfs as W. unfold word_is.
  pose proof (mbit_pos sc W) as P. pose proof (pow_w sc W) as PW.
  assert (EX : skey (enc sc v false) = 0 -> v = CEmpty).
  { destruct v as [| |k d]; cbn; auto.
    - unfold ddummy. intros; lia.
    - intros ->. destruct O as (_ & _ & O & _). elim O. apply N.mod_0_l. unfold mbit in P; lia. }
  destruct mk.
  - rewrite (key_enc_marked sc W v O). destruct (O) as [M _]. specialize (M eq_refl).
    unfold mbit in *. split.
    + intros [E|[_ E]]; [lia|]. apply EX. lia.
    + intros ->. right. split; auto.
  - split.
    + intros [E|[M E]]; auto. exfalso.
      pose proof (content_key_small sc W v false O M) as S. unfold mbit in *. lia.
    + intros ->. left. reflexivity.
Qed.

Lemma holds_iff t ct mk p k d :
  tinv c m t ct mk -> user_key sc k -> (holds sc tot t p k d <-> p < tot /\ ct p = CLive k d).
Proof.
  intros I U. apply user_key_valid in U; [|exact wfs]. unfold holds.
  split.
  - intros (L & x & E & W & D). split; auto. rewrite <- tot_eq in L.
    destruct (ti_cell _ _ _ _ _ I p L) as [E' O]. cbn in E', O. rewrite E in E'. injection E' as ->.
    apply word_enc in W; auto. destruct W as [d' W]. rewrite sdata_enc, W in D. congruence.
  - intros (L & E). split; auto. rewrite <- tot_eq in L.
    destruct (ti_cell _ _ _ _ _ I p L) as [E' O]. cbn in E', O. eexists. split; [exact E'|].
    split; [apply word_enc; eauto|]. rewrite sdata_enc, E. reflexivity.
Qed.

Lemma vacant_iff t ct mk p :
  tinv c m t ct mk -> (vacant sc tot t p <-> p < tot /\ ct p = CEmpty).
Proof.
  intros I. unfold vacant. split.
  - intros (L & x & E & W). split; auto. rewrite <- tot_eq in L.
    destruct (ti_cell _ _ _ _ _ I p L) as [E' O]. cbn in E', O. rewrite E in E'. injection E' as ->.
    now apply word_empty in W.
  - intros (L & E). split; auto. rewrite <- tot_eq in L.
    destruct (ti_cell _ _ _ _ _ I p L) as [E' O]. cbn in E', O. eexists. split; [exact E'|].
    now apply word_empty.
Qed.

Lemma stored_iff t ct mk a : tinv c m t ct mk -> (stored sc tot t a <-> absr c m ct a).
Proof.
  intros I. unfold stored, absr. cbn [tmc]. rewrite tot_eq. split; intros S k d; rewrite (S k d); clear S a.
  - split.
    + intros (U & p & H). apply (holds_iff _ _ _ _ _ _ I U) in H. eauto.
    + intros (p & L & E). assert (L' := L). rewrite <- tot_eq in L'.
      destruct (ti_cell _ _ _ _ _ I p L') as [_ [_ O]]. rewrite E in O.
      apply user_key_valid in O; [|exact wfs]. split; auto. exists p. apply (holds_iff _ _ _ _ _ _ I O); auto.
  - split.
    + intros (p & L & E). assert (L' := L). rewrite <- tot_eq in L'.
      destruct (ti_cell _ _ _ _ _ I p L') as [_ [_ O]]. rewrite E in O.
      apply user_key_valid in O; [|exact wfs]. split; auto. exists p. apply (holds_iff _ _ _ _ _ _ I O); auto.
    + intros (U & p & H). apply (holds_iff _ _ _ _ _ _ I U) in H. eauto.
Qed.

Lemma linearizable_fair client :
  fair sc client ->
  linearizable (mspec (sc_mark sc) (negb (cprob mc))) (bsys_step c m client) (bsys_init c m) amap_empty.
Proof.
  intros F. apply (base_linearizable c m lg wfs wfm). apply fair_ok; [exact wfs|exact F].
Qed.

Lemma unique_and_reachable client s :
  fair sc client -> reachable client s ->
  (forall k p q d e, user_key sc k -> holds sc tot (bmem s) p k d -> holds sc tot (bmem s) q k e -> p = q) /\
  (forall k p d, user_key sc k -> holds sc tot (bmem s) p k d ->
     exists n, probe_of mc lg (w64 (hash k)) n = p /\
               forall j, j < n -> ~ vacant sc tot (bmem s) (probe_of mc lg (w64 (hash k)) j)).
Proof.
  intros F R. destruct (reach_rel client s (fair_ok _ _ wfs F) R) as (x & ct & mk & I & _). split.
  - intros k p q d e U Hp Hq. apply (holds_iff _ _ _ _ _ _ I U) in Hp. apply (holds_iff _ _ _ _ _ _ I U) in Hq.
    destruct Hp as [Lp Ep], Hq as [Lq Eq]. eapply (live_unique c m); eauto; cbn [tmc]; rewrite tot_eq; auto.
  - intros k p d U Hp. apply (holds_iff _ _ _ _ _ _ I U) in Hp. destruct Hp as [Lp Ep].
    destruct (ti_reach _ _ _ _ _ I p k d) as (n & En & Pn); cbn [tmc]; auto; [rewrite tot_eq; auto|].
    exists n. cbn [tmc] in En. rewrite probe_eq in En. split; auto.
    intros j Hj V. destruct (Pn j Hj) as [NE _]. cbn [tmc] in NE. rewrite probe_eq in NE.
    apply (vacant_iff _ _ _ _ I) in V. apply NE, V.
Qed.

Lemma in_bounds client s tid o pc :
  fair sc client -> reachable client s -> bthr s tid = Some (o, pc) ->
  pc <> PBad /\
  forall i, next_access pc = Some i -> remap mc m i < tot /\ bmem s (remap mc m i) <> None.
Proof.
  intros F R E. destruct (reach_rel client s (fair_ok _ _ wfs F) R) as (x & ct & mk & I & _ & T).
  specialize (T tid). rewrite E in T. destruct T as (_ & T & _).
  assert (K : forall n, prefix c m ct (op_key o) n ->
             remap mc m (home c m (op_key o) + n) < tot /\
             bmem s (remap mc m (home c m (op_key o) + n)) <> None).
  { intros n P. pose proof (prefix_bound c m lg wfm _ _ _ _ _ I P) as L. cbn [tmc] in L.
    split; [rewrite tot_eq in L; exact L|].
    destruct (ti_cell _ _ _ _ _ I _ L) as [E' _]. cbn in E'. rewrite E'. discriminate. }
  split; [intros ->; exact T|].
  intros i Ei. destruct pc as [j|j s0|j s0|j s0|r|]; cbn in Ei; try discriminate; injection Ei as ->; cbn in T.
  - destruct T as (n & -> & P). auto.
  - destruct T as (n & d & -> & P & _). auto.
  - destruct T as (n & d & -> & P & _). auto.
  - destruct T as (n & d & -> & P & _). auto.
Qed.

Lemma solo_result client s tid o pc :
  fair sc client -> reachable client s -> bthr s tid = Some (o, pc) -> (forall r, pc <> PDone r) ->
  (cprob mc = true -> exists p, vacant sc tot (bmem s) p) ->
  exists n t' r a a',
    solo c m n (bmem s) o pc = (t', PDone r) /\
    stored sc tot (bmem s) a /\ stored sc tot t' a' /\
    mspec (sc_mark sc) (negb (cprob mc)) a (spec_op sc o) a' (obs o r).
Proof.
  intros F R E ND HE. pose proof (fair_ok _ _ wfs F) as CO.
  destruct (reach_rel client s CO R) as (x & ct & mk & I & A & T).
  specialize (T tid). rewrite E in T. destruct T as (C & T & _).
  destruct (solo_terminates c m lg wfs wfm (ast x) (bmem s) ct mk o pc) as (n & t' & r & ct' & a' & S & I' & SP & A'); auto.
  - intros CP. destruct (HE CP) as [p V]. apply (vacant_iff _ _ _ _ I) in V. exists p.
    cbn [tmc]. rewrite tot_eq. exact V.
  - apply CO. exact C.
  - exists n, t', r, (ast x), a'. split; auto. split; [now apply (stored_iff _ _ _ _ I)|].
    split; auto. now apply (stored_iff _ _ _ _ I').
Qed.

End Facts.

(** *** Full circular tables *)

Lemma find_spins c m t k :
  (forall p, p < total_slots (tmc c) m ->
     exists x, t p = Some x /\ is_empty (tsc c) x = false /\ compare_key (tsc c) x k = false) ->
  (forall i, remap (tmc c) m i < total_slots (tmc c) m) ->
  forall o, (o = OFind k \/ (exists d, o = OInsert k d)) ->
  (forall p x, t p = Some x -> is_marked (tsc c) x = false) ->
  forall n i, solo c m n t o (PLoad i) = (t, PLoad (i + N.of_nat n)).
Proof.
  intros F B o Ho NM. induction n as [|n IH]; intros i.
  - cbn. now rewrite N.add_0_r.
  - cbn [solo]. cbn [bstep]. unfold rd. specialize (B i).
    destruct (N.ltb_spec (remap (tmc c) m i) (total_slots (tmc c) m)); [|lia].
    destruct (F _ B) as (x & E & X1 & X2). rewrite E.
    replace (after_load c m o i (remap (tmc c) m i) x) with (PLoad (i + 1)).
    + rewrite IH. do 2 f_equal. lia.
    + destruct Ho as [->|[d ->]]; cbn; rewrite ?(NM _ _ E), X1, X2; reflexivity.
Qed.
