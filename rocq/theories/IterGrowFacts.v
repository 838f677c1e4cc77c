(** Iterators and references of a growing table after the table was replaced. *)
From Coq Require Import ZArith NArith Bool List Lia ZifyN Sorted.
From Verif Require Import Words Slot SlotFacts Mapper MapperFacts ReturnCode MapSpec LinSpec
  Base BaseExec BaseInv BaseSolo BaseLin TableSpec BaseFacts Migrate GrowSpec GrowFacts
  Iter IterSpec IterFacts IterGrow.
Import ListNotations.
Open Scope N_scope.

(** A lookup changes nothing and ends at a cell it has read. *)
Lemma find_reads c m : forall n t k i t' r,
  solo c m n t (OFind k) (PLoad i) = (t', PDone r) ->
  t' = t /\ (rpos r = None \/
    exists p, rpos r = Some p /\ rd c m t p = Some (rslot r) /\ compare_key (tsc c) (rslot r) k = true).
Proof.
  induction n as [|n IH]; intros t k i t' r H; cbn [solo] in H; [discriminate|].
  cbn [bstep] in H. destruct (rd c m t (remap (tmc c) m i)) as [x|] eqn:RD.
  - cbn [after_load] in H.
    assert (D : forall r0, solo c m n t (OFind k) (PDone r0) = (t, PDone r0)) by (clear; induction n; cbn; auto).
    destruct (is_empty (tsc c) x); [rewrite D in H; injection H as <- <-; cbn; auto|].
    destruct (compare_key (tsc c) x k) eqn:Q; [|eapply IH; eauto].
    rewrite D in H. injection H as <- <-. split; auto. right. cbn. eauto.
  - assert (D : solo c m n t (OFind k) PBad = (t, PBad)) by (clear; induction n; cbn; auto).
    rewrite D in H. discriminate.
Qed.

Section Life.
Context (sc : scfg) (mc : mcfg) (hash : N -> N) (client : op -> Prop) (lg : N) (g : gtab).
Context (CT : cell_type sc) (F : fair sc client) (CF : cmap mc = false \/ cprob mc = true).
Notation c := (TCfg sc mc hash).
Notation tot := (cells_of mc lg).
Context (L : life c client lg (g_map g) (g_mem g)).
Let Hsc : wf_scfg sc := cell_type_wf _ CT.

Lemma find_absent a k s :
  stored sc tot (g_mem g) a -> user_key sc k -> a k = None ->
  find_it c s g k <> ItBad -> find_it c s g k = ItOk it_end.
Proof.
  intros ST U AN NB. destruct (life_inv sc mc hash client CT F CF _ _ _ L) as (W & ct & a' & I & A').
  apply (stored_iff' sc mc hash lg _ CT W _ ct _ a I) in ST. apply (user_key_valid sc k Hsc) in U.
  unfold find_it in *.
  destruct (solo c (g_map g) s (g_mem g) (OFind k) (start c (g_map g) (OFind k))) as [t' pc] eqn:S.
  destruct pc as [i|i x|i x|i x|r|]; try congruence.
  assert (OK : op_ok sc (OFind k)) by (split; [exact U|intros gg x; discriminate]).
  destruct (solo_sound c (g_map g) lg Hsc W s a _ ct _ (OFind k) _ t' r I ST OK
    (start_inv _ _ lg ct (OFind k)) ltac:(discriminate) S) as (ct3 & a3 & _ & _ & SP & _).
  cbn [spec_op obs] in SP. unfold ret_iter. destruct (rpos r); [|reflexivity].
  inversion SP; subst; try congruence.
Qed.

Lemma find_present a k d s :
  stored sc tot (g_mem g) a -> user_key sc k -> a k = Some d ->
  find_it c s g k <> ItBad ->
  exists p, find_it c s g k = ItOk (Iter (Slot k d) (PCell p) (PCell tot)) /\
    holds sc tot (g_mem g) p k d /\ rd c (g_map g) (g_mem g) p = Some (Slot k d) /\ p < tot.
Proof.
  intros ST U AN NB. destruct (life_inv sc mc hash client CT F CF _ _ _ L) as (W & ct & a' & I & A').
  apply (stored_iff' sc mc hash lg _ CT W _ ct _ a I) in ST. pose proof U as V. apply (user_key_valid sc k Hsc) in V.
  unfold find_it in *.
  destruct (solo c (g_map g) s (g_mem g) (OFind k) (start c (g_map g) (OFind k))) as [t' pc] eqn:S.
  destruct pc as [i|i x|i x|i x|r|]; try congruence.
  assert (OK : op_ok sc (OFind k)) by (split; [exact V|intros gg x; discriminate]).
  destruct (solo_sound c (g_map g) lg Hsc W s a _ ct _ (OFind k) _ t' r I ST OK
    (start_inv _ _ lg ct (OFind k)) ltac:(discriminate) S) as (ct3 & a3 & _ & _ & SP & _).
  destruct (find_reads _ _ _ _ _ _ _ _ S) as [-> [RP|(p & RP & RD & Q)]].
  { cbn [spec_op obs] in SP. rewrite RP in SP. inversion SP; subst; congruence. }
  assert (Lp : p < total_slots mc (g_map g)).
  { unfold rd in RD. cbn [tmc] in RD. destruct (N.ltb_spec p (total_slots mc (g_map g))); [assumption|discriminate]. }
  pose proof (rd_mem _ _ _ _ _ RD) as TP.
  destruct (live_of_compare c (g_map g) Hsc ct _ _ p _ k I Lp TP Q V) as (d' & E & X).
  cbn in X. assert (d' = d).
  { assert (a k = Some d') by (apply ST; eauto). congruence. }
  subst d'. unfold ret_iter. rewrite RP. unfold make_iterator. cbn [tmc].
  rewrite (tot_eq' mc lg _ W), X in *. exists p. split; [reflexivity|].
  split; [|auto]. apply (holds_iff' sc mc hash lg _ CT W _ ct _ p k d I U). auto.
Qed.

(** *** erase_if_unchanged *)

Lemma erase_if_gone a it s :
  stored sc tot (g_mem g) a -> g_ver g <> mi_ver it ->
  user_key sc (get_key sc (it_copy (mi_it it))) -> a (get_key sc (it_copy (mi_it it))) = None ->
  find_it c s g (get_key sc (it_copy (mi_it it))) <> ItBad ->
  mit_erase_if c s g it = Some (g, MIter (g_ver g) it_end, false).
Proof.
  intros ST NV U AN NB. pose proof (find_absent a _ s ST U AN NB) as E.
  unfold mit_erase_if, refresh_ptr. cbn [tsc]. rewrite E.
  destruct (N.eqb_spec (g_ver g) (mi_ver it)) as [|_]; [congruence|]. cbn [negb andb mi_it it_copy it_end].
  assert (Z : get_key sc empty_slot = 0) by (unfold get_key, empty_slot; cbn; destruct (sc_mark sc); auto).
  rewrite Z. destruct (N.eqb_spec (get_key sc (it_copy (mi_it it))) 0) as [E0|]; [|reflexivity].
  rewrite E0 in U. unfold user_key in U. destruct (sc_mark sc); lia.
Qed.

Lemma erase_if_grown a it s d :
  stored sc tot (g_mem g) a -> g_ver g <> mi_ver it ->
  user_key sc (get_key sc (it_copy (mi_it it))) -> a (get_key sc (it_copy (mi_it it))) = Some d ->
  find_it c s g (get_key sc (it_copy (mi_it it))) <> ItBad ->
  exists t' it', mit_erase_if c s g it = Some (GTab (g_ver g) (g_map g) t', it', true) /\
    stored sc tot t' (fupd a (get_key sc (it_copy (mi_it it))) None).
Proof.
  intros ST NV U AN NB. destruct (find_present a _ d s ST U AN NB) as (p & E & H & RD & Lp).
  set (k := get_key sc (it_copy (mi_it it))) in *.
  destruct (life_erase sc mc hash client lg (g_map g) (g_mem g) CT F CF L a p k d 0 ST U H) as (t' & x' & ER & S' & _).
  cbn [it_erase] in ER.
  destruct (it_erase_if c (g_map g) (g_mem g) p (Slot k d)) as [[[t1 x1] b1]|] eqn:EI; [|discriminate].
  destruct b1; [|discriminate]. injection ER as -> ->.
  exists t', (MIter (g_ver g) (Iter x' (PCell p) (PCell tot))). split; [|exact S'].
  unfold mit_erase_if, refresh_ptr. cbn [tsc]. fold k. rewrite E.
  destruct (N.eqb_spec (g_ver g) (mi_ver it)) as [|_]; [congruence|].
  cbn [negb andb mi_it it_copy mi_ver it_ptr it_eptr].
  assert (GK : get_key sc (Slot k d) = k).
  { change (Slot k d) with (enc sc (CLive k d) false).
    unfold get_key. cbn. destruct (sc_mark sc) eqn:SM; [|reflexivity].
    unfold bmask, mbit. rewrite N.sub_1_r, <- N.ones_equiv, N.land_ones.
    apply N.mod_small. unfold user_key in U. rewrite SM in U. lia. }
  rewrite GK, N.eqb_refl. cbn [negb]. now rewrite EI.
Qed.

(** *** References *)

Lemma key_of_shown k d : user_key sc k -> get_key sc (Slot k d) = k.
Proof.
  intros U. unfold get_key. cbn. destruct (sc_mark sc) eqn:SM; [|reflexivity].
  unfold bmask, mbit. rewrite N.sub_1_r, <- N.ones_equiv, N.land_ones.
  apply N.mod_small. unfold user_key in U. rewrite SM in U. lia.
Qed.

Lemma live_write a p k d v :
  stored sc tot (g_mem g) a -> user_key sc k -> holds sc tot (g_mem g) p k d ->
  stored sc tot (fupd (g_mem g) p (Some (Slot k v))) (fupd a k (Some v)).
Proof.
  intros ST U H. destruct (life_inv sc mc hash client CT F CF _ _ _ L) as (W & ct & a' & I & A').
  apply (stored_iff' sc mc hash lg _ CT W _ ct _ a I) in ST.
  apply (holds_iff' sc mc hash lg _ CT W _ ct _ p k d I U) in H. destruct H as [Lp E].
  rewrite <- (tot_eq' mc lg _ W) in Lp. apply (user_key_valid sc k Hsc) in U.
  destruct (value_write c (g_map g) _ ct a p k d v I ST Lp E U) as [I' A2].
  now apply (stored_iff' sc mc hash lg _ CT W _ _ _ _ I').
Qed.

Lemma mref_gone a r s v :
  stored sc tot (g_mem g) a -> g_ver g <> mr_ver r ->
  user_key sc (get_key sc (mr_copy r)) -> a (get_key sc (mr_copy r)) = None ->
  find_it c s g (get_key sc (mr_copy r)) <> ItBad ->
  mref_exchange c s g r v = BadAccess /\ mref_assign c s g r v = BadAccess.
Proof.
  intros ST NV U AN NB. pose proof (find_absent a _ s ST U AN NB) as E.
  unfold mref_exchange, mref_assign, mref_refresh. cbn [tsc]. rewrite E.
  destruct (N.eqb_spec (g_ver g) (mr_ver r)) as [|_]; [congruence|]. auto.
Qed.

Lemma mref_grown_exchange a r s d v :
  stored sc tot (g_mem g) a -> g_ver g <> mr_ver r ->
  user_key sc (get_key sc (mr_copy r)) -> a (get_key sc (mr_copy r)) = Some d ->
  find_it c s g (get_key sc (mr_copy r)) <> ItBad ->
  exists t' r', mref_exchange c s g r v = Returned (GTab (g_ver g) (g_map g) t', r', true) /\
    stored sc tot t' (fupd a (get_key sc (mr_copy r)) (Some v)).
Proof.
  intros ST NV U AN NB. destruct (find_present a _ d s ST U AN NB) as (p & E & H & RD & Lp).
  set (k := get_key sc (mr_copy r)) in *.
  exists (fupd (g_mem g) p (Some (Slot k v))).
  eexists. split; [|eapply live_write; eauto].
  unfold mref_exchange, mref_refresh. cbn [tsc]. fold k. rewrite E.
  destruct (N.eqb_spec (g_ver g) (mr_ver r)) as [|_]; [congruence|].
  cbn [mr_pos it_ptr it_copy mr_copy mr_ver]. unfold ref_exchange. rewrite RD. cbn [tsc].
  rewrite (key_of_shown k d U). unfold cas. rewrite slot_eqb_refl. reflexivity.
Qed.

Lemma mref_grown_assign a r s d v :
  stored sc tot (g_mem g) a -> g_ver g <> mr_ver r ->
  user_key sc (get_key sc (mr_copy r)) -> a (get_key sc (mr_copy r)) = Some d ->
  find_it c s g (get_key sc (mr_copy r)) <> ItBad ->
  exists t' r', mref_assign c s g r v = Returned (GTab (g_ver g) (g_map g) t', r') /\
    stored sc tot t' (fupd a (get_key sc (mr_copy r)) (Some v)).
Proof.
  intros ST NV U AN NB. destruct (find_present a _ d s ST U AN NB) as (p & E & H & RD & Lp).
  set (k := get_key sc (mr_copy r)) in *.
  exists (fupd (g_mem g) p (Some (Slot k v))).
  eexists. split; [|eapply live_write; eauto].
  unfold mref_assign, mref_refresh. cbn [tsc]. fold k. rewrite E.
  destruct (N.eqb_spec (g_ver g) (mr_ver r)) as [|_]; [congruence|].
  cbn [mr_pos it_ptr it_copy mr_copy mr_ver]. unfold ref_assign. rewrite RD. cbn [tsc].
  unfold atomic_update, overwrite. cbn [fat fn sdata skey]. unfold cas. rewrite slot_eqb_refl.
  destruct (sc_mark sc); reflexivity.
Qed.

(** *** Iteration *)

Lemma mwalk_walk s n : forall it, mwalk c s g n (MIter (g_ver g) it) = walk c (g_map g) (g_mem g) n (ItOk it).
Proof.
  induction n as [|n IH]; intros it; cbn [mwalk walk]; unfold mit_at_end; cbn [mi_it]; [reflexivity|].
  destruct (it_eqb it it_end); [reflexivity|]. f_equal.
  unfold mit_next, refresh_ptr. cbn [mi_ver]. rewrite N.eqb_refl. cbn [mi_it mi_ver].
  destruct (it_next c (g_map g) (g_mem g) it) as [b|] eqn:E; [apply IH|].
  now destruct n.
Qed.

Lemma grown_walk a it s d :
  stored sc tot (g_mem g) a -> g_ver g <> mi_ver it ->
  user_key sc (get_key sc (it_copy (mi_it it))) -> a (get_key sc (it_copy (mi_it it))) = Some d ->
  find_it c s g (get_key sc (it_copy (mi_it it))) <> ItBad ->
  exists it' n l, mit_next c s g it = Some it' /\ mwalk c s g n it' = Walked l /\
    NoDup (get_key sc (it_copy (mi_it it)) :: map fst l) /\
    forall k' d', In (k', d') l -> a k' = Some d'.
Proof.
  intros ST NV U AN NB. destruct (find_present a _ d s ST U AN NB) as (p & E & H & RD & Lp).
  set (k := get_key sc (it_copy (mi_it it))) in *.
  destruct (life_inv sc mc hash client CT F CF _ _ _ L) as (W & ct & a' & I & A').
  apply (stored_iff' sc mc hash lg _ CT W _ ct _ a I) in ST.
  apply (holds_iff' sc mc hash lg _ CT W _ ct _ p k d I U) in H. destruct H as [_ EP].
  pose proof (tot_eq' mc lg _ W) as TE.
  assert (WF := walk_from c (g_map g) Hsc _ ct I (N.to_nat tot) p tot k d).
  cbn [tmc] in WF. rewrite TE in WF. specialize (WF ltac:(lia) Lp (N.le_refl _) EP).
  rewrite (part_cons ct p tot Lp) in WF. unfold els in WF. rewrite EP in WF. cbn [app] in WF.
  destruct (N.to_nat tot) as [|n] eqn:NT; [lia|]. cbn [walk] in WF.
  replace (it_eqb _ it_end) with false in WF by reflexivity.
  unfold visit in WF.
  destruct (it_next c (g_map g) (g_mem g) (Iter (Slot k d) (PCell p) (PCell tot))) as [b|] eqn:IN.
  2:{ destruct n; discriminate. }
  exists (MIter (g_ver g) b), n, (part ct (p + 1) tot).
  split.
  { unfold mit_next, refresh_ptr. cbn [tsc]. fold k. rewrite E.
    destruct (N.eqb_spec (g_ver g) (mi_ver it)) as [|_]; [congruence|]. cbn [mi_it mi_ver]. now rewrite IN. }
  split.
  { rewrite mwalk_walk. destruct (walk c (g_map g) (g_mem g) n (ItOk b)); try discriminate. now injection WF as ->. }
  assert (U1 : forall q q' k' d1 d2, q < tot -> q' < tot -> ct q = CLive k' d1 -> ct q' = CLive k' d2 -> q = q').
  { intros q q' k' d1 d2 Lq Lq' E1 E2. rewrite <- TE in Lq, Lq'. eapply (live_unique c (g_map g)); eauto. }
  split.
  2:{ intros k' d' H. apply in_part in H. destruct H as (q & Lq & Eq). apply ST. exists q. cbn [tmc]. rewrite TE. split; auto; lia. }
  cut (NoDup (map fst (part ct p tot))).
  { rewrite (part_cons ct p tot Lp). unfold els. now rewrite EP. }
  assert (K : forall j q, q + N.of_nat j = tot -> NoDup (map fst (part ct q tot))).
  { induction j as [|j IH]; intros q Q; [rewrite part_nil by lia; constructor|].
    rewrite part_cons by lia. unfold els. destruct (ct q) as [| |kq dq] eqn:Eq; cbn [app map fst]; [apply IH; lia..|].
    constructor; [|apply IH; lia]. intros IN'. apply in_map_iff in IN' as ([k2 d2] & X & IN'). cbn in X. subst k2.
    apply in_part in IN'. destruct IN' as (q' & Lq' & Eq'). assert (q = q') by (eapply U1; eauto; lia). lia. }
  apply (K (N.to_nat (tot - p))). lia.
Qed.

End Life.
