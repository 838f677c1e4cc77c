(** C10: which lookups of a circular table return. *)
From Coq Require Import NArith Bool List Lia.
From Verif Require Import Words Slot SlotFacts Mapper MapperFacts ReturnCode MapSpec LinSpec
  Base BaseInv BaseLin BaseExec BaseSolo TableSpec BaseFacts.
Import ListNotations.
Open Scope N_scope.

Section F.
Context (sc : scfg) (mc : mcfg) (hash : N -> N) (lg gh : N).
Context (CT : cell_type sc) (LG : 1 <= lg <= 63).
Notation c := (TCfg sc mc hash).
Notation m := (sized mc lg gh).
Notation tot := (cells_of mc lg).

(** A lookup passes cells that are neither empty nor hold its key. *)
Definition looks (mk : cmark) (o : op) (k : N) : Prop :=
  o = OFind k \/ ((exists d, o = OInsert k d) /\ forall p, p < total_slots mc m -> mk p = false).

Lemma load_step t ct mk o k i : tinv c m t ct mk -> user_key sc k -> looks mk o k -> remap mc m i < tot ->
  ct (remap mc m i) <> CEmpty ->
  bstep c m t true o (PLoad i) = (t, PLoad (i + 1)) \/
  exists d r, ct (remap mc m i) = CLive k d /\ bstep c m t true o (PLoad i) = (t, PDone r) /\
              obs o r = match o with OFind _ => RFound d | _ => RPresent d end.
Proof.
  intros I U LK L NE. pose proof (wfs sc CT) as W. apply (user_key_valid sc k W) in U.
  rewrite <- (tot_eq mc lg gh LG) in L.
  destruct (ti_cell _ _ _ _ _ I _ L) as [E O]. cbn [tsc tmc] in *.
  set (v := ct (remap mc m i)) in *. set (b := mk (remap mc m i)) in *.
  assert (RD : rd c m t (remap mc m i) = Some (enc sc v b)).
  { unfold rd. cbn [tmc]. destruct (N.ltb_spec (remap mc m i) (total_slots mc m)); [exact E|lia]. }
  cbn [bstep tmc tsc]. rewrite RD.
  pose proof (enc_is_empty sc W v b O) as XE. pose proof (enc_compare_key sc W v b k O U) as XC.
  assert (EM : is_empty sc (enc sc v b) = false) by (rewrite XE; now destruct v).
  destruct LK as [->|[[d0 ->] NM]]; cbn [after_load tsc tmc].
  - rewrite EM, XC. destruct v as [| |k' d]; auto. destruct (N.eqb_spec k' k) as [->|]; auto.
    right. exists d. eexists. split; [reflexivity|]. split; [reflexivity|].
    cbn [obs rpos rslot]. now rewrite sdata_enc.
  - assert (MB : b = false) by (apply NM, L). rewrite (enc_is_marked sc W v b O), MB. rewrite MB in EM, XC. rewrite EM, XC.
    destruct v as [| |k' d]; auto. destruct (N.eqb_spec k' k) as [->|]; auto.
    right. exists d. eexists. split; [reflexivity|]. split; [reflexivity|].
    cbn [obs rcode rslot]. rewrite sdata_enc. reflexivity.
Qed.

Lemma present_returns t ct mk o k p d : tinv c m t ct mk -> user_key sc k -> looks mk o k ->
  holds sc tot t p k d ->
  exists n r, solo c m n t o (start c m o) = (t, PDone r) /\
              obs o r = match o with OFind _ => RFound d | _ => RPresent d end.
Proof.
  intros I U LK H. apply (holds_iff sc mc hash lg gh CT LG _ _ _ _ _ _ I U) in H. destruct H as [L E].
  destruct (ti_reach _ _ _ _ _ I p k d) as (n & En & Pn); cbn [tmc]; [rewrite (tot_eq mc lg gh LG); auto|auto|].
  cbn [tmc] in En.
  assert (KO : op_key o = k) by (destruct LK as [->|[[? ->] _]]; reflexivity).
  unfold start. rewrite KO.
  assert (G : forall r j, j + N.of_nat r = n -> exists q z, solo c m q t o (PLoad (home c m k + j)) = (t, PDone z) /\
              obs o z = match o with OFind _ => RFound d | _ => RPresent d end).
  { induction r as [|r IH]; intros j J.
    - replace j with n by lia.
      destruct (load_step t ct mk o k (home c m k + n) I U LK) as [S|(d' & z & E' & S & Z)].
      + now rewrite En.
      + rewrite En, E. discriminate.
      + exfalso. (* the key is there *)
        revert S. pose proof (wfs sc CT) as W. pose proof (proj1 (user_key_valid sc k W) U) as V.
        assert (L' := L). rewrite <- (tot_eq mc lg gh LG) in L'.
        destruct (ti_cell _ _ _ _ _ I _ L') as [E2 O]. cbn [tsc tmc] in *.
        cbn [bstep tmc tsc]. rewrite En. unfold rd. cbn [tmc].
        destruct (N.ltb_spec p (total_slots mc m)); [|lia]. rewrite E2.
        pose proof (enc_is_empty sc W _ _ O) as XE. pose proof (enc_compare_key sc W _ _ k O V) as XC.
        rewrite E in XE, XC, O |- *. rewrite N.eqb_refl in XC.
        destruct LK as [->|[[d0 ->] NM]]; cbn [after_load tsc tmc].
        * rewrite XE, XC. discriminate.
        * rewrite (enc_is_marked sc W _ _ O). rewrite (NM p L') in *. rewrite XE, XC. discriminate.
      + exists 1%nat, z. cbn [solo]. rewrite S. split; auto.
        rewrite En, E in E'. injection E' as <-. exact Z.
    - destruct (Pn j ltac:(lia)) as [NE NL]. cbn [tmc] in NE, NL.
      assert (LJ : remap mc m (home c m k + j) < tot).
      { pose proof (prefix_bound c m lg (wfm mc lg gh LG) t ct mk k j I) as B. cbn [tmc] in B.
        rewrite (tot_eq mc lg gh LG) in B. apply B. intros j' J'. apply Pn. lia. }
      destruct (load_step t ct mk o k (home c m k + j) I U LK LJ NE) as [ST|(d' & z & E' & _)].
      + destruct (IH (j + 1) ltac:(lia)) as (q & z & Q & Z). exists (S q), z. split; auto.
        cbn [solo]. rewrite ST. rewrite <- N.add_assoc. exact Q.
      + elim (NL _ E'). }
  destruct (G (N.to_nat n) 0 ltac:(lia)) as (q & z & Q & Z). rewrite N.add_0_r in Q. eauto.
Qed.

Lemma absent_spins t ct mk o k : tinv c m t ct mk -> user_key sc k -> looks mk o k -> cprob mc = true ->
  (forall p, ~ vacant sc tot t p) -> (forall p d, ~ holds sc tot t p k d) ->
  forall n, exists i, solo c m n t o (start c m o) = (t, PLoad i).
Proof.
  intros I U LK CP NV NH n. unfold start. generalize (home c m (op_key o)). revert n.
  induction n as [|n IH]; intros i; [cbn [solo]; eauto|]. cbn [solo].
  assert (LI : remap mc m i < tot).
  { pose proof (remap_lt mc m lg (wfm mc lg gh LG) i CP) as B. now rewrite (tot_eq mc lg gh LG) in B. }
  destruct (load_step t ct mk o k i I U LK LI) as [S|(d & z & E & _)].
  - intros E. apply (NV (remap mc m i)). apply (vacant_iff sc mc hash lg gh CT LG _ _ _ _ I). auto.
  - rewrite S. apply IH.
  - exfalso. apply (NH (remap mc m i) d). apply (holds_iff sc mc hash lg gh CT LG _ _ _ _ _ _ I U). auto.
Qed.

Lemma vacant_returns t ct mk a o k p : tinv c m t ct mk -> absr c m ct a -> user_key sc k -> looks mk o k ->
  vacant sc tot t p -> exists n t' r, solo c m n t o (start c m o) = (t', PDone r).
Proof.
  intros I A U LK V. apply (vacant_iff sc mc hash lg gh CT LG _ _ _ _ I) in V.
  assert (KO : op_key o = k) by (destruct LK as [->|[[? ->] _]]; reflexivity).
  destruct (solo_terminates c m lg (wfs sc CT) (wfm mc lg gh LG) a t ct mk o (start c m o) I A)
    as (n & t' & r & ct' & a' & S & _).
  - intros _. exists p. cbn [tmc]. now rewrite (tot_eq mc lg gh LG).
  - split; [cbn [tsc]; rewrite KO; now apply (user_key_valid sc k (wfs sc CT))|].
    destruct LK as [->|[[? ->] _]]; cbn; intros; discriminate.
  - exists 0. rewrite N.add_0_r. split; [reflexivity|]. intros j J. lia.
  - intros r. discriminate.
  - eauto.
Qed.

Lemma unmarked t ct mk : tinv c m t ct mk ->
  (sc_mark sc = true -> forall p x, t p = Some x -> skey x < 2 ^ (sc_w sc - 1)) ->
  forall p, p < total_slots mc m -> mk p = false.
Proof.
  intros I M p L. destruct (ti_cell _ _ _ _ _ I p L) as [E O]. cbn [tsc] in E, O.
  destruct (mk p) eqn:K; auto. pose proof (proj1 O eq_refl) as MK. specialize (M MK p _ E).
  rewrite (key_enc_marked sc (wfs sc CT) _ O) in M. unfold mbit in M. lia.
Qed.

Lemma returns_iff t ct mk a o k : tinv c m t ct mk -> absr c m ct a -> user_key sc k -> looks mk o k ->
  cprob mc = true ->
  ((exists n t' r, solo c m n t o (start c m o) = (t', PDone r)) <->
   (exists p, vacant sc tot t p) \/ (exists p d, holds sc tot t p k d)).
Proof.
  intros I A U LK CP. split.
  - intros (n & t' & r & S).
    assert (D : (exists p, p < tot /\ ct p = CEmpty) \/ forall p, p < tot -> ct p <> CEmpty).
    { generalize tot. intros b. induction b as [|b IH] using N.peano_ind; [right; lia|].
      destruct IH as [(p & L & E)|IH]; [left; exists p; split; [lia|auto]|].
      destruct (ct b) eqn:E; [left; exists b; split; [lia|auto]| |];
        right; intros p L; (destruct (N.eq_dec p b) as [->|]; [congruence|apply IH; lia]). }
    destruct D as [(p & D)|D].
    { left. exists p. apply (vacant_iff sc mc hash lg gh CT LG _ _ _ _ I). exact D. }
    right. destruct (a k) as [d|] eqn:AK.
    { apply A in AK. destruct AK as (p & L & E). cbn [tmc] in L. rewrite (tot_eq mc lg gh LG) in L.
      exists p, d. apply (holds_iff sc mc hash lg gh CT LG _ _ _ _ _ _ I U). auto. }
    exfalso. destruct (absent_spins t ct mk o k I U LK CP) with (n := n) as [i Q].
    + intros p V. apply (vacant_iff sc mc hash lg gh CT LG _ _ _ _ I) in V. destruct V as [L E]. exact (D p L E).
    + intros p d H. apply (holds_iff sc mc hash lg gh CT LG _ _ _ _ _ _ I U) in H. destruct H as [L E].
      assert (a k = Some d); [|congruence]. apply A. exists p. cbn [tmc]. now rewrite (tot_eq mc lg gh LG).
    + rewrite S in Q. discriminate.
  - intros [[p V]|(p & d & H)].
    + eapply vacant_returns; eauto.
    + destruct (present_returns t ct mk o k p d I U LK H) as (n & r & S & _). eauto.
Qed.
End F.

(** A lookup of a stored key returns its value, full table or not, also while the table is
    being migrated and whatever the other threads are in the middle of. *)
Theorem C10_present_key_partial :
  forall sc mc hash lg gh (client : op -> Prop) s k p d,
    cell_type sc -> 1 <= lg <= 63 -> fair sc client ->
    table_reachable (TCfg sc mc hash) (sized mc lg gh) client s ->
    user_key sc k -> holds sc (cells_of mc lg) (bmem s) p k d ->
    exists n r, solo (TCfg sc mc hash) (sized mc lg gh) n (bmem s) (OFind k)
                  (start (TCfg sc mc hash) (sized mc lg gh) (OFind k)) = (bmem s, PDone r) /\
                obs (OFind k) r = RFound d.
Proof.
  intros sc mc hash lg gh client s k p d CT LG F R U H.
  destruct (reach_rel sc mc hash lg gh CT LG client s (fair_ok _ _ (wfs sc CT) F) R) as (x & ct & mk & I & _).
  exact (present_returns sc mc hash lg gh CT LG _ ct mk (OFind k) k p d I U (or_introl eq_refl) H).
Qed.
Print Assumptions C10_present_key_partial.

(** Circular probing: find running alone returns exactly if the key is stored or a cell is
    vacant.  So it runs forever on every full table, not only on the one of
    C10_full_circular_table_refuted. *)
Theorem C10_find_returns_iff_partial :
  forall sc mc hash lg gh (client : op -> Prop) s k,
    cell_type sc -> 1 <= lg <= 63 -> fair sc client -> cprob mc = true ->
    table_reachable (TCfg sc mc hash) (sized mc lg gh) client s -> user_key sc k ->
    ((exists n t' r, solo (TCfg sc mc hash) (sized mc lg gh) n (bmem s) (OFind k)
                       (start (TCfg sc mc hash) (sized mc lg gh) (OFind k)) = (t', PDone r)) <->
     (exists p, vacant sc (cells_of mc lg) (bmem s) p) \/
     (exists p d, holds sc (cells_of mc lg) (bmem s) p k d)).
Proof.
  intros sc mc hash lg gh client s k CT LG F CP R U.
  destruct (reach_rel sc mc hash lg gh CT LG client s (fair_ok _ _ (wfs sc CT) F) R) as (x & ct & mk & I & A & _).
  exact (returns_iff sc mc hash lg gh CT LG _ ct mk _ (OFind k) k I A U (or_introl eq_refl) CP).
Qed.
Print Assumptions C10_find_returns_iff_partial.

(** The same for insert if no cell is marked (a marked cell makes insert return). *)
Theorem C10_insert_returns_iff_partial :
  forall sc mc hash lg gh (client : op -> Prop) s k d0,
    cell_type sc -> 1 <= lg <= 63 -> fair sc client -> cprob mc = true ->
    (sc_mark sc = true -> forall p x, bmem s p = Some x -> skey x < 2 ^ (sc_w sc - 1)) ->
    table_reachable (TCfg sc mc hash) (sized mc lg gh) client s -> user_key sc k ->
    ((exists n t' r, solo (TCfg sc mc hash) (sized mc lg gh) n (bmem s) (OInsert k d0)
                       (start (TCfg sc mc hash) (sized mc lg gh) (OInsert k d0)) = (t', PDone r)) <->
     (exists p, vacant sc (cells_of mc lg) (bmem s) p) \/
     (exists p d, holds sc (cells_of mc lg) (bmem s) p k d)).
Proof.
  intros sc mc hash lg gh client s k d0 CT LG F CP M R U.
  destruct (reach_rel sc mc hash lg gh CT LG client s (fair_ok _ _ (wfs sc CT) F) R) as (x & ct & mk & I & A & _).
  apply (returns_iff sc mc hash lg gh CT LG _ ct mk _ (OInsert k d0) k I A U); auto.
  right. split; [eauto|]. exact (unmarked sc mc hash lg gh CT LG _ ct mk I M).
Qed.
Print Assumptions C10_insert_returns_iff_partial.

(** Two cells, both taken: 1 is stored, 3 is not, no cell is vacant. *)
Example C10_case :
  let sc := simple_slot false in let mc := MCfg true true in let c := TCfg sc mc (fun k => k) in
  let client := fun o => exists k, 0 < k < 3 /\ o = OInsert k (k + 6) in
  exists s, table_reachable c (sized mc 1 0) client s /\ fair sc client /\
    holds sc (cells_of mc 1) (bmem s) 1 1 7 /\
    (forall p, ~ vacant sc (cells_of mc 1) (bmem s) p) /\ (forall p d, ~ holds sc (cells_of mc 1) (bmem s) p 3 d).
Proof.
  intros sc mc c client.
  destruct (exec c (sized mc 1 0) (bsys_init c (sized mc 1 0)) (call 1 (OInsert 1 7) 2 ++ call 1 (OInsert 2 8) 2))
    as [[tr s]|] eqn:E; [|vm_compute in E; discriminate].
  exists s. split.
  { exists tr. eapply exec_sound; [|exact E]. intros o H. cbn in H.
    destruct H as [<-|[<-|[]]]; [exists 1|exists 2]; (split; [lia|reflexivity]). }
  split.
  { split; [|right; left; intros o (k & _ & ->); cbn; tauto].
    intros o (k & H & ->). split; [|exact Logic.I].
    unfold user_key; cbn [sc sc_mark simple_slot sc_w op_key].
    change (2 ^ 64) with 18446744073709551616. change (2 ^ (64 - 1)) with 9223372036854775808. lia. }
  vm_compute in E. injection E as _ <-.
  assert (B : forall p, p < cells_of mc 1 -> p = 0 \/ p = 1).
  { intros p L. change (cells_of mc 1) with 2 in L. lia. }
  split; [|split].
  - split; [reflexivity|]. eexists. split; [reflexivity|]. split; [left; reflexivity|reflexivity].
  - intros p (L & x & X & [V|[V _]]); [|discriminate].
    destruct (B p L) as [->| ->]; injection X as <-; discriminate.
  - intros p d (L & x & X & [V|[V _]] & _); [|discriminate].
    destruct (B p L) as [->| ->]; injection X as <-; discriminate.
Qed.

(** Not only lookups: on a full circular table without marked cells no call for an absent
    key ever returns. *)
Theorem C10_absent_key_refuted :
  forall sc mc hash lg gh (client : op -> Prop) s o,
    cell_type sc -> 1 <= lg <= 63 -> fair sc client -> cprob mc = true ->
    (sc_mark sc = true -> forall p x, bmem s p = Some x -> skey x < 2 ^ (sc_w sc - 1)) ->
    table_reachable (TCfg sc mc hash) (sized mc lg gh) client s -> user_key sc (op_key o) ->
    (forall p, ~ vacant sc (cells_of mc lg) (bmem s) p) ->
    (forall p d, ~ holds sc (cells_of mc lg) (bmem s) p (op_key o) d) ->
    forall n, exists i, solo (TCfg sc mc hash) (sized mc lg gh) n (bmem s) o
                          (start (TCfg sc mc hash) (sized mc lg gh) o) = (bmem s, PLoad i).
Proof.
  intros sc mc hash lg gh client s o CT LG F CP M R U NV NH n.
  destruct (reach_rel sc mc hash lg gh CT LG client s (fair_ok _ _ (wfs sc CT) F) R) as (x & ct & mk & I & _).
  pose proof (wfs sc CT) as W. pose proof (proj1 (user_key_valid sc _ W) U) as V.
  unfold start. generalize (home (TCfg sc mc hash) (sized mc lg gh) (op_key o)). revert n.
  induction n as [|n IH]; intros i; [cbn [solo]; eauto|]. cbn [solo].
  pose proof (remap_lt mc _ lg (wfm mc lg gh LG) i CP) as L.
  destruct (ti_cell _ _ _ _ _ I _ L) as [E O]. cbn [tsc tmc] in E, O.
  set (p := remap mc (sized mc lg gh) i) in *.
  assert (LT : p < cells_of mc lg) by (now rewrite <- (tot_eq mc lg gh LG)).
  assert (XE : is_empty sc (enc sc (ct p) (mk p)) = false).
  { rewrite (enc_is_empty sc W _ _ O). destruct (ct p) eqn:C; auto. elim (NV p).
    apply (vacant_iff sc mc hash lg gh CT LG _ _ _ _ I). auto. }
  assert (XC : compare_key sc (enc sc (ct p) (mk p)) (op_key o) = false).
  { rewrite (enc_compare_key sc W _ _ _ O V). destruct (ct p) as [| |k d] eqn:C; auto.
    destruct (N.eqb_spec k (op_key o)) as [K|]; auto. elim (NH p d).
    apply (holds_iff sc mc hash lg gh CT LG _ _ _ _ _ _ I U). subst k. auto. }
  assert (XM : is_marked sc (enc sc (ct p) (mk p)) = false).
  { rewrite (enc_is_marked sc W _ _ O). exact (unmarked sc mc hash lg gh CT LG _ ct mk I M p L). }
  cbn [bstep tmc tsc]. unfold rd. cbn [tmc]. fold p.
  destruct (N.ltb_spec p (total_slots mc (sized mc lg gh))); [|lia]. rewrite E.
  replace (after_load (TCfg sc mc hash) (sized mc lg gh) o i p (enc sc (ct p) (mk p))) with (PLoad (i + 1)); [apply IH|].
  destruct o; cbn [after_load op_key tsc tmc] in *; rewrite ?XM, XE, XC; reflexivity.
Qed.
Print Assumptions C10_absent_key_refuted.
