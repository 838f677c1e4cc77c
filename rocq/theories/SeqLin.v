(** The sequential table with linear probing and few insertions: every probe ends in the
    1024 cells behind the last home cell. *)
From Coq Require Import NArith Bool List Lia.
From Verif Require Import Words Slot Mapper MapperFacts MapSpec Base BaseInv BaseLin Migrate MigrateGeo Seq SeqSpec SeqFacts.
Import ListNotations.
Open Scope N_scope.

Lemma cnt_free_from t h n : h + cnt t n < N.of_nat n -> exists p, h <= p < N.of_nat n /\ occupied t p = false.
Proof.
  induction n as [|n IH]; cbn [cnt]; intros H; [lia|].
  destruct (occupied t (N.of_nat n)) eqn:O.
  - destruct IH as (p & ? & ?); [lia|]. exists p. split; [lia|auto].
  - exists (N.of_nat n). split; [lia|auto].
Qed.

Section L.
Context (mc : mcfg) (hash : N -> N) (CP : cprob mc = false).
Notation tot s := (total_slots mc (q_map s)).
Notation home s k := (q_home mc hash s k).

Lemma l_tot s lg : winv mc s lg -> tot s = 2 ^ lg + 1024.
Proof. intros I. now rewrite (total_val _ _ _ (wi_map _ _ _ I)), CP. Qed.
Lemma l_rm s i : remap mc (q_map s) i = i.
Proof. unfold remap. now rewrite CP. Qed.

(** Room behind the home cell of a key. *)
Definition room (s : stab) (k : N) : Prop := home s k + q_n s < tot s.

Lemma room_few s lg k : winv mc s lg -> q_n s <= 1024 -> room s k.
Proof.
  intros I Q. unfold room. pose proof (l_tot s lg I) as T.
  assert (H : home s k < 2 ^ lg).
  { unfold q_home. apply (map_lt mc (q_map s) lg); [apply I|]. unfold w64. apply N.mod_lt. discriminate. }
  lia.
Qed.

Lemma l_free s lg k : winv mc s lg -> room s k ->
  exists e x, home s k <= e < tot s /\ q_get mc s e = Some x /\ skey x = 0.
Proof.
  intros I Q. unfold room in Q.
  destruct (cnt_free_from (q_mem s) (home s k) (N.to_nat (tot s))) as (e & L & O).
  { rewrite N2Nat.id. pose proof (wi_cnt _ _ _ I). lia. }
  rewrite N2Nat.id in L. destruct (wi_cell _ _ _ I e) as [x X]; [lia|].
  exists e, x. split; [auto|]. split.
  - rewrite (q_get_mem mc hash) by lia. exact X.
  - unfold occupied in O. rewrite X in O. unfold q_empty in O. now destruct (N.eqb_spec (skey x) 0).
Qed.

(** The keys stored in [s']: those in [s], and [k]. *)
Definition holds (s : stab) (j : N) : Prop := j <> 0 /\ exists q y, q_get mc s q = Some y /\ skey y = j.
Lemma holds_set s p x j : p < tot s -> holds (q_set s p x) j -> holds s j \/ skey x = j.
Proof.
  intros L (J & q & y & G & Y). unfold q_set in G. rewrite (q_get_set mc hash s) in G by auto.
  destruct (q =? p); [|left; split; eauto]. injection G as <-. auto.
Qed.

Lemma l_scan s lg k : winv mc s lg -> room s k -> k <> 0 -> exists i b x,
  q_scan mc hash s k = ROk (i, b) /\ q_get mc s i = Some x /\ (skey x = if b then k else 0) /\
  home s k <= i /\ forall p, home s k <= p < i -> exists y, q_get mc s p = Some y /\ skey y <> 0.
Proof.
  intros I Q K. destruct (l_free s lg k I Q) as (e & xe & LE & GE & XE). unfold q_scan.
  assert (S : forall fuel i, home s k <= i <= e ->
    (forall p, home s k <= p < i -> exists y, q_get mc s p = Some y /\ skey y <> 0) ->
    (N.to_nat (e - i) < fuel)%nat ->
    exists i' b x, scan mc fuel s k i = ROk (i', b) /\ q_get mc s i' = Some x /\ (skey x = if b then k else 0) /\
      home s k <= i' /\ forall p, home s k <= p < i' -> exists y, q_get mc s p = Some y /\ skey y <> 0).
  { induction fuel as [|fuel IH]; intros i LI B F; [lia|]. cbn [scan]. rewrite l_rm.
    assert (C : exists x, q_get mc s i = Some x).
    { rewrite (q_get_mem mc hash) by lia. apply (wi_cell _ _ _ I). lia. }
    destruct C as [x G]. rewrite G. unfold q_is, q_empty.
    destruct (N.eqb_spec (skey x) k) as [E|E].
    { exists i, true, x. repeat split; auto. lia. }
    destruct (N.eqb_spec (skey x) 0) as [Z|Z].
    { exists i, false, x. repeat split; auto. lia. }
    assert (i <> e) by congruence.
    apply IH; [lia| |lia]. intros p P. destruct (N.eq_dec p i) as [->|]; [eauto|apply B; lia]. }
  apply S; lia.
Qed.

Lemma l_erase_loop fuel : forall s lg i j e xe x0, winv mc s lg ->
  cnt (q_mem s) (N.to_nat (tot s)) + 1 <= q_n s ->
  q_get mc s i = Some x0 -> skey x0 = 0 -> i < j -> j <= e ->
  q_get mc s e = Some xe -> skey xe = 0 -> (N.to_nat (e - j) < fuel)%nat ->
  exists s', erase_loop mc hash fuel s i j = ROk s' /\ winv mc s' lg /\ q_n s' = q_n s /\ forall q, holds s' q -> holds s q.
Proof.
  induction fuel as [|fuel IH]; intros s lg i j e xe x0 I C G0 X0 IJ JE GE E F; [lia|]. cbn [erase_loop].
  rewrite l_rm. pose proof (q_get_lt _ _ _ _ GE) as LE.
  assert (CJ : exists x, q_get mc s j = Some x).
  { rewrite (q_get_mem mc hash) by lia. apply (wi_cell _ _ _ I). lia. }
  destruct CJ as [x G]. rewrite G. unfold q_empty.
  destruct (N.eqb_spec (skey x) 0) as [Z|Z]; [eauto|].
  assert (j <> e) by congruence.
  destruct (_ <=? i).
  - set (s2 := q_set (q_set s i x) j empty_slot).
    pose proof (q_get_lt _ _ _ _ G) as LJ. pose proof (q_get_lt _ _ _ _ G0) as LI.
    assert (GS : forall q, q_get mc s2 q = if q =? j then Some empty_slot
                           else if q =? i then Some x else q_get mc s q).
    { intros q. unfold s2, q_set at 1.
      rewrite (q_get_set mc hash (q_set s i x)) by exact LJ.
      destruct (q =? j); auto. unfold q_set. now rewrite (q_get_set mc hash s) by auto. }
    assert (C2 : cnt (q_mem s2) (N.to_nat (tot s)) = cnt (q_mem s) (N.to_nat (tot s))).
    { unfold s2; cbn [q_mem q_set].
      assert (cnt (fupd (q_mem s) i (Some x)) (N.to_nat (tot s)) = cnt (q_mem s) (N.to_nat (tot s)) + 1).
      { apply cnt_add; [|unfold q_empty; now apply N.eqb_neq|rewrite N2Nat.id; auto].
        now rewrite (occ_get mc hash _ _ _ G0), X0. }
      pose proof (cnt_del (fupd (q_mem s) i (Some x)) j (N.to_nat (tot s))) as CD.
      rewrite N2Nat.id, occupied_upd in CD. destruct (N.eqb_spec j i); [lia|].
      rewrite (occ_get mc hash _ _ _ G) in CD. apply N.eqb_neq in Z. rewrite Z in CD.
      specialize (CD eq_refl LJ). lia. }
    assert (I2 : winv mc s2 lg).
    { split; try apply I.
      - intros q Q. unfold s2; cbn [q_mem q_set]. unfold fupd.
        destruct (q =? j); [eauto|]. destruct (q =? i); [eauto|apply I, Q].
      - change (q_map s2) with (q_map s). change (q_n s2) with (q_n s). rewrite C2. apply I. }
    destruct (IH s2 lg j (j + 1) e xe empty_slot I2) as (s' & H1 & H2 & H3 & H4); auto; try lia.
    + change (q_map s2) with (q_map s). rewrite C2. exact C.
    + rewrite GS, N.eqb_refl. reflexivity.
    + rewrite GS. destruct (N.eqb_spec e j); [congruence|]. destruct (N.eqb_spec e i); [lia|auto].
    + exists s'. sp; auto. intros q Hq. pose proof Hq as [J _].
      apply H4, holds_set in Hq; [|exact LJ]. destruct Hq as [Hq|Hq]; [|cbn in Hq; congruence].
      apply holds_set in Hq; auto. destruct Hq as [Hq|Hq]; auto. split; eauto.
  - apply (IH s lg i (j + 1) e xe x0); auto; lia.
Qed.

Lemma l_erase s lg k : winv mc s lg -> room s k -> k <> 0 ->
  exists s' b, erase mc hash (S (N.to_nat (tot s))) s k = ROk (s', b) /\ winv mc s' lg /\ q_n s' = q_n s /\
    forall q, holds s' q -> holds s q.
Proof.
  intros I Q K. unfold erase.
  destruct (l_scan s lg k I Q K) as (i & b & x & -> & G & X & LI & B).
  cbn [bind fst snd]. destruct b; [|eauto 6]. rewrite l_rm, N.land_diag, G.
  destruct (w_del mc hash s lg i x I G ltac:(congruence)) as [I' C'].
  pose proof (q_get_lt _ _ _ _ G) as LP.
  destruct (l_free s lg k I Q) as (e & xe & LE & GE & XE).
  assert (IE : i < e).
  { destruct (N.lt_trichotomy i e) as [|[->|H]]; auto; [congruence|].
    destruct (B e ltac:(lia)) as (y & GY & NY). congruence. }
  destruct (l_erase_loop (S (N.to_nat (tot s))) (q_set s i empty_slot) lg i (i + 1) e xe empty_slot I')
    as (s' & -> & W & QQ & HH); auto; try lia.
  - unfold q_set. rewrite (q_get_set mc hash s) by auto. now rewrite N.eqb_refl.
  - unfold q_set. rewrite (q_get_set mc hash s) by auto. destruct (N.eqb_spec e i); [lia|auto].
  - cbn [bind]. exists s', true. sp; auto. intros q Hq. pose proof Hq as [J _].
    apply HH, holds_set in Hq; auto. destruct Hq as [|Hq]; auto. cbn in Hq. congruence.
Qed.

Definition adds (o : sop) : bool := match o with SInsert _ _ | SIou _ _ _ => true | _ => false end.

Lemma l_srun s lg o : winv mc s lg -> 10 <= lg -> q_n s + (if adds o then 1 else 0) <= 1024 -> sop_key o <> 0 ->
  exists s' r, srun mc hash s o = ROk (s', r) /\ winv mc s' lg /\ q_n s' <= q_n s + if adds o then 1 else 0.
Proof.
  intros I LG Q K.
  assert (F : 1024 <= fill_limit (tot s)).
  { pose proof (fill_limit_bounds (tot s)). pose proof (l_tot s lg I).
    pose proof (pow2_le 10 lg LG) as P. change (2 ^ 10) with 1024 in P. lia. }
  destruct o as [k d|k|k f|k d f|k]; cbn [srun sop_key adds] in *.
  - unfold depth. remember 3%nat as g eqn:Eg. cbn [insert_intern].
    destruct (l_scan s lg k I (room_few s lg k I ltac:(lia)) K) as (i & b & x & -> & G & X & _). cbn [bind fst snd]. destruct b.
    + cbn [bind]. eexists _, _. sp; eauto. lia.
    + cbn [q_n q_map q_mem]. destruct (N.ltb_spec (fill_limit (tot s)) (q_n s + 1)); [lia|].
      rewrite l_rm. cbn [bind]. eexists _, _. sp; [reflexivity| |cbn; lia].
      apply (w_put mc hash s lg i x k d I G X K). lia.
  - destruct (l_scan s lg k I (room_few s lg k I ltac:(lia)) K) as (i & b & x & -> & G & X & _). cbn [bind fst snd].
    eexists _, _. sp; eauto. lia.
  - destruct (l_scan s lg k I (room_few s lg k I ltac:(lia)) K) as (i & b & x & -> & G & X & _). cbn [bind fst snd]. destruct b.
    + rewrite l_rm, G. eexists _, _. sp; [reflexivity| |cbn; lia]. eapply w_upd; eauto.
    + eexists _, _. sp; eauto. lia.
  - unfold depth. remember 3%nat as g eqn:Eg. cbn [insert_or_update_intern].
    destruct (l_scan s lg k I (room_few s lg k I ltac:(lia)) K) as (i & b & x & -> & G & X & _). cbn [bind fst snd]. destruct b.
    + rewrite l_rm, G. cbn [bind]. eexists _, _. sp; [reflexivity| |cbn; lia]. eapply w_upd; eauto.
    + cbn [q_n q_map q_mem]. destruct (N.ltb_spec (fill_limit (tot s)) (q_n s + 1)); [lia|].
      rewrite l_rm. cbn [bind]. eexists _, _. sp; [reflexivity| |cbn; lia].
      apply (w_put mc hash s lg i x k d I G X K). lia.
  - destruct (l_erase s lg k I (room_few s lg k I ltac:(lia)) K) as (s' & b & -> & W & QQ & _). cbn [bind].
    eexists _, _. sp; eauto. lia.
Qed.

Lemma l_srun_all l : forall s lg, winv mc s lg -> 10 <= lg -> (forall o, In o l -> sop_key o <> 0) ->
  q_n s + N.of_nat (length (filter adds l)) <= 1024 -> exists r, srun_all mc hash s l = ROk r.
Proof.
  induction l as [|o l IH]; intros s lg I LG K N; cbn [srun_all]; [eauto|]. cbn [filter] in N.
  destruct (l_srun s lg o I LG) as (s' & r & -> & I' & Q); [destruct (adds o); cbn [length] in N; lia|apply K; now left|].
  cbn [bind]. destruct (IH s' lg I' LG (fun o' H => K o' (or_intror H))) as [[s'' rs] ->].
  { destruct (adds o); cbn [length] in N; lia. }
  cbn [bind]. eauto.
Qed.

(** *** Growth, for keys that always have room *)

Section G.
Context (lg0 : N) (NK : N -> Prop) (ROOM : forall s lg k, winv mc s lg -> lg0 <= lg -> NK k -> room s k).

Definition ginv (s : stab) (lg : N) : Prop := winv mc s lg /\ lg0 <= lg /\ forall j, holds s j -> NK j.

Lemma g_resize s lg : winv mc s lg -> q_n s + 1 > fill_limit (tot s) -> q_n s <= 2 ^ 48 ->
  let m' := resize mc (q_map s) (q_n s + 1) 0 in
  wf_mapper mc m' (lg + 1) /\ q_n s + 1 <= fill_limit (total_slots mc m') /\ lg <= 50.
Proof.
  intros I F N m'. pose proof (wi_map _ _ _ I) as W. pose proof (l_tot _ _ I) as T.
  destruct (fill_limit_bounds (tot s)) as [B1 B2]. pose proof (wi_lg _ _ _ I).
  pose proof (pow2_le 9 lg ltac:(lia)) as P9. change (2 ^ 9) with 512 in P9.
  assert (L50 : lg <= 50).
  { destruct (N.le_gt_cases lg 50) as [|G]; auto. exfalso.
    pose proof (pow2_le 51 lg ltac:(lia)) as P.
    change (2 ^ 51) with 2251799813685248 in P. change (2 ^ 48) with 281474976710656 in N. lia. }
  assert (E : m' = mk_mapper mc (2 ^ (lg + 1)) (if cmap mc then 2 ^ lg else 1)).
  { unfold m', resize. rewrite (addressable_val _ _ _ W).
    replace (w64 (q_n s + 1 + (2 ^ 64 - w64 0))) with (q_n s + 1).
    - assert (fill_above (q_n s + 1) (2 ^ lg) = true) as ->.
      { apply N.ltb_lt. change (2 ^ 54) with 18014398509481984. lia. }
      rewrite pow2_add1, (N.mul_comm 2). reflexivity.
    - change (w64 0) with 0. rewrite N.sub_0_r. unfold w64.
      replace (q_n s + 1 + 2 ^ 64) with (q_n s + 1 + 1 * 2 ^ 64) by lia.
      rewrite N.mod_add by discriminate. symmetry. apply N.mod_small.
      change (2 ^ 48) with 281474976710656 in N. change (2 ^ 64) with 18446744073709551616. lia. }
  assert (W' : wf_mapper mc m' (lg + 1)) by (rewrite E; apply wf_mk; lia).
  sp; auto. rewrite (total_val _ _ _ W'), CP.
  destruct (fill_limit_bounds (2 ^ (lg + 1) + 1024)) as [_ B3]. rewrite pow2_add1 in *.
  pose proof (wi_lim _ _ _ I). lia.
Qed.

Lemma g_put s lg p x k d : ginv s lg -> q_get mc s p = Some x -> skey x = 0 -> k <> 0 -> NK k ->
  q_n s + 1 <= fill_limit (tot s) ->
  ginv (Stab (q_map s) (fupd (q_mem s) p (Some (Slot k d))) (q_n s + 1)) lg.
Proof.
  intros (I & L & H) G X K KK LIM. pose proof (q_get_lt _ _ _ _ G) as LP.
  split; [exact (w_put mc hash s lg p x k d I G X K LIM)|]. split; auto.
  intros j Hj. change (holds (q_set s p (Slot k d)) j) in Hj.
  apply holds_set in Hj; auto. destruct Hj as [Hj|Hj]; auto. cbn in Hj. now subst j.
Qed.

Lemma g_upd s lg p x d : ginv s lg -> q_get mc s p = Some x -> ginv (q_set s p (Slot (skey x) d)) lg.
Proof.
  intros (I & L & H) G. pose proof (q_get_lt _ _ _ _ G) as LP.
  split; [eapply w_upd; eauto|]. split; auto. intros j Hj. pose proof Hj as [J _].
  apply holds_set in Hj; auto. destruct Hj as [Hj|Hj]; auto. apply H. split; eauto.
Qed.

Lemma g_scan s lg k : ginv s lg -> k <> 0 -> NK k -> exists i b x,
  q_scan mc hash s k = ROk (i, b) /\ q_get mc s (remap mc (q_map s) i) = Some x /\ skey x = if b then k else 0.
Proof.
  intros (I & L & H) K KK. destruct (l_scan s lg k I (ROOM s lg k I L KK) K) as (i & b & x & A & B & C & _).
  exists i, b, x. rewrite l_rm. auto.
Qed.

Lemma g_insert_small g s lg k d : ginv s lg -> k <> 0 -> NK k -> q_n s + 1 <= fill_limit (tot s) ->
  exists s' p b, insert_intern mc hash (S g) s k d = ROk (s', p, b) /\ ginv s' lg /\
    q_map s' = q_map s /\ q_n s' <= q_n s + 1.
Proof.
  intros I K KK LIM. cbn [insert_intern]. destruct (g_scan s lg k I K KK) as (i & b & x & -> & G & X).
  cbn [bind fst snd]. destruct b.
  - exists s, (remap mc (q_map s) i), false. sp; auto. lia.
  - cbn [q_n q_map q_mem]. destruct (N.ltb_spec (fill_limit (tot s)) (q_n s + 1)); [lia|].
    eexists _, _, _. sp; [reflexivity| |reflexivity|cbn; lia].
    exact (g_put s lg _ x k d I G X K KK LIM).
Qed.

Lemma g_migrate g s lg : ginv s lg -> forall n i t lgt, i + N.of_nat n = tot s -> ginv t lgt ->
  q_n t <= cnt (q_mem s) (N.to_nat i) -> q_n s <= fill_limit (tot t) ->
  exists t', migrate_loop mc (insert_intern mc hash (S g)) s t (nseq i n) = ROk t' /\
    ginv t' lgt /\ q_n t' <= q_n s /\ q_map t' = q_map t.
Proof.
  intros (I & L0 & HS) n. induction n as [|n IH]; intros i t lgt T IT C LIM; cbn [nseq migrate_loop].
  - exists t. sp; auto. rewrite C. replace i with (tot s) by lia. apply I.
  - destruct (wi_cell _ _ _ I i) as [x X]; [lia|].
    assert (G : q_get mc s i = Some x) by (rewrite (q_get_mem mc hash) by lia; auto). rewrite G.
    assert (C1 : cnt (q_mem s) (N.to_nat (i + 1)) =
                 cnt (q_mem s) (N.to_nat i) + if q_empty x then 0 else 1).
    { replace (N.to_nat (i + 1)) with (S (N.to_nat i)) by lia. cbn [cnt].
      rewrite N2Nat.id. unfold occupied. rewrite X. destruct (q_empty x); reflexivity. }
    pose proof (cnt_mono (q_mem s) (N.to_nat (i + 1)) (N.to_nat (tot s)) ltac:(lia)) as CM.
    pose proof (wi_cnt _ _ _ I).
    destruct (q_empty x) eqn:E.
    + apply (IH (i + 1) t lgt); auto; lia.
    + unfold q_empty in E. apply N.eqb_neq in E.
      assert (KK : NK (skey x)) by (apply HS; split; eauto).
      destruct (g_insert_small g t lgt (skey x) (sdata x) IT E KK ltac:(lia)) as (t' & p & b & -> & IT' & M & Q).
      cbn [bind fst]. rewrite <- M. apply (IH (i + 1) t' lgt); auto; try lia. rewrite M. lia.
Qed.

Lemma g_fresh m lg : wf_mapper mc m lg -> 9 <= lg <= 52 -> lg0 <= lg -> ginv (q_fresh mc m) lg.
Proof.
  intros W L L0. split; [now apply (w_fresh mc hash)|]. split; auto.
  intros j (J & q & y & G & Y). unfold q_get, q_fresh in G. cbn [q_map q_mem] in G.
  destruct (q <? total_slots mc m); [|discriminate]. injection G as <-. cbn in Y. congruence.
Qed.

Lemma g_grow g s lg : ginv s lg -> q_n s + 1 > fill_limit (tot s) -> q_n s <= 2 ^ 48 ->
  exists s2, grow mc (insert_intern mc hash (S g)) (Stab (q_map s) (q_mem s) (q_n s + 1)) = ROk s2 /\
    let s3 := Stab (q_map s2) (q_mem s2) (q_n s2 - 1) in
    ginv s3 (lg + 1) /\ q_n s3 = q_n s /\ q_n s3 + 1 <= fill_limit (tot s3).
Proof.
  intros I F N. unfold grow. cbn [q_map q_n q_mem]. pose proof I as (WI & L0 & HS).
  destruct (g_resize _ _ WI F N) as (W' & LIM & L50). pose proof (wi_lg _ _ _ WI).
  set (m' := resize mc (q_map s) (q_n s + 1) 0) in *.
  pose proof (g_fresh m' (lg + 1) W' ltac:(lia) ltac:(lia)) as FI.
  set (s1 := Stab (q_map s) (q_mem s) (q_n s + 1)).
  destruct (g_migrate g s lg I (N.to_nat (tot s)) 0 (q_fresh mc m') (lg + 1)) as (t' & MS & IT & QT & MT);
    auto; try lia.
  { cbn [q_n q_fresh]. lia. }
  { cbn [q_map q_fresh]. lia. }
  assert (ML : migrate_loop mc (insert_intern mc hash (S g)) s1 (q_fresh mc m') (nseq 0 (N.to_nat (tot s))) =
               migrate_loop mc (insert_intern mc hash (S g)) s (q_fresh mc m') (nseq 0 (N.to_nat (tot s)))).
  { generalize (q_fresh mc m'), (nseq 0 (N.to_nat (tot s))). intros t l. revert t.
    induction l as [|i l IH]; intros t; cbn [migrate_loop]; auto.
    change (q_get mc s1 i) with (q_get mc s i).
    destruct (q_get mc s i) as [x|]; auto. destruct (q_empty x); auto.
    destruct (insert_intern mc hash (S g) t (skey x) (sdata x)) as [r| |]; cbn [bind]; auto. }
  rewrite ML, MS. cbn [bind]. eexists. split; [reflexivity|]. cbn [q_map q_mem q_n].
  replace (q_n s + 1 - 1) with (q_n s) by lia.
  cbn [q_map q_fresh] in MT. destruct t' as [mt t' nt]. cbn [q_map q_mem q_n] in *. subst mt.
  sp; auto. destruct IT as ([I1 I2 I3 I4 I5] & L1 & HT). cbn [q_map q_mem q_n] in *.
  split; [|split]; auto. split; cbn [q_map q_mem q_n]; auto; try lia.
Qed.

Lemma g_srun s lg o : ginv s lg -> sop_key o <> 0 -> NK (sop_key o) -> q_n s <= 2 ^ 48 ->
  exists s' r lg', srun mc hash s o = ROk (s', r) /\ ginv s' lg' /\ q_n s' <= q_n s + 1.
Proof.
  intros I K KK N. destruct o as [k d|k|k f|k d f|k]; cbn [srun sop_key] in *.
  - unfold depth. remember 3%nat as g eqn:Eg. cbn [insert_intern].
    destruct (g_scan s lg k I K KK) as (i & b & x & -> & G & X). cbn [bind fst snd]. destruct b.
    + cbn [bind]. eexists _, _, lg. sp; eauto. lia.
    + cbn [q_n q_map q_mem]. destruct (N.ltb_spec (fill_limit (tot s)) (q_n s + 1)) as [F|F].
      * subst g. destruct (g_grow 2 s lg I ltac:(lia) N) as (s2 & -> & I3 & Q3 & L3).
        cbn [bind].
        destruct (g_insert_small 2 _ _ k d I3 K KK L3) as (s' & p & b & -> & I4 & _ & Q4).
        cbn [bind]. eexists _, _, _. sp; eauto. lia.
      * cbn [bind]. eexists _, _, lg. sp; [reflexivity| |cbn; lia]. exact (g_put s lg _ x k d I G X K KK F).
  - destruct (g_scan s lg k I K KK) as (i & b & x & -> & G & X). cbn [bind fst snd].
    eexists _, _, lg. sp; eauto. lia.
  - destruct (g_scan s lg k I K KK) as (i & b & x & -> & G & X). cbn [bind fst snd]. destruct b.
    + rewrite G. eexists _, _, lg. sp; [reflexivity| |cbn; lia]. eapply g_upd; eauto.
    + eexists _, _, lg. sp; eauto. lia.
  - unfold depth. remember 3%nat as g eqn:Eg. cbn [insert_or_update_intern].
    destruct (g_scan s lg k I K KK) as (i & b & x & -> & G & X). cbn [bind fst snd]. destruct b.
    + rewrite G. cbn [bind]. eexists _, _, lg. sp; [reflexivity| |cbn; lia]. eapply g_upd; eauto.
    + cbn [q_n q_map q_mem]. destruct (N.ltb_spec (fill_limit (tot s)) (q_n s + 1)) as [F|F].
      * subst g. destruct (g_grow 2 s lg I ltac:(lia) N) as (s2 & -> & I3 & Q3 & L3).
        cbn [bind]. set (s3 := Stab (q_map s2) (q_mem s2) (q_n s2 - 1)) in *. clearbody s3.
        cbn [insert_or_update_intern].
        destruct (g_scan s3 _ k I3 K KK) as (i' & b' & x' & -> & G' & X'). cbn [bind fst snd]. destruct b'.
        -- rewrite G'. cbn [bind]. eexists _, _, _. sp; [reflexivity| |cbn; lia]. eapply g_upd; eauto.
        -- cbn [q_n q_map q_mem]. destruct (N.ltb_spec (fill_limit (tot s3)) (q_n s3 + 1)); [lia|].
           cbn [bind]. eexists _, _, _. sp; [reflexivity| |cbn; lia].
           exact (g_put s3 _ _ x' k d I3 G' X' K KK L3).
      * cbn [bind]. eexists _, _, lg. sp; [reflexivity| |cbn; lia]. exact (g_put s lg _ x k d I G X K KK F).
  - pose proof I as (WI & L0 & HS).
    destruct (l_erase s lg k WI (ROOM s lg k WI L0 KK) K) as (s' & b & -> & W & Q & HH). cbn [bind].
    eexists _, _, lg. sp; [reflexivity| |lia]. split; [auto|split; auto].
Qed.

Lemma g_srun_all l : forall s lg, ginv s lg -> (forall o, In o l -> sop_key o <> 0 /\ NK (sop_key o)) ->
  q_n s + N.of_nat (length l) <= 2 ^ 48 -> exists r, srun_all mc hash s l = ROk r.
Proof.
  induction l as [|o l IH]; intros s lg I K N; cbn [srun_all]; [eauto|]. cbn [length] in N.
  destruct (K o (or_introl eq_refl)) as [K1 K2].
  destruct (g_srun s lg o I K1 K2 ltac:(lia)) as (s' & r & lg' & -> & I' & Q).
  cbn [bind]. destruct (IH s' lg' I' (fun o' H => K o' (or_intror H)) ltac:(lia)) as [[s'' rs] ->].
  cbn [bind]. eauto.
Qed.
End G.

(** Hash values in the first quarter of their range: of the initial size with circular
    mapping, of 2^64 otherwise.  In every table the home cell is in the first quarter. *)
Definition low (lg0 k : N) : Prop := 4 * hash k < if cmap mc then 2 ^ lg0 else 2 ^ 64.

Lemma room_low lg0 s lg k : winv mc s lg -> lg0 <= lg -> low lg0 k -> room s k.
Proof.
  intros I L H. unfold room, low in *. pose proof (l_tot s lg I) as T. pose proof (wi_lim _ _ _ I).
  destruct (fill_limit_bounds (tot s)) as [B _]. pose proof (wi_lg _ _ _ I) as LG.
  assert (4 * home s k <= 2 ^ lg); [|lia].
  unfold q_home. rewrite (map_val _ _ _ (wi_map _ _ _ I)). destruct (cmap mc).
  - pose proof (pow2_le lg0 lg L). pose proof (pow2_le lg 52 ltac:(lia)) as P.
    change (2 ^ 52) with 4503599627370496 in P.
    unfold w64. change (2 ^ 64) with 18446744073709551616.
    rewrite (N.mod_small (hash k)) by lia. rewrite N.mod_small by lia. lia.
  - assert (hash k < 2 ^ 62) as H2 by (change (2 ^ 64) with (4 * 2 ^ 62) in H; lia).
    unfold w64. rewrite N.mod_small by (change (2 ^ 64) with (4 * 2 ^ 62); lia).
    assert (hash k / 2 ^ (64 - lg) < 2 ^ (lg - 2)).
    { apply N.div_lt_upper_bound; [pose proof (pow2_pos (64 - lg)); lia|].
      rewrite <- N.pow_add_r. replace (64 - lg + (lg - 2)) with 62 by lia. exact H2. }
    replace lg with (2 + (lg - 2)) at 2 by lia. rewrite N.pow_add_r. change (2 ^ 2) with 4. lia.
Qed.
End L.
