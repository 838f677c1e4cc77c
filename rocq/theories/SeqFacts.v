(** The sequential table implements the map. *)
From Coq Require Import NArith Bool List Lia.
From Verif Require Import Words Slot Mapper MapperFacts MapSpec Base BaseInv BaseLin Migrate MigrateGeo Seq SeqSpec.
Import ListNotations.
Open Scope N_scope.

(** *** The fill limit *)

Lemma round53_near p : round53 p * 2 ^ 52 <= p * (2 ^ 52 + 1) /\ p * 2 ^ 52 <= round53 p * 2 ^ 52 + p.
Proof.
  unfold round53. set (sh := N.log2 p - 52). cbv zeta.
  assert (B : sh = 0 \/ 2 ^ 52 * 2 ^ sh <= p).
  { destruct (N.eq_dec sh 0) as [Z|Z]; auto. right.
    rewrite <- N.pow_add_r. replace (52 + sh) with (N.log2 p) by (unfold sh in *; lia).
    apply N.log2_spec. destruct p; [exfalso; apply Z; reflexivity|lia]. }
  pose proof (pow2_pos sh) as P.
  pose proof (N.div_mod p (2 ^ sh) ltac:(lia)) as D.
  pose proof (N.mod_lt p (2 ^ sh) ltac:(lia)) as R.
  set (q := p / 2 ^ sh) in *. set (r := p mod 2 ^ sh) in *. clearbody q r.
  destruct ((2 ^ sh <? 2 * r) || (2 * r =? 2 ^ sh) && N.odd q) eqn:U.
  - destruct B as [Z|B].
    + rewrite Z in *. change (2 ^ 0) with 1 in *. assert (r = 0) by lia. subst r.
      cbn [N.mul] in U. exfalso. revert U. cbn. discriminate.
    + revert D R P B. generalize (2 ^ sh). intros w. intros. change (2 ^ 52) with 4503599627370496 in *. nia.
  - destruct B as [Z|B].
    + rewrite Z in *. change (2 ^ 0) with 1 in *. assert (r = 0) by lia. subst r. nia.
    + revert D R P B. generalize (2 ^ sh). intros w. intros. change (2 ^ 52) with 4503599627370496 in *. nia.
Qed.

Lemma fill_limit_bounds t : 10 * fill_limit t <= 7 * t /\ 6 * t <= 10 * fill_limit t + 10.
Proof.
  unfold fill_limit. set (p := 5998794703657501 * t).
  destruct (round53_near p) as [U L]. set (r := round53 p) in *. clearbody r.
  pose proof (N.div_mod r (2 ^ 53) ltac:(discriminate)) as D.
  pose proof (N.mod_lt r (2 ^ 53) ltac:(discriminate)) as M.
  set (q := r / 2 ^ 53) in *. set (z := r mod 2 ^ 53) in *. clearbody q z. subst p.
  change (2 ^ 52) with 4503599627370496 in *. change (2 ^ 53) with 9007199254740992 in *. lia.
Qed.

(** *** Counting occupied cells *)

Definition occupied (t : mem) (p : N) : bool :=
  match t p with Some x => negb (q_empty x) | None => false end.

Fixpoint cnt (t : mem) (n : nat) : N :=
  match n with O => 0 | S n => cnt t n + if occupied t (N.of_nat n) then 1 else 0 end.

Lemma fupd_same {A} (f : N -> A) k v : fupd f k v k = v.
Proof. unfold fupd. now rewrite N.eqb_refl. Qed.
Lemma fupd_other {A} (f : N -> A) k v x : x <> k -> fupd f k v x = f x.
Proof. intros. unfold fupd. destruct (N.eqb_spec x k); congruence. Qed.

Lemma occupied_upd t p x q :
  occupied (fupd t p (Some x)) q = if q =? p then negb (q_empty x) else occupied t q.
Proof. unfold occupied, fupd. destruct (q =? p); reflexivity. Qed.

Lemma cnt_ext t t' n : (forall p, p < N.of_nat n -> occupied t p = occupied t' p) -> cnt t n = cnt t' n.
Proof.
  induction n as [|n IH]; intros H; [reflexivity|]. cbn [cnt].
  rewrite IH by (intros; apply H; lia). rewrite H by lia. reflexivity.
Qed.

Lemma cnt_add t p x n :
  occupied t p = false -> q_empty x = false -> p < N.of_nat n ->
  cnt (fupd t p (Some x)) n = cnt t n + 1.
Proof.
  intros H E. induction n as [|n IH]; intros L; [lia|]. cbn [cnt].
  rewrite occupied_upd, E. destruct (N.eqb_spec (N.of_nat n) p) as [Q|Q].
  - subst p. rewrite H. cbn [negb].
    rewrite (cnt_ext (fupd t (N.of_nat n) (Some x)) t); [lia|].
    intros q Hq. rewrite occupied_upd. destruct (N.eqb_spec q (N.of_nat n)); [lia|reflexivity].
  - rewrite IH by lia. lia.
Qed.

Lemma cnt_del t p n : occupied t p = true -> p < N.of_nat n ->
  cnt (fupd t p (Some empty_slot)) n + 1 = cnt t n.
Proof.
  intros H. induction n as [|n IH]; intros L; [lia|]. cbn [cnt].
  rewrite occupied_upd. change (q_empty empty_slot) with true. cbn [negb].
  destruct (N.eqb_spec (N.of_nat n) p) as [Q|Q].
  - subst p. rewrite H.
    rewrite (cnt_ext (fupd t (N.of_nat n) (Some empty_slot)) t); [lia|].
    intros q Hq. rewrite occupied_upd. destruct (N.eqb_spec q (N.of_nat n)); [lia|reflexivity].
  - specialize (IH ltac:(lia)). lia.
Qed.

Lemma cnt_le t n : cnt t n <= N.of_nat n.
Proof. induction n; cbn [cnt]; [lia|]. destruct (occupied _ _); lia. Qed.
Lemma cnt_mono t n n' : (n <= n')%nat -> cnt t n <= cnt t n'.
Proof. induction 1; cbn [cnt]; [lia|]. destruct (occupied _ _); lia. Qed.
Lemma cnt_free t n : cnt t n < N.of_nat n -> exists p, p < N.of_nat n /\ occupied t p = false.
Proof.
  induction n as [|n IH]; cbn [cnt]; intros H; [lia|].
  destruct (occupied t (N.of_nat n)) eqn:O.
  - destruct IH as (p & ? & ?); [lia|]. exists p. split; [lia|auto].
  - exists (N.of_nat n). split; [lia|auto].
Qed.

(** *** The invariant *)

Section S.
Context (mc : mcfg) (hash : N -> N).
Notation rm s := (remap mc (q_map s)).
Notation tot s := (total_slots mc (q_map s)).
Notation home s k := (q_home mc hash s k).

Definition blocked (s : stab) (k n : N) : Prop :=
  forall j, j < n -> exists y, q_get mc s (rm s (home s k + j)) = Some y /\ skey y <> 0 /\ skey y <> k.

Record sinv (s : stab) (lg : N) (a : amap) (z : N) : Prop := {
  si_map : wf_mapper mc (q_map s) lg;
  si_lg : 9 <= lg <= 62;
  si_cell : forall p, p < tot s -> exists x, q_mem s p = Some x;
  si_reach : forall p x, q_get mc s p = Some x -> skey x <> 0 ->
               exists n, rm s (home s (skey x) + n) = p /\ blocked s (skey x) n;
  si_abs : forall k d, a k = Some d <-> k <> 0 /\ exists p, q_get mc s p = Some (Slot k d);
  si_cnt : cnt (q_mem s) (N.to_nat (tot s)) + z = q_n s;
  si_lim : q_n s <= fill_limit (tot s) }.

Lemma q_get_lt s p x : q_get mc s p = Some x -> p < tot s.
Proof. unfold q_get. destruct (N.ltb_spec p (tot s)); congruence. Qed.
Lemma q_get_mem s p : p < tot s -> q_get mc s p = q_mem s p.
Proof. unfold q_get. destruct (N.ltb_spec p (tot s)); [auto|lia]. Qed.

Lemma tot_pos s lg a z : sinv s lg a z -> 512 <= tot s.
Proof.
  intros I. rewrite (total_val _ _ _ (si_map _ _ _ _ I)).
  pose proof (pow2_le 9 lg (proj1 (si_lg _ _ _ _ I))) as P. change (2 ^ 9) with 512 in P.
  destruct (cprob mc); lia.
Qed.

(** Scanning from a blocked prefix: what each result means. *)
Lemma scan_spec s k (K : k <> 0) fuel : forall n, blocked s k n ->
  match scan mc fuel s k (home s k + n) with
  | ROk (i, b) => exists n', i = home s k + n' /\ blocked s k n' /\
        exists x, q_get mc s (rm s i) = Some x /\ skey x = if b then k else 0
  | RBad => exists n', q_get mc s (rm s (home s k + n')) = None
  | RLoop => blocked s k (n + N.of_nat fuel)
  end.
Proof.
  induction fuel as [|fuel IH]; intros n B; cbn [scan].
  - now rewrite N.add_0_r.
  - destruct (q_get mc s (rm s (home s k + n))) as [x|] eqn:G; [|eauto].
    unfold q_is, q_empty. destruct (N.eqb_spec (skey x) k) as [E|E].
    { exists n. eauto 6. }
    destruct (N.eqb_spec (skey x) 0) as [Z|Z].
    { exists n. eauto 6. }
    rewrite <- N.add_assoc. replace (n + N.of_nat (S fuel)) with (n + 1 + N.of_nat fuel) by lia.
    apply IH. intros j Hj. destruct (N.eq_dec j n) as [->|]; [eauto|]. apply B. lia.
Qed.

Lemma occ_free s lg a z : sinv s lg a z -> exists p, p < tot s /\ occupied (q_mem s) p = false.
Proof.
  intros I. destruct (cnt_free (q_mem s) (N.to_nat (tot s))) as (p & L & O).
  - pose proof (si_cnt _ _ _ _ I). rewrite N2Nat.id.
    pose proof (si_lim _ _ _ _ I). pose proof (tot_pos _ _ _ _ I).
    destruct (fill_limit_bounds (tot s)). lia.
  - rewrite N2Nat.id in L. eauto.
Qed.

Lemma probe_all s lg a z k p : sinv s lg a z -> cprob mc = true -> p < tot s ->
  exists j, j < tot s /\ rm s (home s k + j) = p.
Proof.
  intros I CP L. pose proof (si_map _ _ _ _ I) as W.
  assert (T : tot s = 2 ^ lg) by (rewrite (total_val _ _ _ W), CP; auto).
  assert (H : home s k < 2 ^ lg) by (apply (map_lt _ _ _ W); apply N.mod_lt; discriminate).
  rewrite T in *. pose proof (pow2_pos lg).
  destruct (N.le_gt_cases (home s k) p) as [G|G].
  - exists (p - home s k). rewrite (remap_val _ _ _ W), CP. split; [lia|].
    rewrite N.mod_small by lia. lia.
  - exists (p + 2 ^ lg - home s k). rewrite (remap_val _ _ _ W), CP. split; [lia|].
    replace (home s k + (p + 2 ^ lg - home s k)) with (p + 1 * 2 ^ lg) by lia.
    rewrite N.mod_add by lia. apply N.mod_small. lia.
Qed.

(** The result of a scan under the invariant. *)
Lemma q_scan_spec s lg a z k : sinv s lg a z -> k <> 0 ->
  match q_scan mc hash s k with
  | ROk (i, b) => exists n, i = home s k + n /\ blocked s k n /\
        exists x, q_get mc s (rm s i) = Some x /\ skey x = if b then k else 0
  | RBad => cprob mc = false
  | RLoop => False
  end.
Proof.
  intros I K. unfold q_scan.
  pose proof (scan_spec s k K (S (N.to_nat (tot s))) 0) as P.
  rewrite N.add_0_r in P.
  specialize (P ltac:(intros j Hj; lia)).
  destruct (scan _ _ _ _ _) as [[i b]| |]; auto.
  - destruct P as [n G]. destruct (cprob mc) eqn:CP; auto. exfalso.
    pose proof (remap_lt _ _ _ (si_map _ _ _ _ I) (home s k + n) CP) as L.
    rewrite q_get_mem in G by auto. destruct (si_cell _ _ _ _ I _ L). congruence.
  - destruct (cprob mc) eqn:CP.
    + destruct (occ_free _ _ _ _ I) as (p & L & O).
      destruct (probe_all _ _ _ _ k p I CP L) as (j & J & E).
      destruct (P j) as (y & G & Y & _); [lia|]. rewrite E, q_get_mem in G by auto.
      unfold occupied in O. rewrite G in O. unfold q_empty in O.
      destruct (N.eqb_spec (skey y) 0); [auto|discriminate].
    + destruct (P (tot s)) as (y & G & _); [lia|]. apply q_get_lt in G.
      rewrite (remap_val _ _ _ (si_map _ _ _ _ I)), CP in G. lia.
Qed.

(** A free cell at the end of a blocked prefix: the key is absent. *)
Lemma blocked_absent s lg a z k n x : sinv s lg a z -> k <> 0 -> blocked s k n ->
  q_get mc s (rm s (home s k + n)) = Some x -> skey x = 0 -> a k = None.
Proof.
  intros I K B G Z. destruct (a k) as [d|] eqn:A; auto. exfalso.
  apply (si_abs _ _ _ _ I) in A as (_ & p & P).
  destruct (si_reach _ _ _ _ I _ _ P K) as (n' & E & B'). cbn [skey] in *.
  destruct (N.lt_trichotomy n n') as [L|[->|L]].
  - destruct (B' n L) as (y & Gy & Y & _). congruence.
  - rewrite E in G. rewrite P in G. injection G as <-. cbn in Z. congruence.
  - destruct (B n' L) as (y & Gy & _ & Y). rewrite E, P in Gy. injection Gy as <-. cbn in Y. congruence.
Qed.

Lemma hit_present s lg a z k x p : sinv s lg a z -> k <> 0 -> q_get mc s p = Some x -> skey x = k ->
  a k = Some (sdata x).
Proof. intros I K G E. apply (si_abs _ _ _ _ I). split; auto. exists p. subst k. now destruct x. Qed.

(** No key is stored twice. *)
Lemma cell_unique s lg a z p q x y : sinv s lg a z -> q_get mc s p = Some x -> q_get mc s q = Some y ->
  skey x = skey y -> skey x <> 0 -> p = q.
Proof.
  intros I P Q E K.
  destruct (si_reach _ _ _ _ I _ _ P K) as (n & En & Bn).
  destruct (si_reach _ _ _ _ I _ _ Q ltac:(congruence)) as (n' & En' & Bn').
  rewrite <- E in *.
  destruct (N.lt_trichotomy n n') as [L|[->|L]]; [|congruence|].
  - destruct (Bn' n L) as (y0 & G & _ & Z). rewrite En, P in G. congruence.
  - destruct (Bn n' L) as (y0 & G & _ & Z). rewrite En', Q in G. congruence.
Qed.

Lemma q_get_set s n p q x : p < total_slots mc (q_map s) ->
  q_get mc (Stab (q_map s) (fupd (q_mem s) p (Some x)) n) q = if q =? p then Some x else q_get mc s q.
Proof.
  intros L. unfold q_get, fupd; cbn. destruct (N.eqb_spec q p) as [->|]; auto.
  destruct (N.ltb_spec p (tot s)); [auto|lia].
Qed.

Lemma insert_at s lg a z k d n x :
  sinv s lg a z -> k <> 0 -> blocked s k n ->
  q_get mc s (rm s (home s k + n)) = Some x -> skey x = 0 -> q_n s + 1 <= fill_limit (tot s) ->
  sinv (Stab (q_map s) (fupd (q_mem s) (rm s (home s k + n)) (Some (Slot k d))) (q_n s + 1))
    lg (fupd a k (Some d)) z.
Proof.
  intros I K B G Z LIM. set (p := rm s (home s k + n)) in *.
  pose proof (q_get_lt _ _ _ G) as L.
  pose proof (blocked_absent _ _ _ _ _ _ _ I K B G Z) as AB.
  set (s' := Stab _ _ _).
  assert (GS : forall q, q_get mc s' q = if q =? p then Some (Slot k d) else q_get mc s q)
    by (intros; apply q_get_set; auto).
  assert (BL : forall k' n', k' <> k -> blocked s k' n' -> blocked s' k' n').
  { intros k' n' N B' j Hj. destruct (B' j Hj) as (y & Gy & Y1 & Y2).
    change (q_home mc hash s' k') with (home s k'). change (q_map s') with (q_map s).
    rewrite GS. destruct (N.eqb_spec (rm s (home s k' + j)) p) as [E|E]; [|eauto].
    exists (Slot k d). cbn. auto. }
  split; auto.
  - apply I.
  - apply I.
  - intros q Hq. unfold s'; cbn. unfold fupd. destruct (q =? p); [eauto|apply I, Hq].
  - intros q y Gq Y. rewrite GS in Gq. destruct (N.eqb_spec q p) as [->|NE].
    + injection Gq as <-. cbn [skey]. exists n. split; [reflexivity|].
      intros j Hj. destruct (B j Hj) as (y & Gy & Y1 & Y2).
      change (q_home mc hash s' k) with (home s k). change (q_map s') with (q_map s).
      rewrite GS. destruct (N.eqb_spec (rm s (home s k + j)) p) as [E|E]; [|eauto].
      rewrite E, G in Gy. congruence.
    + destruct (si_reach _ _ _ _ I _ _ Gq Y) as (n' & E & B'). exists n'. split; [exact E|].
      apply BL; auto. intros C. pose proof (hit_present _ _ _ _ _ _ _ I K Gq C). congruence.
  - intros k' d'. unfold fupd. destruct (N.eqb_spec k' k) as [->|NE].
    + split.
      * intros [= ->]. split; auto. exists p. rewrite GS, N.eqb_refl. reflexivity.
      * intros (_ & q & Gq). rewrite GS in Gq. destruct (N.eqb_spec q p); [congruence|].
        pose proof (hit_present _ _ _ _ _ _ _ I K Gq eq_refl). congruence.
    + rewrite (si_abs _ _ _ _ I). split; intros (K' & q & Gq); split; auto; exists q.
      * rewrite GS. destruct (N.eqb_spec q p) as [->|]; auto.
        rewrite G in Gq. injection Gq as ->. cbn in Z. congruence.
      * rewrite GS in Gq. destruct (N.eqb_spec q p); congruence.
  - unfold s'; cbn. rewrite cnt_add; [pose proof (si_cnt _ _ _ _ I); lia| | |rewrite N2Nat.id; auto].
    + unfold occupied. rewrite <- q_get_mem by auto. rewrite G. unfold q_empty. now rewrite Z.
    + unfold q_empty; cbn. now apply N.eqb_neq.
Qed.

Lemma update_at s lg a z k d p x :
  sinv s lg a z -> k <> 0 -> q_get mc s p = Some x -> skey x = k ->
  sinv (q_set s p (Slot k d)) lg (fupd a k (Some d)) z.
Proof.
  intros I K G E. pose proof (q_get_lt _ _ _ G) as L. set (s' := q_set _ _ _).
  assert (GS : forall q, q_get mc s' q = if q =? p then Some (Slot k d) else q_get mc s q)
    by (intros; apply q_get_set; auto).
  assert (BL : forall k' n', blocked s k' n' -> blocked s' k' n').
  { intros k' n' B' j Hj. destruct (B' j Hj) as (y & Gy & Y1 & Y2).
    change (q_home mc hash s' k') with (home s k'). change (q_map s') with (q_map s).
    rewrite GS. destruct (N.eqb_spec (rm s (home s k' + j)) p) as [E'|E']; [|eauto].
    exists (Slot k d). cbn. rewrite E', G in Gy. injection Gy as <-. rewrite E in *. auto. }
  split; try apply I.
  - intros q Hq. unfold s'; cbn. unfold fupd. destruct (q =? p); [eauto|apply I, Hq].
  - intros q y Gq Y. rewrite GS in Gq. destruct (N.eqb_spec q p) as [->|NE].
    + injection Gq as <-. cbn [skey]. destruct (si_reach _ _ _ _ I _ _ G) as (n & En & B); [congruence|].
      rewrite E in *. exists n. split; [exact En|]. auto.
    + destruct (si_reach _ _ _ _ I _ _ Gq Y) as (n' & E' & B'). exists n'. split; [exact E'|auto].
  - intros k' d'. unfold fupd. destruct (N.eqb_spec k' k) as [->|NE].
    + split.
      * intros [= ->]. split; auto. exists p. rewrite GS, N.eqb_refl. reflexivity.
      * intros (_ & q & Gq). rewrite GS in Gq. destruct (N.eqb_spec q p) as [|NE]; [congruence|].
        exfalso. apply NE. apply (cell_unique _ _ _ _ _ _ _ _ I Gq G); cbn; congruence.
    + rewrite (si_abs _ _ _ _ I). split; intros (K' & q & Gq); split; auto; exists q.
      * rewrite GS. destruct (N.eqb_spec q p) as [->|]; auto.
        rewrite G in Gq. injection Gq as ->. cbn in E. congruence.
      * rewrite GS in Gq. destruct (N.eqb_spec q p); congruence.
  - unfold s'; cbn. rewrite <- (si_cnt _ _ _ _ I). f_equal. apply cnt_ext. intros q Hq.
    rewrite occupied_upd. destruct (N.eqb_spec q p) as [->|]; auto.
    unfold occupied. rewrite <- q_get_mem by auto. rewrite G. unfold q_empty; cbn. now rewrite E.
Qed.

Lemma fresh_inv m lg : wf_mapper mc m lg -> 9 <= lg <= 62 -> sinv (q_fresh mc m) lg amap_empty 0.
Proof.
  intros W L.
  assert (G : forall p x, q_get mc (q_fresh mc m) p = Some x -> x = empty_slot).
  { intros p x. unfold q_get; cbn. destruct (p <? total_slots mc m); congruence. }
  split; auto.
  - intros p Hp. cbn in *. apply N.ltb_lt in Hp. rewrite Hp. eauto.
  - intros p x H K. apply G in H. subst. cbn in K. congruence.
  - intros k d. split; [discriminate|]. intros (K & p & H). apply G in H. injection H as -> _. congruence.
  - cbn [q_mem q_map q_n q_fresh].
    generalize (N.to_nat (total_slots mc m)). intros n.
    induction n as [|n IH]; cbn [cnt]; [reflexivity|].
    unfold occupied. destruct (_ <? _); cbn [q_empty negb empty_slot skey N.eqb]; unfold q_empty; cbn; try rewrite N.eqb_refl; cbn; lia.
  - cbn. lia.
Qed.

(** *** Growing *)

Lemma resize_grows s lg a z : sinv s lg a z -> q_n s + 1 > fill_limit (tot s) -> q_n s + 1 < 2 ^ 64 ->
  lg <= 61 ->
  let m' := resize mc (q_map s) (q_n s + 1) 0 in
  wf_mapper mc m' (lg + 1) /\ q_n s + 1 <= fill_limit (total_slots mc m').
Proof.
  intros I F N L m'. pose proof (si_map _ _ _ _ I) as W. pose proof (tot_pos _ _ _ _ I) as T.
  pose proof (si_lim _ _ _ _ I) as LIM. pose proof (si_lg _ _ _ _ I) as LG.
  assert (E : m' = mk_mapper mc (2 ^ (lg + 1)) (if cmap mc then 2 ^ lg else 1)).
  { unfold m', resize. rewrite (addressable_val _ _ _ W).
    replace (w64 (q_n s + 1 + (2 ^ 64 - w64 0))) with (q_n s + 1).
    - assert (fill_above (q_n s + 1) (2 ^ lg) = true) as ->.
      { apply N.ltb_lt. destruct (fill_limit_bounds (tot s)) as [_ B].
        assert (2 ^ lg <= tot s) by (rewrite (total_val _ _ _ W); destruct (cprob mc); lia).
        change (2 ^ 54) with 18014398509481984. lia. }
      rewrite pow2_add1, (N.mul_comm 2). reflexivity.
    - change (w64 0) with 0. rewrite N.sub_0_r. unfold w64.
      replace (q_n s + 1 + 2 ^ 64) with (q_n s + 1 + 1 * 2 ^ 64) by lia.
      rewrite N.mod_add by discriminate. symmetry. now apply N.mod_small. }
  assert (W' : wf_mapper mc m' (lg + 1)) by (rewrite E; apply wf_mk; lia).
  split; auto. rewrite (total_val _ _ _ W').
  destruct (fill_limit_bounds (tot s)) as [B1 B2].
  destruct (fill_limit_bounds (if cprob mc then 2 ^ (lg + 1) else 2 ^ (lg + 1) + 1024)) as [_ B3].
  rewrite (total_val _ _ _ W) in *. rewrite pow2_add1 in *.
  pose proof (pow2_le 9 lg ltac:(lia)) as P. change (2 ^ 9) with 512 in P.
  destruct (cprob mc); lia.
Qed.

(** The keys among the first [i] cells. *)
Definition part (s : stab) (i : N) (ta : amap) : Prop :=
  forall k d, ta k = Some d <-> k <> 0 /\ exists p, p < i /\ q_get mc s p = Some (Slot k d).

Lemma insert_intern_new g t lgt ta z k d :
  sinv t lgt ta z -> k <> 0 -> ta k = None -> q_n t + 1 <= fill_limit (tot t) ->
  match insert_intern mc hash (S g) t k d with
  | ROk (t', p, b) => sinv t' lgt (fupd ta k (Some d)) z /\ q_map t' = q_map t /\ q_n t' = q_n t + 1 /\
                      b = true /\ q_get mc t' p = Some (Slot k d)
  | RBad => cprob mc = false
  | RLoop => False
  end.
Proof.
  intros I K A LIM. cbn [insert_intern].
  pose proof (q_scan_spec _ _ _ _ k I K) as SC.
  destruct (q_scan mc hash t k) as [[i b]| |]; cbn [bind]; auto.
  destruct SC as (n & -> & B & x & G & X). destruct b; cbn [fst snd].
  - pose proof (hit_present _ _ _ _ _ _ _ I K G X). congruence.
  - cbn [q_n q_map q_mem]. destruct (N.ltb_spec (fill_limit (tot t)) (q_n t + 1)); [lia|].
    split; [|sp; auto].
    + exact (insert_at _ _ _ _ k d n x I K B G X LIM).
    + unfold q_set; cbn [q_map q_mem q_n]. rewrite q_get_set by (eapply q_get_lt; eauto).
      now rewrite N.eqb_refl.
Qed.

Lemma migrate_spec g s lg a z : sinv s lg a z -> forall n i t lgt ta,
  i + N.of_nat n = tot s -> sinv t lgt ta 0 -> part s i ta ->
  q_n t = cnt (q_mem s) (N.to_nat i) -> q_n s <= fill_limit (tot t) ->
  match migrate_loop mc (insert_intern mc hash (S g)) s t (nseq i n) with
  | ROk t' => exists ta', sinv t' lgt ta' 0 /\ part s (tot s) ta' /\ q_n t' + z = q_n s /\ q_map t' = q_map t
  | RBad => cprob mc = false
  | RLoop => False
  end.
Proof.
  intros I n. induction n as [|n IH]; intros i t lgt ta T IT PT C LIM; cbn [nseq migrate_loop].
  - replace i with (tot s) in * by lia. exists ta. sp; auto. rewrite C. apply I.
  - destruct (si_cell _ _ _ _ I i) as [x X]; [lia|].
    assert (G : q_get mc s i = Some x) by (rewrite q_get_mem by lia; auto). rewrite G.
    assert (C1 : cnt (q_mem s) (N.to_nat (i + 1)) =
                 q_n t + if q_empty x then 0 else 1).
    { replace (N.to_nat (i + 1)) with (S (N.to_nat i)) by lia. cbn [cnt].
      rewrite N2Nat.id, C. unfold occupied. rewrite X. destruct (q_empty x); reflexivity. }
    destruct (q_empty x) eqn:E.
    + unfold q_empty in E. apply N.eqb_eq in E. apply (IH (i + 1) t lgt ta); auto; try lia.
      intros k d. rewrite (PT k d). split; intros (K & p & L & P); split; auto; exists p; split; auto; try lia.
      destruct (N.eq_dec p i) as [->|]; [|lia]. rewrite G in P. injection P as ->. cbn in E. congruence.
    + unfold q_empty in E. apply N.eqb_neq in E.
      assert (AB : ta (skey x) = None).
      { destruct (ta (skey x)) as [d|] eqn:A; auto. apply PT in A as (_ & p & L & P).
        assert (p = i); [|lia]. apply (cell_unique _ _ _ _ _ _ _ _ I P G); cbn; auto. }
      assert (CM : cnt (q_mem s) (N.to_nat (i + 1)) <= q_n s).
      { rewrite <- (si_cnt _ _ _ _ I).
        pose proof (cnt_mono (q_mem s) (N.to_nat (i + 1)) (N.to_nat (tot s)) ltac:(lia)). lia. }
      pose proof (insert_intern_new g t lgt ta 0 (skey x) (sdata x) IT E AB ltac:(lia)) as INS.
      destruct (insert_intern mc hash (S g) t (skey x) (sdata x)) as [[[t' p] b]| |]; cbn [bind fst]; auto.
      destruct INS as (IT' & M & N' & _). rewrite <- M.
      apply (IH (i + 1) t' lgt (fupd ta (skey x) (Some (sdata x)))); auto; try lia.
      * intros k d. unfold fupd. destruct (N.eqb_spec k (skey x)) as [->|NE].
        -- split.
           ++ intros [= <-]. split; auto. exists i. split; [lia|]. rewrite G. now destruct x.
           ++ intros (_ & q & L & Q). assert (q = i) as -> by (apply (cell_unique _ _ _ _ _ _ _ _ I Q G); cbn; auto).
              rewrite G in Q. injection Q as ->. reflexivity.
        -- rewrite (PT k d). split; intros (K & q & L & Q); split; auto; exists q; split; auto; try lia.
           destruct (N.eq_dec q i) as [->|]; [|lia]. rewrite G in Q. injection Q as ->. cbn in NE. congruence.
      * rewrite M. lia.
Qed.

Lemma grow_spec g s lg a z : sinv s lg a z -> q_n s + 1 > fill_limit (tot s) -> q_n s + 1 < 2 ^ 64 -> lg <= 61 ->
  match grow mc (insert_intern mc hash (S g)) (Stab (q_map s) (q_mem s) (q_n s + 1)) with
  | ROk s2 => let s3 := Stab (q_map s2) (q_mem s2) (q_n s2 - 1) in
              sinv s3 (lg + 1) a z /\ q_n s3 = q_n s /\ q_n s3 + 1 <= fill_limit (tot s3)
  | RBad => cprob mc = false
  | RLoop => False
  end.
Proof.
  intros I F N L. unfold grow. cbn [q_map q_n q_mem].
  destruct (resize_grows _ _ _ _ I F N L) as [W' LIM].
  pose proof (si_lg _ _ _ _ I) as LG.
  set (m' := resize mc (q_map s) (q_n s + 1) 0) in *.
  pose proof (fresh_inv m' (lg + 1) W' ltac:(lia)) as FI.
  set (s1 := Stab (q_map s) (q_mem s) (q_n s + 1)).
  pose proof (migrate_spec g s lg a z I (N.to_nat (tot s)) 0 (q_fresh mc m') (lg + 1) amap_empty) as MS.
  assert (ML : migrate_loop mc (insert_intern mc hash (S g)) s1 (q_fresh mc m') (nseq 0 (N.to_nat (tot s))) =
               migrate_loop mc (insert_intern mc hash (S g)) s (q_fresh mc m') (nseq 0 (N.to_nat (tot s)))).
  { generalize (q_fresh mc m'), (nseq 0 (N.to_nat (tot s))). intros t l. revert t.
    induction l as [|i l IH]; intros t; cbn [migrate_loop]; auto.
    change (q_get mc s1 i) with (q_get mc s i).
    destruct (q_get mc s i) as [x|]; auto. destruct (q_empty x); auto.
    destruct (insert_intern mc hash (S g) t (skey x) (sdata x)) as [r| |]; cbn [bind]; auto. }
  rewrite ML.
  destruct (migrate_loop _ _ s _ _) as [t'| |]; cbn [bind].
  - destruct MS as (ta' & IT & PT & NT & MT); auto; try lia.
    { intros k d. split; [discriminate|]. intros (_ & p & Hp & _). lia. }
    { cbn [q_map q_fresh]. lia. }
    cbn [q_map q_mem q_n]. replace (q_n s + 1 - 1) with (q_n s) by lia.
    rewrite MT. cbn [q_map q_fresh]. sp; auto.
    assert (EA : forall k, ta' k = a k).
    { intros k. destruct (a k) as [d|] eqn:A.
      - apply PT. apply (si_abs _ _ _ _ I) in A as (K & p & P). split; auto. exists p. split; auto.
        eapply q_get_lt; eauto.
      - destruct (ta' k) as [d|] eqn:A'; auto. apply PT in A' as (K & p & _ & P).
        enough (a k = Some d) by congruence. apply (si_abs _ _ _ _ I). eauto. }
    cbn [q_map q_fresh] in MT. destruct t' as [mt t' nt]. cbn [q_map q_mem q_n] in *. subst mt.
    destruct IT as [I1 I2 I3 I4 I5 I6 I7]. cbn [q_map q_mem q_n] in *.
    split; cbn [q_map q_mem q_n]; auto; try lia. intros k d. rewrite <- EA. apply I5.
  - apply MS; auto; try lia.
    + intros k d. split; [discriminate|]. intros (_ & p & Hp & _). lia.
    + cbn [q_map q_fresh]. lia.
  - apply MS; auto; try lia.
    + intros k d. split; [discriminate|]. intros (_ & p & Hp & _). lia.
    + cbn [q_map q_fresh]. lia.
Qed.

(** *** Calls *)

Lemma lg_bound s lg a z : sinv s lg a z -> q_n s + 1 > fill_limit (tot s) -> q_n s <= 2 ^ 48 -> lg <= 50.
Proof.
  intros I F N. destruct (fill_limit_bounds (tot s)) as [_ B].
  assert (2 ^ lg <= tot s) by (rewrite (total_val _ _ _ (si_map _ _ _ _ I)); destruct (cprob mc); lia).
  destruct (N.le_gt_cases lg 50) as [|G]; auto. exfalso.
  pose proof (pow2_le 51 lg ltac:(lia)) as P.
  change (2 ^ 51) with 2251799813685248 in P. change (2 ^ 48) with 281474976710656 in N. lia.
Qed.

Definition good (s : stab) (a : amap) (z : N) : Prop := exists lg, sinv s lg a z /\ lg <= 52.

Lemma good_grow g s a z : good s a z -> q_n s + 1 > fill_limit (tot s) -> q_n s <= 2 ^ 48 ->
  match grow mc (insert_intern mc hash (S g)) (Stab (q_map s) (q_mem s) (q_n s + 1)) with
  | ROk s2 => let s3 := Stab (q_map s2) (q_mem s2) (q_n s2 - 1) in
              good s3 a z /\ q_n s3 = q_n s /\ q_n s3 + 1 <= fill_limit (tot s3)
  | RBad => cprob mc = false
  | RLoop => False
  end.
Proof.
  intros (lg & I & L) F N. pose proof (lg_bound _ _ _ _ I F N) as L'.
  pose proof (grow_spec g s lg a z I F) as GS.
  change (2 ^ 48) with 281474976710656 in N. change (2 ^ 64) with 18446744073709551616 in GS.
  specialize (GS ltac:(lia) ltac:(lia)).
  destruct (grow _ _ _) as [s2| |]; auto. destruct GS as (G1 & G2). split; auto.
  exists (lg + 1). split; [auto|lia].
Qed.

Lemma insert_spec g s a z k d : good s a z -> k <> 0 -> q_n s <= 2 ^ 48 ->
  match insert_intern mc hash (S (S g)) s k d with
  | ROk (s', p, b) =>
      match a k with
      | Some d0 => s' = s /\ b = false /\ q_get mc s p = Some (Slot k d0)
      | None => good s' (fupd a k (Some d)) z /\ q_n s' = q_n s + 1 /\ b = true /\
                q_get mc s' p = Some (Slot k d)
      end
  | RBad => cprob mc = false
  | RLoop => False
  end.
Proof.
  intros GD K N. pose proof GD as (lg & I & L).
  remember (S g) as g1 eqn:Eg. cbn [insert_intern].
  pose proof (q_scan_spec _ _ _ _ k I K) as SC.
  destruct (q_scan mc hash s k) as [[i b]| |]; cbn [bind]; auto.
  destruct SC as (n & -> & B & x & G & X). destruct b; cbn [fst snd].
  - rewrite (hit_present _ _ _ _ _ _ _ I K G X). sp; auto. subst k. destruct x; auto.
  - rewrite (blocked_absent _ _ _ _ _ _ _ I K B G X).
    cbn [q_n q_map q_mem]. destruct (N.ltb_spec (fill_limit (tot s)) (q_n s + 1)) as [F|F].
    + subst g1. pose proof (good_grow g s a z GD ltac:(lia) N) as GG.
      destruct (grow _ _ _) as [s2| |]; cbn [bind]; auto. cbv zeta in GG.
      destruct GG as ((lg3 & I3 & L3) & N3 & LIM).
      pose proof (insert_intern_new g _ lg3 a z k d I3 K
                    (blocked_absent _ _ _ _ _ _ _ I K B G X) LIM) as INS.
      destruct (insert_intern mc hash (S g) _ k d) as [[[s' p] b]| |]; auto.
      destruct INS as (J1 & J2 & J3 & J4 & J5). sp; auto; [exists lg3; auto|congruence].
    + sp; auto.
      * exists lg. split; auto. exact (insert_at _ _ _ _ k d n x I K B G X F).
      * unfold q_set; cbn [q_map q_mem q_n]. rewrite q_get_set by (eapply q_get_lt; eauto).
        now rewrite N.eqb_refl.
Qed.

Lemma update_here s a z k x p f : good s a z -> k <> 0 -> q_get mc s p = Some x -> skey x = k ->
  let s' := q_set s p (Slot (skey x) (f (sdata x))) in
  good s' (fupd a k (Some (f (sdata x)))) z /\ q_n s' = q_n s /\
  q_get mc s' p = Some (Slot k (f (sdata x))).
Proof.
  intros (lg & I & L) K G E s'. unfold s'. rewrite E. sp.
  - exists lg. split; auto. eapply update_at; eauto.
  - reflexivity.
  - unfold q_set. rewrite q_get_set by (eapply q_get_lt; eauto). now rewrite N.eqb_refl.
Qed.

Lemma iou_spec g s a z k d f : good s a z -> k <> 0 -> q_n s <= 2 ^ 48 ->
  match insert_or_update_intern mc hash (S (S g)) s k d f with
  | ROk (s', p, b) =>
      match a k with
      | Some d0 => good s' (fupd a k (Some (f d0))) z /\ q_n s' = q_n s /\ b = false /\
                   q_get mc s' p = Some (Slot k (f d0))
      | None => good s' (fupd a k (Some d)) z /\ q_n s' = q_n s + 1 /\ b = true /\
                q_get mc s' p = Some (Slot k d)
      end
  | RBad => cprob mc = false
  | RLoop => False
  end.
Proof.
  intros GD K N. pose proof GD as (lg & I & L).
  remember (S g) as g1 eqn:Eg. cbn [insert_or_update_intern].
  pose proof (q_scan_spec _ _ _ _ k I K) as SC.
  destruct (q_scan mc hash s k) as [[i b]| |]; cbn [bind]; auto.
  destruct SC as (n & -> & B & x & G & X). destruct b; cbn [fst snd].
  - rewrite (hit_present _ _ _ _ _ _ _ I K G X), G.
    destruct (update_here _ _ _ _ _ _ f GD K G X) as (U1 & U2 & U3). sp; auto.
  - rewrite (blocked_absent _ _ _ _ _ _ _ I K B G X).
    cbn [q_n q_map q_mem]. destruct (N.ltb_spec (fill_limit (tot s)) (q_n s + 1)) as [F|F].
    + subst g1. pose proof (good_grow g s a z GD ltac:(lia) N) as GG.
      destruct (grow _ _ _) as [s2| |]; cbn [bind]; auto. cbv zeta in GG.
      set (s3 := Stab (q_map s2) (q_mem s2) (q_n s2 - 1)) in *. clearbody s3.
      destruct GG as ((lg3 & I3 & L3) & N3 & LIM).
      pose proof (blocked_absent _ _ _ _ _ _ _ I K B G X) as AB.
      cbn [insert_or_update_intern].
      pose proof (q_scan_spec _ _ _ _ k I3 K) as SC.
      destruct (q_scan mc hash s3 k) as [[i' b']| |]; cbn [bind]; auto.
      destruct SC as (n' & -> & B' & x' & G' & X'). destruct b'; cbn [fst snd].
      { pose proof (hit_present _ _ _ _ _ _ _ I3 K G' X'). congruence. }
      cbn [q_n q_map q_mem].
      destruct (N.ltb_spec (fill_limit (tot s3)) (q_n s3 + 1)); [lia|]. sp; auto.
      * exists lg3. split; auto. exact (insert_at _ _ _ _ k d n' x' I3 K B' G' X' LIM).
      * unfold q_set; cbn [q_n]. lia.
      * unfold q_set; cbn [q_map q_mem q_n]. rewrite q_get_set by (eapply q_get_lt; eauto).
        now rewrite N.eqb_refl.
    + sp; auto.
      * exists lg. split; auto. exact (insert_at _ _ _ _ k d n x I K B G X F).
      * unfold q_set; cbn [q_map q_mem q_n]. rewrite q_get_set by (eapply q_get_lt; eauto).
        now rewrite N.eqb_refl.
Qed.

(** *** Erase *)

Lemma rm_succ s lg a z i : sinv s lg a z -> rm s (rm s i + 1) = rm s (i + 1).
Proof.
  intros I. rewrite !(remap_val _ _ _ (si_map _ _ _ _ I)).
  destruct (cprob mc); auto. apply N.add_mod_idemp_l. pose proof (pow2_pos lg). lia.
Qed.

(** Removing a key in front of a free cell cuts no probe sequence. *)
Lemma remove_at s lg a z k d p x : sinv s lg a z -> k <> 0 ->
  q_get mc s p = Some (Slot k d) ->
  q_get mc s (rm s (p + 1)) = Some x -> skey x = 0 ->
  sinv (q_set s p empty_slot) lg (fupd a k None) (z + 1).
Proof.
  intros I K G GX X. pose proof (q_get_lt _ _ _ G) as L. set (s' := q_set _ _ _).
  assert (GS : forall q, q_get mc s' q = if q =? p then Some empty_slot else q_get mc s q)
    by (intros; apply q_get_set; auto).
  assert (BL : forall k' n' y, k' <> 0 -> q_get mc s (rm s (home s k' + n')) = Some y -> skey y = k' ->
            k' <> k -> blocked s k' n' -> blocked s' k' n').
  { intros k' n' y K' Gy Y NK B' j Hj. destruct (B' j Hj) as (y0 & Gy0 & Y1 & Y2).
    change (q_home mc hash s' k') with (home s k'). change (q_map s') with (q_map s).
    rewrite GS. destruct (N.eqb_spec (rm s (home s k' + j)) p) as [E'|E']; [|eauto].
    exfalso. rewrite <- E', (rm_succ _ _ _ _ _ I) in GX. rewrite <- N.add_assoc in GX.
    destruct (N.eq_dec (j + 1) n') as [Z|Z].
    - rewrite Z, Gy in GX. injection GX as <-. congruence.
    - destruct (B' (j + 1)) as (y1 & Gy1 & Y3 & _); [lia|]. congruence. }
  split; try apply I.
  - intros q Hq. unfold s'; cbn. unfold fupd. destruct (q =? p); [eauto|apply I, Hq].
  - intros q y Gq Y. rewrite GS in Gq. destruct (N.eqb_spec q p) as [->|NE].
    + injection Gq as <-. cbn in Y. congruence.
    + destruct (si_reach _ _ _ _ I _ _ Gq Y) as (n' & E' & B'). exists n'. split; [exact E'|].
      apply (BL _ _ y); auto; [rewrite E'; auto|].
      intros C. apply NE. apply (cell_unique _ _ _ _ _ _ _ _ I Gq G); cbn; congruence.
  - intros k' d'. unfold fupd. destruct (N.eqb_spec k' k) as [->|NE].
    + split; [discriminate|]. intros (_ & q & Gq). rewrite GS in Gq.
      destruct (N.eqb_spec q p) as [|NE]; [injection Gq as C _; congruence|].
      exfalso. apply NE. apply (cell_unique _ _ _ _ _ _ _ _ I Gq G); cbn; congruence.
    + rewrite (si_abs _ _ _ _ I). split; intros (K' & q & Gq); split; auto; exists q.
      * rewrite GS. destruct (N.eqb_spec q p) as [->|]; auto.
        rewrite G in Gq. injection Gq as C _. congruence.
      * rewrite GS in Gq. destruct (N.eqb_spec q p); [|congruence]. injection Gq as C _. congruence.
  - unfold s'; cbn. pose proof (si_cnt _ _ _ _ I).
    pose proof (cnt_del (q_mem s) p (N.to_nat (tot s))) as CD.
    rewrite N2Nat.id in CD.
    enough (occupied (q_mem s) p = true) by (specialize (CD ltac:(auto) L); lia).
    unfold occupied. rewrite <- q_get_mem by auto. rewrite G. unfold q_empty; cbn.
    destruct (N.eqb_spec k 0); [congruence|reflexivity].
Qed.

Lemma erase_spec fuel s lg a z k : sinv s lg a z -> k <> 0 ->
  (forall p d, q_get mc s p = Some (Slot k d) ->
     exists x, q_get mc s (rm s (p + 1)) = Some x /\ skey x = 0) ->
  match erase mc hash (S fuel) s k with
  | ROk (s', b) =>
      match a k with
      | Some _ => b = true /\ sinv s' lg (fupd a k None) (z + 1) /\ q_n s' = q_n s
      | None => b = false /\ s' = s
      end
  | RBad => cprob mc = false
  | RLoop => False
  end.
Proof.
  intros I K FR. unfold erase.
  pose proof (q_scan_spec _ _ _ _ k I K) as SC.
  destruct (q_scan mc hash s k) as [[i b]| |]; cbn [bind]; auto.
  destruct SC as (n & -> & B & y & Gy & Y). destruct b; cbn [fst snd].
  2:{ rewrite (blocked_absent _ _ _ _ _ _ _ I K B Gy Y). auto. }
  rewrite (hit_present _ _ _ _ _ _ _ I K Gy Y).
  pose proof (si_map _ _ _ _ I) as W. pose proof (q_get_lt _ _ _ Gy) as LP.
  assert (EL : N.land (home s k + n) (rm s (home s k + n)) = rm s (home s k + n)).
  { unfold remap. destruct (cprob mc); [now rewrite N.land_assoc, N.land_diag|apply N.land_diag]. }
  rewrite EL. set (p := rm s (home s k + n)) in *. clearbody p.
  assert (G : q_get mc s p = Some (Slot k (sdata y))) by (rewrite Gy; destruct y; cbn in *; congruence).
  destruct (FR _ _ G) as (x & GX & X). rewrite G. cbn [erase_loop].
  assert (NE : rm s (p + 1) <> p) by (intros C; rewrite C, G in GX; injection GX as <-; cbn in X; congruence).
  change (q_map (q_set s p empty_slot)) with (q_map s).
  unfold q_set at 1. rewrite q_get_set by auto.
  destruct (N.eqb_spec (rm s (p + 1)) p); [contradiction|]. rewrite GX.
  unfold q_empty. rewrite X, N.eqb_refl. cbn [bind]. sp; auto.
  eapply remove_at; eauto.
Qed.

Lemma shows_get s p k d : q_get mc s p = Some (Slot k d) -> shows mc s p = Some (k, d).
Proof. unfold shows. now intros ->. Qed.

Definition free_after (s : stab) (o : sop) : Prop :=
  forall k p d, o = SErase k -> q_get mc s p = Some (Slot k d) ->
    exists x, q_get mc s (rm s (p + 1)) = Some x /\ skey x = 0.

Lemma srun_spec s a z o : good s a z -> sop_key o <> 0 -> q_n s <= 2 ^ 48 -> free_after s o ->
  match srun mc hash s o with
  | ROk (s', r) => (exists z', good s' (fst (sq_spec a o)) z' /\ (~ is_erase o -> z' = z)) /\
                   r = snd (sq_spec a o) /\ q_n s' <= q_n s + 1
  | RBad => cprob mc = false
  | RLoop => False
  end.
Proof.
  intros GD K N FR. pose proof GD as (lg & I & L).
  destruct o as [k d|k|k f|k d f|k]; cbn [srun sop_key sq_spec] in *.
  - pose proof (insert_spec 2 s a z k d GD K N) as P.
    change (S (S 2)) with depth in P.
    destruct (insert_intern mc hash depth s k d) as [[[s' p] b]| |]; cbn [bind]; auto.
    destruct (a k) as [d0|].
    + destruct P as (-> & -> & G). cbn [fst snd]. rewrite (shows_get _ _ _ _ G). sp; eauto. lia.
    + destruct P as (P1 & P2 & -> & G). cbn [fst snd]. rewrite (shows_get _ _ _ _ G). sp; eauto. lia.
  - pose proof (q_scan_spec _ _ _ _ k I K) as SC.
    destruct (q_scan mc hash s k) as [[i b]| |]; cbn [bind]; auto.
    destruct SC as (n & -> & B & x & G & X). destruct b; cbn [fst snd].
    + rewrite (hit_present _ _ _ _ _ _ _ I K G X). cbn [fst snd].
      assert (x = Slot k (sdata x)) as E by (destruct x; cbn in *; subst; auto).
      rewrite E in G. rewrite (shows_get _ _ _ _ G). sp; eauto. lia.
    + rewrite (blocked_absent _ _ _ _ _ _ _ I K B G X). cbn [fst snd]. sp; eauto. lia.
  - pose proof (q_scan_spec _ _ _ _ k I K) as SC.
    destruct (q_scan mc hash s k) as [[i b]| |]; cbn [bind]; auto.
    destruct SC as (n & -> & B & x & G & X). destruct b; cbn [fst snd].
    + rewrite (hit_present _ _ _ _ _ _ _ I K G X), G. cbn [fst snd].
      destruct (update_here _ _ _ _ _ _ f GD K G X) as (U1 & U2 & U3).
      rewrite (shows_get _ _ _ _ U3). sp; eauto. lia.
    + rewrite (blocked_absent _ _ _ _ _ _ _ I K B G X). cbn [fst snd]. sp; eauto. lia.
  - pose proof (iou_spec 2 s a z k d f GD K N) as P.
    change (S (S 2)) with depth in P.
    destruct (insert_or_update_intern mc hash depth s k d f) as [[[s' p] b]| |]; cbn [bind]; auto.
    destruct (a k) as [d0|]; destruct P as (P1 & P2 & -> & G); cbn [fst snd];
      rewrite (shows_get _ _ _ _ G); sp; eauto; lia.
  - pose proof (erase_spec (N.to_nat (tot s)) s lg a z k I K (fun p d => FR k p d eq_refl)) as P.
    destruct (erase mc hash _ s k) as [[s' b]| |]; cbn [bind]; auto.
    destruct (a k) as [d0|]; cbn [fst snd].
    + destruct P as (-> & P & Q). sp; auto; [|lia]. exists (z + 1). split; [exists lg; auto|].
      intros C. exfalso. now apply C.
    + destruct P as (-> & ->). sp; eauto. lia.
Qed.

Lemma srun_all_spec l : forall s a z, good s a z -> (forall o, In o l -> sop_key o <> 0) ->
  q_n s + N.of_nat (length l) <= 2 ^ 48 -> tame mc hash s l ->
  match srun_all mc hash s l with
  | ROk (s', rs) => (exists z', good s' (fst (sq_spec_all a l)) z' /\
                      ((forall o, In o l -> ~ is_erase o) -> z' = z)) /\
                    rs = snd (sq_spec_all a l)
  | RBad => cprob mc = false
  | RLoop => False
  end.
Proof.
  induction l as [|o l IH]; intros s a z GD K N TM; cbn [srun_all sq_spec_all].
  - cbn [fst snd]. eauto.
  - cbn [length] in N. destruct TM as [FR TM].
    pose proof (srun_spec s a z o GD (K o (or_introl eq_refl)) ltac:(lia) FR) as P.
    destruct (srun mc hash s o) as [[s1 r]| |]; cbn [bind]; auto. destruct P as ((z1 & P1 & PZ) & P2 & P3).
    destruct (sq_spec a o) as [a1 r1]. cbn [fst snd] in *.
    specialize (IH s1 a1 z1 P1 (fun o' H => K o' (or_intror H)) ltac:(lia) TM).
    destruct (srun_all mc hash s1 l) as [[s2 rs]| |]; cbn [bind]; auto.
    destruct (sq_spec_all a1 l) as [a2 rs2]. cbn [fst snd] in *. destruct IH as ((z2 & Q1 & Q2) & Q3).
    split; [|congruence]. exists z2. split; auto. intros NE. rewrite Q2 by (intros; apply NE; right; auto).
    apply PZ. apply NE. left; auto.
Qed.

Lemma no_erase_tame l : forall s, (forall o, In o l -> ~ is_erase o) -> tame mc hash s l.
Proof.
  induction l as [|o l IH]; intros s H; cbn [tame]; auto. split.
  - intros k p d E. exfalso. apply (H o); [left; auto|]. subst o. exact Logic.I.
  - destruct (srun mc hash s o) as [[s' r]| |]; auto. apply IH. intros; apply H. right; auto.
Qed.

(** The counter is the number of keys. *)
Fixpoint keys_in (t : mem) (n : nat) : list N :=
  match n with
  | O => []
  | S n => match t (N.of_nat n) with
           | Some x => if q_empty x then keys_in t n else skey x :: keys_in t n
           | None => keys_in t n
           end
  end.

Lemma keys_len t n : N.of_nat (length (keys_in t n)) = cnt t n.
Proof.
  induction n as [|n IH]; [reflexivity|]. cbn [keys_in cnt]. unfold occupied.
  destruct (t (N.of_nat n)) as [x|]; [destruct (q_empty x)|]; cbn [negb length]; lia.
Qed.
Lemma in_keys t n k : In k (keys_in t n) <->
  k <> 0 /\ exists p x, p < N.of_nat n /\ t p = Some x /\ skey x = k.
Proof.
  induction n as [|n IH]; cbn [keys_in].
  - split; [intros []|]. intros (_ & p & x & L & _). lia.
  - assert (ST : (k <> 0 /\ exists p x, p < N.of_nat (S n) /\ t p = Some x /\ skey x = k) <->
       (k <> 0 /\ exists x, t (N.of_nat n) = Some x /\ skey x = k) \/
       (k <> 0 /\ exists p x, p < N.of_nat n /\ t p = Some x /\ skey x = k)).
    { split.
      - intros (K & p & x & L & H). destruct (N.eq_dec p (N.of_nat n)) as [->|]; [left; eauto|].
        right. split; auto. exists p, x. split; [lia|auto].
      - intros [(K & x & H)|(K & p & x & L & H)]; split; auto.
        + exists (N.of_nat n), x. split; [lia|auto].
        + exists p, x. split; [lia|auto]. }
    rewrite ST, <- IH. clear ST IH. destruct (t (N.of_nat n)) as [x|].
    + unfold q_empty. destruct (N.eqb_spec (skey x) 0) as [Z|Z].
      * split; auto. intros [(K & y & [= <-] & E)|]; auto. congruence.
      * cbn [In]. split.
        -- intros [<-|]; auto. left. eauto.
        -- intros [(K & y & [= <-] & E)|]; auto.
    + split; auto. intros [(K & y & [=] & E)|]; auto.
Qed.

Lemma good_size s a z : good s a z -> has_size a (q_n s - z).
Proof.
  intros (lg & I & _). exists (keys_in (q_mem s) (N.to_nat (tot s))). sp.
  - assert (H : forall n, (n <= N.to_nat (tot s))%nat -> NoDup (keys_in (q_mem s) n)).
    { induction n as [|n IH]; intros L; [constructor|]. cbn [keys_in].
      destruct (q_mem s (N.of_nat n)) as [x|] eqn:X; [|apply IH; lia].
      unfold q_empty. destruct (N.eqb_spec (skey x) 0) as [Z|Z]; [apply IH; lia|].
      constructor; [|apply IH; lia]. rewrite in_keys. intros (_ & p & y & Lp & P & E).
      assert (p = N.of_nat n); [|lia].
      apply (cell_unique s lg a z p (N.of_nat n) y x I); auto; try (rewrite q_get_mem by lia; auto). congruence. }
    apply H. lia.
  - intros k. rewrite in_keys, N2Nat.id. split.
    + intros (K & p & x & L & P & E) A. rewrite <- q_get_mem in P by auto.
      rewrite (hit_present _ _ _ _ _ _ _ I K P E) in A. discriminate.
    + destruct (a k) as [d|] eqn:A; [intros _|congruence].
      apply (si_abs _ _ _ _ I) in A as (K & p & P). split; auto. exists p, (Slot k d).
      pose proof (q_get_lt _ _ _ P) as L. rewrite q_get_mem in P by auto. auto.
  - rewrite keys_len. pose proof (si_cnt _ _ _ _ I). lia.
Qed.

End S.

(** *** Overflow under linear probing *)

Section O.
Context (mc : mcfg) (LP : cprob mc = false).
Definition all_last : N -> N := fun _ => 2 ^ 64 - 1.
Definition m10 : mapper := mk_mapper mc (2 ^ 10) 0.

Lemma wf10 : wf_mapper mc m10 10.
Proof. apply wf_mk. lia. Qed.
Lemma tot10 : total_slots mc m10 = 2048.
Proof. rewrite (total_val _ _ _ wf10), LP. reflexivity. Qed.
Lemma home10 s k : q_map s = m10 -> q_home mc all_last s k = 1023.
Proof.
  intros E. unfold q_home. rewrite E, (map_val _ _ _ wf10). destruct (cmap mc); reflexivity.
Qed.

(** Keys 1 .. n in the cells from the last addressable one on. *)
Definition run10 (s : stab) (n : N) : Prop :=
  q_map s = m10 /\ q_n s = n /\
  forall p, q_get mc s p =
    if p <? 2048 then Some (if (1023 <=? p) && (p <? 1023 + n) then Slot (p - 1022) 0 else empty_slot)
    else None.

Lemma scan10 s n : run10 s n -> n <= 1025 -> forall fuel i, 1023 <= i -> i <= 1023 + n ->
  (N.to_nat (1023 + n - i) < fuel)%nat ->
  scan mc fuel s (n + 1) i = if n =? 1025 then RBad else ROk (1023 + n, false).
Proof.
  intros (M & _ & G) N fuel. induction fuel as [|fuel IH]; intros i L1 L2 F; [lia|].
  cbn [scan]. rewrite M. rewrite (remap_val _ _ _ wf10), LP, G.
  destruct (N.ltb_spec i 2048) as [B|B].
  - destruct (N.eq_dec i (1023 + n)) as [->|NE].
    + replace ((1023 <=? 1023 + n) && (1023 + n <? 1023 + n)) with false
        by (symmetry; apply andb_false_intro2, N.ltb_irrefl).
      unfold q_is, q_empty; cbn [skey empty_slot].
      destruct (N.eqb_spec 0 (n + 1)); [lia|]. rewrite N.eqb_refl.
      destruct (N.eqb_spec n 1025); [lia|reflexivity].
    + replace ((1023 <=? i) && (i <? 1023 + n)) with true
        by (symmetry; apply andb_true_intro; split; [apply N.leb_le|apply N.ltb_lt]; lia).
      unfold q_is, q_empty; cbn [skey].
      destruct (N.eqb_spec (i - 1022) (n + 1)); [lia|].
      destruct (N.eqb_spec (i - 1022) 0); [lia|]. apply IH; lia.
  - destruct (N.eqb_spec n 1025); [reflexivity|lia].
Qed.

Lemma insert10 s n : run10 s n -> n <= 1025 ->
  match srun mc all_last s (SInsert (n + 1) 0) with
  | ROk (s', _) => n < 1025 /\ run10 s' (n + 1)
  | RBad => n = 1025
  | RLoop => False
  end.
Proof.
  intros R N. pose proof R as (M & C & G).
  cbn [srun]. unfold depth. cbn [insert_intern]. unfold q_scan.
  rewrite (scan10 s n R N) by (rewrite ?M, ?tot10, ?(home10 s (n + 1) M); lia).
  destruct (N.eqb_spec n 1025); cbn [bind]; auto. cbn [fst snd q_map q_mem q_n].
  rewrite M, tot10, C. change (fill_limit 2048) with 1363.
  destruct (N.ltb_spec 1363 (n + 1)); [lia|]. cbn [bind]. split; [lia|].
  unfold q_set; cbn [q_map q_mem q_n]. rewrite (remap_val _ _ _ wf10), LP.
  split; [auto|]. split; [auto|]. intros p. rewrite <- M, (q_get_set mc all_last) by (rewrite M, tot10; lia).
  rewrite G. destruct (N.eqb_spec p (1023 + n)) as [->|NE].
  - destruct (N.ltb_spec (1023 + n) 2048); [|lia].
    replace ((1023 <=? 1023 + n) && (1023 + n <? 1023 + (n + 1))) with true
        by (symmetry; apply andb_true_intro; split; [apply N.leb_le|apply N.ltb_lt]; lia).
    do 2 f_equal. lia.
  - destruct (p <? 2048); auto. do 2 f_equal.
    destruct (N.leb_spec 1023 p); cbn [andb]; auto.
    destruct (N.ltb_spec p (1023 + n)), (N.ltb_spec p (1023 + (n + 1))); auto; lia.
Qed.

Lemma overflow10 l s n : run10 s n -> n <= 1025 -> n + N.of_nat l = 1026 ->
  srun_all mc all_last s (map (fun k => SInsert k 0) (nseq (n + 1) l)) = RBad.
Proof.
  revert s n. induction l as [|l IH]; intros s n R N E; [lia|].
  cbn [nseq map srun_all]. pose proof (insert10 s n R N) as P.
  destruct (srun mc all_last s (SInsert (n + 1) 0)) as [[s' r]| |]; cbn [bind]; auto; [|contradiction].
  destruct P as [L R']. rewrite (IH s' (n + 1) R' ltac:(lia) ltac:(lia)). reflexivity.
Qed.

Lemma run10_fresh : run10 (q_fresh mc m10) 0.
Proof.
  split; [reflexivity|]. split; [reflexivity|]. intros p. unfold q_get, q_fresh; cbn [q_map q_mem].
  rewrite tot10. destruct (N.ltb_spec p 2048); auto.
  destruct (N.leb_spec 1023 p); cbn [andb]; auto. destruct (N.ltb_spec p (1023 + 0)); auto. lia.
Qed.
End O.

(** *** Memory safety and termination with arbitrary erases, circular probing *)

Section W.
Context (mc : mcfg) (hash : N -> N) (CP : cprob mc = true).
Notation rm s := (remap mc (q_map s)).
Notation tot s := (total_slots mc (q_map s)).
Notation home s k := (q_home mc hash s k).

Record winv (s : stab) (lg : N) : Prop := {
  wi_map : wf_mapper mc (q_map s) lg;
  wi_lg : 9 <= lg <= 52;
  wi_cell : forall p, p < tot s -> exists x, q_mem s p = Some x;
  wi_cnt : cnt (q_mem s) (N.to_nat (tot s)) <= q_n s;
  wi_lim : q_n s <= fill_limit (tot s) }.

Lemma w_tot s lg : winv s lg -> tot s = 2 ^ lg /\ 512 <= 2 ^ lg.
Proof.
  intros I. rewrite (total_val _ _ _ (wi_map _ _ I)), CP. split; auto.
  change 512 with (2 ^ 9). apply pow2_le. apply I.
Qed.
Lemma w_rm s lg i : winv s lg -> rm s i = i mod 2 ^ lg.
Proof. intros I. now rewrite (remap_val _ _ _ (wi_map _ _ I)), CP. Qed.
Lemma w_get s lg i : winv s lg -> exists x, q_get mc s (rm s i) = Some x.
Proof.
  intros I. pose proof (remap_lt _ _ _ (wi_map _ _ I) i CP) as L.
  rewrite (q_get_mem mc hash) by auto. apply I, L.
Qed.
Lemma w_free s lg : winv s lg -> exists p, p < tot s /\ q_get mc s p <> None /\ occupied (q_mem s) p = false.
Proof.
  intros I. destruct (cnt_free (q_mem s) (N.to_nat (tot s))) as (p & L & O).
  - rewrite N2Nat.id. pose proof (wi_cnt _ _ I). pose proof (wi_lim _ _ I).
    destruct (w_tot _ _ I). destruct (fill_limit_bounds (tot s)). lia.
  - rewrite N2Nat.id in L. exists p. sp; auto. rewrite (q_get_mem mc hash) by auto.
    destruct (wi_cell _ _ I p L). congruence.
Qed.
Lemma w_probe s lg i p : winv s lg -> p < tot s -> exists j, j < tot s /\ rm s (i + j) = p.
Proof.
  intros I L. destruct (w_tot _ _ I) as [T T2]. rewrite T in *.
  pose proof (N.mod_lt i (2 ^ lg) ltac:(lia)) as M.
  assert (H : forall j, rm s (i + j) = (i mod 2 ^ lg + j) mod 2 ^ lg).
  { intros j. rewrite (w_rm _ _ _ I). symmetry. apply N.add_mod_idemp_l. lia. }
  set (h := i mod 2 ^ lg) in *. clearbody h. destruct (N.le_gt_cases h p) as [G|G].
  - exists (p - h). rewrite H. split; [lia|]. rewrite N.mod_small by lia. lia.
  - exists (p + 2 ^ lg - h). rewrite H. split; [lia|].
    replace (h + (p + 2 ^ lg - h)) with (p + 1 * 2 ^ lg) by lia.
    rewrite N.mod_add by lia. apply N.mod_small. lia.
Qed.

Lemma w_scan s lg k : winv s lg -> k <> 0 -> exists i b x,
  q_scan mc hash s k = ROk (i, b) /\ q_get mc s (rm s i) = Some x /\ skey x = if b then k else 0.
Proof.
  intros I K. unfold q_scan.
  pose proof (scan_spec mc hash s k K (S (N.to_nat (tot s))) 0) as P.
  rewrite N.add_0_r in P. specialize (P ltac:(intros j Hj; lia)).
  destruct (scan _ _ _ _ _) as [[i b]| |].
  - destruct P as (n & -> & _ & x & G & X). eauto 6.
  - destruct P as [n G]. destruct (w_get s lg (home s k + n) I). congruence.
  - exfalso. destruct (w_free _ _ I) as (p & L & _ & O).
    destruct (w_probe _ _ (home s k) p I L) as (j & J & E).
    destruct (P j) as (y & G & Y & _); [lia|]. rewrite E, (q_get_mem mc hash) in G by auto.
    unfold occupied in O. rewrite G in O. unfold q_empty in O.
    destruct (N.eqb_spec (skey y) 0); [auto|discriminate].
Qed.

Lemma occ_get s p x : q_get mc s p = Some x -> occupied (q_mem s) p = negb (skey x =? 0).
Proof.
  intros G. pose proof (q_get_lt _ _ _ _ G) as L. rewrite (q_get_mem mc hash) in G by auto.
  unfold occupied. rewrite G. reflexivity.
Qed.

Lemma w_cells s lg p x : winv s lg -> p < tot s ->
  forall q, q < tot s -> exists y, fupd (q_mem s) p (Some x) q = Some y.
Proof. intros I L q Q. unfold fupd. destruct (q =? p); [eauto|apply I, Q]. Qed.

Lemma w_put s lg p x k d : winv s lg -> q_get mc s p = Some x -> skey x = 0 -> k <> 0 ->
  q_n s + 1 <= fill_limit (tot s) ->
  winv (Stab (q_map s) (fupd (q_mem s) p (Some (Slot k d))) (q_n s + 1)) lg.
Proof.
  intros I G X K LIM. pose proof (q_get_lt _ _ _ _ G) as L. split; cbn [q_map q_mem q_n]; try apply I; auto.
  - eapply w_cells; eauto.
  - rewrite cnt_add; [pose proof (wi_cnt _ _ I); lia| | |rewrite N2Nat.id; auto].
    + now rewrite (occ_get _ _ _ G), X.
    + unfold q_empty; cbn. now apply N.eqb_neq.
Qed.

Lemma w_upd s lg p x d : winv s lg -> q_get mc s p = Some x -> winv (q_set s p (Slot (skey x) d)) lg.
Proof.
  intros I G. pose proof (q_get_lt _ _ _ _ G) as L. split; cbn [q_map q_mem q_n q_set]; try apply I; auto.
  - eapply w_cells; eauto.
  - rewrite (cnt_ext _ (q_mem s)); [apply I|]. intros q _. rewrite occupied_upd.
    destruct (N.eqb_spec q p) as [->|]; auto. rewrite (occ_get _ _ _ G). reflexivity.
Qed.

Lemma w_del s lg p x : winv s lg -> q_get mc s p = Some x -> skey x <> 0 -> winv (q_set s p empty_slot) lg /\
  cnt (q_mem (q_set s p empty_slot)) (N.to_nat (tot s)) + 1 <= q_n s.
Proof.
  intros I G X. pose proof (q_get_lt _ _ _ _ G) as L.
  assert (C : cnt (fupd (q_mem s) p (Some empty_slot)) (N.to_nat (tot s)) + 1 <= q_n s).
  { rewrite cnt_del; [apply I| |rewrite N2Nat.id; auto]. rewrite (occ_get _ _ _ G).
    apply N.eqb_neq in X. now rewrite X. }
  split; auto. split; cbn [q_map q_mem q_n q_set]; try apply I; auto; [|lia].
  eapply w_cells; eauto.
Qed.

Lemma w_erase_loop fuel : forall s lg i j r x0 e, winv s lg ->
  cnt (q_mem s) (N.to_nat (tot s)) + 1 <= q_n s ->
  q_get mc s i = Some x0 -> skey x0 = 0 ->
  q_get mc s (rm s (j + r)) = Some e -> skey e = 0 -> rm s (j + r) <> i -> (N.to_nat r < fuel)%nat ->
  exists s', erase_loop mc hash fuel s i j = ROk s' /\ winv s' lg /\ q_n s' = q_n s.
Proof.
  induction fuel as [|fuel IH]; intros s lg i j r x0 e I C G0 X0 GE E NE F; [lia|]. cbn [erase_loop].
  destruct (w_get _ _ j I) as [x G]. rewrite G. unfold q_empty.
  destruct (N.eqb_spec (skey x) 0) as [Z|Z]; [eauto|].
  assert (r <> 0) by (intros ->; rewrite N.add_0_r in GE; congruence).
  assert (RM : forall q, rm s (rm s j + q) = rm s (j + q)).
  { intros q. rewrite !(w_rm _ _ _ I). apply N.add_mod_idemp_l. destruct (w_tot _ _ I). lia. }
  destruct (_ <=? i).
  - set (s2 := q_set (q_set s i x) (rm s j) empty_slot).
    pose proof (q_get_lt _ _ _ _ G) as LJ. pose proof (q_get_lt _ _ _ _ G0) as LI.
    assert (NI : rm s j <> i) by (intros Q; rewrite Q in G; congruence).
    assert (GS : forall q, q_get mc s2 q = if q =? rm s j then Some empty_slot
                           else if q =? i then Some x else q_get mc s q).
    { intros q. unfold s2, q_set at 1.
      rewrite (q_get_set mc hash (q_set s i x)) by exact LJ.
      destruct (q =? rm s j); auto. unfold q_set. now rewrite (q_get_set mc hash s) by auto. }
    assert (C2 : cnt (q_mem s2) (N.to_nat (tot s)) = cnt (q_mem s) (N.to_nat (tot s))).
    { unfold s2; cbn [q_mem q_set].
      assert (cnt (fupd (q_mem s) i (Some x)) (N.to_nat (tot s)) = cnt (q_mem s) (N.to_nat (tot s)) + 1).
      { apply cnt_add; [|unfold q_empty; now apply N.eqb_neq|rewrite N2Nat.id; auto].
        now rewrite (occ_get _ _ _ G0), X0. }
      pose proof (cnt_del (fupd (q_mem s) i (Some x)) (rm s j) (N.to_nat (tot s))) as CD.
      rewrite N2Nat.id, occupied_upd in CD. destruct (N.eqb_spec (rm s j) i); [contradiction|].
      rewrite (occ_get _ _ _ G) in CD. apply N.eqb_neq in Z. rewrite Z in CD.
      specialize (CD eq_refl LJ). lia. }
    assert (I2 : winv s2 lg).
    { split; try apply I.
      - intros q Q. unfold s2; cbn [q_mem q_set]. unfold fupd.
        destruct (q =? rm s j); [eauto|]. destruct (q =? i); [eauto|apply I, Q].
      - change (q_map s2) with (q_map s). change (q_n s2) with (q_n s). rewrite C2. apply I. }
    assert (NR : rm s (j + r) <> rm s j) by (intros Q; rewrite Q, G in GE; congruence).
    destruct (IH s2 lg (rm s j) (rm s j + 1) (r - 1) empty_slot e I2) as (s' & H1 & H2 & H3); auto.
    + change (q_map s2) with (q_map s). rewrite C2. exact C.
    + rewrite GS, N.eqb_refl. reflexivity.
    + change (q_map s2) with (q_map s). rewrite <- N.add_assoc. replace (1 + (r - 1)) with r by lia.
      rewrite RM, GS. destruct (N.eqb_spec (rm s (j + r)) (rm s j)); [contradiction|].
      destruct (N.eqb_spec (rm s (j + r)) i); [contradiction|auto].
    + change (q_map s2) with (q_map s). rewrite <- N.add_assoc. replace (1 + (r - 1)) with r by lia.
      rewrite RM. exact NR.
    + lia.
    + exists s'. sp; auto.
  - apply (IH s lg i (j + 1) (r - 1) x0 e); auto; try lia;
      replace (j + 1 + (r - 1)) with (j + r) by lia; auto.
Qed.

Lemma w_erase s lg k : winv s lg -> k <> 0 ->
  exists s' b, erase mc hash (S (N.to_nat (tot s))) s k = ROk (s', b) /\ winv s' lg /\ q_n s' = q_n s.
Proof.
  intros I K. unfold erase. destruct (w_scan s lg k I K) as (i & b & x & -> & G & X).
  cbn [bind fst snd]. destruct b; [|eauto 6].
  assert (EL : N.land i (rm s i) = rm s i)
    by (unfold remap; rewrite CP; now rewrite N.land_assoc, N.land_diag).
  rewrite EL, G. set (p := rm s i) in *. clearbody p.
  destruct (w_del s lg p x I G ltac:(congruence)) as [I' C'].
  pose proof (q_get_lt _ _ _ _ G) as LP.
  destruct (w_free s lg I) as (e & LE & GE & OE).
  destruct (q_get mc s e) as [y|] eqn:GY; [clear GE|congruence].
  rewrite (occ_get _ _ _ GY) in OE. destruct (N.eqb_spec (skey y) 0) as [Y|]; [|discriminate].
  assert (NE : e <> p) by (intros ->; congruence).
  destruct (w_probe s lg (p + 1) e I LE) as (r & R & E).
  destruct (w_erase_loop (S (N.to_nat (tot s))) (q_set s p empty_slot) lg p (p + 1) r empty_slot y I')
    as (s' & -> & W & Q); auto.
  - unfold q_set. rewrite (q_get_set mc hash s) by auto. now rewrite N.eqb_refl.
  - change (q_map (q_set s p empty_slot)) with (q_map s). rewrite E.
    unfold q_set. rewrite (q_get_set mc hash s) by auto. apply N.eqb_neq in NE. now rewrite NE.
  - change (q_map (q_set s p empty_slot)) with (q_map s). congruence.
  - lia.
  - cbn [bind]. eauto 6.
Qed.

Lemma w_resize s lg : winv s lg -> q_n s + 1 > fill_limit (tot s) -> q_n s <= 2 ^ 48 ->
  let m' := resize mc (q_map s) (q_n s + 1) 0 in
  wf_mapper mc m' (lg + 1) /\ q_n s + 1 <= fill_limit (total_slots mc m') /\ lg <= 50.
Proof.
  intros I F N m'. pose proof (wi_map _ _ I) as W. destruct (w_tot _ _ I) as [T T2].
  destruct (fill_limit_bounds (tot s)) as [B1 B2]. pose proof (wi_lg _ _ I).
  assert (L50 : lg <= 50).
  { destruct (N.le_gt_cases lg 50) as [|G]; auto. exfalso.
    pose proof (pow2_le 51 lg ltac:(lia)) as P.
    change (2 ^ 51) with 2251799813685248 in P. change (2 ^ 48) with 281474976710656 in N. lia. }
  assert (E : m' = mk_mapper mc (2 ^ (lg + 1)) (if cmap mc then 2 ^ lg else 1)).
  { unfold m', resize. rewrite (addressable_val _ _ _ W).
    replace (w64 (q_n s + 1 + (2 ^ 64 - w64 0))) with (q_n s + 1).
    - assert (fill_above (q_n s + 1) (2 ^ lg) = true) as ->.
      { apply N.ltb_lt. change (2 ^ 54) with 18014398509481984. lia. }
      rewrite pow2_add1, (N.mul_comm 2). reflexivity.
    - change (w64 0) with 0. rewrite N.sub_0_r. unfold w64.
      replace (q_n s + 1 + 2 ^ 64) with (q_n s + 1 + 1 * 2 ^ 64) by lia.
      rewrite N.mod_add by discriminate. symmetry. apply N.mod_small.
      change (2 ^ 48) with 281474976710656 in N. change (2 ^ 64) with 18446744073709551616. lia. }
  assert (W' : wf_mapper mc m' (lg + 1)) by (rewrite E; apply wf_mk; lia).
  sp; auto. rewrite (total_val _ _ _ W'), CP.
  destruct (fill_limit_bounds (2 ^ (lg + 1))) as [_ B3]. rewrite pow2_add1 in *. 
  pose proof (wi_lim _ _ I). lia.
Qed.

Lemma w_fresh m lg : wf_mapper mc m lg -> 9 <= lg <= 52 -> winv (q_fresh mc m) lg.
Proof.
  intros W L. destruct (fresh_inv mc hash m lg W ltac:(lia)) as [? ? ? ? ? ? ?]. split; auto. lia.
Qed.

(** An insert that cannot trigger growth. *)
Lemma w_insert_small g s lg k d : winv s lg -> k <> 0 -> q_n s + 1 <= fill_limit (tot s) ->
  exists s' p b, insert_intern mc hash (S g) s k d = ROk (s', p, b) /\ winv s' lg /\
    q_map s' = q_map s /\ q_n s' <= q_n s + 1.
Proof.
  intros I K LIM. cbn [insert_intern]. destruct (w_scan s lg k I K) as (i & b & x & -> & G & X).
  cbn [bind fst snd]. destruct b.
  - exists s, (rm s i), false. sp; auto. lia.
  - cbn [q_n q_map q_mem]. destruct (N.ltb_spec (fill_limit (tot s)) (q_n s + 1)); [lia|].
    eexists _, _, _. sp; [reflexivity| |reflexivity|cbn; lia].
    exact (w_put s lg _ x k d I G X K LIM).
Qed.

Lemma w_migrate g s lg : winv s lg -> forall n i t lgt, i + N.of_nat n = tot s -> winv t lgt ->
  q_n t <= cnt (q_mem s) (N.to_nat i) -> q_n s <= fill_limit (tot t) ->
  exists t', migrate_loop mc (insert_intern mc hash (S g)) s t (nseq i n) = ROk t' /\
    winv t' lgt /\ q_n t' <= q_n s /\ q_map t' = q_map t.
Proof.
  intros I n. induction n as [|n IH]; intros i t lgt T IT C LIM; cbn [nseq migrate_loop].
  - exists t. sp; auto. rewrite C. replace i with (tot s) by lia. apply I.
  - destruct (wi_cell _ _ I i) as [x X]; [lia|].
    assert (G : q_get mc s i = Some x) by (rewrite (q_get_mem mc hash) by lia; auto). rewrite G.
    assert (C1 : cnt (q_mem s) (N.to_nat (i + 1)) =
                 cnt (q_mem s) (N.to_nat i) + if q_empty x then 0 else 1).
    { replace (N.to_nat (i + 1)) with (S (N.to_nat i)) by lia. cbn [cnt].
      rewrite N2Nat.id. unfold occupied. rewrite X. destruct (q_empty x); reflexivity. }
    pose proof (cnt_mono (q_mem s) (N.to_nat (i + 1)) (N.to_nat (tot s)) ltac:(lia)) as CM.
    pose proof (wi_cnt _ _ I).
    destruct (q_empty x) eqn:E.
    + apply (IH (i + 1) t lgt); auto; lia.
    + unfold q_empty in E. apply N.eqb_neq in E.
      destruct (w_insert_small g t lgt (skey x) (sdata x) IT E ltac:(lia)) as (t' & p & b & -> & IT' & M & Q).
      cbn [bind fst]. rewrite <- M. apply (IH (i + 1) t' lgt); auto; try lia. rewrite M. lia.
Qed.

Lemma w_grow g s lg : winv s lg -> q_n s + 1 > fill_limit (tot s) -> q_n s <= 2 ^ 48 ->
  exists s2, grow mc (insert_intern mc hash (S g)) (Stab (q_map s) (q_mem s) (q_n s + 1)) = ROk s2 /\
    let s3 := Stab (q_map s2) (q_mem s2) (q_n s2 - 1) in
    winv s3 (lg + 1) /\ q_n s3 = q_n s /\ q_n s3 + 1 <= fill_limit (tot s3).
Proof.
  intros I F N. unfold grow. cbn [q_map q_n q_mem].
  destruct (w_resize _ _ I F N) as (W' & LIM & L50). pose proof (wi_lg _ _ I).
  set (m' := resize mc (q_map s) (q_n s + 1) 0) in *.
  pose proof (w_fresh m' (lg + 1) W' ltac:(lia)) as FI.
  set (s1 := Stab (q_map s) (q_mem s) (q_n s + 1)).
  destruct (w_migrate g s lg I (N.to_nat (tot s)) 0 (q_fresh mc m') (lg + 1)) as (t' & MS & IT & QT & MT);
    auto; try lia.
  { cbn [q_n q_fresh]. lia. }
  { cbn [q_map q_fresh]. lia. }
  assert (ML : migrate_loop mc (insert_intern mc hash (S g)) s1 (q_fresh mc m') (nseq 0 (N.to_nat (tot s))) =
               migrate_loop mc (insert_intern mc hash (S g)) s (q_fresh mc m') (nseq 0 (N.to_nat (tot s)))).
  { generalize (q_fresh mc m'), (nseq 0 (N.to_nat (tot s))). intros t l. revert t.
    induction l as [|i l IH]; intros t; cbn [migrate_loop]; auto.
    change (q_get mc s1 i) with (q_get mc s i).
    destruct (q_get mc s i) as [x|]; auto. destruct (q_empty x); auto.
    destruct (insert_intern mc hash (S g) t (skey x) (sdata x)) as [r| |]; cbn [bind]; auto. }
  rewrite ML, MS. cbn [bind]. eexists. split; [reflexivity|]. cbn [q_map q_mem q_n].
  replace (q_n s + 1 - 1) with (q_n s) by lia.
  cbn [q_map q_fresh] in MT. destruct t' as [mt t' nt]. cbn [q_map q_mem q_n] in *. subst mt.
  sp; auto. destruct IT as [I1 I2 I3 I4 I5]. cbn [q_map q_mem q_n] in *.
  split; cbn [q_map q_mem q_n]; auto; try lia.
Qed.

Lemma w_srun s lg o : winv s lg -> sop_key o <> 0 -> q_n s <= 2 ^ 48 ->
  exists s' r lg', srun mc hash s o = ROk (s', r) /\ winv s' lg' /\ q_n s' <= q_n s + 1.
Proof.
  intros I K N. destruct o as [k d|k|k f|k d f|k]; cbn [srun sop_key] in *.
  - unfold depth. remember 3%nat as g eqn:Eg. cbn [insert_intern].
    destruct (w_scan s lg k I K) as (i & b & x & -> & G & X). cbn [bind fst snd]. destruct b.
    + cbn [bind]. eexists _, _, lg. sp; eauto. lia.
    + cbn [q_n q_map q_mem]. destruct (N.ltb_spec (fill_limit (tot s)) (q_n s + 1)) as [F|F].
      * subst g. destruct (w_grow 2 s lg I ltac:(lia) N) as (s2 & -> & I3 & Q3 & L3).
        cbn [bind].
        destruct (w_insert_small 2 _ _ k d I3 K L3) as (s' & p & b & -> & I4 & _ & Q4).
        cbn [bind]. eexists _, _, _. sp; eauto. lia.
      * cbn [bind]. eexists _, _, lg. sp; [reflexivity| |cbn; lia]. exact (w_put s lg _ x k d I G X K F).
  - destruct (w_scan s lg k I K) as (i & b & x & -> & G & X). cbn [bind fst snd].
    eexists _, _, lg. sp; eauto. lia.
  - destruct (w_scan s lg k I K) as (i & b & x & -> & G & X). cbn [bind fst snd]. destruct b.
    + rewrite G. eexists _, _, lg. sp; [reflexivity| |cbn; lia]. eapply w_upd; eauto.
    + eexists _, _, lg. sp; eauto. lia.
  - unfold depth. remember 3%nat as g eqn:Eg. cbn [insert_or_update_intern].
    destruct (w_scan s lg k I K) as (i & b & x & -> & G & X). cbn [bind fst snd]. destruct b.
    + rewrite G. cbn [bind]. eexists _, _, lg. sp; [reflexivity| |cbn; lia]. eapply w_upd; eauto.
    + cbn [q_n q_map q_mem]. destruct (N.ltb_spec (fill_limit (tot s)) (q_n s + 1)) as [F|F].
      * subst g. destruct (w_grow 2 s lg I ltac:(lia) N) as (s2 & -> & I3 & Q3 & L3).
        cbn [bind]. set (s3 := Stab (q_map s2) (q_mem s2) (q_n s2 - 1)) in *. clearbody s3.
        cbn [insert_or_update_intern].
        destruct (w_scan s3 _ k I3 K) as (i' & b' & x' & -> & G' & X'). cbn [bind fst snd]. destruct b'.
        -- rewrite G'. cbn [bind]. eexists _, _, _. sp; [reflexivity| |cbn; lia]. eapply w_upd; eauto.
        -- cbn [q_n q_map q_mem]. destruct (N.ltb_spec (fill_limit (tot s3)) (q_n s3 + 1)); [lia|].
           cbn [bind]. eexists _, _, _. sp; [reflexivity| |cbn; lia].
           exact (w_put s3 _ _ x' k d I3 G' X' K L3).
      * cbn [bind]. eexists _, _, lg. sp; [reflexivity| |cbn; lia]. exact (w_put s lg _ x k d I G X K F).
  - destruct (w_erase s lg k I K) as (s' & b & -> & W & Q). cbn [bind].
    eexists _, _, lg. sp; eauto. lia.
Qed.

Lemma w_srun_all l : forall s lg, winv s lg -> (forall o, In o l -> sop_key o <> 0) ->
  q_n s + N.of_nat (length l) <= 2 ^ 48 -> exists r, srun_all mc hash s l = ROk r.
Proof.
  induction l as [|o l IH]; intros s lg I K N; cbn [srun_all]; [eauto|]. cbn [length] in N.
  destruct (w_srun s lg o I (K o (or_introl eq_refl)) ltac:(lia)) as (s' & r & lg' & -> & I' & Q).
  cbn [bind]. destruct (IH s' lg' I' (fun o' H => K o' (or_intror H)) ltac:(lia)) as [[s'' rs] ->].
  cbn [bind]. eauto.
Qed.
End W.

(** *** What erase loses *)

Section L.
Context (mc : mcfg) (hash : N -> N) (CP : cprob mc = true).

Lemma good_winv s a z : good mc hash s a z -> exists lg, winv mc s lg /\ sinv mc hash s lg a z.
Proof.
  intros (lg & I & L). exists lg. split; auto. pose proof (si_cnt _ _ _ _ _ _ I).
  pose proof (si_lg _ _ _ _ _ _ I). destruct I. split; auto; lia.
Qed.

Lemma erase_loop_still fuel : forall s i j,
  (forall p x, q_get mc s p = Some x -> skey x <> 0 -> i < w64 (hash (skey x))) ->
  match erase_loop mc hash fuel s i j with ROk s' => s' = s | _ => True end.
Proof.
  induction fuel as [|fuel IH]; intros s i j H; cbn [erase_loop]; auto.
  destruct (q_get mc s (remap mc (q_map s) j)) as [x|] eqn:G; auto.
  destruct (q_empty x) eqn:E; auto. unfold q_empty in E. apply N.eqb_neq in E.
  specialize (H _ _ G E) as HX. destruct (N.leb_spec (w64 (hash (skey x))) i); [lia|]. apply IH; auto.
Qed.

Lemma erase_cuts s a z k1 k2 n1 n2 d1 d2 :
  good mc hash s a z -> k1 <> 0 -> k2 <> 0 -> k1 <> k2 ->
  (forall k, a k <> None -> total_slots mc (q_map s) <= w64 (hash k)) ->
  q_home mc hash s k1 = q_home mc hash s k2 ->
  q_get mc s (remap mc (q_map s) (q_home mc hash s k1 + n1)) = Some (Slot k1 d1) -> blocked mc hash s k1 n1 ->
  q_get mc s (remap mc (q_map s) (q_home mc hash s k2 + n2)) = Some (Slot k2 d2) -> blocked mc hash s k2 n2 ->
  n1 < n2 ->
  exists s', srun mc hash s (SErase k1) = ROk (s', (None, true)) /\
             srun mc hash s' (SFind k2) = ROk (s', (None, false)).
Proof.
  intros GD K1 K2 NE HB HH G1 B1 G2 B2 LT.
  destruct (good_winv _ _ _ GD) as (lg & W & I).
  set (p := remap mc (q_map s) (q_home mc hash s k1 + n1)) in *.
  assert (E : exists s', erase mc hash (S (N.to_nat (total_slots mc (q_map s)))) s k1 = ROk (s', true) /\
              s' = q_set s p empty_slot).
  { destruct (w_erase mc hash CP s lg k1 W K1) as (s' & b & EQ & _).
    pose proof EQ as EQ'. unfold erase in EQ.
    pose proof (q_scan_spec mc hash s lg a z k1 I K1) as SC.
    destruct (q_scan mc hash s k1) as [[i b']| |]; cbn [bind] in EQ; [|congruence|congruence].
    destruct SC as (n & -> & B & y & Gy & Y). destruct b'; cbn [fst snd] in EQ.
    2:{ pose proof (blocked_absent mc hash _ _ _ _ _ _ _ I K1 B Gy Y).
        pose proof (hit_present mc hash _ _ _ _ _ _ _ I K1 G1 eq_refl). congruence. }
    assert (EP : remap mc (q_map s) (q_home mc hash s k1 + n) = p).
    { apply (cell_unique mc hash _ _ _ _ _ _ _ _ I Gy G1); cbn; congruence. }
    assert (EL : N.land (q_home mc hash s k1 + n) (remap mc (q_map s) (q_home mc hash s k1 + n)) = p).
    { rewrite <- EP. unfold remap. now rewrite CP, N.land_assoc, N.land_diag. }
    rewrite EL, G1 in EQ.
    pose proof (erase_loop_still (S (N.to_nat (total_slots mc (q_map s)))) (q_set s p empty_slot) p (p + 1)) as ST.
    pose proof (q_get_lt mc _ _ _ G1) as LP.
    destruct (erase_loop _ _ _ _ _ _) as [s1| |]; cbn [bind] in EQ; [|congruence|congruence].
    rewrite EQ'. exists s'. injection EQ as <- <-. split; auto. apply ST.
    intros q x GQ X. unfold q_set in GQ. rewrite (q_get_set mc hash s) in GQ by auto.
    destruct (N.eqb_spec q p); [injection GQ as <-; cbn in X; congruence|].
    apply N.lt_le_trans with (total_slots mc (q_map s)); [exact LP|]. apply HB.
    rewrite (hit_present mc hash _ _ _ _ _ _ _ I X GQ eq_refl). discriminate. }
  destruct E as (s' & EQ & ES). exists s'. split; [cbn [srun]; rewrite EQ; reflexivity|].
  destruct (w_erase mc hash CP s lg k1 W K1) as (s1 & b & EQ1 & W1 & _).
  rewrite EQ1 in EQ. injection EQ as -> ->.
  pose proof (q_get_lt mc _ _ _ G1) as LP.
  assert (GS : forall q, q_get mc s' q = if q =? p then Some empty_slot else q_get mc s q).
  { intros q. subst s'. apply (q_get_set mc hash s). auto. }
  cbn [srun]. destruct (w_scan mc hash CP s' lg k2 W1 K2) as (i & b & x & SC & _).
  rewrite SC. cbn [bind fst snd]. destruct b; [exfalso|reflexivity].
  pose proof (scan_spec mc hash s' k2 K2 (S (N.to_nat (total_slots mc (q_map s')))) 0) as P.
  unfold q_scan in SC. rewrite N.add_0_r in P. rewrite SC in P.
  destruct P as (n & -> & B & y & GY & Y); [intros j Hj; lia|].
  assert (HM : q_map s' = q_map s) by (subst s'; reflexivity).
  assert (HH' : q_home mc hash s' k2 = q_home mc hash s k2) by (unfold q_home; now rewrite HM).
  rewrite HH', HM, <- HH in *.
  destruct (N.le_gt_cases n n1) as [L|L].
  - rewrite GS in GY. destruct (N.eqb_spec (remap mc (q_map s) (q_home mc hash s k1 + n)) p) as [Q|Q].
    + injection GY as <-. cbn in Y. congruence.
    + destruct (B2 n ltac:(lia)) as (y2 & Gy2 & _ & Y2). rewrite <- HH, GY in Gy2. congruence.
  - destruct (B n1 L) as (y1 & Gy1 & Y1 & _). rewrite HH', HM, GS in Gy1.
    fold p in Gy1. rewrite N.eqb_refl in Gy1. injection Gy1 as <-. cbn in Y1. congruence.
Qed.

Lemma erase_loses s a z k1 k2 d1 d2 :
  good mc hash s a z -> k1 <> k2 -> a k1 = Some d1 -> a k2 = Some d2 ->
  (forall k, a k <> None -> total_slots mc (q_map s) <= w64 (hash k)) ->
  hash k1 = hash k2 ->
  exists ka kb s', ((ka = k1 /\ kb = k2) \/ (ka = k2 /\ kb = k1)) /\
    srun mc hash s (SErase ka) = ROk (s', (None, true)) /\
    srun mc hash s' (SFind kb) = ROk (s', (None, false)).
Proof.
  intros GD NE A1 A2 HB HH. destruct (good_winv _ _ _ GD) as (lg & W & I).
  assert (HM : q_home mc hash s k1 = q_home mc hash s k2) by (unfold q_home; now rewrite HH).
  apply (si_abs _ _ _ _ _ _ I) in A1 as (K1 & p1 & G1).
  apply (si_abs _ _ _ _ _ _ I) in A2 as (K2 & p2 & G2).
  destruct (si_reach _ _ _ _ _ _ I _ _ G1 K1) as (n1 & E1 & B1).
  destruct (si_reach _ _ _ _ _ _ I _ _ G2 K2) as (n2 & E2 & B2). cbn [skey] in *.
  destruct (N.lt_trichotomy n1 n2) as [L|[L|L]].
  - rewrite <- E1 in G1. rewrite <- E2 in G2.
    destruct (erase_cuts s a z k1 k2 n1 n2 d1 d2) as (s' & H1 & H2); auto. exists k1, k2, s'. auto.
  - exfalso. subst n2. rewrite HM, E2 in E1. subst p2. rewrite G1 in G2. injection G2 as C _. congruence.
  - rewrite <- E1 in G1. rewrite <- E2 in G2.
    destruct (erase_cuts s a z k2 k1 n2 n1 d2 d1) as (s' & H1 & H2); auto. exists k2, k1, s'. auto.
Qed.

Lemma good_total s a z : good mc hash s a z -> total_slots mc (q_map s) <= 2 ^ 52.
Proof.
  intros GD. destruct (good_winv _ _ _ GD) as (lg & W & I). destruct (w_tot mc CP _ _ W) as [-> _].
  apply pow2_le. apply W.
Qed.
End L.

(** *** Checking [tame] by computation *)

Definition free_afterb (mc : mcfg) (s : stab) (k : N) : bool :=
  forallb (fun p =>
    match q_get mc s p with
    | Some x => if skey x =? k
                then match q_get mc s (remap mc (q_map s) (p + 1)) with
                     | Some y => skey y =? 0 | None => false end
                else true
    | None => true
    end) (nseq 0 (N.to_nat (total_slots mc (q_map s)))).
Fixpoint tameb (mc : mcfg) (hash : N -> N) (s : stab) (l : list sop) : bool :=
  match l with
  | [] => true
  | o :: l =>
      (match o with SErase k => free_afterb mc s k | _ => true end) &&
      match srun mc hash s o with ROk (s', _) => tameb mc hash s' l | _ => true end
  end.
Lemma tameb_ok mc hash l : forall s, tameb mc hash s l = true -> tame mc hash s l.
Proof.
  induction l as [|o l IH]; intros s H; cbn [tame tameb] in *; auto.
  apply andb_prop in H as [H1 H2]. split.
  - intros k p d -> G. unfold free_afterb in H1. rewrite forallb_forall in H1.
    specialize (H1 p). rewrite in_nseq_N in H1.
    pose proof (q_get_lt mc _ _ _ G) as L. specialize (H1 ltac:(lia)). rewrite G in H1.
    cbn [skey] in H1. rewrite N.eqb_refl in H1.
    destruct (q_get mc s (remap mc (q_map s) (p + 1))) as [y|]; [|discriminate].
    exists y. split; auto. now apply N.eqb_eq.
  - destruct (srun mc hash s o) as [[s' r]| |]; auto.
Qed.
