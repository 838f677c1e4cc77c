(** erase of the sequential table when hash values are cell numbers: circular mapping and
    stored keys with hash values below a quarter of the initial size.  There the comparison
    of a hash value with a cell number in the second loop of erase (seq_linear.hpp:522-533)
    is the one it has to make, no probe wraps around, and closing the gap is right. *)
From Coq Require Import NArith Bool List Lia.
From Verif Require Import Words Slot Mapper MapperFacts MapSpec BaseLin Migrate Seq SeqSpec SeqFacts SeqIter SeqIterFacts.
Import ListNotations.
Open Scope N_scope.

Section S.
Context (mc : mcfg) (hash : N -> N) (lg0 : N).
Notation tot s := (total_slots mc (q_map s)).
Context (CM : cmap mc = true).
Definition small (k : N) : Prop := 4 * hash k < 2 ^ lg0.

Lemma home_hash s lg k : wf_mapper mc (q_map s) lg -> lg0 <= lg <= 62 -> small k -> q_home mc hash s k = hash k.
Proof.
  unfold small. intros W L H. unfold q_home. rewrite (map_val _ _ _ W), CM. pose proof (pow2_le lg0 lg ltac:(lia)).
  pose proof (pow2_le lg 62 ltac:(lia)).
  unfold w64. rewrite (N.mod_small (hash k)) by (change (2 ^ 62) with 4611686018427387904 in *; lia).
  apply N.mod_small. lia.
Qed.

Lemma small_tot s lg k : wf_mapper mc (q_map s) lg -> lg0 <= lg -> small k -> 4 * hash k < tot s.
Proof.
  unfold small. intros W L H. rewrite (total_val _ _ _ W). pose proof (pow2_le lg0 lg L). destruct (cprob mc); lia.
Qed.

Lemma remap_id s lg i : wf_mapper mc (q_map s) lg -> i < tot s -> remap mc (q_map s) i = i.
Proof.
  intros W L. rewrite (remap_val _ _ _ W). rewrite (total_val _ _ _ W) in L. destruct (cprob mc); auto.
  now apply N.mod_small.
Qed.

(** Consecutive occupied cells are counted. *)
Lemma cnt_run t h e n : (forall q, h <= q < N.of_nat n -> q = e \/ occupied t q = true) ->
  N.of_nat n <= cnt t n + h + 1.
Proof.
  assert (A : forall n, (forall q, h <= q < N.of_nat n -> occupied t q = true) -> N.of_nat n <= cnt t n + h).
  { clear n. induction n as [|n IH]; intros H; [lia|]. cbn [cnt].
    destruct (N.le_gt_cases h (N.of_nat n)) as [L|L]; [|lia].
    rewrite (H (N.of_nat n)) by lia. specialize (IH ltac:(intros q Hq; apply H; lia)). lia. }
  induction n as [|n IH]; intros H; [lia|]. cbn [cnt].
  destruct (N.le_gt_cases h (N.of_nat n)) as [L|L]; [|lia].
  destruct (H (N.of_nat n) ltac:(lia)) as [E|O].
  - specialize (A n). pose proof (A ltac:(intros q Hq; destruct (H q ltac:(lia)); [lia|auto])). destruct (occupied _ _); lia.
  - rewrite O. specialize (IH ltac:(intros q Hq; apply H; lia)). lia.
Qed.

Lemma get_occupied s q y : q_get mc s q = Some y -> skey y <> 0 -> occupied (q_mem s) q = true.
Proof.
  intros G Y. pose proof (q_get_lt _ _ _ _ G) as L. rewrite (q_get_mem mc hash s q L) in G.
  unfold occupied. rewrite G. unfold q_empty. apply N.eqb_neq in Y. now rewrite Y.
Qed.

(** A run of occupied cells (but one) from a small hash value on does not reach the end. *)
Lemma run_inside s k e j : 512 <= tot s -> 4 * hash k < tot s ->
  cnt (q_mem s) (N.to_nat (tot s)) <= fill_limit (tot s) ->
  (forall q, hash k <= q < j -> q = e \/ exists y, q_get mc s q = Some y /\ skey y <> 0) -> j < tot s.
Proof.
  intros T H C F. destruct (N.lt_ge_cases j (tot s)) as [L|L]; auto. exfalso.
  pose proof (cnt_run (q_mem s) (hash k) e (N.to_nat (tot s))) as R. rewrite N2Nat.id in R.
  destruct (fill_limit_bounds (tot s)) as [U _].
  assert (tot s <= cnt (q_mem s) (N.to_nat (tot s)) + hash k + 1); [|lia].
  apply R. intros q Lq. destruct (F q ltac:(lia)) as [E|(y & G & Y)]; auto. right. eapply get_occupied; eauto.
Qed.

(** A gap at [i]: everything is as it should be, except that elements from [j] on may be
    cut off from their hash value by the gap. *)
Record gap (s : stab) (lg : N) (a : amap) (z h i j : N) : Prop := {
  gp_small : small h;
  gp_run : forall q, hash h <= q < j -> q = i \/ exists y, q_get mc s q = Some y /\ skey y <> 0;
  gp_map : wf_mapper mc (q_map s) lg;
  gp_cell : forall p, p < tot s -> exists x, q_mem s p = Some x;
  gp_ij : i < j;
  gp_free : exists x, q_get mc s i = Some x /\ skey x = 0;
  gp_fill : forall p, i < p < j -> exists x, q_get mc s p = Some x /\ skey x <> 0 /\ i < hash (skey x);
  gp_reach : forall p x, q_get mc s p = Some x -> skey x <> 0 ->
    hash (skey x) <= p /\
    forall q, hash (skey x) <= q < p ->
      (q = i /\ j <= p) \/ exists y, q_get mc s q = Some y /\ skey y <> 0 /\ skey y <> skey x;
  gp_abs : forall k d, a k = Some d <-> k <> 0 /\ exists p, q_get mc s p = Some (Slot k d);
  gp_cnt : cnt (q_mem s) (N.to_nat (tot s)) + z = q_n s;
  gp_lim : q_n s <= fill_limit (tot s) }.

Lemma gap_unique s lg a z h i j p q x y : gap s lg a z h i j -> q_get mc s p = Some x -> q_get mc s q = Some y ->
  skey x = skey y -> skey x <> 0 -> p = q.
Proof.
  intros G. assert (LT : forall p q x y, q_get mc s p = Some x -> q_get mc s q = Some y ->
    skey x = skey y -> skey x <> 0 -> p < q -> False).
  { clear p q x y. intros p q x y P Q E K L.
    destruct (gp_reach _ _ _ _ _ _ _ G p x P K) as [HP _].
    destruct (gp_reach _ _ _ _ _ _ _ G q y Q ltac:(congruence)) as [_ HQ].
    destruct (HQ p ltac:(rewrite <- E; lia)) as [[-> _]|(w & GW & _ & NE)].
    - destruct (gp_free _ _ _ _ _ _ _ G) as (f & Gf & F). congruence.
    - congruence. }
  intros P Q E K. destruct (N.lt_trichotomy p q) as [L|[L|L]]; [exfalso; eauto|exact L|].
  exfalso. apply (LT q p y x); auto; congruence.
Qed.

Lemma loop_spec lg a z h (LG : lg0 <= lg <= 62) (L9 : 9 <= lg) (SM : forall k, a k <> None -> small k) fuel :
  forall s i j, gap s lg a z h i j -> tot s <= N.of_nat fuel + j ->
  match erase_loop mc hash fuel s i j with
  | ROk s' => sinv mc hash s' lg a z /\ q_n s' = q_n s /\ q_map s' = q_map s
  | _ => False
  end.
Proof.
  induction fuel as [|fuel IH]; intros s i j G F.
  all: assert (Lj : j < tot s).
  1,3: pose proof (gp_map _ _ _ _ _ _ _ G) as W; apply (run_inside s h i);
    [rewrite (total_val _ _ _ W); pose proof (pow2_le 9 lg L9) as P9; change (2 ^ 9) with 512 in P9; destruct (cprob mc); lia
    |apply (small_tot s lg); [exact W|lia|exact (gp_small _ _ _ _ _ _ _ G)]
    |pose proof (gp_cnt _ _ _ _ _ _ _ G); pose proof (gp_lim _ _ _ _ _ _ _ G); lia
    |exact (gp_run _ _ _ _ _ _ _ G)].
  - lia.
  - pose proof (gp_ij _ _ _ _ _ _ _ G) as IJ.
    assert (SX : forall p x, q_get mc s p = Some x -> skey x <> 0 -> small (skey x)).
    { intros p [k d] P K. apply SM. cbn in *. assert (a k = Some d) by (apply (gp_abs _ _ _ _ _ _ _ G); eauto). congruence. }
    cbn [erase_loop]. rewrite (remap_id s lg j (gp_map _ _ _ _ _ _ _ G) Lj).
    destruct (gp_cell _ _ _ _ _ _ _ G j Lj) as [x Gj]. rewrite <- (q_get_mem mc hash s j Lj) in Gj. rewrite Gj.
    unfold q_empty. destruct (N.eqb_spec (skey x) 0) as [X|X].
    { sp; auto. destruct G as [_ _ W C _ (f & Gf & Ff) FI RE AB CN LI]. constructor; auto; [lia|].
      intros p y P Y. destruct (RE p y P Y) as [HP HQ]. pose proof (q_get_lt _ _ _ _ P) as Lp.
      pose proof (home_hash s lg (skey y) W LG (SX p y P Y)) as HH.
      exists (p - hash (skey y)). rewrite HH. split; [rewrite (remap_id s lg) by (auto; lia); lia|].
      intros q Lq. rewrite HH, (remap_id s lg) by (auto; lia).
      destruct (HQ (hash (skey y) + q) ltac:(lia)) as [[E JP]|H]; auto. exfalso.
      destruct (N.eq_dec p j) as [->|NP]; [congruence|].
      destruct (HQ j ltac:(lia)) as [[E' _]|(w & Gw & Wn & _)]; [lia|congruence]. }
    assert (HX : w64 (hash (skey x)) = hash (skey x)).
    { unfold w64. apply N.mod_small. pose proof (SX j x Gj X) as H. unfold small in H.
      pose proof (pow2_le lg0 62 ltac:(lia)). change (2 ^ 62) with 4611686018427387904 in *. lia. }
    rewrite HX. destruct (N.leb_spec (hash (skey x)) i) as [LE|GT].
    + assert (Li : i < tot s) by lia.
      set (s' := q_set (q_set s i x) j empty_slot).
      assert (GS : forall q, q_get mc s' q = if q =? j then Some empty_slot else if q =? i then Some x else q_get mc s q).
      { intros q. unfold s'. unfold q_set at 1. rewrite (q_get_set mc hash) by exact Lj.
        destruct (q =? j); auto. unfold q_set. now rewrite (q_get_set mc hash). }
      assert (G' : gap s' lg a z h j (j + 1)).
      { pose proof (gap_unique s lg a z h i j) as UQ. specialize (UQ) with (1 := G).
        destruct G as [SH RU W C _ (f & Gf & Ff) FI RE AB CN LI]. constructor.
        - exact SH.
        - intros q Lq. rewrite GS. destruct (N.eqb_spec q j) as [E|NJ]; [now left|right].
          destruct (N.eqb_spec q i) as [E|NI]; [eauto|]. destruct (RU q ltac:(lia)) as [E|H]; [lia|exact H].
        - exact W.
        - intros p Lp. cbn [q_mem q_set s']. unfold fupd.
          destruct (p =? j); [eauto|]. destruct (p =? i); [eauto|]. apply C. exact Lp.
        - lia.
        - exists empty_slot. rewrite GS, N.eqb_refl. auto.
        - intros p Lp. lia.
        - intros p y. rewrite GS. destruct (N.eqb_spec p j) as [->|NJ].
          { intros [= <-] H. now contradiction H. }
          destruct (N.eqb_spec p i) as [->|NI].
          + intros [= <-] _. split; [exact LE|]. intros q Lq. right.
            destruct (RE j x Gj X) as [_ HQ]. destruct (HQ q ltac:(lia)) as [[E _]|(w & Gw & H)]; [lia|].
            exists w. rewrite GS. destruct (N.eqb_spec q j); [lia|]. destruct (N.eqb_spec q i); [lia|]. auto.
          + intros P Y. destruct (RE p y P Y) as [HP HQ]. split; [exact HP|]. intros q Lq.
            destruct (HQ q Lq) as [[E JP]|(w & Gw & Wn & NE)].
            * right. exists x. rewrite GS. destruct (N.eqb_spec q j); [lia|]. rewrite E, N.eqb_refl.
              split; [reflexivity|]. split; [exact X|]. intros E2. apply NJ. symmetry. eapply UQ; eauto.
            * destruct (N.eq_dec q j) as [->|Nq]; [left; lia|]. right. exists w. rewrite GS.
              destruct (N.eqb_spec q j); [lia|]. destruct (N.eqb_spec q i) as [->|]; [congruence|]. auto.
        - intros k d. rewrite AB. split; intros (K & p & P); (split; [exact K|]).
          + destruct (N.eq_dec p j) as [->|NJ].
            * exists i. rewrite GS. destruct (N.eqb_spec i j); [lia|]. rewrite N.eqb_refl. congruence.
            * exists p. rewrite GS. destruct (N.eqb_spec p j); [lia|].
              destruct (N.eqb_spec p i) as [->|]; [|exact P]. rewrite Gf in P. injection P as ->. cbn in Ff. congruence.
          + rewrite GS in P. destruct (p =? j); [injection P as E _; congruence|].
            destruct (p =? i); [exists j; congruence|eauto].
        - cbn [q_mem q_n q_set s' q_map]. rewrite (q_get_mem mc hash s i Li) in Gf. rewrite (q_get_mem mc hash s j Lj) in Gj.
          assert (O1 : cnt (fupd (q_mem s) i (Some x)) (N.to_nat (tot s)) = cnt (q_mem s) (N.to_nat (tot s)) + 1).
          { apply cnt_add; [|unfold q_empty; now apply N.eqb_neq|lia].
            unfold occupied. rewrite Gf. unfold q_empty. rewrite Ff. reflexivity. }
          assert (O2 : cnt (fupd (fupd (q_mem s) i (Some x)) j (Some empty_slot)) (N.to_nat (tot s)) + 1 =
                       cnt (fupd (q_mem s) i (Some x)) (N.to_nat (tot s))).
          { apply cnt_del; [|lia]. unfold occupied. rewrite fupd_other by lia. rewrite Gj. unfold q_empty.
            apply N.eqb_neq in X. now rewrite X. }
          lia.
        - exact LI. }
      exact (IH s' j (j + 1) G' ltac:(change (q_map s') with (q_map s); lia)).
    + apply (IH s i (j + 1)); [|lia]. destruct G as [SH RU W C _ FR FI RE AB CN LI]. constructor; auto; [|lia| |].
      * intros q Lq. destruct (N.eq_dec q j) as [->|]; [right; eauto|apply RU; lia].
      * intros p Lp. destruct (N.eq_dec p j) as [->|]; [exists x; auto|apply FI; lia].
      * intros p y P Y. destruct (RE p y P Y) as [HP HQ]. split; [exact HP|]. intros q Lq.
        destruct (HQ q Lq) as [[E JP]|H]; auto. left. split; [exact E|].
        destruct (N.eq_dec p j) as [->|]; [|lia]. assert (y = x) by congruence. subst y. lia.
Qed.

(** Probing from a small hash value does not wrap around. *)
Lemma blocked_inside s lg a z k n : sinv mc hash s lg a z -> lg0 <= lg -> small k -> blocked mc hash s k n ->
  hash k + n < tot s.
Proof.
  intros I LG SK B. pose proof (si_map _ _ _ _ _ _ I) as W. pose proof (si_lg _ _ _ _ _ _ I) as L62.
  pose proof (small_tot s lg k W LG SK) as H4.
  destruct (N.lt_ge_cases (hash k + n) (tot s)) as [L|L]; auto. exfalso.
  apply (N.lt_irrefl (tot s)). apply (run_inside s k (tot s)); auto.
  - exact (tot_pos mc hash s lg a z I).
  - pose proof (si_cnt _ _ _ _ _ _ I). pose proof (si_lim _ _ _ _ _ _ I). lia.
  - intros q Lq. right. destruct (B (q - hash k) ltac:(lia)) as (y & G & Y & _). exists y. split; [|exact Y].
    rewrite (home_hash s lg) in G by (auto; lia). replace (hash k + (q - hash k)) with q in G by lia.
    rewrite (remap_id s lg) in G by (auto; lia). exact G.
Qed.

Lemma erase_closes_gap s lg a z k : sinv mc hash s lg a z -> lg0 <= lg -> k <> 0 ->
  small k -> (forall k, a k <> None -> small k) ->
  match erase mc hash (S (N.to_nat (tot s))) s k with
  | ROk (s', b) =>
      match a k with
      | Some _ => b = true /\ sinv mc hash s' lg (fupd a k None) (z + 1) /\ q_n s' = q_n s /\ q_map s' = q_map s
      | None => b = false /\ s' = s
      end
  | RBad => cprob mc = false
  | RLoop => False
  end.
Proof.
  intros I LG K SK SM. unfold erase.
  pose proof (q_scan_spec _ _ _ _ _ _ k I K) as SC.
  destruct (q_scan mc hash s k) as [[i b]| |]; cbn [bind]; auto.
  destruct SC as (n & -> & B & y & Gy & Y). destruct b; cbn [fst snd].
  2:{ rewrite (blocked_absent _ _ _ _ _ _ _ _ _ I K B Gy Y). auto. }
  rewrite (hit_present _ _ _ _ _ _ _ _ _ I K Gy Y).
  pose proof (si_map _ _ _ _ _ _ I) as W. pose proof (si_lg _ _ _ _ _ _ I) as L62.
  pose proof (blocked_inside s lg a z k n I LG SK B) as IN.
  rewrite (home_hash s lg k W ltac:(lia) SK) in *. rewrite (remap_id s lg _ W IN) in *. rewrite N.land_diag.
  assert (RUN : forall q, hash k <= q < hash k + n -> exists y, q_get mc s q = Some y /\ skey y <> 0).
  { intros q Lq. destruct (B (q - hash k) ltac:(lia)) as (w & Gw & Wn & _). exists w. split; [|exact Wn].
    rewrite (home_hash s lg k W ltac:(lia) SK) in Gw. replace (hash k + (q - hash k)) with q in Gw by lia.
    rewrite (remap_id s lg _ W) in Gw by lia. exact Gw. }
  set (p := hash k + n) in *. clearbody p. rename IN into Lp. rewrite Gy.
  assert (GS : forall q, q_get mc (q_set s p empty_slot) q = if q =? p then Some empty_slot else q_get mc s q).
  { intros q. unfold q_set. now rewrite (q_get_set mc hash). }
  assert (SX : forall p x, q_get mc s p = Some x -> skey x <> 0 -> small (skey x)).
  { intros q [k' d] P K'. apply SM. cbn in *. assert (a k' = Some d) by (apply (si_abs _ _ _ _ _ _ I); eauto). congruence. }
  assert (G : gap (q_set s p empty_slot) lg (fupd a k None) (z + 1) k p (p + 1)).
  { pose proof (cell_unique mc hash s lg a z) as UQ. specialize (UQ) with (1 := I).
    pose proof (fun k n => blocked_inside s lg a z k n I LG) as BI.
    destruct I as [_ _ C RE AB CN LI]. constructor.
    - exact SK.
    - intros q Lq. rewrite GS. destruct (N.eqb_spec q p) as [E|NP]; [now left|right]. apply RUN. lia.
    - exact W.
    - intros q Lq. cbn [q_mem q_set]. unfold fupd. destruct (q =? p); [eauto|]. apply C. exact Lq.
    - lia.
    - exists empty_slot. rewrite GS, N.eqb_refl. auto.
    - intros q Lq. lia.
    - intros q x. rewrite GS. destruct (N.eqb_spec q p) as [->|NP]; [intros [= <-] H; now contradiction H|].
      intros Q X. destruct (RE q x Q X) as (m & E & BL). pose proof (SX q x Q X) as SQ.
      pose proof (BI _ _ SQ BL) as LM. pose proof (home_hash s lg (skey x) W ltac:(lia) SQ) as HH.
      rewrite HH, (remap_id s lg) in E by auto.
      split; [lia|]. intros r Lr. destruct (BL (r - hash (skey x)) ltac:(lia)) as (w & Gw & Wn & NE).
      rewrite HH in Gw. replace (hash (skey x) + (r - hash (skey x))) with r in Gw by lia.
      rewrite (remap_id s lg) in Gw by (auto; lia).
      destruct (N.eq_dec r p) as [->|NR]; [left; lia|]. right. exists w. rewrite GS.
      destruct (N.eqb_spec r p); [lia|]. auto.
    - intros k' d. unfold fupd. destruct (N.eqb_spec k' k) as [->|NK].
      + split; [discriminate|]. intros (_ & q & Q). rewrite GS in Q.
        destruct (N.eqb_spec q p) as [E1|NP]; [injection Q as E _; congruence|].
        exfalso. apply NP. eapply UQ; [exact Q|exact Gy|cbn; congruence|exact K].
      + rewrite AB. split; intros (K' & q & Q); (split; [exact K'|]); exists q.
        * rewrite GS. destruct (N.eqb_spec q p) as [->|]; [|exact Q].
          rewrite Gy in Q. injection Q as E. subst y. cbn in Y. congruence.
        * rewrite GS in Q. destruct (N.eqb_spec q p) as [E1|]; [injection Q as E _; congruence|exact Q].
    - cbn [q_mem q_n q_set q_map]. rewrite (q_get_mem mc hash s p Lp) in Gy.
      assert (O : cnt (fupd (q_mem s) p (Some empty_slot)) (N.to_nat (tot s)) + 1 = cnt (q_mem s) (N.to_nat (tot s))).
      { apply cnt_del; [|lia]. unfold occupied. rewrite Gy. unfold q_empty. rewrite Y.
        apply N.eqb_neq in K. now rewrite K. }
      lia.
    - exact LI. }
  assert (SM' : forall k', fupd a k None k' <> None -> small k').
  { intros k' H. apply SM. unfold fupd in H. destruct (k' =? k); congruence. }
  pose proof (loop_spec lg _ _ k ltac:(lia) ltac:(lia) SM' (S (N.to_nat (tot s))) _ _ _ G) as P.
  change (q_map (q_set s p empty_slot)) with (q_map s) in P.
  change (q_n (q_set s p empty_slot)) with (q_n s) in P. specialize (P ltac:(lia)).
  destruct (erase_loop mc hash _ _ p (p + 1)) as [s'| |]; cbn [bind]; try contradiction. auto.
Qed.

(** *** Histories *)

Lemma spec_small a o : small (sop_key o) -> (forall k, a k <> None -> small k) ->
  forall k, fst (sq_spec a o) k <> None -> small k.
Proof.
  intros SO SM k H. destruct o as [k0 d|k0|k0 f|k0 d f|k0]; cbn [sq_spec sop_key] in *;
    destruct (a k0) eqn:A; cbn [fst] in H; auto; unfold fupd in H; destruct (N.eqb_spec k k0) as [->|]; auto.
Qed.

Lemma srun_small s a z o : good mc hash s a z -> total_slots mc (mk_mapper mc (2 ^ lg0) 0) <= tot s -> 1 <= lg0 <= 62 ->
  sop_key o <> 0 -> small (sop_key o) -> (forall k, a k <> None -> small k) -> q_n s <= 2 ^ 48 ->
  match srun mc hash s o with
  | ROk (s', r) => (exists z', good mc hash s' (fst (sq_spec a o)) z') /\ r = snd (sq_spec a o) /\
                   q_n s' <= q_n s + 1 /\ tot s <= tot s'
  | RBad => cprob mc = false
  | RLoop => False
  end.
Proof.
  intros GD T L0 K SO SM N. pose proof GD as (lg & I & L).
  destruct (match o with SErase _ => true | _ => false end) eqn:E.
  - destruct o as [| | | |k]; try discriminate. cbn [srun sq_spec sop_key] in *.
    assert (LG : lg0 <= lg).
    { rewrite (total_val _ _ _ (si_map _ _ _ _ _ _ I)), (total_val _ _ _ (wf_mk mc lg0 0 ltac:(lia))) in T.
      destruct (N.le_gt_cases lg0 lg) as [H|H]; auto. exfalso.
      pose proof (N.pow_lt_mono_r 2 lg lg0 ltac:(lia) H). destruct (cprob mc); lia. }
    pose proof (erase_closes_gap s lg a z k I LG K SO SM) as P.
    destruct (erase mc hash _ s k) as [[s' b]| |]; cbn [bind]; auto.
    destruct (a k) as [d|]; cbn [fst snd].
    + destruct P as (-> & P & Q & M). rewrite M. sp; auto; try lia. exists (z + 1), lg. auto.
    + destruct P as (-> & ->). sp; eauto; lia.
  - assert (FA : free_after mc s o) by (intros k p d ->; discriminate).
    pose proof (srun_spec mc hash s a z o GD K N FA) as P. rewrite srun_scall in *.
    destruct (scall mc hash s o) as [[s' [q b]]| |] eqn:S; cbn [bind] in *; auto.
    destruct P as ((z' & P & _) & P2 & P3). sp; eauto.
    pose proof (scall_keeps mc hash s a z o s' _ GD K N FA S) as [KP|[KP _]]; lia.
Qed.

Lemma srun_all_small l : forall s a z, good mc hash s a z ->
  total_slots mc (mk_mapper mc (2 ^ lg0) 0) <= tot s -> 1 <= lg0 <= 62 ->
  (forall o, In o l -> sop_key o <> 0 /\ small (sop_key o)) -> (forall k, a k <> None -> small k) ->
  q_n s + N.of_nat (length l) <= 2 ^ 48 ->
  match srun_all mc hash s l with
  | ROk (s', rs) => (exists z', good mc hash s' (fst (sq_spec_all a l)) z') /\ rs = snd (sq_spec_all a l)
  | RBad => cprob mc = false
  | RLoop => False
  end.
Proof.
  induction l as [|o l IH]; intros s a z GD T L0 K SM N; cbn [srun_all sq_spec_all].
  - cbn [fst snd]. eauto.
  - cbn [length] in N. destruct (K o (or_introl eq_refl)) as [KO SO].
    pose proof (srun_small s a z o GD T L0 KO SO SM ltac:(lia)) as P.
    pose proof (spec_small a o SO SM) as SM1.
    destruct (srun mc hash s o) as [[s1 r]| |]; cbn [bind]; auto. destruct P as ((z1 & P1) & P2 & P3 & P4).
    destruct (sq_spec a o) as [a1 r1]. cbn [fst snd] in *.
    specialize (IH s1 a1 z1 P1 ltac:(lia) L0 (fun o' H => K o' (or_intror H)) SM1 ltac:(lia)).
    destruct (srun_all mc hash s1 l) as [[s2 rs]| |]; cbn [bind]; auto.
    destruct (sq_spec_all a1 l) as [a2 rs2]. cbn [fst snd] in *. destruct IH as (Q1 & Q3).
    split; [exact Q1|congruence].
Qed.

End S.
