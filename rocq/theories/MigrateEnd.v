(** Migrations end: a bound on the number of steps of the helpers. *)
From Coq Require Import ZArith NArith Bool List Lia ZifyN.
From Verif Require Import Words Slot SlotFacts Mapper MapperFacts MapSpec LinSpec Base BaseInv BaseLin
  TableSpec BaseFacts Migrate GrowSpec EndSpec MigrateGeo MigrateInv MigrateStep MigrateRun MigrateHelp MigrateDone MigrateSys MigrateExec.
Import ListNotations.
Open Scope N_scope.

Lemma strides_len f : forall i gh lim, (length (strides f i gh lim) <= f)%nat.
Proof. induction f as [|f IH]; intros i gh lim; cbn; [lia|]. destruct (i <=? lim); cbn; [|lia]. specialize (IH (i + gh) gh lim). lia. Qed.

Lemma flat_len {A} (f : A -> list N) n l : (forall x, length (f x) = n) -> length (flat_map f l) = (length l * n)%nat.
Proof. intros H. induction l as [|x l IH]; cbn; auto. rewrite app_length, H, IH. lia. Qed.

Section End.
Context (c : tcfg) (ms mt : mapper) (lg g B : N) (MG : migr c ms mt lg g).
Context (Hsc : wf_scfg (tsc c)) (HB : 0 < B) (LG : lg <= 31) (LB : B <= 2 ^ 31).
Notation sc := (tsc c).
Notation mc := (tmc c).
Notation cap := (2 ^ lg).
Notation tcap := (2 ^ (lg + g)).
Notation ttot := (total_slots mc mt).
Notation stot := (total_slots mc ms).
Notation sp := (remap mc ms).
Notation tp := (remap mc mt).
Notation th := (home c mt).
Notation glob := (glob c ms mt lg g B).
Notation hinv := (hinv c ms mt lg g B).
Notation sinv := (sinv c ms mt lg g B).
Let Hm := mg_src _ _ _ _ _ MG.
Let Ht := mg_tgt _ _ _ _ _ MG.

Definition len {A} (l : list A) : N := N.of_nat (length l).

Lemma init_one_len i : len (init_one mc mt i) <= 2.
Proof.
  unfold init_one, len. destruct (cmap mc) eqn:CM.
  - destruct (_ && _); [cbn; lia|]. unfold stride_list.
    pose proof (strides_len (S (N.to_nat (bitmask mc mt / grow_helper mt))) i (grow_helper mt) (bitmask mc mt)) as L.
    assert (D : bitmask mc mt / grow_helper mt <= 1); [|lia].
    rewrite (mg_gh _ _ _ _ _ MG), CM. rewrite (bitmask_val _ _ _ Ht). rewrite N.pow_add_r.
    assert (2 ^ lg <> 0) by (apply N.pow_nonzero; lia).
    assert (D2 : 2 ^ lg * 2 ^ g <= 2 * 2 ^ lg).
    { destruct (mg_g _ _ _ _ _ MG) as [-> | ->]; [change (2 ^ 0) with 1|change (2 ^ 1) with 2]; lia. }
    enough ((2 ^ lg * 2 ^ g - 1) / 2 ^ lg < 2) by lia.
    apply N.div_lt_upper_bound; auto. lia.
  - rewrite nseq_length. rewrite (mg_gh _ _ _ _ _ MG), CM, !N.shiftl_mul_pow2.
    destruct (mg_g _ _ _ _ _ MG) as [-> | ->]; [change (2 ^ 0) with 1|change (2 ^ 1) with 2]; lia.
Qed.

Lemma init_range_len i e : len (init_range mc mt i e) <= 2 * (e - i).
Proof.
  unfold init_range, len. destruct (cmap mc) eqn:CM.
  - rewrite (flat_len _ (N.to_nat (e - i))) by (intros x; apply nseq_length). unfold stride_list.
    pose proof (strides_len (S (N.to_nat (bitmask mc mt / grow_helper mt))) i (grow_helper mt) (bitmask mc mt)) as L.
    assert (D : bitmask mc mt / grow_helper mt <= 1); [|nia].
    rewrite (mg_gh _ _ _ _ _ MG), CM. rewrite (bitmask_val _ _ _ Ht). rewrite N.pow_add_r.
    assert (2 ^ lg <> 0) by (apply N.pow_nonzero; lia).
    assert (D2 : 2 ^ lg * 2 ^ g <= 2 * 2 ^ lg).
    { destruct (mg_g _ _ _ _ _ MG) as [-> | ->]; [change (2 ^ 0) with 1|change (2 ^ 1) with 2]; lia. }
    enough ((2 ^ lg * 2 ^ g - 1) / 2 ^ lg < 2) by lia.
    apply N.div_lt_upper_bound; auto. lia.
  - rewrite nseq_length. rewrite (mg_gh _ _ _ _ _ MG), CM, !N.shiftl_mul_pow2.
    destruct (mg_g _ _ _ _ _ MG) as [-> | ->]; [change (2 ^ 0) with 1|change (2 ^ 1) with 2]; lia.
Qed.

(** *** What a helper still has to do, at most *)

Notation R := (rd c ms).

Definition M2 : N := 2 * cap + 304.
Definition N0 : N := 4 * cap + 640.
Definition K : N := N0 + 20.
Definition T2 : N := M2 * (2 * K).
Definition A0 : N := 2 * cap + cap * K + T2.
Definition P0 : N := 5 * cap + A0.

(** The cell can still be marked; the loaded value is outdated. *)
Definition fr (x : option slot) : bool := match x with Some y => sc_mark sc && negb (is_marked sc y) | None => false end.
Definition old (x : option slot) (curr : slot) : bool :=
  match x with Some y => sc_mark sc && negb (slot_eqb y curr) | None => false end.
Definition qL (x : option slot) : N := if fr x then 4 else 2.
Definition qM (x : option slot) (curr : slot) : N := (if fr x then 3 else 1) + (if old x curr then 2 else 0).
Definition q2L (x : option slot) : N := if fr x then 2 * K - 6 else K - 6.
Definition q2M (x : option slot) (curr : slot) : N := (if fr x then 2 * K - 7 else K - 7) + (if old x curr then K else 0).
Definition base2 (i : N) : N := (M2 - i - 1) * (2 * K).
Definition s2 (src : mem) (i : N) : N := base2 i + len (init_one mc mt (sp i)) + q2L (R src (sp i)).
Definition l1 (src : mem) (e i : N) : N := (e - i - 1) * K + qL (R src i) + (N0 + 3) + T2.
Definition n1 (src : mem) (e i : N) : N := if i <? e then l1 src e i else s2 src i.
Definition af (src : mem) (ph : option N) (i : N) : N := match ph with Some e => n1 src e i | None => s2 src i end.
(** Clearing no cell at all takes a step, too. *)
Definition llen (l : list N) : N := match l with [] => 1 | _ => len l end.
Definition rest (src : mem) (pc : hpc) : N :=
  match pc with
  | HClaim => 1
  | HEnd | HBad => 0
  | H0Load e i => (e - i - 1) * 5 + qL (R src i) + A0
  | H0Mark e i curr => (e - i - 1) * 5 + qM (R src i) curr + A0
  | H1Init e i l => llen l + n1 src e i
  | H1Load e i => l1 src e i
  | H1Mark e i curr => (e - i - 1) * K + qM (R src i) curr + (N0 + 3) + T2
  | H2Init i l => base2 i + llen l + q2L (R src (sp i))
  | H2Load i => base2 i + q2L (R src (sp i))
  | H2Mark i curr => base2 i + q2M (R src (sp i)) curr
  | HIns ph i sl j => (th (get_key sc sl) + N0 - j) + 2 + af src ph i
  | HSet ph i sl j => 1 + af src ph i
  end.

Lemma K_big : N0 + 20 = K /\ 20 <= K.
Proof. unfold K. lia. Qed.

Lemma rest_start2 src i : rest src (start2 c ms mt i) = s2 src i.
Proof.
  unfold start2, s2. destruct (init_one mc mt (sp i)) as [|q l]; cbn [rest]; [cbn [len length]; unfold len; cbn; lia|reflexivity].
Qed.

Lemma rest_next1 src e i : rest src (next1 c ms mt e i) = n1 src e i.
Proof. unfold next1, n1. destruct (i <? e); [reflexivity|apply rest_start2]. Qed.

Lemma rest_after src ph i : rest src (after_insert c ms mt ph i) = af src ph i.
Proof. destruct ph; [apply rest_next1|apply rest_start2]. Qed.

Lemma qL_le x : 2 <= qL x <= 4. Proof. unfold qL. destruct (fr x); lia. Qed.
Lemma qM_le x y : 1 <= qM x y. Proof. unfold qM. destruct (fr x); lia. Qed.
Lemma q2L_le x : K - 6 <= q2L x <= 2 * K - 6. Proof. unfold q2L. destruct (fr x); lia. Qed.

Lemma s2_le src i : i < M2 -> s2 src i + 4 <= (M2 - i) * (2 * K).
Proof.
  intros L. unfold s2, base2. pose proof (init_one_len (sp i)). pose proof (q2L_le (R src (sp i))). pose proof K_big.
  replace (M2 - i) with (M2 - i - 1 + 1) at 2 by lia. rewrite N.mul_add_distr_r. lia.
Qed.

Lemma s2_T2 src i : i < M2 -> s2 src i <= T2.
Proof. intros L. pose proof (s2_le src i L). unfold T2. nia. Qed.

Lemma n1_le src e i : e <= cap -> i <= e -> n1 src e i <= (e - i) * K + T2.
Proof.
  intros E L. unfold n1. destruct (N.ltb_spec i e).
  - unfold l1. pose proof (qL_le (R src i)). pose proof K_big.
    replace (e - i) with (e - i - 1 + 1) at 2 by lia. rewrite N.mul_add_distr_r. lia.
  - pose proof (s2_T2 src i). unfold M2 in *. lia.
Qed.

Lemma after0_le src e i : e <= cap -> rest src (after0 c ms mt e i) <= A0.
Proof.
  intros E. unfold after0. destruct (N.ltb_spec i e).
  - assert (X : rest src match init_range mc mt i e with [] => next1 c ms mt e i | x :: l => H1Init e i (x :: l) end
               = len (init_range mc mt i e) + n1 src e i).
    { destruct (init_range mc mt i e); cbn [rest]; [rewrite rest_next1; unfold len; cbn; lia|reflexivity]. }
    replace (rest src _) with (len (init_range mc mt i e) + n1 src e i) by (rewrite <- X; destruct (init_range mc mt i e); reflexivity).
    pose proof (init_range_len i e). pose proof (n1_le src e i E). unfold A0. nia.
  - cbn [rest]. unfold A0. pose proof (N.pow_nonzero 2 lg). nia.
Qed.

Lemma enter_le src a e : e <= cap -> rest src (enter c ms mt a e) <= P0.
Proof.
  intros E. unfold enter, P0. destruct (_ || _).
  - destruct (N.ltb_spec a e); cbn [rest].
    + pose proof (qL_le (R src a)). lia.
    + unfold A0. pose proof (N.pow_nonzero 2 lg). nia.
  - pose proof (after0_le src e a E). lia.
Qed.

(** *** Steps of others *)

Lemma mark_twice x : sc_mark sc = true -> is_marked sc x = true -> mark_slot sc x = x.
Proof.
  intros M E. unfold is_marked in E. rewrite M in E. unfold mark_slot. destruct x as [k d]. cbn in *. f_equal.
  apply N.bits_inj. intros n. rewrite N.lor_spec.
  unfold mbit in *. destruct (N.eq_dec n (sc_w sc - 1)) as [->|NE].
  - rewrite N.pow2_bits_true, orb_true_r. symmetry.
    destruct (N.testbit k (sc_w sc - 1)) eqn:T; auto. exfalso.
    apply negb_true_iff, N.eqb_neq in E. apply E. apply N.bits_inj. intros m. rewrite N.land_spec, N.bits_0.
    destruct (N.eq_dec m (sc_w sc - 1)) as [->|NE]; [now rewrite T|]. rewrite N.pow2_bits_false by auto. apply andb_false_r.
  - rewrite N.pow2_bits_false by auto. apply orb_false_r.
Qed.

Lemma marked_marked x : sc_mark sc = true -> is_marked sc (mark_slot sc x) = true.
Proof.
  intros M. unfold is_marked, mark_slot. rewrite M. cbn. rewrite land_lor_mbit; auto.
  apply negb_true_iff, N.eqb_neq. unfold mbit. apply N.pow_nonzero. lia.
Qed.

Definition marks (x y : option slot) : Prop := y = x \/ y = option_map (mark_slot sc) x.

Lemma fr_mark x y : marks x y -> (fr y = fr x /\ forall s, old y s = old x s) \/ (fr x = true /\ fr y = false).
Proof.
  intros [-> | ->]; auto. destruct x as [x|]; cbn; auto. destruct (sc_mark sc) eqn:M; cbn; auto.
  rewrite marked_marked by auto. cbn. destruct (is_marked sc x) eqn:E; auto.
  left. split; auto. intros s. now rewrite mark_twice.
Qed.

Lemma qL_mark x y : marks x y -> qL y <= qL x.
Proof. intros H. unfold qL. destruct (fr_mark x y H) as [[-> _]|[-> ->]]; lia. Qed.
Lemma qM_mark x y s : marks x y -> qM y s <= qM x s.
Proof.
  intros H. unfold qM. destruct (fr_mark x y H) as [[-> ->]|[-> ->]]; [lia|].
  destruct (old y s), (old x s); lia.
Qed.
Lemma q2L_mark x y : marks x y -> q2L y <= q2L x.
Proof. intros H. unfold q2L. pose proof K_big. destruct (fr_mark x y H) as [[-> _]|[-> ->]]; lia. Qed.
Lemma q2M_mark x y s : marks x y -> q2M y s <= q2M x s.
Proof.
  intros H. unfold q2M. pose proof K_big. destruct (fr_mark x y H) as [[-> ->]|[-> ->]]; [lia|].
  destruct (old y s), (old x s); lia.
Qed.

Lemma s2_mark src src' i : (forall p, marks (R src p) (R src' p)) -> s2 src' i <= s2 src i.
Proof. intros H. unfold s2. pose proof (q2L_mark _ _ (H (sp i))). lia. Qed.
Lemma n1_mark src src' e i : (forall p, marks (R src p) (R src' p)) -> n1 src' e i <= n1 src e i.
Proof.
  intros H. unfold n1, l1. destruct (i <? e); [|now apply s2_mark]. pose proof (qL_mark _ _ (H i)). lia.
Qed.
Lemma af_mark src src' ph i : (forall p, marks (R src p) (R src' p)) -> af src' ph i <= af src ph i.
Proof. intros H. destruct ph; [now apply n1_mark|now apply s2_mark]. Qed.

Lemma rest_mark src src' pc : (forall p, marks (R src p) (R src' p)) -> rest src' pc <= rest src pc.
Proof.
  intros H. destruct pc; cbn [rest]; try lia; unfold l1.
  - pose proof (qL_mark _ _ (H i)). lia.
  - pose proof (qM_mark _ _ curr (H i)). lia.
  - pose proof (n1_mark _ _ e i H). lia.
  - pose proof (qL_mark _ _ (H i)). lia.
  - pose proof (qM_mark _ _ curr (H i)). lia.
  - pose proof (q2L_mark _ _ (H (sp i))). lia.
  - pose proof (q2L_mark _ _ (H (sp i))). lia.
  - pose proof (q2M_mark _ _ curr (H (sp i))). lia.
  - pose proof (af_mark _ _ ph i H). lia.
  - pose proof (af_mark _ _ ph i H). lia.
Qed.

(** A step of a call leaves the marks alone. *)
Lemma rest_call src src' pc :
  (forall p, fr (R src' p) = fr (R src p)) ->
  (forall i curr, pc = H2Mark i curr -> marks (R src (sp i)) (R src' (sp i))) ->
  rest src' pc <= rest src pc + 2.
Proof.
  intros F' U.
  assert (X : forall i, qL (R src' i) = qL (R src i)) by (intros i; unfold qL; now rewrite F').
  assert (Y : forall i s, qM (R src' i) s <= qM (R src i) s + 2)
    by (intros i s; unfold qM; rewrite F'; destruct (old (R src' i) s), (old (R src i) s); lia).
  assert (Z : forall i, q2L (R src' i) = q2L (R src i)) by (intros i; unfold q2L; now rewrite F').
  assert (S2 : forall i, s2 src' i = s2 src i) by (intros i; unfold s2; now rewrite Z).
  assert (N1 : forall e i, n1 src' e i = n1 src e i) by (intros e i; unfold n1, l1; now rewrite X, S2).
  assert (AF : forall ph i, af src' ph i = af src ph i) by (intros [e|] i; cbn; auto).
  destruct pc; cbn [rest]; unfold l1; rewrite ?X, ?Z, ?S2, ?N1, ?AF; try lia.
  - specialize (Y i curr). lia.
  - specialize (Y i curr). lia.
  - pose proof (q2M_mark _ _ curr (U i curr eq_refl)). lia.
Qed.

(** *** Own steps *)

Section Own.
Context (src tgt : mem) (ctr : N) (ct : N -> content) (mk : cmark) (tct : N -> content) (rg : N -> bst).
Context (GL : glob src tgt ctr ct mk tct rg).

Lemma pos2 s r i fl : rg s = B2 r i fl -> i + 2 < M2.
Proof.
  intros E. pose proof (g_st GL s) as O. rewrite E in O. destruct O as ((O1 & _ & O0) & O2 & _ & O3 & _).
  pose proof (bend_le MG Hsc HB s) as BL.
  destruct (cprob mc) eqn:CP.
  - destruct O0 as [(O0 & _)|[X _]]; [|discriminate].
    assert (i <= r + cap); [|unfold M2; lia].
    destruct (N.le_gt_cases i (r + cap)) as [|G]; auto. exfalso. apply (O3 (r + cap)); [lia|].
    rewrite (sp_val c ms mt lg g MG), CP.
    replace (r + cap) with (r + 1 * cap) by lia. rewrite N.mod_add by (apply N.pow_nonzero; lia).
    rewrite N.mod_small by lia. exact O0.
  - destruct (pos_bound MG Hsc HB GL s r i fl E) as [_ X]. specialize (X CP).
    rewrite (sp_val c ms mt lg g MG), CP in X. unfold M2. lia.
Qed.

Lemma ins_bound s ph i sl j : hinv ct mk tgt tct (HIns ph i sl j) s (rg s) ->
  j < th (get_key sc sl) + N0 /\ i + 1 < M2 /\ (forall e, ph = Some e -> e <= cap /\ i <= e).
Proof.
  intros (r & x & k & d & n & -> & PH & L & C & _ & -> & -> & NE).
  assert (E : rg s = B1 r x true \/ rg s = B2 r x true) by (destruct ph; [left|right]; apply PH).
  destruct (home_in_region MG Hsc HB GL s r x true k d E L C) as (n0 & H1 & H2 & _).
  pose proof (probe_in_region MG Hsc HB GL s r x true k d n n0 E L C H1 H2 NE) as OFF.
  assert (X2 : x + 2 < M2).
  { destruct E as [E|E]; [|eapply pos2; eauto]. destruct (pos1_bound MG Hsc HB GL s r x true E) as (_ & _ & ?).
    unfold M2. lia. }
  assert (GK : get_key sc (Slot k d) = k).
  { destruct (ti_cell _ _ _ _ _ (g_src GL) _ L) as [_ O]. rewrite C in O.
    pose proof (enc_get_key sc Hsc (CLive k d) false) as Q. cbn in Q. apply Q. destruct O as [_ O]. split; [discriminate|exact O]. }
  split; [|split].
  - rewrite GK. unfold off in OFF.
    assert (W : 0 < width c g <= 2).
    { unfold width. destruct (cmap mc); [lia|].
      destruct (mg_g _ _ _ _ _ MG) as [-> | ->]; [change (2 ^ 0) with 1|change (2 ^ 1) with 2]; lia. }
    assert (n < N0); [|lia].
    unfold N0. unfold M2 in X2. remember (width c g) as w.
    assert (D : n / w <= n0).
    { etransitivity; [|exact OFF]. apply N.div_le_mono; lia. }
    pose proof (N.div_mod n w ltac:(lia)). pose proof (N.mod_lt n w ltac:(lia)). nia.
  - lia.
  - intros e ->. destruct PH as (-> & R & _). pose proof (bend_le MG Hsc HB s). split; auto.
    pose proof (g_st GL s) as O. rewrite R in O. destruct O as (_ & O & _). lia.
Qed.

Lemma old_self p curr cell ok cell' curr' :
  R src p = Some cell -> atomic_mark sc cell curr = (ok, cell', curr') ->
  ok = true \/ (ok = false /\ old (R src p) curr = true).
Proof.
  intros -> AM. unfold atomic_mark, cas in AM. cbn. destruct (sc_mark sc).
  - destruct (slot_eqb cell curr) eqn:Q; injection AM as <- <- <-; auto.
  - injection AM as <- <- <-. auto.
Qed.

Lemma old_refl x : old (Some x) x = false.
Proof. unfold old. rewrite slot_eqb_refl. apply andb_false_r. Qed.

Lemma own_step s pc src' tgt' ctr' pc' :
  hinv ct mk tgt tct pc s (rg s) ->
  hstep c ms mt B src tgt ctr pc = (src', tgt', ctr', pc') ->
  ctr' = ctr /\ rest src pc' + 1 <= rest src pc.
Proof.
  intros HI ST. pose proof K_big as [KB KB'].
  assert (BE : forall s, bend lg B s <= cap) by (intros; apply (bend_le MG Hsc HB)).
  assert (LIN : forall l : list N, l <> [] -> llen l = len l) by (intros [|x l]; auto; congruence).
  destruct pc; cbn [hstep] in ST; try contradiction.
  - (* H0Load *)
    destruct HI as [-> HI]. injection ST as <- <- <- <-. split; auto.
    destruct (R src i) as [curr|] eqn:E; cbn [rest]; rewrite ?E.
    2: { cbn [rest]. pose proof (qL_le None). lia. }
    destruct (is_empty sc curr); cbn [rest]; rewrite ?E.
    + unfold qM, qL. rewrite old_refl. destruct (fr _); lia.
    + pose proof (qL_le (Some curr)). destruct (N.ltb_spec (i + 1) (bend lg B s)); cbn [rest].
      * pose proof (qL_le (R src (i + 1))). lia.
      * unfold A0. lia.
  - (* H0Mark *)
    destruct HI as (-> & HI & _).
    destruct (R src i) as [cell|] eqn:E.
    2: { injection ST as <- <- <- <-. split; auto. cbn [rest]. pose proof (qM_le (R src i) curr). lia. }
    destruct (atomic_mark sc cell curr) as [[ok cell'] curr'] eqn:AM. injection ST as <- <- <- <-. split; auto.
    destruct (old_self _ _ _ _ _ _ E AM) as [-> |[-> O]].
    + pose proof (after0_le src (bend lg B s) i (BE s)). cbn [rest]. pose proof (qM_le (R src i) curr). lia.
    + cbn [rest]. unfold qM, qL. rewrite O. destruct (fr _); lia.
  - (* H1Init *)
    destruct l as [|p l].
    + injection ST as <- <- <- <-. split; auto. rewrite rest_next1. cbn [rest llen]. lia.
    + destruct (p <? ttot); injection ST as <- <- <- <-; (split; [reflexivity|]);
        [|cbn [rest llen]; unfold len; cbn [length]; lia].
      destruct l as [|q l]; [rewrite rest_next1|]; cbn [rest llen]; unfold len; cbn [length]; lia.
  - (* H1Load *)
    injection ST as <- <- <- <-. split; auto.
    destruct (R src i) as [curr|] eqn:E; cbn [rest]; unfold l1; rewrite ?E; [|lia].
    unfold qM, qL. rewrite old_refl. destruct (fr _); lia.
  - (* H1Mark *)
    destruct HI as (-> & r & RG & _).
    destruct (R src i) as [cell|] eqn:E.
    2: { injection ST as <- <- <- <-. split; auto. cbn [rest]. lia. }
    destruct (atomic_mark sc cell curr) as [[ok cell'] curr'] eqn:AM. injection ST as <- <- <- <-. split; auto.
    destruct (old_self _ _ _ _ _ _ E AM) as [-> |[-> O]].
    + assert (LE : i + 1 <= bend lg B s).
      { pose proof (g_st GL s) as O. rewrite RG in O. destruct O as (_ & O & _). lia. }
      pose proof (n1_le src (bend lg B s) (i + 1) (BE s) LE) as Q.
      replace (bend lg B s - (i + 1)) with (bend lg B s - i - 1) in Q by lia.
      cbn [rest]. pose proof (qM_le (R src i) curr).
      destruct (_ && _); [unfold ins_start; cbn [rest af]|rewrite rest_next1]; lia.
    + cbn [rest]. unfold l1, qM, qL. rewrite O. destruct (fr _); lia.
  - (* H2Init *)
    destruct l as [|p l].
    + injection ST as <- <- <- <-. split; auto. cbn [rest llen]. lia.
    + destruct (p <? ttot); injection ST as <- <- <- <-; (split; [reflexivity|]);
        [|cbn [rest llen]; unfold len; cbn [length]; lia].
      destruct l as [|q l]; cbn [rest llen]; unfold len; cbn [length]; lia.
  - (* H2Load *)
    injection ST as <- <- <- <-. split; auto.
    destruct (R src (sp i)) as [curr|] eqn:E; cbn [rest]; rewrite ?E; [|pose proof (q2L_le None); lia].
    unfold q2M, q2L. rewrite old_refl. destruct (fr _); lia.
  - (* H2Mark *)
    destruct HI as ((r & RG) & _). pose proof (pos2 s r i false RG) as PB.
    destruct (R src (sp i)) as [cell|] eqn:E.
    2: { injection ST as <- <- <- <-. split; auto. cbn [rest]. unfold q2M. destruct (fr _); lia. }
    destruct (atomic_mark sc cell curr) as [[ok cell'] curr'] eqn:AM. injection ST as <- <- <- <-. split; auto.
    destruct (old_self _ _ _ _ _ _ E AM) as [-> |[-> O]].
    + pose proof (s2_le src (i + 1) ltac:(lia)) as Q.
      replace ((M2 - (i + 1)) * (2 * K)) with (base2 i) in Q by (unfold base2; f_equal; lia).
      assert (X : base2 i + (K - 7) <= rest src (H2Mark i curr)) by (cbn [rest]; unfold q2M; destruct (fr _); lia).
      destruct (is_empty sc curr'); [|destruct (is_deleted sc curr')].
      * change (rest src HClaim) with 1. lia.
      * rewrite rest_start2. lia.
      * unfold ins_start. change (rest src (HIns ?a ?b ?x ?d)) with (th (get_key sc x) + N0 - d + 2 + af src a b).
        cbn [af]. lia.
    + pose proof (init_one_len (sp i)) as IL.
      assert (X : rest src (H2Mark i curr) = base2 i + ((if fr (R src (sp i)) then 2 * K - 7 else K - 7) + K))
        by (cbn [rest]; unfold q2M; now rewrite O).
      rewrite X.
      assert (Y : s2 src i <= base2 i + 2 + (if fr (R src (sp i)) then 2 * K - 6 else K - 6))
        by (unfold s2, q2L; destruct (fr _); lia).
      destruct (is_empty sc curr'); [|destruct (is_deleted sc curr')].
      * change (rest src HClaim) with 1. destruct (fr _); lia.
      * rewrite rest_start2. destruct (fr _); lia.
      * unfold ins_start. change (rest src (HIns ?a ?b ?x ?d)) with (th (get_key sc x) + N0 - d + 2 + af src a b).
        cbn [af]. destruct (fr _); lia.
  - (* HIns *)
    destruct (ins_bound s ph i sl j HI) as (IB & _).
    injection ST as <- <- <- <-. split; auto.
    destruct (rd c mt tgt (tp j)) as [curr|]; cbn [rest]; [|lia].
    destruct (is_empty sc curr); cbn [rest]; lia.
  - (* HSet *)
    destruct (tp j <? ttot); injection ST as <- <- <- <-; (split; [reflexivity|]); [rewrite rest_after|]; cbn [rest]; lia.
Qed.

Lemma claim_step src' tgt' ctr' pc' :
  hstep c ms mt B src tgt ctr HClaim = (src', tgt', ctr', pc') ->
  (cap - ctr') * P0 + rest src pc' + 1 <= (cap - ctr) * P0 + rest src HClaim.
Proof.
  cbn [hstep]. intros [= <- <- <- <-]. cbn [rest].
  pose proof (addressable_val _ _ _ Hm) as AV.
  destruct (N.ltb_spec ctr (addressable_slots mc ms)).
  - unfold block_end. rewrite (bend_val MG Hsc HB) by (auto; lia).
    pose proof (enter_le src ctr (bend lg B ctr) (bend_le MG Hsc HB ctr)).
    assert ((cap - (ctr + B)) + 1 <= cap - ctr) by lia. nia.
  - cbn [rest]. replace (cap - (ctr + B)) with 0 by lia. lia.
Qed.
End Own.

(** *** All helpers *)

Definition cost (src : mem) (h : N -> option hpc) (t : N) : N :=
  match h t with Some pc => rest src pc | None => 0 end.
Fixpoint total (src : mem) (h : N -> option hpc) (l : list N) : N :=
  match l with [] => 0 | t :: l => cost src h t + total src h l end.

Lemma total_le src h src' h' l b :
  (forall t, In t l -> cost src' h' t <= cost src h t + b) -> total src' h' l <= total src h l + b * len l.
Proof.
  induction l as [|t l IH]; intros H; cbn [total]; unfold len in *; cbn [length]; [lia|].
  pose proof (H t (or_introl eq_refl)). specialize (IH (fun u I => H u (or_intror I))). lia.
Qed.

Lemma total_one src h src' h' l t a b :
  NoDup l -> In t l -> (forall u, u <> t -> cost src' h' u <= cost src h u) ->
  cost src' h' t + a <= cost src h t + b -> total src' h' l + a <= total src h l + b.
Proof.
  intros ND I H E. induction l as [|u l IH]; [destruct I|]. cbn [total].
  apply NoDup_cons_iff in ND. destruct ND as [NI ND]. destruct I as [->|I].
  - assert (X : total src' h' l <= total src h l + 0 * len l).
    { apply total_le. intros u I. rewrite N.add_0_r. apply H. intros ->. contradiction. }
    lia.
  - specialize (IH ND I). assert (cost src' h' u <= cost src h u) by (apply H; intros ->; contradiction). lia.
Qed.

Definition phi (s : msys) (l : list N) : N := (cap - mctr s) * P0 + total (msrc s) (mhlp s) l.
Definition bound : N := cap * P0.

Definition acc (n j u : N) (s : msys) : Prop :=
  exists l, NoDup l /\ (forall t, mhlp s t <> None -> In t l) /\ len l <= j /\
            n + phi s l <= bound + j + 2 * j * u.

(** A step of a counted run. *)
Lemma acc_help n j u s tid pc s' t' k' pc' client x :
  mrel c ms mt lg g B client s x -> acc n j u s ->
  mhlp s tid = Some pc -> pc <> HEnd ->
  hstep c ms mt B (msrc s) (mtgt s) (mctr s) pc = (s', t', k', pc') ->
  acc (n + 1) j u (MSys s' t' k' (fupd (mhlp s) tid (Some pc')) (mthr s)).
Proof.
  intros (ct & mk & tct & rg & hb & S & EI & A & T) (l & ND & CV & LJ & BD) E NE ST.
  exists l. split; [exact ND|]. split; [|split; [exact LJ|]].
  { intros t. cbn. destruct (N.eq_dec t tid) as [->|X]; [|rewrite fupd_neq by exact X; apply CV].
    intros _. apply CV. congruence. }
  assert (MK : forall p, marks (rd c ms (msrc s) p) (rd c ms s' p)).
  { intros p. unfold rd. destruct (p <? stot); [|now left].
    exact (hstep_marks c ms mt B _ _ _ _ _ _ _ _ p ST). }
  assert (OWN : (cap - k') * P0 + rest (msrc s) pc' + 1 <= (cap - mctr s) * P0 + rest (msrc s) pc).
  { pose proof (t_pc (s_thr S) _ _ E) as X. destruct (hb tid) as [b|].
    - destruct (own_step _ _ _ _ _ _ _ (s_glob S) b pc s' t' k' pc' X ST) as [-> Y]. lia.
    - destruct X as [-> | ->]; [|congruence]. eapply claim_step; eauto. }
  pose proof (rest_mark _ _ pc' MK) as RM.
  assert (IN : In tid l) by (apply CV; congruence).
  enough ((cap - k') * P0 + total s' (fupd (mhlp s) tid (Some pc')) l + 1 <= (cap - mctr s) * P0 + total (msrc s) (mhlp s) l)
    by (unfold phi in *; cbn [mctr msrc mhlp] in *; lia).
  pose proof (total_one (msrc s) (mhlp s) s' (fupd (mhlp s) tid (Some pc')) l tid
                ((cap - k') * P0 + 1) ((cap - mctr s) * P0) ND IN) as TO.
  enough (total s' (fupd (mhlp s) tid (Some pc')) l + ((cap - k') * P0 + 1) <= total (msrc s) (mhlp s) l + (cap - mctr s) * P0) by lia.
  apply TO; unfold cost.
  - intros t X. rewrite fupd_neq by exact X. destruct (mhlp s t); [|lia]. now apply rest_mark.
  - rewrite fupd_eq, E. lia.
Qed.

Lemma acc_run n j u s client x s' th :
  sc_mark sc = true -> mrel c ms mt lg g B client s x -> acc n j u s ->
  (exists ct' mk, tinv c ms s' ct' mk /\ exists ct, tinv c ms (msrc s) ct mk) ->
  undisturbed c ms s (MSys s' (mtgt s) (mctr s) (mhlp s) th) ->
  acc n j (u + 1) (MSys s' (mtgt s) (mctr s) (mhlp s) th).
Proof.
  intros SM R (l & ND & CV & LJ & BD) (ct' & mk & I' & ct & I) UD.
  exists l. split; [exact ND|]. split; [exact CV|]. split; [exact LJ|].
  enough (total s' (mhlp s) l <= total (msrc s) (mhlp s) l + 2 * len l)
    by (unfold phi in *; cbn [mctr msrc mhlp] in *; nia).
  apply total_le. intros t _. unfold cost. destruct (mhlp s t) as [pc|] eqn:E; [|lia].
  apply rest_call.
  - intros p. unfold rd. destruct (N.ltb_spec p stot) as [L|L]; auto.
    destruct (ti_cell _ _ _ _ _ I _ L) as [E1 O1]. destruct (ti_cell _ _ _ _ _ I' _ L) as [E2 O2].
    unfold fr. rewrite E1, E2, !(enc_is_marked sc Hsc) by auto. reflexivity.
  - intros i curr ->. pose proof (UD t i curr E) as X. cbn in X.
    unfold rd. destruct (_ <? _); [exact X|now left].
Qed.

Lemma keep client s x l s' :
  client_ok sc client -> mrel c ms mt lg g B client s x -> msys_step c ms mt B client s l s' ->
  (sc_mark sc = true \/ ((forall o, ~ client o) /\ forall t, mthr s t = None)) ->
  undisturbed c ms s s' -> exists x', mrel c ms mt lg g B client s' x'.
Proof.
  intros CO R ST TH UD.
  destruct (msim c ms mt lg g B MG Hsc HB LG LB client s x l s' CO R ST) as (x' & _ & R'); [|eauto].
  destruct TH as [SM|[_ TH]]; auto.
Qed.

Lemma acc_count client s0 n j u s :
  counted c ms mt B client s0 n j u s -> (forall t, mhlp s0 t = None) -> mctr s0 = 0 ->
  (sc_mark sc = true \/ ((forall o, ~ client o) /\ forall t, mthr s0 t = None)) ->
  client_ok sc client ->
  (exists x, mrel c ms mt lg g B client s0 x) ->
  acc n j u s /\ (exists x, mrel c ms mt lg g B client s x) /\
  (sc_mark sc = true \/ ((forall o, ~ client o) /\ forall t, mthr s t = None)).
Proof.
  intros CT H0 C0 MD CO R0.
  induction CT as [|n j u s t k h th tid CT IH E|n j u s t k h th tid pc s' t' k' pc' CT IH E NE ST
    |n j u s t k h th tid s' t' k' pc' CT IH E ST
    |n j u s t k h th tid o CT IH E CL|n j u s t k h th tid o pc b s' pc' CT IH E ND ST UD|n j u s t k h th tid o r CT IH E].
  - split; [|auto]. exists []. split; [constructor|]. split; [intros t X; now rewrite H0 in X|].
    unfold phi, bound, len. rewrite C0. cbn [total length]. split; lia.
  - destruct IH as ((l & NDl & CV & LJ & BD) & [x R] & TH). split; [|split; [|exact TH]].
    + assert (CJ : cost s (fupd h tid (Some HClaim)) tid = 1) by (unfold cost; now rewrite fupd_eq).
      assert (CN : forall v, v <> tid -> cost s (fupd h tid (Some HClaim)) v <= cost s h v)
        by (intros v X; unfold cost; rewrite fupd_neq by exact X; lia).
      unfold phi in BD; cbn [mctr msrc mhlp] in BD.
      destruct (in_dec N.eq_dec tid l) as [I|NI].
      * exists l. split; auto. split; [|split; [lia|]].
        { intros v. cbn. destruct (N.eq_dec v tid) as [->|X]; auto. rewrite fupd_neq by exact X. apply CV. }
        unfold phi; cbn [mctr msrc mhlp].
        pose proof (total_one s h s (fupd h tid (Some HClaim)) l tid 0 1 NDl I CN) as X. lia.
      * exists (tid :: l). split; [now constructor|]. split; [|split; [unfold len in *; cbn [length]; lia|]].
        { intros v. cbn. destruct (N.eq_dec v tid) as [->|X]; auto. rewrite fupd_neq by exact X. intros Y. right. now apply CV. }
        unfold phi; cbn [mctr msrc mhlp total]. rewrite CJ.
        assert (X : total s (fupd h tid (Some HClaim)) l <= total s h l + 0 * len l).
        { apply total_le. intros v I. rewrite N.add_0_r. apply CN. intros ->. contradiction. }
        lia.
    + eapply keep; eauto; [now constructor|]. intros v i curr _. now left.
  - destruct IH as (AC & [x R] & TH). split; [|split; [|exact TH]].
    + exact (acc_help n j u (MSys s t k h th) tid pc s' t' k' pc' client x R AC E NE ST).
    + eapply keep; eauto; [econstructor; eauto|]. intros v i curr _. eapply hstep_marks; eauto.
  - destruct IH as (AC & [x R] & TH). split; [|split; [|exact TH]].
    + pose proof ST as ST'. cbn [hstep] in ST'. injection ST' as <- <- <- <-.
      destruct AC as (l & NDl & CV & LJ & BD). exists l. split; auto. split; [|split; [exact LJ|]].
      * intros v. cbn. destruct (N.eq_dec v tid) as [->|X]; [|rewrite fupd_neq by exact X; apply CV].
        intros _. apply CV. cbn. congruence.
      * unfold phi in *; cbn [mctr msrc mhlp] in *.
        enough (X : total s (fupd h tid (Some HEnd)) l <= total s h l + 0 * len l) by lia.
        apply total_le. intros v _. unfold cost. destruct (N.eq_dec v tid) as [->|X].
        -- rewrite fupd_eq, E. lia.
        -- rewrite fupd_neq by exact X. lia.
    + eapply keep; eauto; [econstructor; eauto|]. intros v i curr _. eapply hstep_marks; eauto.
  - destruct IH as (AC & [x R] & TH). split; [exact AC|]. destruct TH as [SM|[NC _]]; [|now elim (NC o)]. split; [|now left].
    eapply keep; eauto; [now constructor|]. intros v i curr _. now left.
  - destruct IH as (AC & [x R] & TH).
    destruct TH as [SM|[_ TH]]; [|cbn in TH; rewrite TH in E; discriminate]. split; [|split; [|now left]].
    + apply (acc_run n j u (MSys s t k h th) client x s' _ SM R AC); auto.
      destruct R as (ct & mk & tct & rg & hb & S & EI & A & T). destruct x as [a th'].
      destruct (thr_run c ms mt lg g B MG Hsc HB LG LB client _ ct mk a th th' tid o pc b s' pc' CO (g_src (s_glob S)) A T E ND ST)
        as (ct' & x' & I' & _). exists ct', mk. split; auto. exists ct. apply (s_glob S).
    + eapply keep; eauto. econstructor; eauto.
  - destruct IH as (AC & [x R] & TH).
    destruct TH as [SM|[_ TH]]; [|cbn in TH; rewrite TH in E; discriminate]. split; [|split; [|now left]]; [exact AC|].
    eapply keep; eauto; [econstructor; eauto|]. intros v i curr _. now left.
Qed.

Lemma bound_le : bound <= 20 * (cap + 256) ^ 3.
Proof.
  change 3 with (2 + 1). rewrite N.pow_add_r, N.pow_1_r, N.pow_2_r.
  unfold bound, P0, A0, T2, M2, K, N0. nia.
Qed.

Lemma count_bound client s0 n j u s :
  counted c ms mt B client s0 n j u s -> (forall t, mhlp s0 t = None) -> mctr s0 = 0 ->
  (sc_mark sc = true \/ ((forall o, ~ client o) /\ forall t, mthr s0 t = None)) ->
  client_ok sc client ->
  (exists x, mrel c ms mt lg g B client s0 x) ->
  n <= 20 * (cap + 256) ^ 3 + j + 2 * j * u.
Proof.
  intros CT H0 C0 MD CO R0.
  destruct (acc_count client s0 n j u s CT H0 C0 MD CO R0) as ((l & _ & _ & _ & BD) & _).
  pose proof bound_le. lia.
Qed.

Lemma can_finish client s0 n j u s :
  counted c ms mt B client s0 n j u s -> (forall t, mhlp s0 t = None) -> mctr s0 = 0 ->
  (sc_mark sc = true \/ ((forall o, ~ client o) /\ forall t, mthr s0 t = None)) ->
  client_ok sc client -> (exists x, mrel c ms mt lg g B client s0 x) ->
  (exists t, mhlp s t <> None) ->
  exists n' s', counted c ms mt B client s0 (n + n') j u s' /\ finished s' /\ mthr s' = mthr s /\
                lts_steps (calm_step c ms mt B nobody) s [] s'.
Proof.
  intros CT H0 C0 MD CO R0 EX.
  remember (N.to_nat (bound + j + 2 * j * u - n)) as f eqn:Ef. revert n s CT EX Ef.
  induction f as [f IH] using (well_founded_induction Wf_nat.lt_wf). intros n s CT EX Ef.
  destruct (acc_count client s0 n j u s CT H0 C0 MD CO R0) as ((l & ND & CV & LJ & BD) & R & TH).
  pose (busy := fun t => match mhlp s t with Some HEnd | None => false | _ => true end).
  destruct (existsb busy l) eqn:EB.
  - apply existsb_exists in EB. destruct EB as (t & It & Bt). unfold busy in Bt.
    destruct (mhlp s t) as [pc|] eqn:E; [|discriminate].
    assert (NE : pc <> HEnd) by (intros ->; discriminate).
    destruct (hstep c ms mt B (msrc s) (mtgt s) (mctr s) pc) as [[[s1 t1] k1] pc1] eqn:ST.
    destruct s as [sr tg k h th0]. cbn [msrc mtgt mctr mhlp mthr] in *.
    pose proof (ct_help _ _ _ _ _ _ _ _ _ _ _ _ _ _ _ _ _ _ _ _ CT E NE ST) as CT1.
    destruct (acc_count client s0 _ j u _ CT1 H0 C0 MD CO R0) as ((l1' & _ & _ & _ & BD1) & _).
    destruct (IH (N.to_nat (bound + j + 2 * j * u - (n + 1))) ltac:(lia) (n + 1) _ CT1) as (n' & s' & CT' & F' & T' & LT'); auto.
    { exists t. cbn. rewrite fupd_eq. discriminate. }
    exists (1 + n'), s'. split; [now rewrite N.add_assoc|]. split; auto. split; auto.
    eapply ls_tau; [|exact LT']. split; [econstructor; eauto|]. intros v i curr _. eapply hstep_marks; eauto.
  - exists 0, s. rewrite N.add_0_r. split; auto.
    assert (F : forall t pc, mhlp s t = Some pc -> pc = HEnd).
    { intros t pc E. assert (X : busy t = false).
      { destruct (busy t) eqn:Y; auto. rewrite <- EB. symmetry. apply existsb_exists. exists t. split; auto. apply CV. congruence. }
      unfold busy in X. rewrite E in X. destruct pc; congruence. }
    split; [|split; [reflexivity|constructor]]. split; [|exact F]. destruct EX as [t E]. exists t. destruct (mhlp s t) eqn:Q; [|congruence].
    f_equal. eapply F; eauto.
Qed.

(** Counted runs are runs. *)
Lemma counted_run client s0 n j u s :
  counted c ms mt B client s0 n j u s -> exists tr, lts_steps (calm_step c ms mt B client) s0 tr s.
Proof.
  assert (SN : forall s tr s' l s'', lts_steps (calm_step c ms mt B client) s tr s' -> calm_step c ms mt B client s' l s'' ->
               exists tr', lts_steps (calm_step c ms mt B client) s tr' s'').
  { intros a tr b l d S1 S2. exists (tr ++ match l with Some e => [e] | None => [] end). eapply steps_app; [exact S1|].
    destruct l; [eapply ls_vis|eapply ls_tau]; eauto; constructor. }
  induction 1 as [|n j u s t k h th tid CT [tr IH] E|n j u s t k h th tid pc s' t' k' pc' CT [tr IH] E NE ST
    |n j u s t k h th tid s' t' k' pc' CT [tr IH] E ST
    |n j u s t k h th tid o CT [tr IH] E CL|n j u s t k h th tid o pc b s' pc' CT [tr IH] E ND ST UD|n j u s t k h th tid o r CT [tr IH] E].
  - exists []. constructor.
  - eapply SN; [exact IH|]. split; [now constructor|]. intros v i curr _. now left.
  - eapply SN; [exact IH|]. split; [econstructor; eauto|]. intros v i curr _. eapply hstep_marks; eauto.
  - eapply SN; [exact IH|]. split; [econstructor; eauto|]. intros v i curr _. eapply hstep_marks; eauto.
  - eapply SN; [exact IH|]. split; [now constructor|]. intros v i curr _. now left.
  - eapply SN; [exact IH|]. split; [econstructor; eauto|]. exact UD.
  - eapply SN; [exact IH|]. split; [econstructor; eauto|]. intros v i curr _. now left.
Qed.

Lemma run_counted client s0 tr s :
  lts_steps (calm_step c ms mt B client) s0 tr s -> exists n j u, counted c ms mt B client s0 n j u s.
Proof.
  intros ST. assert (G : forall s1 n j u, counted c ms mt B client s0 n j u s1 -> forall tr, lts_steps (calm_step c ms mt B client) s1 tr s ->
    exists n j u, counted c ms mt B client s0 n j u s).
  { clear ST. intros s1 n j u CT tr0 ST. revert n j u CT.
    assert (ONE : forall s l s' n j u, calm_step c ms mt B client s l s' -> counted c ms mt B client s0 n j u s ->
       exists n j u, counted c ms mt B client s0 n j u s').
    { intros a l b n j u [S U] CT. destruct S as [s2 t k h th tid E|s2 t k h th tid pc s' t' k' pc' E STP|s2 t k h th tid o E CL
             |s2 t k h th tid o pc b s' pc' E ND STP|s2 t k h th tid o r E].
      - exists n, (j + 1), u. now constructor.
      - assert (D : pc = HEnd \/ pc <> HEnd) by (destruct pc; auto; right; discriminate).
        destruct D as [->|D]; [exists n, j, u; eapply ct_idle; eauto|exists (n + 1), j, u; eapply ct_help; eauto].
      - exists n, j, u. now constructor.
      - exists n, j, (u + 1). eapply ct_run; eauto.
      - exists n, j, u. eapply ct_ret; eauto. }
    induction ST as [s2|s2 s3 s4 tr1 S ST IH|s2 e s3 s4 tr1 S ST IH]; intros n j u CT; eauto.
    - destruct (ONE _ _ _ _ _ _ S CT) as (n' & j' & u' & CT'). eauto.
    - destruct (ONE _ _ _ _ _ _ S CT) as (n' & j' & u' & CT'). eauto. }
  eapply G; [constructor|exact ST].
Qed.
End End.
