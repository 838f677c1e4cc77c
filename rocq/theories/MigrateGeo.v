(** Which target cells belong to which source cell. *)
From Coq Require Import NArith ZArith Bool List Lia.
From Verif Require Import Words Slot SlotFacts Mapper MapperFacts MapSpec LinSpec Base BaseInv Migrate.
Import ListNotations.
Open Scope N_scope.

Lemma in_nseq p a n : In p (nseq a n) <-> a <= p < a + N.of_nat n.
Proof.
  revert a. induction n as [|n IH]; intros a; cbn [nseq In].
  - lia.
  - rewrite IH. lia.
Qed.

Lemma in_nseq_N p a n : In p (nseq a (N.to_nat n)) <-> a <= p < a + n.
Proof. rewrite in_nseq, N2Nat.id. reflexivity. Qed.

Lemma pow2_add1 n : 2 ^ (n + 1) = 2 * 2 ^ n.
Proof. rewrite N.add_1_r, N.pow_succ_r'. reflexivity. Qed.

(** A migration to the same ([g] = 0) or the double ([g] = 1) size. *)
Record migr (c : tcfg) (ms mt : mapper) (lg g : N) : Prop := {
  mg_src : wf_mapper (tmc c) ms lg;
  mg_tgt : wf_mapper (tmc c) mt (lg + g);
  mg_g : g = 0 \/ g = 1;
  mg_gh : grow_helper mt = if cmap (tmc c) then 2 ^ lg else g;
  mg_cfg : cmap (tmc c) = false \/ cprob (tmc c) = true
}.

Section Geo.
Context (c : tcfg) (ms mt : mapper) (lg g : N) (MG : migr c ms mt lg g).
Notation mc := (tmc c).
Notation cap := (2 ^ lg).
Notation tcap := (2 ^ (lg + g)).
Notation ttot := (total_slots mc mt).
Notation stot := (total_slots mc ms).
Notation sp := (remap mc ms).
Notation tp := (remap mc mt).
Notation hm := (home c ms).
Notation th := (home c mt).
Let Hm := mg_src _ _ _ _ _ MG.
Let Ht := mg_tgt _ _ _ _ _ MG.

Definition width : N := if cmap mc then 1 else 2 ^ g.
Definition owner (p : N) : N := if cmap mc then p mod cap else p / 2 ^ g.
Definition off (k j : N) : N := (th k mod width + j) / width.

Lemma cap_pos : 0 < cap. Proof. apply pow2_pos. Qed.
Lemma tcap_eq : tcap = cap * 2 ^ g. Proof. apply N.pow_add_r. Qed.
Lemma width_pos : 0 < width.
Proof. unfold width. destruct (cmap mc); [lia|apply pow2_pos]. Qed.

Lemma hash_lt k : hashk c k < 2 ^ 64.
Proof. unfold hashk, w64. apply N.mod_lt. apply N.pow_nonzero; lia. Qed.

Lemma hm_cap k : hm k < cap.
Proof. unfold home. eapply map_lt; eauto. apply hash_lt. Qed.

Lemma sp_val i : sp i = if cprob mc then i mod cap else i.
Proof. apply remap_val; exact Hm. Qed.
Lemma tp_val i : tp i = if cprob mc then i mod tcap else i.
Proof. apply remap_val; exact Ht. Qed.

Lemma sp_small i : i < cap -> sp i = i.
Proof. intros. rewrite sp_val. destruct (cprob mc); auto. now apply N.mod_small. Qed.

Lemma sp_add a b n : sp a = sp b -> sp (a + n) = sp (b + n).
Proof.
  rewrite !sp_val. destruct (cprob mc); [|lia]. intros E.
  pose proof cap_pos. rewrite (N.add_mod a n) by lia. rewrite E. rewrite <- N.add_mod by lia. reflexivity.
Qed.

Lemma sp_cancel a b n : sp (a + n) = sp (b + n) -> sp a = sp b.
Proof.
  rewrite !sp_val. destruct (cprob mc); [|lia]. intros E.
  pose proof cap_pos as P.
  assert (X : forall z, z mod cap = ((z + n) mod cap + (cap - n mod cap)) mod cap).
  { intros z. rewrite N.add_mod_idemp_l by lia.
    replace (z + n + (cap - n mod cap)) with (z + (n - n mod cap) + 1 * cap).
    2:{ pose proof (N.mod_le n cap ltac:(lia)) as M1. pose proof (N.mod_lt n cap ltac:(lia)) as M2.
        revert M1 M2 P. set (x := n mod cap) in *. clearbody x. generalize cap as y; intros y M1 M2 P. lia. }
    rewrite N.mod_add by lia.
    replace (n - n mod cap) with (n / cap * cap).
    2:{ pose proof (N.div_mod n cap ltac:(lia)) as D. revert D P.
        set (x := n mod cap) in *. set (y := n / cap) in *. clearbody x y. intros; lia. }
    rewrite N.mod_add by lia. reflexivity. }
  rewrite (X a), (X b), E. reflexivity.
Qed.

Lemma sp_sub a b n : n <= a -> n <= b -> sp a = sp b -> sp (a - n) = sp (b - n).
Proof.
  intros La Lb E. apply (sp_cancel _ _ n).
  replace (a - n + n) with a by lia. replace (b - n + n) with b by lia. exact E.
Qed.

Lemma sp_idem i : cprob mc = true -> sp (sp i) = sp i.
Proof. intros C. apply sp_small. rewrite sp_val, C. apply N.mod_lt. pose proof cap_pos; lia. Qed.

(** Homes in source and target. *)
Lemma th_val k :
  if cmap mc then th k mod cap = hm k else th k / 2 ^ g = hm k.
Proof.
  unfold home. pose proof (hash_lt k) as HL. revert HL. generalize (hashk c k). intros h HL.
  rewrite (map_val mc ms lg Hm), (map_val mc mt (lg + g) Ht).
  destruct Hm as [R _], Ht as [R' _]. pose proof cap_pos as CP.
  destruct (cmap mc).
  - rewrite tcap_eq, N.mod_mul_r by (try apply N.pow_nonzero; lia).
    rewrite N.mul_comm, N.mod_add by lia. apply N.mod_mod. lia.
  - rewrite N.div_div by (apply N.pow_nonzero; lia).
    rewrite <- N.pow_add_r. do 2 f_equal. lia.
Qed.

Lemma off_0 k : off k 0 = 0.
Proof.
  unfold off. rewrite N.add_0_r. apply N.div_small. apply N.mod_lt.
  pose proof width_pos; lia.
Qed.

Lemma off_succ k j : off k j <= off k (j + 1) <= off k j + 1.
Proof.
  unfold off. pose proof width_pos as P. revert P. generalize width, (th k mod width). intros w r P.
  split.
  - apply N.div_le_mono; lia.
  - rewrite <- N.div_add by lia. apply N.div_le_mono; lia.
Qed.

Lemma off_mono k j j' : j <= j' -> off k j <= off k j'.
Proof. intros. unfold off. pose proof width_pos. apply N.div_le_mono; lia. Qed.

(** Every value below [off k j] is attained before. *)
Lemma off_reach k j n : n < off k j -> exists j', j' < j /\ off k j' = n.
Proof.
  revert n. induction j as [|j IH] using N.peano_ind; intros n L.
  - rewrite off_0 in L. lia.
  - rewrite <- N.add_1_r in L. pose proof (off_succ k j) as S.
    destruct (N.lt_ge_cases n (off k j)) as [L'|G].
    + destruct (IH n L') as (j' & ? & ?). exists j'. split; [lia|assumption].
    + exists j. split; [lia|]. lia.
Qed.

(** The probe sequence in the target runs through the cells of the source cells
    on the probe sequence in the source. *)
Lemma owner_probe k j : owner (tp (th k + j)) = sp (hm k + off k j).
Proof.
  rewrite sp_val, tp_val. pose proof (th_val k) as E. unfold owner, off, width.
  pose proof cap_pos as CP. pose proof (pow2_pos g) as GP.
  destruct (mg_cfg _ _ _ _ _ MG) as [C|C]; rewrite ?C in *.
  - destruct (cprob mc).
    + rewrite <- E. rewrite tcap_eq.
      assert (X : th k + j = 2 ^ g * (th k / 2 ^ g) + (th k mod 2 ^ g + j))
        by (pose proof (N.div_mod (th k) (2 ^ g)); lia).
      rewrite X at 1. rewrite (N.mul_comm cap).
      rewrite N.mod_mul_r by lia.
      rewrite (N.mul_comm (2 ^ g) (_ mod cap)), N.div_add by lia.
      rewrite (N.div_small (_ mod 2 ^ g)) by (apply N.mod_lt; lia).
      rewrite N.add_0_l. f_equal.
      rewrite (N.add_comm (2 ^ g * _)), (N.mul_comm (2 ^ g)), N.div_add by lia. lia.
    + rewrite <- E.
      assert (X : th k + j = (th k mod 2 ^ g + j) + (th k / 2 ^ g) * 2 ^ g)
        by (pose proof (N.div_mod (th k) (2 ^ g)); lia).
      rewrite X at 1. rewrite N.div_add by lia. lia.
  - destruct (cmap mc).
    + rewrite N.mod_1_r, N.div_1_r, N.add_0_l. rewrite <- E.
      rewrite N.add_mod_idemp_l by lia.
      rewrite tcap_eq, N.mod_mul_r by lia.
      rewrite N.mul_comm, N.mod_add by lia. apply N.mod_mod. lia.
    + rewrite <- E. rewrite tcap_eq.
      assert (X : th k + j = 2 ^ g * (th k / 2 ^ g) + (th k mod 2 ^ g + j))
        by (pose proof (N.div_mod (th k) (2 ^ g)); lia).
      rewrite X at 1. rewrite (N.mul_comm cap).
      rewrite N.mod_mul_r by lia.
      rewrite (N.mul_comm (2 ^ g) (_ mod cap)), N.div_add by lia.
      rewrite (N.div_small (_ mod 2 ^ g)) by (apply N.mod_lt; lia).
      rewrite N.add_0_l. f_equal.
      rewrite (N.add_comm (2 ^ g * _)), (N.mul_comm (2 ^ g)), N.div_add by lia. lia.
Qed.

Lemma ttot_val : ttot = if cprob mc then tcap else tcap + 1024.
Proof. apply total_val; exact Ht. Qed.
Lemma stot_val : stot = if cprob mc then cap else cap + 1024.
Proof. apply total_val; exact Hm. Qed.

Lemma owner_cap p : p < tcap -> owner p < cap.
Proof.
  intros L. unfold owner. pose proof cap_pos. pose proof (pow2_pos g). destruct (cmap mc).
  - apply N.mod_lt. lia.
  - apply N.div_lt_upper_bound; [lia|]. rewrite tcap_eq in L. lia.
Qed.

Lemma owner_ge p : cprob mc = false -> tcap <= p -> cap <= owner p.
Proof.
  intros C L. unfold owner. pose proof cap_pos. pose proof (pow2_pos g).
  destruct (mg_cfg _ _ _ _ _ MG) as [E|E]; [rewrite E|congruence].
  apply N.div_le_lower_bound; [lia|]. rewrite tcap_eq in L. lia.
Qed.

Lemma strides_val i :
  cmap mc = true -> i < cap ->
  stride_list mt (bitmask mc mt) i = if g =? 0 then [i] else [i; i + cap].
Proof.
  intros C L. unfold stride_list. rewrite (mg_gh _ _ _ _ _ MG), C, (bitmask_val _ _ _ Ht).
  pose proof cap_pos as CP. rewrite tcap_eq.
  destruct (mg_g _ _ _ _ _ MG) as [-> | ->].
  - change (2 ^ 0) with 1. rewrite N.mul_1_r, N.div_small by lia.
    cbn [N.to_nat strides]. destruct (N.leb_spec i (cap - 1)); [|lia]. reflexivity.
  - change (2 ^ 1) with 2.
    replace ((cap * 2 - 1) / cap) with 1 by (apply (N.div_unique _ _ 1 (cap - 1)); lia).
    change (N.to_nat 1) with 1%nat. cbn [strides].
    destruct (N.leb_spec i (cap * 2 - 1)); [|lia].
    destruct (N.leb_spec (i + cap) (cap * 2 - 1)); [|lia]. reflexivity.
Qed.

Lemma in_init_range p s e :
  s <= e -> e <= cap -> s < cap ->
  In p (init_range mc mt s e) <-> p < tcap /\ s <= owner p < e.
Proof.
  intros L1 L2 L3. unfold init_range, owner. pose proof cap_pos as CP. pose proof (pow2_pos g) as GP.
  pose proof tcap_eq as TE.
  destruct (cmap mc) eqn:C.
  - rewrite strides_val by auto. rewrite TE.
    destruct (mg_g _ _ _ _ _ MG) as [E|E]; rewrite E.
    + change (0 =? 0) with true. cbv iota. cbn [flat_map].
      rewrite app_nil_r. rewrite in_nseq_N. change (2 ^ 0) with 1. rewrite N.mul_1_r.
      split; [intros H|intros [H1 H2]].
      * rewrite N.mod_small by lia. lia.
      * rewrite N.mod_small in H2 by lia. lia.
    + change (1 =? 0) with false. cbv iota. cbn [flat_map].
      rewrite app_nil_r, in_app_iff, !in_nseq_N. change (2 ^ 1) with 2.
      split.
      * intros [H|H].
        -- rewrite N.mod_small by lia. lia.
        -- replace (p mod cap) with (p - cap); [lia|].
           apply (N.mod_unique _ _ 1); lia.
      * intros [H1 H2]. destruct (N.lt_ge_cases p cap).
        -- rewrite N.mod_small in H2 by lia. lia.
        -- replace (p mod cap) with (p - cap) in H2; [lia|].
           apply (N.mod_unique _ _ 1); lia.
  - rewrite (mg_gh _ _ _ _ _ MG), C. rewrite !N.shiftl_mul_pow2, in_nseq_N.
    assert (s * 2 ^ g <= e * 2 ^ g) by (apply N.mul_le_mono_r; lia).
    replace (s * 2 ^ g + (e * 2 ^ g - s * 2 ^ g)) with (e * 2 ^ g) by lia.
    rewrite TE. assert (e * 2 ^ g <= cap * 2 ^ g) by (apply N.mul_le_mono_r; lia).
    split.
    + intros [H1 H2]. split; [lia|]. split.
      * apply N.div_le_lower_bound; lia.
      * apply N.div_lt_upper_bound; lia.
    + intros (H1 & H2 & H3). split.
      * pose proof (N.mul_div_le p (2 ^ g) ltac:(lia)).
        assert (s * 2 ^ g <= p / 2 ^ g * 2 ^ g) by (apply N.mul_le_mono_r; lia). lia.
      * pose proof (N.mul_succ_div_gt p (2 ^ g) ltac:(lia)).
        assert (N.succ (p / 2 ^ g) * 2 ^ g <= e * 2 ^ g) by (apply N.mul_le_mono_r; lia). lia.
Qed.

Lemma in_init_one p q :
  q < stot -> (cprob mc = false -> q <= cap + 301) ->
  (In p (init_one mc mt q) <-> p < ttot /\ owner p = q).
Proof.
  intros L LQ. unfold init_one, owner. pose proof cap_pos as CP. pose proof (pow2_pos g) as GP.
  pose proof tcap_eq as TE. rewrite stot_val in L. rewrite ttot_val.
  destruct (cmap mc) eqn:C.
  - destruct (mg_cfg _ _ _ _ _ MG) as [E|E]; [congruence|]. rewrite E in *. cbn [negb andb].
    rewrite strides_val by auto. rewrite TE.
    destruct (mg_g _ _ _ _ _ MG) as [Eg|Eg]; rewrite Eg.
    + change (0 =? 0) with true. cbv iota. change (2 ^ 0) with 1. rewrite N.mul_1_r.
      cbn [In]. split.
      * intros [<-|[]]. rewrite N.mod_small by lia. lia.
      * intros [H1 H2]. rewrite N.mod_small in H2 by lia. lia.
    + change (1 =? 0) with false. cbv iota. change (2 ^ 1) with 2. cbn [In]. split.
      * intros [<-|[<-|[]]].
        -- rewrite N.mod_small by lia. lia.
        -- split; [lia|]. symmetry. apply (N.mod_unique _ _ 1); lia.
      * intros [H1 H2]. destruct (N.lt_ge_cases p cap).
        -- rewrite N.mod_small in H2 by lia. lia.
        -- replace (p mod cap) with (p - cap) in H2; [lia|].
           apply (N.mod_unique _ _ 1); lia.
  - rewrite (mg_gh _ _ _ _ _ MG), C. rewrite !N.shiftl_mul_pow2, in_nseq_N.
    replace (q * 2 ^ g + ((q + 1) * 2 ^ g - q * 2 ^ g)) with (q * 2 ^ g + 2 ^ g) by lia.
    split.
    + intros [H1 H2]. split.
      * rewrite TE. destruct (cprob mc).
        -- assert ((q + 1) * 2 ^ g <= cap * 2 ^ g) by (apply N.mul_le_mono_r; lia). lia.
        -- specialize (LQ eq_refl).
           assert ((q + 1) * 2 ^ g <= (cap + 302) * 2 ^ g) by (apply N.mul_le_mono_r; lia).
           destruct (mg_g _ _ _ _ _ MG) as [Eg|Eg]; rewrite Eg in *;
             [change (2 ^ 0) with 1 in *|change (2 ^ 1) with 2 in *]; lia.
      * symmetry. apply (N.div_unique p (2 ^ g) q (p - q * 2 ^ g)); lia.
    + intros [H1 <-].
      pose proof (N.mul_div_le p (2 ^ g) ltac:(lia)).
      pose proof (N.mul_succ_div_gt p (2 ^ g) ltac:(lia)). lia.
Qed.

End Geo.
