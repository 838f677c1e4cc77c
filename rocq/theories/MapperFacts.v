(** Facts about the mapper. *)
From Coq Require Import NArith ZArith Bool List Lia.
From Verif Require Import Words Mapper.
Open Scope N_scope.

(** A mapper built for a power-of-two capacity. *)
Definition wf_mapper (c : mcfg) (m : mapper) (lg : N) : Prop :=
  1 <= lg <= 63 /\ m = mk_mapper c (2 ^ lg) (grow_helper m).

Lemma pow2_pos n : 0 < 2 ^ n.
Proof. apply N.neq_0_lt_0, N.pow_nonzero. lia. Qed.

Lemma pow2_le a b : a <= b -> 2 ^ a <= 2 ^ b.
Proof. apply N.pow_le_mono_r. lia. Qed.

Lemma pow2_lt a b : a < b -> 2 ^ a < 2 ^ b.
Proof. apply N.pow_lt_mono_r. lia. Qed.

Lemma w64_pred cap : 0 < cap -> cap < 2 ^ 64 -> w64 (cap + (2 ^ 64 - 1)) = cap - 1.
Proof.
  intros. unfold w64. replace (cap + (2 ^ 64 - 1)) with (cap - 1 + 1 * 2 ^ 64) by lia.
  rewrite N.mod_add by (apply N.pow_nonzero; lia). apply N.mod_small. lia.
Qed.

Lemma land_pred_pow2 x n : N.land x (2 ^ n - 1) = x mod 2 ^ n.
Proof.
  replace (2 ^ n - 1) with (N.ones n) by (rewrite N.ones_equiv; lia).
  apply N.land_ones.
Qed.

Section M.
Context (c : mcfg) (m : mapper) (lg : N) (WF : wf_mapper c m lg).

Lemma lg_small : 2 ^ lg < 2 ^ 64.
Proof. destruct WF. apply pow2_lt. lia. Qed.

Lemma total_val : total_slots c m = if cprob c then 2 ^ lg else 2 ^ lg + 1024.
Proof.
  destruct WF as [R ->]. unfold total_slots, mk_mapper, init_probe_helper; cbn.
  pose proof lg_small. pose proof (pow2_pos lg).
  destruct (cprob c); [rewrite w64_pred by lia; lia|unfold lp_buffer; lia].
Qed.

Lemma addressable_val : addressable_slots c m = 2 ^ lg.
Proof.
  destruct WF as [R ->]. unfold addressable_slots, mk_mapper, init_probe_helper; cbn.
  pose proof lg_small. pose proof (pow2_pos lg).
  destruct (cprob c); [rewrite w64_pred by lia; lia|unfold lp_buffer; lia].
Qed.

Lemma bitmask_val : bitmask c m = 2 ^ lg - 1.
Proof.
  destruct WF as [R ->].
  unfold bitmask, mk_mapper, init_probe_helper, init_map_helper; cbn.
  pose proof lg_small. pose proof (pow2_pos lg).
  destruct (cprob c); [rewrite w64_pred by lia; lia|].
  destruct (cmap c); [rewrite w64_pred by lia; lia|]. unfold lp_buffer; lia.
Qed.

Lemma remap_val i : remap c m i = if cprob c then i mod 2 ^ lg else i.
Proof.
  destruct WF as [R ->]. unfold remap, mk_mapper, init_probe_helper; cbn.
  pose proof lg_small. pose proof (pow2_pos lg).
  destruct (cprob c); [|reflexivity]. rewrite w64_pred by lia. apply land_pred_pow2.
Qed.

Lemma map_val h :
  map_hash c m h = if cmap c then h mod 2 ^ lg else h / 2 ^ (64 - lg).
Proof.
  destruct WF as [R ->]. unfold map_hash, mk_mapper, init_map_helper; cbn.
  pose proof lg_small. pose proof (pow2_pos lg).
  destruct (cmap c).
  - rewrite w64_pred by lia. apply land_pred_pow2.
  - unfold compute_right_shift. rewrite N.log2_pow2 by lia. apply N.shiftr_div_pow2.
Qed.

Lemma map_lt h : h < 2 ^ 64 -> map_hash c m h < 2 ^ lg.
Proof.
  intros H. rewrite map_val. destruct (cmap c).
  - apply N.mod_lt. pose proof (pow2_pos lg). lia.
  - apply N.div_lt_upper_bound; [pose proof (pow2_pos (64 - lg)); lia|].
    rewrite <- N.pow_add_r. replace (64 - lg + lg) with 64; [exact H|].
    destruct WF. lia.
Qed.

Lemma remap_lt i : cprob c = true -> remap c m i < total_slots c m.
Proof.
  intros H. rewrite remap_val, total_val, H. apply N.mod_lt.
  pose proof (pow2_pos lg). lia.
Qed.

(** Wrapping the 64-bit index does not change the cell (circular probing). *)
Lemma remap_wrap i : cprob c = true -> remap c m (w64 i) = remap c m i.
Proof.
  intros H. rewrite !remap_val, H. unfold w64.
  destruct WF as [R _].
  replace (2 ^ 64) with (2 ^ lg * 2 ^ (64 - lg)) by (rewrite <- N.pow_add_r; f_equal; lia).
  rewrite N.mod_mul_r by (try apply N.pow_nonzero; lia).
  rewrite N.mul_comm, N.mod_add by (apply N.pow_nonzero; lia).
  apply N.mod_mod. apply N.pow_nonzero; lia.
Qed.

End M.

Lemma wf_mk c lg gh : 1 <= lg <= 63 -> wf_mapper c (mk_mapper c (2 ^ lg) gh) lg.
Proof. intros. split; [assumption|reflexivity]. Qed.

Ltac Zify.zify_post_hook ::= Z.div_mod_to_equations.

Lemma div_double h n : 0 < n -> h / n = 2 * (h / (2 * n)) \/ h / n = 2 * (h / (2 * n)) + 1.
Proof.
  intros Hn. replace (2 * n) with (n * 2) by lia.
  rewrite <- N.div_div by lia.
  generalize (h / n). intros x. lia.
Qed.

Lemma mod_double h n : 0 < n -> h mod (2 * n) = h mod n \/ h mod (2 * n) = h mod n + n.
Proof.
  intros Hn. replace (2 * n) with (n * 2) by lia.
  rewrite N.mod_mul_r by (try apply N.pow_nonzero; lia).
  assert (L : h / n mod 2 < 2) by (apply N.mod_lt; lia).
  revert L. generalize (h / n mod 2), (h mod n). intros y z L.
  assert (y = 0 \/ y = 1) as [-> | ->] by lia; lia.
Qed.

(** Home slots under doubling. *)
Lemma map_double c m m' lg h :
  wf_mapper c m lg -> wf_mapper c m' (lg + 1) -> h < 2 ^ 64 ->
  if cmap c
  then map_hash c m' h = map_hash c m h \/ map_hash c m' h = map_hash c m h + 2 ^ lg
  else map_hash c m' h = 2 * map_hash c m h \/ map_hash c m' h = 2 * map_hash c m h + 1.
Proof.
  intros W W' H. rewrite (map_val c m lg W), (map_val c m' _ W').
  destruct W as [R _], W' as [R' _].
  destruct (cmap c).
  - replace (2 ^ (lg + 1)) with (2 * 2 ^ lg) by (rewrite N.add_1_r, N.pow_succ_r'; lia).
    apply mod_double, pow2_pos.
  - replace (2 ^ (64 - lg)) with (2 * 2 ^ (64 - (lg + 1))).
    + apply div_double, pow2_pos.
    + rewrite <- N.pow_succ_r'. f_equal. lia.
Qed.

(** *** compute_capacity *)

Lemma cc_loop_some n k fuel :
  n <= 2 ^ 31 -> 8 <= k <= 31 -> (N.to_nat (31 - k) < fuel)%nat ->
  (2 ^ (k - 1) < n \/ k = 8) ->
  exists j, cc_loop fuel (2 ^ k) n = Some (2 ^ j) /\ 8 <= j <= 31 /\ n <= 2 ^ j /\
            (2 ^ (j - 1) < n \/ j = 8).
Proof.
  revert k. induction fuel as [|fuel IH]; intros k Hn Hk Hf Hl; [lia|].
  cbn [cc_loop]. destruct (N.ltb_spec (2 ^ k) n) as [L|L].
  - assert (k < 31).
    { destruct (N.lt_ge_cases k 31) as [|G]; [assumption|].
      pose proof (pow2_le 31 k G). lia. }
    replace ((2 ^ k * 2) mod 2 ^ 32) with (2 ^ (k + 1)).
    + apply IH; try lia. left. replace (k + 1 - 1) with k by lia. exact L.
    + rewrite N.mod_small.
      * rewrite N.add_1_r, N.pow_succ_r'. lia.
      * replace (2 ^ k * 2) with (2 ^ (k + 1)) by (rewrite N.add_1_r, N.pow_succ_r'; lia).
        apply pow2_lt. lia.
  - exists k. repeat split; try lia.
Qed.

Lemma cc_loop_zero fuel n : 0 < n -> cc_loop fuel 0 n = None.
Proof.
  intros H. induction fuel as [|f IH]; [reflexivity|]. cbn [cc_loop].
  destruct (N.ltb_spec 0 n); [exact IH|lia].
Qed.

Lemma cc_loop_diverges fuel k n :
  2 ^ 31 < n -> k <= 31 -> cc_loop fuel (2 ^ k) n = None.
Proof.
  intros Hn. revert k. induction fuel as [|f IH]; intros k Hk; [reflexivity|].
  cbn [cc_loop]. pose proof (pow2_le k 31 Hk).
  destruct (N.ltb_spec (2 ^ k) n); [|lia].
  replace (2 ^ k * 2) with (2 ^ (k + 1)) by (rewrite N.add_1_r, N.pow_succ_r'; lia).
  destruct (N.eq_dec k 31) as [->|].
  - replace ((2 ^ (31 + 1)) mod 2 ^ 32) with 0 by reflexivity. apply cc_loop_zero. lia.
  - rewrite N.mod_small by (apply pow2_lt; lia). apply IH. lia.
Qed.
