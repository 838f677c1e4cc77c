(** C58: the size of the table a growth step creates. *)
From Coq Require Import ZArith NArith Bool List Lia ZifyN.
From Verif Require Import Words Mapper MapperFacts TableSpec GrowFacts Count CountSpec.
Import ListNotations.
Open Scope N_scope.

Lemma addr_sized mc lg gh : 1 <= lg <= 63 -> addressable_slots mc (sized mc lg gh) = 2 ^ lg.
Proof.
  intros L. assert (2 ^ lg <> 0) by (now apply N.pow_nonzero).
  assert (2 ^ lg < 2 ^ 64) by (apply N.pow_lt_mono_r; lia).
  unfold addressable_slots, sized, mk_mapper, init_probe_helper. cbn [probe_helper].
  destruct (cprob mc); [|lia]. unfold w64.
  replace (2 ^ lg + (2 ^ 64 - 1)) with (2 ^ lg - 1 + 1 * 2 ^ 64) by lia.
  rewrite N.mod_add by discriminate. rewrite N.mod_small by lia. lia.
Qed.

Lemma pow_mod5 n : (2 ^ N.of_nat n) mod 5 <> 0.
Proof.
  cut ((2 ^ N.of_nat n) mod 5 = 1 \/ (2 ^ N.of_nat n) mod 5 = 2 \/ (2 ^ N.of_nat n) mod 5 = 3 \/ (2 ^ N.of_nat n) mod 5 = 4); [lia|].
  induction n as [|n IH]; [now left|].
  rewrite Nat2N.inj_succ, N.pow_succ_r'. remember (2 ^ N.of_nat n) as x.
  rewrite N.mul_mod by lia. destruct IH as [->|[->|[->| ->]]]; cbn; auto.
Qed.

Lemma above_iff lg count : 1 <= lg <= 54 -> fill_above count (2 ^ lg) = (3 * 2 ^ lg <? 10 * count).
Proof.
  intros L. assert (2 ^ lg <= 2 ^ 54) by (apply N.pow_le_mono_r; lia).
  assert (M : (2 ^ lg) mod 5 <> 0) by (rewrite <- (N2Nat.id lg); apply pow_mod5).
  assert (T : exists h, 2 ^ lg = 2 * h).
  { exists (2 ^ (lg - 1)). rewrite <- N.pow_succ_r'. f_equal. lia. }
  destruct T as [h T].
  unfold fill_above. change (2 ^ 54) with 18014398509481984 in *. set (n := 2 ^ lg) in *.
  assert (E : n = 5 * (n / 5) + n mod 5) by (apply N.div_mod; lia).
  assert (n mod 5 < 5) by (apply N.mod_lt; lia).
  destruct (N.ltb_spec (3 * n) (10 * count)), (N.ltb_spec (5404319552844595 * n) (count * 18014398509481984)); auto; exfalso; [lia|].
  assert (10 * count + 2 <= 3 * n \/ 10 * count = 3 * n) as [|Q] by lia; [lia|].
  set (r := n mod 5) in *. set (q := n / 5) in *. clearbody r q n. lia.
Qed.

Lemma count_of ins del : del <= ins -> ins < 2 ^ 64 -> w64 (ins + (2 ^ 64 - w64 del)) = ins - del.
Proof.
  intros D I. unfold w64. rewrite (N.mod_small del) by lia.
  replace (ins + (2 ^ 64 - del)) with (ins - del + 1 * 2 ^ 64) by lia.
  rewrite N.mod_add by discriminate. apply N.mod_small. lia.
Qed.

(** ** C58 *)

(** With [ins] elements inserted and [del] of them erased (as counted), a growth step
    doubles the number of slots iff more than 30% of them hold elements, and leaves
    the number as it is otherwise. *)
Theorem C58_new_size_partial :
  forall mc lg gh ins del,
    1 <= lg <= 54 -> del <= ins -> ins < 2 ^ 53 ->
    addressable_slots mc (resize mc (sized mc lg gh) ins del) =
      if 3 * 2 ^ lg <? 10 * (ins - del) then 2 * 2 ^ lg else 2 ^ lg.
Proof.
  intros mc lg gh ins del L D I. unfold resize. rewrite addr_sized by lia.
  rewrite count_of by (change (2 ^ 64) with (2048 * 2 ^ 53); lia). rewrite above_iff by lia.
  destruct (3 * 2 ^ lg <? 10 * (ins - del)).
  - rewrite N.mul_comm, <- N.pow_succ_r'. apply (addr_sized mc (N.succ lg)). lia.
  - apply (addr_sized mc lg). lia.
Qed.
Print Assumptions C58_new_size_partial.

(** So at most half of the slots of the new table are needed for the elements. *)
Theorem C58_half_empty_partial :
  forall mc lg gh ins del,
    1 <= lg <= 54 -> del <= ins -> ins < 2 ^ 53 -> ins - del <= 2 ^ lg ->
    2 * (ins - del) <= addressable_slots mc (resize mc (sized mc lg gh) ins del).
Proof.
  intros mc lg gh ins del L D I C. rewrite C58_new_size_partial by assumption.
  destruct (N.ltb_spec (3 * 2 ^ lg) (10 * (ins - del))); lia.
Qed.
Print Assumptions C58_half_empty_partial.

(** When more erasures than insertions have been counted, the table is doubled,
    however empty it is. *)
Theorem C58_doubled_when_empty_refuted :
  forall mc lg gh ins del,
    1 <= lg <= 54 -> ins < del -> del < 2 ^ 32 ->
    addressable_slots mc (resize mc (sized mc lg gh) ins del) = 2 * 2 ^ lg.
Proof.
  intros mc lg gh ins del L D I. unfold resize. rewrite addr_sized by lia.
  assert (A : fill_above (w64 (ins + (2 ^ 64 - w64 del))) (2 ^ lg) = true).
  { rewrite above_iff by lia. assert (2 ^ lg <= 2 ^ 54) by (apply N.pow_le_mono_r; lia).
    change (2 ^ 32) with 4294967296 in I. change (2 ^ 54) with 18014398509481984 in *.
    unfold w64. change (2 ^ 64) with 18446744073709551616.
    rewrite (N.mod_small del) by lia. rewrite N.mod_small by lia. apply N.ltb_lt. lia. }
  rewrite A. rewrite N.mul_comm, <- N.pow_succ_r'. apply (addr_sized mc (N.succ lg)). lia.
Qed.
Print Assumptions C58_doubled_when_empty_refuted.

Open Scope Z_scope.
(** Such counts: one handle has inserted an element and not published it, another one
    has erased it and was destroyed.  Nothing is stored. *)
Example C58_case :
  (exists s, reachable 100 s /\ quiescent s /\ g_elems s = 0 /\ g_dummies s = 1 /\ g_inserted s - g_erased s = 0) /\
  addressable_slots (MCfg false false) (resize (MCfg false false) (sized (MCfg false false) 9 0) 0 1) = 1024%N /\
  addressable_slots (MCfg false false) (resize (MCfg false false) (sized (MCfg false false) 9 0) 200 46) = 1024%N /\
  addressable_slots (MCfg false false) (resize (MCfg false false) (sized (MCfg false false) 9 0) 200 47) = 512%N.
Proof.
  split; [|repeat split].
  eexists. split; [eexists|].
  { eapply cs_tau; [apply c_new|]. eapply cs_tau; [apply c_new|].
    eapply cs_tau; [eapply (c_insert _ _ _ _ _ _ _ 0%nat); reflexivity|].
    eapply cs_tau; [eapply (c_erase _ _ _ _ _ _ _ 1%nat); reflexivity|].
    eapply cs_tau; [eapply (c_destroy _ _ _ _ _ _ _ 1%nat); reflexivity|].
    eapply cs_tau; [eapply (c_table _ _ _ _ _ _ _ 1%nat); reflexivity|].
    eapply cs_tau; [eapply (c_dummies _ _ _ _ _ _ _ 1%nat); reflexivity|].
    eapply cs_vis; [eapply (c_elems _ _ _ _ _ _ _ 1%nat); reflexivity|]. apply cs_nil. }
  split; [|repeat split]. intros h H. cbn in H. destruct H as [H|[H|[]]]; [injection H as <-; split; reflexivity|discriminate].
Qed.
