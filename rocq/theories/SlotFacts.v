(** Facts about the cell encoding. *)
From Coq Require Import NArith Bool List Lia.
From Verif Require Import Words Slot.
Open Scope N_scope.

(** A cell type with at least two bits in its key word. *)
Definition wf_scfg (c : scfg) : Prop := 2 <= sc_w c.

(** The keys a user may store.  Marking cells: 0 < k < 2^(w-1)-1.  Other cells:
    any word except the encodings of "empty" and "deleted". *)
Definition valid_key (c : scfg) (k : N) : Prop :=
  k < 2 ^ sc_w c /\ k mod 2 ^ (sc_w c - 1) <> 0 /\ k <> 2 ^ (sc_w c - 1) - 1 /\
  (sc_mark c = true -> k < 2 ^ (sc_w c - 1)).

(** What a cell can mean. *)
Inductive content := CEmpty | CTomb | CLive (k d : N).

(** Encoding of a content, marked or not. *)
Definition enc (c : scfg) (v : content) (m : bool) : slot :=
  let s := match v with
           | CEmpty => empty_slot
           | CTomb => deleted_slot c
           | CLive k d => Slot k d
           end in
  if m then mark_slot c s else s.

(** Contents that can be stored in cells of type [c]; only marking cells carry marks. *)
Definition ok_content (c : scfg) (v : content) (m : bool) : Prop :=
  (m = true -> sc_mark c = true) /\
  match v with CLive k _ => valid_key c k | _ => True end.

Section Facts.
Context (c : scfg) (Hw : wf_scfg c).

Lemma mbit_pos : 2 <= mbit c.
Proof.
  unfold mbit, wf_scfg in *.
  replace 2 with (2 ^ 1) at 1 by reflexivity.
  apply N.pow_le_mono_r; lia.
Qed.

Lemma pow_w : 2 ^ sc_w c = 2 * mbit c.
Proof.
  unfold mbit, wf_scfg in *. rewrite <- N.pow_succ_r'. f_equal. lia.
Qed.

Lemma bmask_ones : bmask c = N.ones (sc_w c - 1).
Proof. unfold bmask, mbit. rewrite N.ones_equiv. lia. Qed.

Lemma land_bmask x : N.land x (bmask c) = x mod mbit c.
Proof. rewrite bmask_ones, N.land_ones. reflexivity. Qed.

Lemma land_mbit_small x : x < mbit c -> N.land x (mbit c) = 0.
Proof.
  intros H. apply N.bits_inj. intros n. rewrite N.land_spec, N.bits_0.
  unfold mbit. rewrite N.pow2_bits_eqb.
  destruct (N.eqb_spec (sc_w c - 1) n) as [E|E]; [|apply andb_false_r].
  subst n. rewrite andb_true_r.
  rewrite <- (N.mod_small x (2 ^ (sc_w c - 1))) by exact H.
  apply N.mod_pow2_bits_high. lia.
Qed.

Lemma lor_mbit x : x < mbit c -> N.lor x (mbit c) = x + mbit c.
Proof.
  intros H. pose proof (land_mbit_small x H) as L.
  rewrite (N.add_nocarry_lxor _ _ L). symmetry. apply N.lxor_lor. exact L.
Qed.

Lemma lor_mbit_idem x : N.lor (N.lor x (mbit c)) (mbit c) = N.lor x (mbit c).
Proof. rewrite <- N.lor_assoc, N.lor_diag. reflexivity. Qed.

Lemma mark_mark s : mark_slot c (mark_slot c s) = mark_slot c s.
Proof. unfold mark_slot; cbn. now rewrite lor_mbit_idem. Qed.

Lemma land_lor_mbit x : N.land (N.lor x (mbit c)) (mbit c) = mbit c.
Proof.
  apply N.bits_inj. intros n. rewrite N.land_spec, N.lor_spec.
  destruct (N.testbit x n), (N.testbit (mbit c) n); reflexivity.
Qed.

Lemma content_key_small v m :
  ok_content c v m -> sc_mark c = true -> skey (enc c v false) < mbit c.
Proof.
  pose proof mbit_pos as P. intros [_ H] M. destruct v; cbn in *.
  - lia.
  - unfold ddummy; lia.
  - apply H; exact M.
Qed.

Lemma key_enc_marked v :
  ok_content c v true -> skey (enc c v true) = skey (enc c v false) + mbit c.
Proof.
  intros H. destruct (H) as [M _]. specialize (M eq_refl).
  pose proof (content_key_small v true H M) as L.
  destruct v; cbn [enc mark_slot skey] in *; apply lor_mbit; exact L.
Qed.

Lemma sdata_enc v m : sdata (enc c v m) = match v with CLive _ d => d | _ => 0 end.
Proof. destruct v, m; reflexivity. Qed.


Lemma mod_add_mbit x : (x + mbit c) mod mbit c = x mod mbit c.
Proof.
  pose proof mbit_pos as P.
  replace (x + mbit c) with (x + 1 * mbit c) by lia. apply N.mod_add. lia.
Qed.

Lemma key_mod v m :
  ok_content c v m -> skey (enc c v m) mod mbit c = skey (enc c v false) mod mbit c.
Proof.
  intros H. destruct m; [|reflexivity].
  rewrite key_enc_marked by exact H. apply mod_add_mbit.
Qed.

Lemma enc_is_empty v m :
  ok_content c v m -> is_empty c (enc c v m) = match v with CEmpty => true | _ => false end.
Proof.
  intros H. unfold is_empty. rewrite land_bmask, key_mod by exact H.
  pose proof mbit_pos as P. destruct v; cbn.
  - rewrite N.mod_0_l by lia. reflexivity.
  - unfold ddummy. rewrite N.mod_small by lia. apply N.eqb_neq. lia.
  - destruct H as [_ (_ & K & _)]. apply N.eqb_neq. exact K.
Qed.

Lemma enc_is_marked v m : ok_content c v m -> is_marked c (enc c v m) = m.
Proof.
  intros H. unfold is_marked. destruct (sc_mark c) eqn:M.
  - destruct m.
    + replace (skey (enc c v true)) with (N.lor (skey (enc c v false)) (mbit c))
        by (destruct v; reflexivity).
      rewrite land_lor_mbit. pose proof mbit_pos as P. destruct (mbit c =? 0) eqn:E; auto.
      apply N.eqb_eq in E. lia.
    + rewrite land_mbit_small; [reflexivity|]. eapply content_key_small; eauto.
  - destruct m; [|reflexivity]. destruct H as [H _]. now rewrite H in M.
Qed.

Lemma enc_is_deleted_unmarked v :
  ok_content c v false ->
  is_deleted c (enc c v false) = match v with CTomb => true | _ => false end.
Proof.
  intros [_ H]. unfold is_deleted. pose proof mbit_pos as P. destruct v; cbn.
  - apply N.eqb_neq. unfold ddummy; lia.
  - apply N.eqb_refl.
  - destruct H as (_ & _ & K & _). apply N.eqb_neq. exact K.
Qed.

(** The test for deleted cells misses marked tombstones. *)
Lemma enc_is_deleted_marked v : ok_content c v true -> is_deleted c (enc c v true) = false.
Proof.
  intros H. unfold is_deleted. rewrite key_enc_marked by exact H.
  pose proof mbit_pos as P. apply N.eqb_neq. unfold ddummy. lia.
Qed.

Lemma enc_get_key v m :
  ok_content c v m -> get_key c (enc c v m) = skey (enc c v false).
Proof.
  intros H. unfold get_key. destruct (sc_mark c) eqn:M.
  - rewrite land_bmask, key_mod by exact H.
    apply N.mod_small. eapply content_key_small; eauto.
  - destruct m; [|reflexivity]. destruct H as [H _]. now rewrite H in M.
Qed.

Lemma enc_compare_key v m k :
  ok_content c v m -> valid_key c k ->
  compare_key c (enc c v m) k = match v with CLive k' _ => k' =? k | _ => false end.
Proof.
  intros H V. assert (E : compare_key c (enc c v m) k = (skey (enc c v false) =? k)).
  { unfold compare_key. destruct (sc_mark c) eqn:M.
    - rewrite land_bmask, key_mod by exact H.
      rewrite N.mod_small; [reflexivity|]. eapply content_key_small; eauto.
    - destruct m; [|reflexivity]. destruct H as [H _]. now rewrite H in M. }
  rewrite E. destruct V as (V1 & V2 & V3 & V4). pose proof mbit_pos as P.
  destruct v; cbn; [| |reflexivity]; apply N.eqb_neq.
  - intros <-. apply V2. apply N.mod_0_l. unfold mbit in *; lia.
  - intros <-. apply V3. reflexivity.
Qed.

Lemma enc_inj v m v' m' :
  ok_content c v m -> ok_content c v' m' -> enc c v m = enc c v' m' -> v = v' /\ m = m'.
Proof.
  intros H H' E.
  assert (m = m') as <-.
  { rewrite <- (enc_is_marked v m H), <- (enc_is_marked v' m' H'). now rewrite E. }
  split; [|reflexivity].
  assert (K : skey (enc c v false) = skey (enc c v' false)).
  { rewrite <- (enc_get_key v m H), <- (enc_get_key v' m H'). now rewrite E. }
  pose proof (f_equal sdata E) as D. rewrite !sdata_enc in D.
  pose proof mbit_pos as P. pose proof (enc_is_empty v m H) as E1.
  pose proof (enc_is_empty v' m H') as E2. rewrite E, E2 in E1.
  destruct v, v'; cbn in *; try discriminate; try reflexivity.
  - destruct H' as [_ (_ & _ & Q & _)]. exfalso; apply Q. unfold ddummy, mbit in *; lia.
  - destruct H as [_ (_ & _ & Q & _)]. exfalso; apply Q. unfold ddummy, mbit in *; lia.
  - congruence.
Qed.

Lemma mark_enc v m : mark_slot c (enc c v m) = enc c v true.
Proof. destruct m; [|reflexivity]. cbn. apply mark_mark. Qed.

End Facts.

Lemma slot_eqb_eq a b : slot_eqb a b = true <-> a = b.
Proof.
  unfold slot_eqb. rewrite andb_true_iff, !N.eqb_eq. destruct a, b; cbn. split.
  - intros [-> ->]; reflexivity.
  - intros [= -> ->]; auto.
Qed.

Lemma slot_eqb_refl a : slot_eqb a a = true.
Proof. now apply slot_eqb_eq. Qed.

Lemma slot_eqb_neq a b : slot_eqb a b = false <-> a <> b.
Proof. rewrite <- slot_eqb_eq. destruct (slot_eqb a b); split; congruence. Qed.
