(** Facts about packed words. *)
From Coq Require Import ZArith NArith Bool List Lia ZifyN.
From Verif Require Import Words Slot Mapper MapperFacts ReturnCode MapSpec LinSpec Base Migrate Ptr.
Open Scope N_scope.

Ltac Zify.zify_post_hook ::= Z.div_mod_to_equations.

Lemma fp_lt m h : fingerprint m h < 2 ^ fp_bits m.
Proof.
  unfold fingerprint. rewrite land_pred_pow2. apply N.mod_lt. destruct m; discriminate.
Qed.

Ltac bits := unfold pack, w_ptr, w_fp, w_mark, low_bits, fp_bits in *; cbv beta iota in *;
  change (2 ^ 16) with 65536 in *; change (2 ^ 15) with 32768 in *;
  change (2 ^ 48) with 281474976710656 in *; change (2 ^ 0) with 1 in *;
  change (2 ^ 1) with 2 in *; change (2 ^ 64) with 18446744073709551616 in *;
  change (2 ^ 47) with 140737488355328 in *.

Lemma pack_val m mk fp p : fp < 2 ^ fp_bits m -> p < 2 ^ 48 ->
  pack m mk fp p = (if m && mk then 1 else 0) + 2 ^ low_bits m * fp + 2 ^ 16 * p.
Proof. intros A B. unfold pack. now rewrite !N.mod_small by assumption. Qed.

Lemma pack_ptr m mk fp p : fp < 2 ^ fp_bits m -> p < 2 ^ 48 -> w_ptr (pack m mk fp p) = p.
Proof.
  intros A B. rewrite pack_val by assumption. destruct m, mk; cbn [andb]; bits; lia.
Qed.

Lemma pack_fp m mk fp p : fp < 2 ^ fp_bits m -> p < 2 ^ 48 -> w_fp m (pack m mk fp p) = fp.
Proof.
  intros A B. rewrite pack_val by assumption. destruct m, mk; cbn [andb]; bits; lia.
Qed.

Lemma odd_mod w : N.odd w = negb (w mod 2 =? 0).
Proof.
  assert (w mod 2 < 2) by (apply N.mod_lt; discriminate).
  pose proof (N.bit0_eqb w) as E. rewrite N.bit0_odd in E. rewrite E.
  destruct (N.eqb_spec (w mod 2) 1) as [E1|]; destruct (N.eqb_spec (w mod 2) 0) as [E0|]; auto; lia.
Qed.

Lemma pack_mark m mk fp p : fp < 2 ^ fp_bits m -> p < 2 ^ 48 -> w_mark m (pack m mk fp p) = m && mk.
Proof.
  intros A B. rewrite pack_val by assumption. unfold w_mark. rewrite odd_mod.
  destruct m, mk; cbn [andb negb]; auto; bits.
  - destruct (N.eqb_spec ((1 + 2 * fp + 65536 * p) mod 2) 0); auto. exfalso. lia.
  - destruct (N.eqb_spec ((0 + 2 * fp + 65536 * p) mod 2) 0); auto. exfalso. lia.
Qed.

Lemma pack_lt m mk fp p : fp < 2 ^ fp_bits m -> p < 2 ^ 48 -> pack m mk fp p < 2 ^ 64.
Proof.
  intros A B. rewrite pack_val by assumption. destruct m, mk; cbn [andb]; bits; lia.
Qed.

Lemma ptr_lt w : w_ptr w < 2 ^ 48.
Proof. apply N.mod_lt. discriminate. Qed.
Lemma wfp_lt m w : w_fp m w < 2 ^ fp_bits m.
Proof. apply N.mod_lt. destruct m; discriminate. Qed.

(** A word is its three parts. *)
Lemma pack_eta m w : w < 2 ^ 64 -> pack m (w_mark m w) (w_fp m w) (w_ptr w) = w.
Proof.
  intros L. rewrite pack_val by (apply wfp_lt || apply ptr_lt).
  unfold w_mark. rewrite odd_mod.
  destruct m; cbn [andb].
  - destruct (N.eqb_spec (w mod 2) 0); cbn [negb]; bits; lia.
  - bits; lia.
Qed.

Lemma word_eq m w w' : w < 2 ^ 64 -> w' < 2 ^ 64 ->
  w_mark m w = w_mark m w' -> w_fp m w = w_fp m w' -> w_ptr w = w_ptr w' -> w = w'.
Proof.
  intros L L' A B C. rewrite <- (pack_eta m w L), <- (pack_eta m w' L'). congruence.
Qed.

Lemma lor1 w : N.lor w 1 = if N.odd w then w else w + 1.
Proof.
  apply N.bits_inj. intros n. rewrite N.lor_spec.
  destruct (N.eq_dec n 0) as [->|NZ].
  - rewrite !N.bit0_odd. destruct (N.odd w) eqn:E.
    + now rewrite E.
    + rewrite N.odd_add, E. reflexivity.
  - replace (N.testbit 1 n) with false by (destruct n; [lia|reflexivity]).
    rewrite orb_false_r. destruct (N.odd w) eqn:E; auto.
    rewrite odd_mod in E. destruct (N.eqb_spec (w mod 2) 0) as [E0|]; [|discriminate].
    replace n with (N.succ (N.pred n)) by lia.
    rewrite !N.testbit_succ_r_div2 by lia. f_equal. rewrite !N.div2_div. lia.
Qed.

Lemma set_mark_pack fp p mk : fp < 2 ^ 15 -> p < 2 ^ 48 ->
  w_set_mark (pack true mk fp p) = pack true true fp p.
Proof.
  intros A B. pose proof (pack_mark true mk fp p A B) as M. unfold w_mark in M. cbn [andb] in M.
  unfold w_set_mark. rewrite lor1, M.
  rewrite !pack_val by assumption. destruct mk; cbn [andb]; bits; lia.
Qed.

Lemma set_mark_word w : w < 2 ^ 64 -> w_set_mark w < 2 ^ 64 /\
  w_ptr (w_set_mark w) = w_ptr w /\ w_fp true (w_set_mark w) = w_fp true w /\
  w_mark true (w_set_mark w) = true.
Proof.
  intros L. pose proof (wfp_lt true w) as A. pose proof (ptr_lt w) as B.
  assert (E : w_set_mark w = pack true true (w_fp true w) (w_ptr w)).
  { rewrite <- (pack_eta true w L) at 1. now apply set_mark_pack. }
  rewrite E.
  repeat split; [now apply pack_lt|now apply pack_ptr|now apply pack_fp|now apply pack_mark].
Qed.

(** Slots built by calls. *)
Lemma bare_word m a : 0 < a < 2 ^ 48 ->
  slot_bare m a < 2 ^ 64 /\ w_ptr (slot_bare m a) = a /\ w_fp m (slot_bare m a) = 0 /\
  w_mark m (slot_bare m a) = false.
Proof.
  intros [A B]. assert (P : 0 < 2 ^ fp_bits m) by (destruct m; reflexivity). unfold slot_bare.
  repeat split; [now apply pack_lt|now apply pack_ptr|now apply pack_fp|].
  rewrite pack_mark by assumption. apply andb_false_r.
Qed.
Lemma hash_word m a h : 0 < a < 2 ^ 48 ->
  slot_hash m a h < 2 ^ 64 /\ w_ptr (slot_hash m a h) = a /\
  w_fp m (slot_hash m a h) = fingerprint m h /\ w_mark m (slot_hash m a h) = false.
Proof.
  intros [A B]. pose proof (fp_lt m h) as P. unfold slot_hash.
  repeat split; [now apply pack_lt|now apply pack_ptr|now apply pack_fp|].
  rewrite pack_mark by assumption. apply andb_false_r.
Qed.
Lemma set_fp_word m w h : w_mark m w = false ->
  set_fingerprint m w h < 2 ^ 64 /\ w_ptr (set_fingerprint m w h) = w_ptr w /\
  w_fp m (set_fingerprint m w h) = fingerprint m h /\ w_mark m (set_fingerprint m w h) = false.
Proof.
  intros M. pose proof (fp_lt m h) as P. pose proof (ptr_lt w) as B.
  unfold set_fingerprint. rewrite M.
  repeat split; [now apply pack_lt|now apply pack_ptr|now apply pack_fp|].
  rewrite pack_mark by assumption. apply andb_false_r.
Qed.

(** Words without an element. *)
Lemma no_ptr m w : w < 2 ^ 64 -> w_fp m w = 0 -> w_ptr w = 0 -> w = if w_mark m w then 1 else 0.
Proof.
  intros L F P. rewrite <- (pack_eta m w L) at 1. rewrite F, P, pack_val.
  - unfold w_mark. destruct m; cbn [andb]; [|reflexivity]. destruct (N.odd w); reflexivity.
  - destruct m; reflexivity.
  - reflexivity.
Qed.

Lemma empty_iff m w : w < 2 ^ 64 -> (w_ptr w = 0 -> w_fp m w = 0) ->
  w_empty m w = (w_ptr w =? 0).
Proof.
  intros L F. unfold w_empty. destruct m; auto.
  destruct (N.eqb_spec (w_ptr w) 0) as [E|NE].
  - rewrite (no_ptr false w L (F E) E). reflexivity.
  - destruct (N.eqb_spec w 0) as [->|]; auto. elim NE. reflexivity.
Qed.
