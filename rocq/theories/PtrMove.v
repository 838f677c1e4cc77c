(** Moving a table of pointer cells is moving a table of in-place cells whose
    keys are the words (pointer and fingerprint). *)
From Coq Require Import NArith Bool List Lia.
From Verif Require Import Words Slot SlotFacts Mapper MapperFacts ReturnCode MapSpec LinSpec Base
  BaseInv TableSpec Migrate GrowSpec MigrateGeo MigrateSys GrowFacts Ptr PtrSpec PtrWords PtrInv.
Import ListNotations.
Open Scope N_scope.

Definition psc (m : bool) : scfg := SCfg 66 m true.

(** The word as the key of an in-place cell. *)
Definition wkey (m : bool) (w : N) : N := if m then w / 2 else w.
Definition img (m : bool) (w : N) : slot :=
  Slot (if m then w / 2 + (w mod 2) * 2 ^ 65 else w) 0.

(** The hash of a word: that of the key behind the pointer. *)
Definition whash (m : bool) (hash : N -> N) (hp : heap) (x : N) : N :=
  match hp ((x / 2 ^ fp_bits m) mod 2 ^ 48) with Some (k, _) => hash k | None => 0 end.

(** Words that occur in tables that grow. *)
Definition wok (m : bool) (hp : heap) (w : N) : Prop :=
  w < 2 ^ 64 /\ (w_ptr w = 0 -> w_fp m w = 0) /\ w_ptr w <> 2 ^ 32 /\
  (w_ptr w <> 0 -> hkey hp (w_ptr w) <> None).

Lemma wkey_ptr m w : (wkey m w / 2 ^ fp_bits m) mod 2 ^ 48 = w_ptr w.
Proof.
  unfold w_ptr. f_equal. destruct m; cbn [wkey fp_bits].
  - rewrite N.div_div by discriminate. reflexivity.
  - reflexivity.
Qed.

Lemma wkey_lt m w : w < 2 ^ 64 -> wkey m w < 2 ^ 64.
Proof.
  intros L. unfold wkey. destruct m; auto.
  eapply N.le_lt_trans; [|exact L]. apply N.div_le_upper_bound; lia.
Qed.

Lemma wkey_zero m w : w < 2 ^ 64 -> (w_ptr w = 0 -> w_fp m w = 0) -> (wkey m w = 0 <-> w_ptr w = 0).
Proof.
  intros L F. split.
  - intros Z. rewrite <- (wkey_ptr m w), Z. destruct m; reflexivity.
  - intros Z. rewrite (no_ptr m w L (F Z) Z). destruct (w_mark m w) eqn:M; destruct m; try reflexivity.
    discriminate.
Qed.

Lemma img_zero m : img m 0 = empty_slot.
Proof. destruct m; reflexivity. Qed.

Lemma img_key m w : w < 2 ^ 64 -> get_key (psc m) (img m w) = wkey m w.
Proof.
  intros L. unfold get_key, img, wkey, psc, bmask, mbit. cbn [sc_mark sc_w skey]. destruct m; auto.
  change (66 - 1) with 65. rewrite land_pred_pow2.
  change (2 ^ 65) with 36893488147419103232. change (2 ^ 64) with 18446744073709551616 in L.
  rewrite N.mod_add by discriminate. apply N.mod_small.
  assert (w / 2 <= w) by (apply N.div_le_upper_bound; lia). lia.
Qed.

Lemma img_empty m w : w < 2 ^ 64 -> (w_ptr w = 0 -> w_fp m w = 0) ->
  is_empty (psc m) (img m w) = w_empty m w.
Proof.
  intros L F. rewrite (empty_iff m w L F).
  assert (E : N.land (skey (img m w)) (bmask (psc m)) = wkey m w).
  { pose proof (img_key m w L) as K. unfold get_key in K. destruct m; auto.
    unfold img, wkey, psc, bmask, mbit. cbn [sc_mark sc_w skey]. change (66 - 1) with 65.
    rewrite land_pred_pow2. apply N.mod_small. eapply N.lt_trans; [exact L|reflexivity]. }
  unfold is_empty. rewrite E.
  destruct (N.eqb_spec (w_ptr w) 0) as [Z|NZ].
  - apply (wkey_zero m w L F) in Z. now rewrite Z.
  - destruct (N.eqb_spec (wkey m w) 0) as [Z|]; auto. now apply (wkey_zero m w L F) in Z.
Qed.

Lemma img_deleted m w : w < 2 ^ 64 -> is_deleted (psc m) (img m w) = false.
Proof.
  intros L. unfold is_deleted, img, psc, ddummy, mbit. cbn [sc_w skey]. change (66 - 1) with 65.
  apply N.eqb_neq. change (2 ^ 65) with 36893488147419103232. change (2 ^ 64) with 18446744073709551616 in L.
  destruct m; [|lia].
  assert (w / 2 <= w) by (apply N.div_le_upper_bound; lia).
  assert (w mod 2 < 2) by (apply N.mod_lt; discriminate).
  intros E. nia.
Qed.

Lemma word_deleted w : w_ptr w <> 2 ^ 32 -> w_deleted w = false.
Proof.
  intros N'. unfold w_deleted, deleted_word. apply N.eqb_neq. intros ->. apply N'. reflexivity.
Qed.

Lemma img_inj m w w' : w < 2 ^ 64 -> w' < 2 ^ 64 -> img m w = img m w' -> w = w'.
Proof.
  intros L L' E. injection E as E. destruct m; auto.
  change (2 ^ 65) with 36893488147419103232 in E. change (2 ^ 64) with 18446744073709551616 in L, L'.
  pose proof (N.div_mod w 2 ltac:(discriminate)) as D. pose proof (N.div_mod w' 2 ltac:(discriminate)) as D'.
  assert (w mod 2 < 2) by (apply N.mod_lt; discriminate).
  assert (w' mod 2 < 2) by (apply N.mod_lt; discriminate).
  set (q := w / 2) in *. set (r := w mod 2) in *. set (q' := w' / 2) in *. set (r' := w' mod 2) in *.
  clearbody q r q' r'. assert (r = r') by nia. nia.
Qed.

Lemma img_eqb m w w' : w < 2 ^ 64 -> w' < 2 ^ 64 -> slot_eqb (img m w) (img m w') = (w =? w').
Proof.
  intros L L'. destruct (N.eqb_spec w w') as [->|NE].
  - unfold slot_eqb. now rewrite !N.eqb_refl.
  - destruct (slot_eqb (img m w) (img m w')) eqn:E; auto. elim NE.
    apply (img_inj m); auto. unfold slot_eqb in E. apply andb_prop in E. destruct E as [E _].
    apply N.eqb_eq in E. unfold img in *. cbn [skey] in E. now rewrite E.
Qed.

Lemma img_mark w : w < 2 ^ 64 -> mark_slot (psc true) (img true w) = img true (w_set_mark w).
Proof.
  intros L. unfold mark_slot, img, psc, mbit, w_set_mark. cbn [sc_w skey sdata]. change (66 - 1) with 65.
  f_equal. rewrite lor1, odd_mod.
  assert (w mod 2 < 2) by (apply N.mod_lt; discriminate).
  assert (Q : w / 2 < 2 ^ 65).
  { eapply N.le_lt_trans; [|eapply N.lt_trans; [exact L|reflexivity]]. apply N.div_le_upper_bound; lia. }
  assert (LOR : forall x, x < 2 ^ 65 -> N.lor x (2 ^ 65) = x + 2 ^ 65).
  { intros x Lx. symmetry. apply N.add_nocarry_lxor in Lx || idtac.
    rewrite <- N.lxor_lor.
    - apply N.add_nocarry_lxor. apply N.bits_inj. intros n. rewrite N.land_spec, N.bits_0.
      destruct (N.eq_dec n 65) as [->|NE].
      + rewrite N.bits_above_log2; auto. destruct (N.eq_dec x 0) as [->|NZ]; [reflexivity|].
        apply N.log2_lt_pow2; lia.
      + rewrite N.pow2_bits_false by auto. apply andb_false_r.
    - apply N.bits_inj. intros n. rewrite N.land_spec, N.bits_0.
      destruct (N.eq_dec n 65) as [->|NE].
      + rewrite N.bits_above_log2; auto. destruct (N.eq_dec x 0) as [->|NZ]; [reflexivity|].
        apply N.log2_lt_pow2; lia.
      + rewrite N.pow2_bits_false by auto. apply andb_false_r. }
  destruct (N.eqb_spec (w mod 2) 0) as [E|NE]; cbn [negb].
  - rewrite E, N.mul_0_l, N.add_0_r, LOR by exact Q.
    replace ((w + 1) / 2) with (w / 2) by lia. replace ((w + 1) mod 2) with 1 by lia. lia.
  - replace (w mod 2) with 1 by lia. rewrite N.mul_1_l.
    rewrite <- (LOR (w / 2) Q). rewrite <- N.lor_assoc, N.lor_diag. reflexivity.
Qed.

(** A word and its image under the operations of a helper. *)
Lemma img_atomic_mark m hp cell curr ok cell' curr' :
  wok m hp cell -> wok m hp curr -> w_atomic_mark m cell curr = (ok, cell', curr') ->
  atomic_mark (psc m) (img m cell) (img m curr) = (ok, img m cell', img m curr') /\
  wok m hp cell' /\ wok m hp curr'.
Proof.
  intros WC WU. unfold w_atomic_mark, atomic_mark, psc. cbn [sc_mark]. destruct m.
  - unfold w_cas, cas. cbn [sc_upd]. destruct WC as (L1 & X1), WU as (L2 & X2).
    rewrite (img_eqb true) by assumption.
    destruct (N.eqb_spec cell curr) as [->|NE]; intros [= <- <- <-].
    + split; [now rewrite <- img_mark by assumption|]. split; [|split; auto].
      destruct (set_mark_word curr L2) as (L3 & P & F & _). unfold wok. rewrite P, F. auto.
    + split; auto. split; split; auto.
  - intros [= <- <- <-]. auto.
Qed.

Section Sim.
Context (c : pcfg) (ms mt : mapper) (B : N) (hp : heap).
Notation mk := (pmk c).
Notation mc := (pmc c).
Notation tc := (TCfg (SCfg 64 (pmk c) true) (pmc c) (phash c)).
Notation ic := (TCfg (psc (pmk c)) (pmc c) (whash (pmk c) (phash c) hp)).

Definition mr (t : wmem) (t' : mem) : Prop :=
  forall p, match t p with
            | None => t' p = None
            | Some w => t' p = Some (img mk w) /\ wok mk hp w
            end.

Definition ipc (pc : hpc) : hpc :=
  match pc with
  | H0Mark e i s => H0Mark e i (img mk (skey s))
  | H1Mark e i s => H1Mark e i (img mk (skey s))
  | H2Mark i s => H2Mark i (img mk (skey s))
  | HIns ph i s j => HIns ph i (img mk (skey s)) j
  | HSet ph i s j => HSet ph i (img mk (skey s)) j
  | pc => pc
  end.
Definition pcok (pc : hpc) : Prop :=
  match pc with
  | H0Mark _ _ s | H1Mark _ _ s | H2Mark _ s | HIns _ _ s _ | HSet _ _ s _ => wok mk hp (skey s)
  | _ => True
  end.

Lemma mr_upd t t' p w : mr t t' -> wok mk hp w -> mr (fupd t p (Some w)) (fupd t' p (Some (img mk w))).
Proof.
  intros M W q. unfold fupd. destruct (q =? p); [auto|apply M].
Qed.

Lemma wok_zero : wok mk hp 0.
Proof. repeat split; try discriminate; try (intros; now destruct mk). Qed.

Lemma mr_rd m t t' p : mr t t' ->
  match prd c m t p with
  | None => rd ic m t' p = None
  | Some w => rd ic m t' p = Some (img mk w) /\ wok mk hp w
  end.
Proof.
  intros M. unfold prd, rd. cbn [tmc]. destruct (p <? total_slots mc m); [apply M|reflexivity].
Qed.

Lemma plain_start2 i : pcok (start2 tc ms mt i).
Proof. unfold start2. cbn [tmc]. destruct (init_one mc mt (remap mc ms i)); exact Logic.I. Qed.
Lemma plain_next1 e i : pcok (next1 tc ms mt e i).
Proof. unfold next1. destruct (i <? e); [exact Logic.I|apply plain_start2]. Qed.
Lemma plain_after0 e i : pcok (after0 tc ms mt e i).
Proof.
  unfold after0. cbn [tmc]. destruct (i <? e); [|exact Logic.I].
  destruct (init_range mc mt i e); [apply plain_next1|exact Logic.I].
Qed.
Lemma plain_enter s e : pcok (enter tc ms mt s e).
Proof.
  unfold enter. cbn [tmc]. destruct (cprob mc || (0 <? s)); [|apply plain_after0].
  destruct (s <? e); exact Logic.I.
Qed.

(** The two configurations agree on program points without words. *)
Lemma ipc_start2 i : ipc (start2 tc ms mt i) = start2 ic ms mt i.
Proof. unfold start2. cbn [tmc]. destruct (init_one mc mt (remap mc ms i)); reflexivity. Qed.
Lemma ipc_next1 e i : ipc (next1 tc ms mt e i) = next1 ic ms mt e i.
Proof. unfold next1. destruct (i <? e); [reflexivity|apply ipc_start2]. Qed.
Lemma ipc_after0 e i : ipc (after0 tc ms mt e i) = after0 ic ms mt e i.
Proof.
  unfold after0. cbn [tmc]. destruct (i <? e); [|reflexivity].
  destruct (init_range mc mt i e); [apply ipc_next1|reflexivity].
Qed.
Lemma ipc_enter s e : ipc (enter tc ms mt s e) = enter ic ms mt s e.
Proof.
  unfold enter. cbn [tmc]. destruct (cprob mc || (0 <? s)); [|apply ipc_after0].
  destruct (s <? e); reflexivity.
Qed.

Lemma ins_start_sim ph i w : wok mk hp w -> w_empty mk w = false ->
  ipc (p_ins_start c mt hp ph i w) = ins_start ic mt ph i (img mk w) /\
  pcok (p_ins_start c mt hp ph i w).
Proof.
  intros (L & F & D & K) E. rewrite (empty_iff mk w L F) in E. apply N.eqb_neq in E.
  specialize (K E). apply hkey_none in K. unfold p_ins_start, ins_start.
  destruct (hp (w_ptr w)) as [[k d]|] eqn:Hk; [|contradiction]. cbn [ipc pcok skey tsc].
  split.
  - f_equal. unfold home, phome, hashk, phk. cbn [tmc thash tsc]. rewrite img_key by exact L.
    unfold whash. rewrite wkey_ptr, Hk. reflexivity.
  - unfold wok. sp; auto. intros _. apply hkey_none. congruence.
Qed.

Lemma phstep_sim s t k pc s1 t1 k1 pc1 s' t' :
  phstep c ms mt B hp s t k pc = (s1, t1, k1, pc1) ->
  mr s s' -> mr t t' -> pcok pc ->
  exists s1' t1', hstep ic ms mt B s' t' k (ipc pc) = (s1', t1', k1, ipc pc1) /\
    mr s1 s1' /\ mr t1 t1' /\ pcok pc1.
Proof.
  intros ST MS MT PK.
  destruct pc as [| |e i|e i cu|e i l|e i|e i cu|i l|i|i cu|ph i sl j|ph i sl j|];
    cbn [phstep hstep ipc] in *; cbn [tsc tmc] in *.
  - injection ST as <- <- <- <-. exists s', t'. sp; auto.
    + f_equal. destruct (k <? addressable_slots mc ms); [symmetry; apply ipc_enter|reflexivity].
    + destruct (k <? addressable_slots mc ms); [apply plain_enter|exact Logic.I].
  - injection ST as <- <- <- <-. exists s', t'. auto.
  - pose proof (mr_rd ms s s' i MS) as R. destruct (prd c ms s i) as [curr|]; injection ST as <- <- <- <-;
      exists s', t'.
    + destruct R as [R W]. rewrite R. rewrite img_empty by apply W.
      destruct (w_empty mk curr); [sp; auto|]. destruct (i + 1 <? e); sp; auto; cbn; auto.
    + rewrite R. sp; auto; cbn; auto.
  - pose proof (mr_rd ms s s' i MS) as R. destruct (prd c ms s i) as [cell|].
    + destruct R as [R W]. rewrite R.
      destruct (w_atomic_mark mk cell (skey cu)) as [[ok cell'] curr'] eqn:AM.
      destruct (img_atomic_mark mk hp _ _ _ _ _ W PK AM) as (-> & W1 & W2).
      injection ST as <- <- <- <-. eexists _, t'. sp; [| |auto|].
      * f_equal. destruct ok; [symmetry; apply ipc_after0|reflexivity].
      * now apply mr_upd.
      * destruct ok; [apply plain_after0|exact Logic.I].
    + rewrite R. injection ST as <- <- <- <-. exists s', t'. sp; auto; exact Logic.I.
  - destruct l as [|p l].
    + injection ST as <- <- <- <-. exists s', t'. sp; auto; [f_equal; symmetry; apply ipc_next1|apply plain_next1].
    + destruct (p <? total_slots mc mt).
      * injection ST as <- <- <- <-. exists s', (fupd t' p (Some empty_slot)). sp; auto.
        -- f_equal. destruct l; [symmetry; apply ipc_next1|reflexivity].
        -- rewrite <- (img_zero mk). apply mr_upd; auto. apply wok_zero.
        -- destruct l; [apply plain_next1|exact Logic.I].
      * injection ST as <- <- <- <-. exists s', t'. sp; auto; exact Logic.I.
  - pose proof (mr_rd ms s s' i MS) as R. destruct (prd c ms s i) as [curr|]; injection ST as <- <- <- <-;
      exists s', t'.
    + destruct R as [R W]. rewrite R. sp; auto.
    + rewrite R. sp; auto; exact Logic.I.
  - pose proof (mr_rd ms s s' i MS) as R. destruct (prd c ms s i) as [cell|].
    + destruct R as [R W]. rewrite R.
      destruct (w_atomic_mark mk cell (skey cu)) as [[ok cell'] curr'] eqn:AM.
      destruct (img_atomic_mark mk hp _ _ _ _ _ W PK AM) as (-> & W1 & W2).
      rewrite img_empty by apply PK. rewrite img_deleted by apply PK.
      rewrite word_deleted in ST by apply PK. rewrite andb_true_r in *.
      injection ST as <- <- <- <-. eexists _, t'.
      assert (X : (if ok then if negb (w_empty mk (skey cu)) && negb false
                     then ins_start ic mt (Some e) (i + 1) (img mk (skey cu))
                     else next1 ic ms mt e (i + 1) else H1Load e i) =
              ipc (if ok then if negb (w_empty mk (skey cu)) && negb false
                     then p_ins_start c mt hp (Some e) (i + 1) (skey cu)
                     else next1 tc ms mt e (i + 1) else H1Load e i) /\
              pcok (if ok then if negb (w_empty mk (skey cu)) && negb false
                     then p_ins_start c mt hp (Some e) (i + 1) (skey cu)
                     else next1 tc ms mt e (i + 1) else H1Load e i)).
      { destruct ok; [|cbn; auto]. destruct (w_empty mk (skey cu)) eqn:EM; cbn [negb andb].
        - split; [symmetry; apply ipc_next1|apply plain_next1].
        - destruct (ins_start_sim (Some e) (i + 1) (skey cu) PK EM) as [-> X]. auto. }
      cbn [negb andb] in X. rewrite !andb_true_r in X. destruct X as [X1 X2]. sp; [| |auto|].
      * f_equal. exact X1.
      * now apply mr_upd.
      * exact X2.
    + rewrite R. injection ST as <- <- <- <-. exists s', t'. sp; auto; exact Logic.I.
  - destruct l as [|p l].
    + injection ST as <- <- <- <-. exists s', t'. sp; auto; exact Logic.I.
    + destruct (p <? total_slots mc mt).
      * injection ST as <- <- <- <-. exists s', (fupd t' p (Some empty_slot)). sp; auto.
        -- f_equal. destruct l; reflexivity.
        -- rewrite <- (img_zero mk). apply mr_upd; auto. apply wok_zero.
        -- destruct l; exact Logic.I.
      * injection ST as <- <- <- <-. exists s', t'. sp; auto; exact Logic.I.
  - pose proof (mr_rd ms s s' (remap mc ms i) MS) as R.
    destruct (prd c ms s (remap mc ms i)) as [curr|]; injection ST as <- <- <- <-; exists s', t'.
    + destruct R as [R W]. rewrite R. sp; auto.
    + rewrite R. sp; auto; exact Logic.I.
  - pose proof (mr_rd ms s s' (remap mc ms i) MS) as R. destruct (prd c ms s (remap mc ms i)) as [cell|].
    + destruct R as [R W]. rewrite R.
      destruct (w_atomic_mark mk cell (skey cu)) as [[ok cell'] curr'] eqn:AM.
      destruct (img_atomic_mark mk hp _ _ _ _ _ W PK AM) as (-> & W1 & W2).
      rewrite img_empty by apply W2. rewrite img_deleted by apply W2.
      rewrite word_deleted in ST by apply W2.
      injection ST as <- <- <- <-. eexists _, t'.
      assert (X : (if w_empty mk curr' then HClaim
                   else ins_start ic mt None (if ok then i + 1 else i) (img mk curr')) =
              ipc (if w_empty mk curr' then HClaim
                   else p_ins_start c mt hp None (if ok then i + 1 else i) curr') /\
              pcok (if w_empty mk curr' then HClaim
                   else p_ins_start c mt hp None (if ok then i + 1 else i) curr')).
      { destruct (w_empty mk curr') eqn:EM; [cbn; auto|].
        destruct (ins_start_sim None (if ok then i + 1 else i) curr' W2 EM) as [-> X]. auto. }
      destruct X as [X1 X2]. sp; [| |auto|].
      * f_equal. exact X1.
      * now apply mr_upd.
      * exact X2.
    + rewrite R. injection ST as <- <- <- <-. exists s', t'. sp; auto; exact Logic.I.
  - pose proof (mr_rd mt t t' (remap mc mt j) MT) as R.
    destruct (prd c mt t (remap mc mt j)) as [curr|]; injection ST as <- <- <- <-; exists s', t'.
    + destruct R as [R W]. rewrite R. rewrite img_empty by apply W.
      destruct (w_empty mk curr); sp; auto.
    + rewrite R. sp; auto; exact Logic.I.
  - destruct (remap mc mt j <? total_slots mc mt).
    + injection ST as <- <- <- <-. exists s', (fupd t' (remap mc mt j) (Some (img mk (skey sl)))). sp; auto.
      * f_equal. unfold after_insert. destruct ph; symmetry; [apply ipc_next1|apply ipc_start2].
      * now apply mr_upd.
      * unfold after_insert. destruct ph; [apply plain_next1|apply plain_start2].
    + injection ST as <- <- <- <-. exists s', t'. sp; auto; exact Logic.I.
  - injection ST as <- <- <- <-. exists s', t'. auto.
Qed.

(** Whole migrations. *)
Definition sr (x : pmsys) (y : msys) : Prop :=
  mr (pmsrc x) (msrc y) /\ mr (pmtgt x) (mtgt y) /\ mctr y = pmctr x /\
  (forall tid, match pmhlp x tid with
               | None => mhlp y tid = None
               | Some pc => mhlp y tid = Some (ipc pc) /\ pcok pc
               end) /\
  (forall tid, mthr y tid = None).

Lemma pmsteps_sim x x' y :
  pmsteps c ms mt B hp x x' -> sr x y ->
  exists y', lts_steps (msys_step ic ms mt B nobody) y [] y' /\ sr x' y'.
Proof.
  intros ST. revert y. induction ST as [x|x x1 x2 S ST IH]; intros y R.
  - exists y. split; [constructor|auto].
  - assert (X : exists y1, msys_step ic ms mt B nobody y None y1 /\ sr x1 y1).
    { destruct R as (R1 & R2 & R3 & R4 & R5).
      destruct y as [ys yt yk yh yth]. cbn in *. subst yk.
      destruct S as [s t k h tid E|s t k h tid pc s' t' k' pc' E STP]; cbn in *.
      - eexists. split; [apply (m_join ic ms mt B nobody ys yt k yh yth tid)|].
        + specialize (R4 tid). destruct E as [E|E]; rewrite E in R4; [left; exact R4|right].
          destruct R4 as [R4 _]. exact R4.
        + unfold sr. cbn. sp; auto. intros u. unfold fupd. destruct (u =? tid); [cbn; auto|apply R4].
      - pose proof (R4 tid) as Rt. rewrite E in Rt. destruct Rt as [Rt1 Rt2].
        destruct (phstep_sim _ _ _ _ _ _ _ _ ys yt STP R1 R2 Rt2) as (s1 & t1 & HS & M1 & M2 & PK).
        eexists. split; [eapply (m_help ic ms mt B nobody); eauto|].
        unfold sr. cbn. sp; auto. intros u. unfold fupd. destruct (u =? tid); [auto|apply R4]. }
    destruct X as (y1 & S1 & R1). destruct (IH y1 R1) as (y2 & S2 & R2).
    exists y2. split; auto. eapply ls_tau; eauto.
Qed.

Lemma ipc_end pc : ipc pc = HEnd <-> pc = HEnd.
Proof. destruct pc; cbn; split; congruence. Qed.

Lemma sr_finished x y : sr x y -> pmfinished x -> finished y.
Proof.
  intros (_ & _ & _ & R & _) [[tid E] F]. split.
  - exists tid. specialize (R tid). rewrite E in R. apply R.
  - intros u pc Eu. specialize (R u). destruct (pmhlp x u) as [pc'|] eqn:X.
    + destruct R as [R _]. rewrite (F u pc' X) in R. cbn in R. congruence.
    + congruence.
Qed.

End Sim.
