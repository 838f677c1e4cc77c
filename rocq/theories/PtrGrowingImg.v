(** The cells of a growing table of pointer cells as in-place cells: the key
    behind the pointer is the key, the pointer the data. *)
From Coq Require Import NArith Bool List Lia.
From Verif Require Import Words Slot SlotFacts Mapper MapperFacts ReturnCode MapSpec LinSpec Base
  BaseInv BaseLin Migrate Ptr PtrSpec PtrWords PtrGrowing.
Import ListNotations.
Open Scope N_scope.

Section Img.
(** Keys are below [K]; a key [k] is stored as [k + 1]. *)
Context (c : pcfg) (K : N).
Notation mk := (pmk c).
Notation mc := (pmc c).

Definition asc : scfg := SCfg (N.log2 (K + 2) + 2) (pmk c) true.
Definition acfg : tcfg := TCfg asc (pmc c) (fun k => phash c (k - 1)).
Notation hc := (TCfg (SCfg 64 (pmk c) true) (pmc c) (phash c)).

Lemma asc_wf : wf_scfg asc.
Proof. unfold wf_scfg, asc. cbn. lia. Qed.

Lemma asc_bound : K + 2 < 2 ^ (sc_w asc - 1).
Proof.
  unfold asc. cbn [sc_w]. replace (N.log2 (K + 2) + 2 - 1) with (N.succ (N.log2 (K + 2))) by lia.
  apply N.log2_spec. lia.
Qed.

Lemma asc_key k : k < K -> valid_key asc (k + 1).
Proof.
  intros L. pose proof asc_bound as Bd. unfold valid_key.
  assert (P : 2 ^ (sc_w asc - 1) <= 2 ^ sc_w asc) by (apply N.pow_le_mono_r; lia).
  rewrite N.mod_small by lia. repeat split; lia.
Qed.

(** [kp]: the addresses of the elements in the table, with their keys. *)
Definition wcont (kp : N -> option N) (w : N) : content :=
  if w_ptr w =? 0 then CEmpty
  else match kp (w_ptr w) with Some k => CLive (k + 1) (w_ptr w) | None => CEmpty end.
Definition aimg (kp : N -> option N) (w : N) : slot := enc asc (wcont kp w) (w_mark mk w).

Definition wgood (kp : N -> option N) (w : N) : Prop :=
  w < 2 ^ 64 /\ (w_ptr w = 0 -> w_fp mk w = 0) /\ w_ptr w <> 2 ^ 32 /\
  (w_ptr w <> 0 -> exists k, kp (w_ptr w) = Some k /\ k < K /\
     w_fp mk w = fingerprint mk (phk c k)).

Definition hpok (kp : N -> option N) (hp : heap) : Prop :=
  forall a k, kp a = Some k -> exists d, hp a = Some (k, d).

Section Kp.
Context (kp : N -> option N).

Lemma wgood_ok w : wgood kp w -> ok_content asc (wcont kp w) (w_mark mk w).
Proof.
  intros (L & F & D & G). split.
  - unfold w_mark. intros H. apply andb_prop in H. apply H.
  - unfold wcont. destruct (N.eqb_spec (w_ptr w) 0) as [E|NE]; auto.
    destruct (G NE) as (k & -> & LK & _). now apply asc_key.
Qed.

Lemma aimg_empty w : wgood kp w -> is_empty asc (aimg kp w) = w_empty mk w.
Proof.
  intros G. unfold aimg. rewrite (enc_is_empty asc asc_wf) by now apply wgood_ok.
  destruct G as (L & F & D & G). rewrite (empty_iff mk w L F).
  unfold wcont. destruct (N.eqb_spec (w_ptr w) 0) as [E|NE]; auto.
  destruct (G NE) as (k & -> & _). reflexivity.
Qed.

Lemma aimg_marked w : wgood kp w -> is_marked asc (aimg kp w) = w_mark mk w.
Proof. intros G. apply (enc_is_marked asc asc_wf). now apply wgood_ok. Qed.

Lemma wcont_notomb w : wcont kp w <> CTomb.
Proof. unfold wcont. destruct (w_ptr w =? 0); [discriminate|]. destruct (kp (w_ptr w)); discriminate. Qed.

Lemma aimg_deleted w : wgood kp w -> is_deleted asc (aimg kp w) = false.
Proof.
  intros G. pose proof (wgood_ok w G) as O. unfold aimg. destruct (w_mark mk w).
  - now apply (enc_is_deleted_marked asc asc_wf).
  - rewrite (enc_is_deleted_unmarked asc asc_wf) by exact O. pose proof (wcont_notomb w). now destruct (wcont kp w).
Qed.

Lemma word_not_deleted w : w_ptr w <> 2 ^ 32 -> w_deleted w = false.
Proof.
  intros N'. unfold w_deleted, deleted_word. apply N.eqb_neq. intros ->. apply N'. reflexivity.
Qed.

Lemma aimg_data w : wgood kp w -> w_ptr w <> 0 -> sdata (aimg kp w) = w_ptr w.
Proof.
  intros (L & F & D & G) NZ. unfold aimg. rewrite sdata_enc. unfold wcont.
  destruct (N.eqb_spec (w_ptr w) 0); [contradiction|]. destruct (G NZ) as (k & -> & _). reflexivity.
Qed.

Lemma aimg_zero : aimg kp 0 = empty_slot.
Proof. unfold aimg, wcont, w_mark. destruct (pmk c); reflexivity. Qed.

Lemma wgood_zero : wgood kp 0.
Proof. repeat split; try discriminate; try (intros; now destruct mk); intros H; now elim H. Qed.

Lemma aimg_inj w w' : wgood kp w -> wgood kp w' -> aimg kp w = aimg kp w' -> w = w'.
Proof.
  intros G G' E. destruct (enc_inj asc asc_wf _ _ _ _ (wgood_ok w G) (wgood_ok w' G') E) as [EC EM].
  destruct G as (L & F & D & G), G' as (L' & F' & D' & G').
  unfold wcont in EC.
  destruct (N.eqb_spec (w_ptr w) 0) as [Z|NZ]; destruct (N.eqb_spec (w_ptr w') 0) as [Z'|NZ'].
  - pose proof (F Z). pose proof (F' Z'). apply (word_eq mk); auto; congruence.
  - destruct (G' NZ') as (k & Ek & _). rewrite Ek in EC. discriminate.
  - destruct (G NZ) as (k & Ek & _). rewrite Ek in EC. discriminate.
  - destruct (G NZ) as (k & Ek & _ & P). destruct (G' NZ') as (k' & Ek' & _ & P').
    rewrite Ek, Ek' in EC. injection EC as EK EP. assert (k = k') as <- by lia.
    apply (word_eq mk); auto. congruence.
Qed.

Lemma aimg_eqb w w' : wgood kp w -> wgood kp w' -> slot_eqb (aimg kp w) (aimg kp w') = (w =? w').
Proof.
  intros G G'. destruct (N.eqb_spec w w') as [->|NE].
  - apply slot_eqb_refl.
  - apply slot_eqb_neq. intros E. apply NE. now apply aimg_inj.
Qed.

Lemma set_mark_good w : mk = true -> wgood kp w ->
  wgood kp (w_set_mark w) /\ aimg kp (w_set_mark w) = mark_slot asc (aimg kp w).
Proof.
  intros M (L & F & D & G). destruct (set_mark_word w L) as (L1 & P1 & F1 & M1). split.
  - unfold wgood. rewrite P1. rewrite M in *. rewrite F1. auto.
  - unfold aimg. rewrite mark_enc. unfold wcont. rewrite P1. f_equal. rewrite M. exact M1.
Qed.

Lemma aimg_atomic_mark cell curr ok cell' curr' :
  wgood kp cell -> wgood kp curr -> w_atomic_mark mk cell curr = (ok, cell', curr') ->
  atomic_mark asc (aimg kp cell) (aimg kp curr) = (ok, aimg kp cell', aimg kp curr') /\
  wgood kp cell' /\ wgood kp curr'.
Proof.
  intros WC WU. unfold w_atomic_mark, atomic_mark. cbn [sc_mark asc]. destruct (pmk c) eqn:M.
  - unfold w_cas, cas. cbn [sc_upd asc]. rewrite aimg_eqb by assumption.
    destruct (N.eqb_spec cell curr) as [->|NE]; intros [= <- <- <-].
    + destruct (set_mark_good curr M WU) as [S1 S2]. split; [now rewrite S2|auto].
    + auto.
  - intros [= <- <- <-]. auto.
Qed.

Lemma aimg_key w k : wgood kp w -> w_ptr w <> 0 -> kp (w_ptr w) = Some k -> get_key asc (aimg kp w) = k + 1.
Proof.
  intros G NZ E. unfold aimg. rewrite (enc_get_key asc asc_wf) by now apply wgood_ok.
  unfold wcont. destruct (N.eqb_spec (w_ptr w) 0); [contradiction|]. now rewrite E.
Qed.

(** Comparing keys: through the fingerprint and the pointer, or in place. *)
Lemma aimg_compare hp w k : hpok kp hp -> wgood kp w -> k < K -> w_empty mk w = false ->
  exists b, w_compare mk hp w k (phk c k) = Some b /\ compare_key asc (aimg kp w) (k + 1) = b /\
    (b = true -> w_ptr w <> 0 /\ kp (w_ptr w) = Some k).
Proof.
  intros HP G LK EM. pose proof (wgood_ok w G) as O. pose proof G as G0. destruct G as (L & F & D & G).
  rewrite (empty_iff mk w L F) in EM. apply N.eqb_neq in EM.
  destruct (G EM) as (k' & Ek & LK' & FP). destruct (HP _ _ Ek) as [d Ed].
  exists (k' =? k). split; [|split].
  - unfold w_compare. rewrite Ed, FP. destruct (N.eqb_spec (w_ptr w) 0); [contradiction|].
    destruct (N.eqb_spec k' k) as [->|NE]; [now rewrite N.eqb_refl|].
    destruct (negb _); reflexivity.
  - unfold aimg. rewrite (enc_compare_key asc asc_wf) by (auto using asc_key).
    unfold wcont. destruct (N.eqb_spec (w_ptr w) 0); [contradiction|]. rewrite Ek.
    destruct (N.eqb_spec k' k) as [->|NE]; [apply N.eqb_refl|]. apply N.eqb_neq. lia.
  - intros E. apply N.eqb_eq in E. subst k'. auto.
Qed.

(** *** Memories *)

Definition amr (t : wmem) (t' : mem) : Prop :=
  forall p, match t p with
            | None => t' p = None
            | Some w => t' p = Some (aimg kp w) /\ wgood kp w
            end.

Lemma amr_upd t t' p w : amr t t' -> wgood kp w -> amr (fupd t p (Some w)) (fupd t' p (Some (aimg kp w))).
Proof. intros M W q. unfold fupd. destruct (q =? p); [auto|apply M]. Qed.

Lemma amr_rd m t t' p : amr t t' ->
  match prd c m t p with
  | None => rd acfg m t' p = None
  | Some w => rd acfg m t' p = Some (aimg kp w) /\ wgood kp w
  end.
Proof.
  intros M. unfold prd, rd. cbn [tmc acfg]. destruct (p <? total_slots mc m); [apply M|reflexivity].
Qed.

Lemma amr_fresh m : amr (pfresh c m) (fresh_mem acfg m).
Proof.
  intros p. unfold pfresh, fresh_mem. cbn [tmc acfg]. destruct (p <? total_slots mc m); auto.
  unfold empty_word. rewrite aimg_zero. split; [reflexivity|apply wgood_zero].
Qed.

Lemma amr_target m : amr (ptarget mc m) (target_mem (tmc acfg) m).
Proof.
  intros p. unfold ptarget, target_mem. cbn [tmc acfg].
  destruct (negb (cprob mc) && (addressable_slots mc m <=? p) && (p <? total_slots mc m)); auto.
  unfold empty_word. rewrite aimg_zero. split; [reflexivity|apply wgood_zero].
Qed.

(** *** Helpers *)

Definition aipc (pc : hpc) : hpc :=
  match pc with
  | H0Mark e i s => H0Mark e i (aimg kp (skey s))
  | H1Mark e i s => H1Mark e i (aimg kp (skey s))
  | H2Mark i s => H2Mark i (aimg kp (skey s))
  | HIns ph i s j => HIns ph i (aimg kp (skey s)) j
  | HSet ph i s j => HSet ph i (aimg kp (skey s)) j
  | pc => pc
  end.
Definition apcok (pc : hpc) : Prop :=
  match pc with
  | H0Mark _ _ s | H1Mark _ _ s | H2Mark _ s | HIns _ _ s _ | HSet _ _ s _ => wgood kp (skey s)
  | _ => True
  end.

Section Help.
Context (ms mt : mapper) (B : N) (hp : heap) (HP : hpok kp hp).

Lemma plain_start2 i : apcok (start2 hc ms mt i) /\ aipc (start2 hc ms mt i) = start2 acfg ms mt i.
Proof. unfold start2. cbn [tmc acfg]. destruct (init_one mc mt (remap mc ms i)); split; try exact Logic.I; reflexivity. Qed.
Lemma plain_next1 e i : apcok (next1 hc ms mt e i) /\ aipc (next1 hc ms mt e i) = next1 acfg ms mt e i.
Proof. unfold next1. destruct (i <? e); [split; [exact Logic.I|reflexivity]|apply plain_start2]. Qed.
Lemma plain_after0 e i : apcok (after0 hc ms mt e i) /\ aipc (after0 hc ms mt e i) = after0 acfg ms mt e i.
Proof.
  unfold after0. cbn [tmc acfg]. destruct (i <? e); [|split; [exact Logic.I|reflexivity]].
  destruct (init_range mc mt i e); [apply plain_next1|split; [exact Logic.I|reflexivity]].
Qed.
Lemma plain_enter s e : apcok (enter hc ms mt s e) /\ aipc (enter hc ms mt s e) = enter acfg ms mt s e.
Proof.
  unfold enter. cbn [tmc acfg]. destruct (cprob mc || (0 <? s)); [|apply plain_after0].
  destruct (s <? e); split; try exact Logic.I; reflexivity.
Qed.

Lemma ains_start ph i w : wgood kp w -> w_empty mk w = false ->
  apcok (p_ins_start c mt hp ph i w) /\
  aipc (p_ins_start c mt hp ph i w) = ins_start acfg mt ph i (aimg kp w).
Proof.
  intros G E. pose proof G as (L & F & D & X). rewrite (empty_iff mk w L F) in E. apply N.eqb_neq in E.
  destruct (X E) as (k & Ek & LK & FP). destruct (HP _ _ Ek) as [d Ed].
  unfold p_ins_start, ins_start. rewrite Ed. cbn [aipc apcok skey tsc acfg]. split; auto.
  f_equal. rewrite (aimg_key w k G E Ek).
  unfold home, phome, hashk, phk. cbn [tmc thash acfg]. now rewrite N.add_sub.
Qed.

Lemma aphstep s t k pc s1 t1 k1 pc1 s' t' :
  phstep c ms mt B hp s t k pc = (s1, t1, k1, pc1) ->
  amr s s' -> amr t t' -> apcok pc ->
  exists s1' t1', hstep acfg ms mt B s' t' k (aipc pc) = (s1', t1', k1, aipc pc1) /\
    amr s1 s1' /\ amr t1 t1' /\ apcok pc1.
Proof.
  intros ST MS MT PK.
  destruct pc as [| |e i|e i cu|e i l|e i|e i cu|i l|i|i cu|ph i sl j|ph i sl j|];
    cbn [phstep hstep aipc] in *; cbn [tsc tmc acfg] in *.
  - injection ST as <- <- <- <-. exists s', t'. destruct (plain_enter k (block_end B (addressable_slots mc ms) k)) as [X1 X2].
    destruct (k <? addressable_slots mc ms); cbn [aipc]; [rewrite X2|]; sp; auto; exact Logic.I.
  - injection ST as <- <- <- <-. exists s', t'. auto.
  - pose proof (amr_rd ms s s' i MS) as R. destruct (prd c ms s i) as [curr|]; injection ST as <- <- <- <-;
      exists s', t'.
    + destruct R as [R W]. rewrite R. rewrite aimg_empty by apply W.
      destruct (w_empty mk curr); [sp; auto|]. destruct (i + 1 <? e); sp; auto; exact Logic.I.
    + rewrite R. sp; auto; exact Logic.I.
  - pose proof (amr_rd ms s s' i MS) as R. destruct (prd c ms s i) as [cell|].
    + destruct R as [R W]. rewrite R.
      destruct (w_atomic_mark mk cell (skey cu)) as [[ok cell'] curr'] eqn:AM.
      destruct (aimg_atomic_mark _ _ _ _ _ W PK AM) as (-> & W1 & W2).
      injection ST as <- <- <- <-. eexists _, t'. destruct (plain_after0 e i) as [X1 X2]. sp; [| |auto|].
      * f_equal. destruct ok; [now rewrite X2|reflexivity].
      * now apply amr_upd.
      * destruct ok; [auto|exact Logic.I].
    + rewrite R. injection ST as <- <- <- <-. exists s', t'. sp; auto; exact Logic.I.
  - destruct (plain_next1 e i) as [X1 X2]. destruct l as [|p l].
    + injection ST as <- <- <- <-. exists s', t'. rewrite X2. sp; auto.
    + destruct (p <? total_slots mc mt).
      * injection ST as <- <- <- <-. exists s', (fupd t' p (Some empty_slot)). sp; auto.
        -- f_equal. destruct l; [now rewrite X2|reflexivity].
        -- rewrite <- aimg_zero. apply amr_upd; auto. apply wgood_zero.
        -- destruct l; [auto|exact Logic.I].
      * injection ST as <- <- <- <-. exists s', t'. sp; auto; exact Logic.I.
  - pose proof (amr_rd ms s s' i MS) as R. destruct (prd c ms s i) as [curr|]; injection ST as <- <- <- <-;
      exists s', t'.
    + destruct R as [R W]. rewrite R. sp; auto.
    + rewrite R. sp; auto; exact Logic.I.
  - pose proof (amr_rd ms s s' i MS) as R. destruct (prd c ms s i) as [cell|].
    + destruct R as [R W]. rewrite R.
      destruct (w_atomic_mark mk cell (skey cu)) as [[ok cell'] curr'] eqn:AM.
      destruct (aimg_atomic_mark _ _ _ _ _ W PK AM) as (-> & W1 & W2).
      rewrite aimg_empty by apply PK. rewrite aimg_deleted by apply PK.
      rewrite word_not_deleted in ST by apply PK. cbn [negb] in *. rewrite andb_true_r in *.
      injection ST as <- <- <- <-. eexists _, t'. destruct (plain_next1 e (i + 1)) as [X1 X2].
      sp; [| |auto|].
      * f_equal. destruct ok; [|reflexivity]. destruct (w_empty mk (skey cu)) eqn:EM; cbn [negb]; [now rewrite X2|].
        destruct (ains_start (Some e) (i + 1) (skey cu) PK EM) as [_ X]. now rewrite X.
      * now apply amr_upd.
      * destruct ok; [|exact Logic.I]. destruct (w_empty mk (skey cu)) eqn:EM; cbn [negb]; [auto|].
        apply (ains_start (Some e) (i + 1) (skey cu) PK EM).
    + rewrite R. injection ST as <- <- <- <-. exists s', t'. sp; auto; exact Logic.I.
  - destruct l as [|p l].
    + injection ST as <- <- <- <-. exists s', t'. sp; auto; exact Logic.I.
    + destruct (p <? total_slots mc mt).
      * injection ST as <- <- <- <-. exists s', (fupd t' p (Some empty_slot)). sp; auto.
        -- f_equal. destruct l; reflexivity.
        -- rewrite <- aimg_zero. apply amr_upd; auto. apply wgood_zero.
        -- destruct l; exact Logic.I.
      * injection ST as <- <- <- <-. exists s', t'. sp; auto; exact Logic.I.
  - pose proof (amr_rd ms s s' (remap mc ms i) MS) as R.
    destruct (prd c ms s (remap mc ms i)) as [curr|]; injection ST as <- <- <- <-; exists s', t'.
    + destruct R as [R W]. rewrite R. sp; auto.
    + rewrite R. sp; auto; exact Logic.I.
  - pose proof (amr_rd ms s s' (remap mc ms i) MS) as R. destruct (prd c ms s (remap mc ms i)) as [cell|].
    + destruct R as [R W]. rewrite R.
      destruct (w_atomic_mark mk cell (skey cu)) as [[ok cell'] curr'] eqn:AM.
      destruct (aimg_atomic_mark _ _ _ _ _ W PK AM) as (-> & W1 & W2).
      rewrite aimg_empty by apply W2. rewrite aimg_deleted by apply W2.
      rewrite word_not_deleted in ST by apply W2.
      injection ST as <- <- <- <-. eexists _, t'. sp; [| |auto|].
      * f_equal. destruct (w_empty mk curr') eqn:EM; [reflexivity|].
        destruct (ains_start None (if ok then i + 1 else i) curr' W2 EM) as [_ X]. now rewrite X.
      * now apply amr_upd.
      * destruct (w_empty mk curr') eqn:EM; [exact Logic.I|].
        apply (ains_start None (if ok then i + 1 else i) curr' W2 EM).
    + rewrite R. injection ST as <- <- <- <-. exists s', t'. sp; auto; exact Logic.I.
  - pose proof (amr_rd mt t t' (remap mc mt j) MT) as R.
    destruct (prd c mt t (remap mc mt j)) as [curr|]; injection ST as <- <- <- <-; exists s', t'.
    + destruct R as [R W]. rewrite R. rewrite aimg_empty by apply W.
      destruct (w_empty mk curr); sp; auto.
    + rewrite R. sp; auto; exact Logic.I.
  - destruct (remap mc mt j <? total_slots mc mt).
    + injection ST as <- <- <- <-. exists s', (fupd t' (remap mc mt j) (Some (aimg kp (skey sl)))).
      assert (X : apcok (after_insert hc ms mt ph i) /\ aipc (after_insert hc ms mt ph i) = after_insert acfg ms mt ph i).
      { unfold after_insert. destruct ph; [apply plain_next1|apply plain_start2]. }
      destruct X as [X1 X2]. rewrite X2. sp; auto. now apply amr_upd.
    + injection ST as <- <- <- <-. exists s', t'. sp; auto; exact Logic.I.
  - injection ST as <- <- <- <-. exists s', t'. auto.
Qed.

End Help.
End Kp.

(** *** More elements in the table *)

Definition kle (kp kp' : N -> option N) : Prop := forall a k, kp a = Some k -> kp' a = Some k.

Lemma wgood_le kp kp' w : kle kp kp' -> wgood kp w -> wgood kp' w /\ aimg kp' w = aimg kp w.
Proof.
  intros LE (L & F & D & G). split.
  - unfold wgood. sp; auto. intros NZ. destruct (G NZ) as (k & E & R). exists k. split; auto.
  - unfold aimg, wcont. destruct (N.eqb_spec (w_ptr w) 0) as [Z|NZ]; auto.
    destruct (G NZ) as (k & E & R). now rewrite E, (LE _ _ E).
Qed.

Lemma amr_le kp kp' t t' : kle kp kp' -> amr kp t t' -> amr kp' t t'.
Proof.
  intros LE M p. specialize (M p). destruct (t p) as [w|]; auto. destruct M as [M G].
  destruct (wgood_le _ _ w LE G) as [G' ->]. auto.
Qed.

Lemma aipc_le kp kp' pc : kle kp kp' -> apcok kp pc -> apcok kp' pc /\ aipc kp' pc = aipc kp pc.
Proof.
  intros LE. destruct pc; cbn; auto; intros G; destruct (wgood_le _ _ _ LE G) as [G' ->]; auto.
Qed.

Lemma amr_ext kp t t' t'' : (forall p, t'' p = t' p) -> amr kp t t' -> amr kp t t''.
Proof. intros E M p. specialize (M p). rewrite E. exact M. Qed.
Lemma amr_ext' kp t t' t'' : (forall p, t'' p = t p) -> amr kp t t' -> amr kp t'' t'.
Proof. intros E M p. specialize (M p). rewrite E. exact M. Qed.

End Img.
