(** Facts about fixed-size tables that hold for every client: arbitrary keys,
    arbitrary functors and any mixture of calls. *)
From Coq Require Import Arith NArith Bool List Lia FinFun.
From Verif Require Import Words Slot SlotFacts Mapper MapperFacts ReturnCode MapSpec LinSpec
  HistSpec Base BaseInv BaseLin BaseExec BaseSolo TableSpec BaseFacts.
Import ListNotations.
Open Scope N_scope.

Lemma mark_empty c s : wf_scfg c -> is_empty c (mark_slot c s) = is_empty c s.
Proof.
  intros W. unfold is_empty, mark_slot. cbn [skey].
  f_equal. rewrite N.land_lor_distr_l.
  replace (N.land (mbit c) (bmask c)) with 0; [now rewrite N.lor_0_r|].
  unfold bmask, mbit. symmetry. rewrite <- N.ones_equiv || idtac.
  replace (2 ^ (sc_w c - 1) - 1) with (N.ones (sc_w c - 1)) by (rewrite N.ones_equiv; lia).
  rewrite N.land_ones. apply N.mod_same. apply N.pow_nonzero. lia.
Qed.

Lemma empty_word sc x : wf_scfg sc -> word_is sc x 0 -> is_empty sc x = true.
Proof.
  intros W [H|[_ H]]; unfold is_empty; rewrite H; [now rewrite N.land_0_l|].
  rewrite N.add_0_l. replace (bmask sc) with (N.ones (sc_w sc - 1))
    by (unfold bmask, mbit; rewrite N.ones_equiv; lia).
  rewrite N.land_ones, N.mod_same by (apply N.pow_nonzero; lia). reflexivity.
Qed.

Section Raw.
Context (c : tcfg) (m : mapper) (lg : N).
Context (Hsc : wf_scfg (tsc c)) (Hm : wf_mapper (tmc c) m lg).
Context (client : op -> Prop).
Notation sc := (tsc c).
Notation mc := (tmc c).
Notation rmp := (remap mc m).
Notation tot := (total_slots mc m).
Notation addr := (addressable_slots mc m).

Definition used (t : mem) (p : N) : Prop := exists x, t p = Some x /\ is_empty sc x = false.
Definition passed (t : mem) (a b : N) : Prop := a <= b /\ forall j, a <= j < b -> used t (rmp j).

Definition raw_mem (t : mem) : Prop :=
  (forall p, p < tot -> t p <> None) /\
  (cprob mc = false -> forall p, addr + 300 < p -> p < tot -> ~ used t p).

(** Calls that may use a new cell. *)
Definition adding (o : op) : bool :=
  match o with OInsert _ _ | OIou _ _ _ => true | _ => false end.

Definition raw_thr (t : mem) (o : op) (pc : bpc) : Prop :=
  let h := home c m (op_key o) in
  match pc with
  | PLoad i => passed t h i
  | PCas i curr => passed t h i /\ adding o = true /\ is_empty sc curr = true /\
                   (cprob mc = false -> rmp i <= addr + 300)
  | PUpd i curr | PDel i curr => passed t h i /\ used t (rmp i)
  | PDone r => obs o r = RFull -> adding o = true /\ cprob mc = false /\ passed t h (addr + 301)
  | PBad => False
  end.

Definition raw_inv (s : bsys) : Prop :=
  raw_mem (bmem s) /\ forall tid o pc, bthr s tid = Some (o, pc) -> raw_thr (bmem s) o pc.

Lemma passed_mono t t' a b : (forall p, used t p -> used t' p) -> passed t a b -> passed t' a b.
Proof. intros U [L P]. split; auto. Qed.

Lemma raw_thr_mono t t' o pc : (forall p, used t p -> used t' p) -> raw_thr t o pc -> raw_thr t' o pc.
Proof.
  intros U. destruct pc; cbn; auto.
  - apply passed_mono; auto.
  - intros (P & R). split; auto. eapply passed_mono; eauto.
  - intros (P & R). split; auto. eapply passed_mono; eauto.
  - intros (P & R). split; auto. eapply passed_mono; eauto.
  - intros H E. destruct (H E) as (A & B & P). split; [|split]; auto. eapply passed_mono; eauto.
Qed.

Lemma home_lt k : home c m k < addr.
Proof.
  unfold home. rewrite (addressable_val _ _ _ Hm). apply (map_lt _ _ _ Hm). unfold hashk.
  apply N.mod_lt. discriminate.
Qed.

(** The position of a call never leaves the table. *)
Lemma passed_bound t k i : raw_mem t -> passed t (home c m k) i -> cprob mc = false -> i <= addr + 301.
Proof.
  intros [_ R] [L P] CP. pose proof (home_lt k) as H.
  destruct (N.le_gt_cases i (addr + 301)) as [|G]; auto. exfalso.
  assert (U : used t (rmp (addr + 301))) by (apply P; lia).
  rewrite (remap_val _ _ _ Hm), CP in U.
  eapply R; [exact CP| | |exact U]; [lia|].
  rewrite (total_val _ _ _ Hm), CP. rewrite (addressable_val _ _ _ Hm). lia.
Qed.

Lemma rmp_lt t k i : raw_mem t -> passed t (home c m k) i -> rmp i < tot.
Proof.
  intros R P. rewrite (total_val _ _ _ Hm). destruct (cprob mc) eqn:CP.
  - rewrite (remap_val _ _ _ Hm), CP. apply N.mod_lt. apply N.pow_nonzero. discriminate.
  - pose proof (passed_bound _ _ _ R P CP) as L. rewrite (addressable_val _ _ _ Hm) in L.
    rewrite (remap_val _ _ _ Hm), CP. lia.
Qed.

Lemma rd_some t k i : raw_mem t -> passed t (home c m k) i ->
  exists x, rd c m t (rmp i) = Some x /\ t (rmp i) = Some x.
Proof.
  intros R P. pose proof (rmp_lt _ _ _ R P) as L. unfold rd.
  destruct (N.ltb_spec (rmp i) tot) as [_|]; [|lia].
  destruct R as [R _]. specialize (R _ L). destruct (t (rmp i)) as [x|] eqn:E; [eauto|congruence].
Qed.

(** A write that keeps used cells used and does not use the end of the table. *)
Lemma write_mem t p x : raw_mem t ->
  (cprob mc = false -> addr + 300 < p -> is_empty sc x = true) -> raw_mem (fupd t p (Some x)).
Proof.
  intros [R1 R2] E. split.
  - intros q L. destruct (N.eq_dec q p) as [->|NE]; [rewrite fupd_eq; discriminate|].
    rewrite fupd_neq by exact NE. auto.
  - intros CP q L1 L2 (y & Ey & Uy). destruct (N.eq_dec q p) as [->|NE].
    + rewrite fupd_eq in Ey. injection Ey as <-. rewrite E in Uy by auto. discriminate.
    + rewrite fupd_neq in Ey by exact NE. eapply R2; eauto. exists y. auto.
Qed.

Lemma write_used t p x : (used t p -> is_empty sc x = false) ->
  forall q, used t q -> used (fupd t p (Some x)) q.
Proof.
  intros K q U. destruct (N.eq_dec q p) as [->|NE].
  - exists x. rewrite fupd_eq. auto.
  - destruct U as (y & E & F). exists y. rewrite fupd_neq by exact NE. auto.
Qed.

Lemma used_low t p : raw_mem t -> used t p -> cprob mc = false -> p < tot -> p <= addr + 300.
Proof.
  intros [_ R] U CP L. destruct (N.le_gt_cases p (addr + 300)) as [|G]; auto. exfalso. eapply R; eauto.
Qed.

Lemma slot_eqb_eq a b : slot_eqb a b = true -> a = b.
Proof.
  unfold slot_eqb. intros H. apply andb_prop in H. destruct H as [H1 H2].
  apply N.eqb_eq in H1, H2. destruct a, b; cbn in *. congruence.
Qed.

(** The cell written by [atomic_update] and by [atomic_delete]. *)
Lemma update_key cell e f r ok cell' :
  atomic_update sc cell e f = (r, ok, cell') -> skey cell' = skey cell.
Proof.
  unfold atomic_update, cas. destruct (sc_mark sc).
  - destruct (slot_eqb cell e) eqn:Q; intros [= <- <- <-]; auto. apply slot_eqb_eq in Q. now subst.
  - destruct (fat f) as [g|].
    + destruct (g (sdata cell)). intros [= <- <- <-]; reflexivity.
    + destruct (sdata cell =? sdata e); intros [= <- <- <-]; reflexivity.
Qed.

Lemma deleted_used : is_empty sc (deleted_slot sc) = false.
Proof. apply (enc_is_empty sc Hsc CTomb false). split; [discriminate|exact Logic.I]. Qed.

(** At most one cell becomes used, by the last step of an insertion. *)
Definition grows (t t' : mem) (o : op) (pc' : bpc) : Prop :=
  (forall p, used t' p -> used t p) \/
  (adding o = true /\ (exists r, pc' = PDone r /\ obs o r <> RFull) /\ exists q, forall p, used t' p -> used t p \/ p = q).

Lemma raw_load t o i x :
  raw_mem t -> passed t (home c m (op_key o)) i -> t (rmp i) = Some x ->
  raw_thr t o (after_load c m o i (rmp i) x).
Proof.
  intros R P E. pose proof (rmp_lt _ _ _ R P) as L.
  assert (U : is_empty sc x = false -> used t (rmp i)) by (exists x; auto).
  assert (NX : is_empty sc x = false -> passed t (home c m (op_key o)) (i + 1)).
  { intros F. destruct P as [P1 P2]. split; [lia|]. intros j Hj.
    destruct (N.eq_dec j i) as [->|]; [auto|]. apply P2. lia. }
  assert (FULL : (negb (cprob mc) && (addr + 300 <? rmp i)) = true ->
                 cprob mc = false /\ passed t (home c m (op_key o)) (addr + 301)).
  { intros F. apply andb_prop in F. destruct F as [F1 F2]. apply N.ltb_lt in F2.
    destruct (cprob mc) eqn:CP; [discriminate|]. split; auto.
    pose proof (passed_bound _ _ _ R P CP) as Q. rewrite (remap_val _ _ _ Hm), CP in F2.
    replace (addr + 301) with i by lia. exact P. }
  assert (LOW : (negb (cprob mc) && (addr + 300 <? rmp i)) = false ->
                cprob mc = false -> rmp i <= addr + 300).
  { intros F CP. rewrite CP in F. cbn [negb andb] in F. now apply N.ltb_ge in F. }
  destruct o; cbn [after_load op_key raw_thr] in *;
    repeat match goal with
    | |- context [if is_marked ?a ?b then _ else _] => destruct (is_marked a b)
    | |- context [if is_empty ?a ?b then _ else _] => destruct (is_empty a b) eqn:?
    | |- context [if compare_key ?a ?b ?d then _ else _] => destruct (compare_key a b d)
    | |- context [if ?a && ?b then _ else _] => destruct (a && b) eqn:?
    | |- context [if ?a =? ?b then _ else _] => destruct (a =? b)
    end; cbn [raw_thr op_key]; auto; try (split; auto); try discriminate.
Qed.

Lemma raw_bstep t b o pc t' pc' :
  raw_mem t -> raw_thr t o pc -> (forall r, pc <> PDone r) -> bstep c m t b o pc = (t', pc') ->
  raw_mem t' /\ raw_thr t' o pc' /\ (forall p, used t p -> used t' p) /\ grows t t' o pc'.
Proof.
  intros R T ND ST. destruct pc as [i|i s|i s|i s|r|]; cbn [raw_thr] in T.
  - destruct (rd_some _ _ _ R T) as (x & E1 & E2). cbn [bstep] in ST. rewrite E1 in ST.
    injection ST as <- <-. split; [auto|split; [now apply raw_load|split; [auto|now left]]].
  - destruct T as (P & AD & F & LOW). destruct (rd_some _ _ _ R P) as (x & E1 & E2).
    cbn [bstep] in ST. rewrite E1 in ST. unfold cas in ST.
    destruct (slot_eqb x s) eqn:Q.
    + apply slot_eqb_eq in Q. subst s. injection ST as <- <-.
      assert (W : forall q, used t q -> used (fupd t (rmp i) (Some (op_slot o))) q).
      { apply write_used. intros (y & Ey & Uy). congruence. }
      split; [|split; [|split]]; auto.
      * apply write_mem; auto. intros CP L. specialize (LOW CP). lia.
      * cbn [raw_thr]. destruct o; cbn; discriminate.
      * right. split; [auto|split; [eexists; split; [reflexivity|destruct o; discriminate]|]]. exists (rmp i). intros p (y & Ey & Uy).
        destruct (N.eq_dec p (rmp i)) as [->|NE]; [now right|left].
        rewrite fupd_neq in Ey by exact NE. exists y. auto.
    + injection ST as <- <-.
      assert (EQ : forall q, fupd t (rmp i) (Some x) q = t q).
      { intros q. destruct (N.eq_dec q (rmp i)) as [->|NE]; [rewrite fupd_eq; auto|now rewrite fupd_neq by exact NE]. }
      assert (W : forall q, used t q -> used (fupd t (rmp i) (Some x)) q).
      { intros q (y & Ey & Uy). exists y. rewrite EQ. auto. }
      split; [|split; [|split]]; auto.
      * destruct R as [R1 R2]. split; intros; unfold used; rewrite EQ; auto.
        intros (y & Ey & Uy). eapply R2; eauto. exists y; auto.
      * cbn [raw_thr]. eapply passed_mono; eauto.
      * left. intros q (y & Ey & Uy). exists y. rewrite EQ in Ey. auto.
  - destruct T as (P & U). destruct (rd_some _ _ _ R P) as (x & E1 & E2).
    cbn [bstep] in ST. rewrite E1 in ST.
    destruct (atomic_update sc x s (op_fun o)) as [[res ok] x'] eqn:Q.
    pose proof (update_key _ _ _ _ _ _ Q) as K.
    assert (K' : is_empty sc x' = is_empty sc x) by (unfold is_empty; now rewrite K).
    destruct U as (y & Ey & Uy). assert (y = x) by congruence. subst y.
    assert (W : forall q, used t q -> used (fupd t (rmp i) (Some x')) q)
      by (apply write_used; intros _; congruence).
    injection ST as <- <-. split; [|split; [|split]]; auto.
    + apply write_mem; auto. intros CP L. exfalso.
      assert (rmp i <= addr + 300); [|lia].
      eapply used_low; eauto; [exists x; auto|eapply rmp_lt; eauto].
    + destruct ok; cbn [raw_thr].
      * destruct o; cbn; discriminate.
      * destruct o; try (cbn [raw_thr]; eapply passed_mono; eauto; fail).
        destruct b; cbn [raw_thr]; [eapply passed_mono; eauto|cbn; discriminate].
    + left. intros q (y & Ey' & Uy'). destruct (N.eq_dec q (rmp i)) as [->|NE].
      * exists x; auto.
      * rewrite fupd_neq in Ey' by exact NE. exists y; auto.
  - destruct T as (P & U). destruct (rd_some _ _ _ R P) as (x & E1 & E2).
    cbn [bstep] in ST. rewrite E1 in ST. unfold atomic_delete, cas in ST.
    destruct U as (y & Ey & Uy). assert (y = x) by congruence. subst y.
    set (x' := if slot_eqb x s then deleted_slot sc else x).
    assert (U' : is_empty sc x' = false).
    { unfold x'. destruct (slot_eqb x s); auto using deleted_used. }
    assert (W : forall q, used t q -> used (fupd t (rmp i) (Some x')) q)
      by (apply write_used; intros _; auto).
    assert (E' : t' = fupd t (rmp i) (Some x') /\
                 (pc' = PDone (BRet RC_SUCCESS_DEL empty_slot None) \/ pc' = PLoad i)).
    { unfold x'. destruct (slot_eqb x s); injection ST as <- <-; auto. }
    destruct E' as [-> PC]. split; [|split; [|split]]; auto.
    + apply write_mem; auto. intros CP L. exfalso.
      assert (rmp i <= addr + 300); [|lia].
      eapply used_low; eauto; [exists x; auto|eapply rmp_lt; eauto].
    + destruct PC as [-> | ->]; cbn [raw_thr].
      * destruct o; cbn; discriminate.
      * eapply passed_mono; eauto.
    + left. intros q (y & Ey' & Uy'). destruct (N.eq_dec q (rmp i)) as [->|NE].
      * exists x; auto.
      * rewrite fupd_neq in Ey' by exact NE. exists y; auto.
  - now elim (ND r).
  - contradiction.
Qed.

Lemma raw_init : raw_inv (bsys_init c m).
Proof.
  split; cbn; [|discriminate]. unfold fresh_mem. split.
  - intros p L. destruct (N.ltb_spec p tot); [discriminate|lia].
  - intros _ p _ L (x & E & U). destruct (N.ltb_spec p tot) in E; [|discriminate].
    injection E as <-. unfold is_empty in U. cbn in U. discriminate.
Qed.

(** How the number of used cells grows. *)
Lemma raw_step s l s' :
  raw_inv s -> bsys_step c m client s l s' ->
  raw_inv s' /\ (forall p, used (bmem s) p -> used (bmem s') p).
Proof.
  intros [R T] ST.
  destruct ST as [t th tid o E CL|t th tid o pc b t' pc' E ND ST|t th p s0 M L E|t th tid o r E]; cbn in *.
  - split; auto. split; auto. intros u o' pc'. cbn. destruct (N.eq_dec u tid) as [->|NE].
    + rewrite fupd_eq. intros [= <- <-]. cbn. split; [lia|]. intros j Hj. lia.
    + rewrite fupd_neq by exact NE. apply T.
  - destruct (raw_bstep _ _ _ _ _ _ R (T _ _ _ E) ND ST) as (R' & T' & U & _).
    split; auto. split; auto. intros u o' pc''. cbn. destruct (N.eq_dec u tid) as [->|NE].
    + rewrite fupd_eq. now intros [= <- <-].
    + rewrite fupd_neq by exact NE. intros Eu. eapply raw_thr_mono; [exact U|]. now apply (T u).
  - assert (U : forall q, used (fupd t p (Some (mark_slot sc s0))) q <-> used t q).
    { intros q. unfold used. destruct (N.eq_dec q p) as [->|NE].
      - rewrite fupd_eq. split; intros (x & Ex & Ux).
        + injection Ex as <-. rewrite mark_empty in Ux by exact Hsc. eauto.
        + assert (x = s0) by congruence. subst. eexists; split; [reflexivity|]. now rewrite mark_empty.
      - rewrite fupd_neq by exact NE. tauto. }
    split; [|intros q; apply U]. split.
    + destruct R as [R1 R2]. split.
      * intros q Lq. cbn. destruct (N.eq_dec q p) as [->|NE]; [rewrite fupd_eq; discriminate|].
        rewrite fupd_neq by exact NE. auto.
      * intros CP q L1 L2 Uq. apply U in Uq. eapply R2; eauto.
    + intros u o pc Eu. eapply raw_thr_mono; [|apply (T u o pc Eu)]. intros q; apply U.
  - split; auto. split; auto. intros u o' pc'. cbn. destruct (N.eq_dec u tid) as [->|NE].
    + rewrite fupd_eq. discriminate.
    + rewrite fupd_neq by exact NE. apply T.
Qed.

Lemma raw_reachable s : table_reachable c m client s -> raw_inv s.
Proof.
  intros [tr ST]. remember (bsys_init c m) as s0 eqn:E0.
  assert (R0 : raw_inv s0) by (subst; apply raw_init). clear E0.
  induction ST as [s|s s1 s2 tr S ST IH|s e s1 s2 tr S ST IH]; auto; apply IH; eapply raw_step; eauto.
Qed.

Lemma adds_spec o : adds_op (spec_op sc o) = adding o.
Proof. destruct o; reflexivity. Qed.

(** [L]: all used cells; [P]: the calls that may still use one or were refused. *)
Definition budget (s : bsys) (n : nat) : Prop :=
  exists L P, (forall p, used (bmem s) p -> In p L) /\
    (forall tid o pc, bthr s tid = Some (o, pc) -> adding o = true ->
       (forall r, pc = PDone r -> obs o r = RFull) -> In tid P) /\
    NoDup P /\ (length L + length P <= n)%nat.

Lemma in_remove_iff (x y : N) l : In x (remove N.eq_dec y l) <-> In x l /\ x <> y.
Proof.
  split.
  - apply in_remove.
  - intros [H NE]. now apply in_in_remove.
Qed.

Lemma remove_len (x : N) l : In x l -> NoDup l -> (S (length (remove N.eq_dec x l)) <= length l)%nat.
Proof. intros I _. now apply remove_length_lt. Qed.

Lemma nodup_remove (x : N) l : NoDup l -> NoDup (remove N.eq_dec x l).
Proof.
  induction 1 as [|y l NI ND IH]; cbn; [constructor|].
  destruct (N.eq_dec x y); auto. constructor; auto. rewrite in_remove_iff. tauto.
Qed.

Lemma budget_step s l s' n :
  raw_inv s -> budget s n -> bsys_step c m client s l s' ->
  budget s' (n + match l with Some e => adds [e] | None => 0 end)%nat.
Proof.
  intros [R T] (L & P & HL & HP & ND & LE) ST.
  destruct ST as [t th tid o E CL|t th tid o pc b t' pc' E NDo ST|t th p s0 M Lt E|t th tid o r E]; cbn in *.
  - rewrite adds_spec. destruct (adding o) eqn:AD.
    + destruct (in_dec N.eq_dec tid P) as [I|NI].
      * exists L, P. sp; auto; [|lia]. intros u o' pc'. cbn. destruct (N.eq_dec u tid) as [->|NE]; [auto|].
        rewrite fupd_neq by exact NE. apply HP.
      * exists L, (tid :: P). sp; auto; [|now constructor|cbn; lia].
        intros u o' pc'. cbn. destruct (N.eq_dec u tid) as [->|NE]; [auto|].
        rewrite fupd_neq by exact NE. right. eapply HP; eauto.
    + exists L, P. sp; auto; [|lia]. intros u o' pc'. cbn. destruct (N.eq_dec u tid) as [->|NE].
      * rewrite fupd_eq. intros [= <- <-]. congruence.
      * rewrite fupd_neq by exact NE. apply HP.
  - destruct (raw_bstep _ _ _ _ _ _ R (T _ _ _ E) NDo ST) as (_ & _ & _ & [G|(AD & (r & -> & NF) & q & G)]).
    + exists L, P. sp; auto; [|lia]. intros u o' pc''. cbn. destruct (N.eq_dec u tid) as [->|NE].
      * rewrite fupd_eq. intros [= <- <-] AD _. eapply HP; eauto. intros r ->. now elim (NDo r).
      * rewrite fupd_neq by exact NE. apply HP.
    + assert (I : In tid P) by (eapply HP; eauto; intros r' ->; now elim (NDo r')).
      exists (q :: L), (remove N.eq_dec tid P). sp.
      * intros p U. destruct (G p U) as [U'| ->]; [right; auto|now left].
      * intros u o' pc''. cbn. destruct (N.eq_dec u tid) as [->|NE].
        -- rewrite fupd_eq. intros [= <- <-] _ X. now elim (NF (X r eq_refl)).
        -- rewrite fupd_neq by exact NE. intros Eu A X. apply in_remove_iff. split; auto. eapply HP; eauto.
      * now apply nodup_remove.
      * pose proof (remove_len tid P I ND). cbn. lia.
  - exists L, P. sp; auto; [|lia]. cbn. intros q (x & Ex & Ux). apply HL.
    destruct (N.eq_dec q p) as [->|NE].
    + rewrite fupd_eq in Ex. injection Ex as <-. rewrite mark_empty in Ux by exact Hsc. exists s0; auto.
    + rewrite fupd_neq in Ex by exact NE. exists x; auto.
  - exists L, P. sp; auto; [|lia]. intros u o' pc'. cbn. destruct (N.eq_dec u tid) as [->|NE].
    + rewrite fupd_eq. discriminate.
    + rewrite fupd_neq by exact NE. apply HP.
Qed.

Lemma adds_cons e tr : adds (e :: tr) = (adds [e] + adds tr)%nat.
Proof. destruct e; cbn; lia. Qed.

Lemma budget_steps s tr s' n :
  raw_inv s -> budget s n -> lts_steps (bsys_step c m client) s tr s' ->
  raw_inv s' /\ budget s' (n + adds tr)%nat.
Proof.
  intros R B ST. revert n R B.
  induction ST as [s|s s1 s2 tr S ST IH|s e s1 s2 tr S ST IH]; intros n R B.
  - rewrite Nat.add_0_r. auto.
  - pose proof (budget_step _ _ _ _ R B S) as B'. rewrite Nat.add_0_r in B'.
    apply IH; auto. eapply raw_step; eauto.
  - pose proof (budget_step _ _ _ _ R B S) as B'. rewrite adds_cons, Nat.add_assoc.
    apply IH; auto. eapply raw_step; eauto.
Qed.

Lemma budget_init : budget (bsys_init c m) 0.
Proof.
  exists [], []. sp; cbn; auto; try discriminate; [|constructor].
  intros p (x & E & U). unfold fresh_mem in E. destruct (p <? tot); [|discriminate].
  injection E as <-. discriminate.
Qed.

(** FULL needs 302 insertions of other keys. *)
Lemma full_budget s tid o r n :
  raw_inv s -> budget s n -> bthr s tid = Some (o, PDone r) -> obs o r = RFull -> (303 <= n)%nat.
Proof.
  intros [R T] (L & P & HL & HP & ND & LE) E F.
  specialize (T _ _ _ E). cbn in T. destruct (T F) as (AD & CP & _ & PA).
  pose proof (home_lt (op_key o)) as HL'.
  assert (I : In tid P) by (eapply HP; eauto; intros r' [= <-]; exact F).
  assert (INC : incl (map (fun j => addr - 1 + N.of_nat j) (seq 0 302)) L).
  { intros p Ip. apply in_map_iff in Ip. destruct Ip as (j & <- & Ij). apply in_seq in Ij.
    apply HL. specialize (PA (addr - 1 + N.of_nat j)). rewrite (remap_val _ _ _ Hm), CP in PA.
    apply PA. lia. }
  apply NoDup_incl_length in INC.
  - rewrite map_length, seq_length in INC. destruct P; [destruct I|]. cbn [length] in LE. lia.
  - apply Injective_map_NoDup; [|apply seq_NoDup]. intros x y H. lia.
Qed.

Lemma no_full s tr s' n :
  raw_inv s -> budget s n -> lts_steps (bsys_step c m client) s tr s' -> (n + adds tr <= 302)%nat ->
  forall t, ~ In (ERet t RFull) tr.
Proof.
  intros R B ST. revert n R B.
  induction ST as [s|s s1 s2 tr S ST IH|s e s1 s2 tr S ST IH]; intros n R B LE u; [auto| |].
  - pose proof (budget_step _ _ _ _ R B S) as B'. rewrite Nat.add_0_r in B'.
    eapply IH; eauto. eapply raw_step; eauto.
  - pose proof (budget_step _ _ _ _ R B S) as B'. cbv iota in B'. rewrite adds_cons in LE. intros [->|I].
    + inversion S; subst. match goal with H : obs _ _ = RFull |- _ => rename H into F end.
      match goal with H : ?th u = Some _ |- _ => rename H into E end.
      pose proof (full_budget _ u _ _ _ R B E F). lia.
    + revert I. eapply IH; [eapply raw_step; eauto|exact B'|unfold ev in *; lia].
Qed.

(** A call running alone returns. *)
Definition returns (t : mem) (o : op) (pc : bpc) : Prop :=
  exists n t' r, solo c m n t o pc = (t', PDone r).

Lemma returns_step t o pc t' pc' :
  bstep c m t true o pc = (t', pc') -> returns t' o pc' -> returns t o pc.
Proof. intros ST (n & t1 & r & E). exists (S n), t1, r. cbn [solo]. now rewrite ST. Qed.

Lemma returns_done t o r : returns t o (PDone r).
Proof. exists O, t, r. reflexivity. Qed.

Lemma slot_eqb_refl a : slot_eqb a a = true.
Proof. unfold slot_eqb. now rewrite !N.eqb_refl. Qed.

Lemma update_same x f : exists r x', atomic_update sc x x f = (r, true, x').
Proof.
  unfold atomic_update, cas. rewrite slot_eqb_refl, N.eqb_refl.
  destruct (sc_mark sc); [eauto|]. destruct (fat f) as [g|]; [|eauto].
  destruct (g (sdata x)); eauto.
Qed.

(** The access after a load sees the loaded content. *)
Lemma load_cases t o i x :
  rd c m t (rmp i) = Some x ->
  returns t o (after_load c m o i (rmp i) x) \/
  (is_empty sc x = false /\ after_load c m o i (rmp i) x = PLoad (i + 1)).
Proof.
  intros RD.
  assert (CAS : returns t o (PCas i x)).
  { eapply returns_step; [cbn [bstep]; rewrite RD; unfold cas; rewrite slot_eqb_refl; reflexivity|].
    apply returns_done. }
  assert (UPD : returns t o (PUpd i x)).
  { destruct (update_same x (op_fun o)) as (r & x' & E).
    eapply returns_step; [cbn [bstep]; rewrite RD, E; reflexivity|]. apply returns_done. }
  assert (DEL : returns t o (PDel i x)).
  { eapply returns_step;
      [cbn [bstep]; rewrite RD; unfold atomic_delete, cas; rewrite slot_eqb_refl; reflexivity|].
    apply returns_done. }
  destruct o; cbn [after_load];
    repeat match goal with
    | |- context [if is_marked ?a ?b then _ else _] => destruct (is_marked a b)
    | |- context [if is_empty ?a ?b then _ else _] => destruct (is_empty a b) eqn:?
    | |- context [if compare_key ?a ?b ?d then _ else _] => destruct (compare_key a b d)
    | |- context [if ?a && ?b then _ else _] => destruct (a && b) eqn:?
    | |- context [if ?a =? ?b then _ else _] => destruct (a =? b)
    end; auto using returns_done.
Qed.

Lemma load_returns t o : raw_mem t -> forall d i,
  passed t (home c m (op_key o)) i -> (exists x, t (rmp (i + N.of_nat d)) = Some x /\ is_empty sc x = true) ->
  returns t o (PLoad i).
Proof.
  intros R. induction d as [|d IH]; intros i P (e & Ee & Em);
    destruct (rd_some _ _ _ R P) as (x & RD & Ex);
    (eapply returns_step; [cbn [bstep]; rewrite RD; reflexivity|]);
    destruct (load_cases t o i x RD) as [D|[NE ->]]; auto.
  - rewrite N.add_0_r in Ee. congruence.
  - apply IH.
    + destruct P as [P1 P2]. split; [lia|]. intros j Hj.
      destruct (N.eq_dec j i) as [->|]; [exists x; auto|]. apply P2. lia.
    + exists e. split; auto. rewrite <- Ee. f_equal. f_equal. lia.
Qed.

Definition empty_left (t : mem) : Prop :=
  cprob mc = true -> exists q x, q < tot /\ t q = Some x /\ is_empty sc x = true.

Lemma ahead t k i : raw_mem t -> empty_left t -> passed t (home c m k) i ->
  exists d x, t (rmp (i + N.of_nat d)) = Some x /\ is_empty sc x = true.
Proof.
  intros R HE P. destruct (cprob mc) eqn:CP.
  - destruct (HE CP) as (q & x & Hq & E & EM). pose proof (pow2_pos lg) as PP.
    rewrite (total_val _ _ _ Hm), CP in Hq.
    exists (N.to_nat ((q + (2 ^ lg - i mod 2 ^ lg)) mod 2 ^ lg)), x. split; auto.
    rewrite N2Nat.id. rewrite (remap_val _ _ _ Hm), CP.
    rewrite N.add_mod_idemp_r by lia.
    replace (i + (q + (2 ^ lg - i mod 2 ^ lg))) with (q + (i + (2 ^ lg - i mod 2 ^ lg)))
      by (assert (i mod 2 ^ lg < 2 ^ lg) by (apply N.mod_lt; lia); lia).
    assert (Z : (i + (2 ^ lg - i mod 2 ^ lg)) mod 2 ^ lg = 0).
    { rewrite (N.div_mod i (2 ^ lg)) at 1 by lia.
      assert (i mod 2 ^ lg < 2 ^ lg) by (apply N.mod_lt; lia).
      replace (2 ^ lg * (i / 2 ^ lg) + i mod 2 ^ lg + (2 ^ lg - i mod 2 ^ lg))
        with (0 + (i / 2 ^ lg + 1) * 2 ^ lg) by lia.
      rewrite N.mod_add by lia. apply N.mod_small. lia. }
    rewrite <- N.add_mod_idemp_r by lia. rewrite Z, N.add_0_r, N.mod_small by lia. exact E.
  - pose proof (passed_bound _ _ _ R P CP) as B.
    exists (N.to_nat (addr + 301 - i)). rewrite N2Nat.id, (remap_val _ _ _ Hm), CP.
    replace (i + (addr + 301 - i)) with (addr + 301) by lia.
    assert (L : addr + 301 < tot)
      by (rewrite (total_val _ _ _ Hm), CP, (addressable_val _ _ _ Hm); lia).
    destruct R as [R1 R2]. specialize (R1 _ L). destruct (t (addr + 301)) as [x|] eqn:E; [|congruence].
    exists x. split; auto. destruct (is_empty sc x) eqn:EM; auto. exfalso.
    apply (R2 CP (addr + 301)); [lia|auto|exists x; auto].
Qed.

Lemma returns_load t o i : raw_mem t -> empty_left t -> passed t (home c m (op_key o)) i ->
  returns t o (PLoad i).
Proof. intros R HE P. destruct (ahead _ _ _ R HE P) as (d & E). eapply load_returns; eauto. Qed.

Lemma solo_returns t o pc : raw_mem t -> raw_thr t o pc -> empty_left t -> returns t o pc.
Proof.
  intros R T HE.
  destruct (bstep c m t true o pc) as [t' pc'] eqn:ST.
  assert (SAME : forall i x, t (rmp i) = Some x -> forall q, fupd t (rmp i) (Some x) q = t q).
  { intros i x E q. destruct (N.eq_dec q (rmp i)) as [->|NE];
      [rewrite fupd_eq; auto|now rewrite fupd_neq by exact NE]. }
  assert (HE' : forall i x, t (rmp i) = Some x -> empty_left (fupd t (rmp i) (Some x))).
  { intros i x E CP. destruct (HE CP) as (q & y & L & Eq & Em). exists q, y. now rewrite SAME by exact E. }
  destruct pc as [i|i s|i s|i s|r|].
  - apply returns_load; auto.
  - destruct (raw_bstep _ _ _ _ _ _ R T ltac:(discriminate) ST) as (R' & T' & _ & _).
    eapply returns_step; [exact ST|]. destruct T as (P & _).
    destruct (rd_some _ _ _ R P) as (x & E1 & E2). cbn [bstep] in ST. rewrite E1 in ST. unfold cas in ST.
    destruct (slot_eqb x s); injection ST as <- <-; [apply returns_done|].
    apply returns_load; auto.
  - destruct (raw_bstep _ _ _ _ _ _ R T ltac:(discriminate) ST) as (R' & T' & _ & _).
    eapply returns_step; [exact ST|]. destruct T as (P & U).
    destruct (rd_some _ _ _ R P) as (x & E1 & E2). cbn [bstep] in ST. rewrite E1 in ST.
    destruct (atomic_update sc x s (op_fun o)) as [[res ok] x'] eqn:Q.
    injection ST as <- <-. destruct ok; [apply returns_done|].
    assert (x' = x).
    { unfold atomic_update, cas in Q. destruct (sc_mark sc).
      - destruct (slot_eqb x s); congruence.
      - destruct (fat (op_fun o)) as [g|]; [destruct (g (sdata x)); discriminate|].
        destruct (sdata x =? sdata s); congruence. }
    subst x'.
    destruct o; apply returns_load; auto.
  - destruct (raw_bstep _ _ _ _ _ _ R T ltac:(discriminate) ST) as (R' & T' & _ & _).
    eapply returns_step; [exact ST|]. destruct T as (P & U).
    destruct (rd_some _ _ _ R P) as (x & E1 & E2). cbn [bstep] in ST. rewrite E1 in ST.
    unfold atomic_delete, cas in ST.
    destruct (slot_eqb x s); injection ST as <- <-; [apply returns_done|].
    apply returns_load; auto.
  - apply returns_done.
  - contradiction.
Qed.

End Raw.

(** In the vocabulary of TableSpec. *)
Section Spec.
Context (sc : scfg) (mc : mcfg) (hash : N -> N) (lg gh : N) (client : op -> Prop).
Context (Hct : cell_type sc) (Hlg : 1 <= lg <= 63).
Notation c := (TCfg sc mc hash).
Notation m := (sized mc lg gh).
Notation tot := (cells_of mc lg).
Let Hm : wf_mapper mc m lg := wf_mk mc lg gh Hlg.

Lemma raw_bounds s tid o pc :
  table_reachable c m client s -> bthr s tid = Some (o, pc) ->
  pc <> PBad /\
  forall i, next_access pc = Some i -> remap mc m i < tot /\ bmem s (remap mc m i) <> None.
Proof.
  intros RS E.
  destruct (raw_reachable c m lg (cell_type_wf _ Hct) Hm client s RS) as [R T].
  specialize (T _ _ _ E). split; [intros ->; exact T|].
  assert (B : forall i, passed c m (bmem s) (home c m (op_key o)) i ->
              remap mc m i < tot /\ bmem s (remap mc m i) <> None).
  { intros i P. pose proof (rmp_lt c m lg Hm _ _ _ R P) as L. cbn [tmc] in L.
    split; [|now apply R]. now rewrite <- (tot_eq mc lg gh Hlg). }
  intros i Q. destruct pc; cbn in Q, T; try discriminate; injection Q as <-; apply B; tauto.
Qed.

Lemma raw_full s tid o r :
  table_reachable c m client s -> bthr s tid = Some (o, PDone r) -> obs o r = RFull ->
  cprob mc = false /\
  forall p, home_of mc lg (w64 (hash (op_key o))) <= p <= 2 ^ lg + 300 -> ~ vacant sc tot (bmem s) p.
Proof.
  intros RS E F.
  destruct (raw_reachable c m lg (cell_type_wf _ Hct) Hm client s RS) as [R T].
  destruct (T _ _ _ E F) as (_ & CP & _ & P). split; auto. intros p Hp (_ & x & Ex & W).
  cbn [tmc] in *. rewrite (addressable_val _ _ _ Hm), (home_eq sc mc hash lg gh Hlg) in P.
  destruct (P p) as (y & Ey & U); [lia|]. rewrite (remap_val _ _ _ Hm), CP in Ey.
  cbn [tsc] in U. rewrite Ex in Ey. injection Ey as <-.
  rewrite empty_word in U; auto; [discriminate|now apply cell_type_wf].
Qed.

Lemma raw_solo s tid o pc :
  table_reachable c m client s -> bthr s tid = Some (o, pc) ->
  (cprob mc = true -> exists p, vacant sc tot (bmem s) p) ->
  exists n t' r, solo c m n (bmem s) o pc = (t', PDone r).
Proof.
  intros RS E V.
  destruct (raw_reachable c m lg (cell_type_wf _ Hct) Hm client s RS) as [R T].
  apply (solo_returns c m lg (cell_type_wf _ Hct) Hm); auto; [now apply T with tid|].
  intros CP. destruct (V CP) as (p & L & x & Ex & W). exists p, x. cbn [tmc tsc].
  rewrite (tot_eq mc lg gh Hlg). split; [|split]; auto. apply empty_word; auto. now apply cell_type_wf.
Qed.

Lemma raw_adds tr s :
  lts_steps (bsys_step c m client) (bsys_init c m) tr s -> (adds tr <= 302)%nat ->
  forall t, ~ In (ERet t RFull) tr.
Proof.
  intros ST LE. eapply (no_full c m lg (cell_type_wf _ Hct) Hm client); eauto.
  - apply (raw_init c m).
  - apply budget_init.
  - exact LE.
Qed.
End Spec.
