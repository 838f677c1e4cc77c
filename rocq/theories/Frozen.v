(** A version that has been migrated with marks: no call changes it any more. *)
From Coq Require Import NArith Bool List Lia.
From Verif Require Import Words Slot SlotFacts Mapper MapperFacts ReturnCode MapSpec LinSpec Base BaseInv
  BaseLin Migrate MigrateGeo MigrateInv MigrateStep MigrateRun MigrateHelp MigrateDone.
Import ListNotations.
Open Scope N_scope.

(** Every cell a call can look at next carries the mark. *)
Definition frozen (c : tcfg) (m : mapper) (ct : N -> content) (mk : cmark) : Prop :=
  forall k n, prefix c m ct k n -> mk (remap (tmc c) m (home c m k + n)) = true.

Section Done.
Context (c : tcfg) (ms mt : mapper) (lg g B : N) (MG : migr c ms mt lg g).
Context (Hsc : wf_scfg (tsc c)) (HB : 0 < B).
Notation sc := (tsc c).
Notation mc := (tmc c).
Notation cap := (2 ^ lg).
Notation stot := (total_slots mc ms).
Notation sp := (remap mc ms).
Notation hm := (home c ms).
Context (src tgt : mem) (ctr : N) (hs : N -> option hpc) (ct : N -> content) (mk : cmark)
  (tct : N -> content) (rg : N -> bst) (hb : N -> option N)
  (S : sinv c ms mt lg g B src tgt ctr hs ct mk tct rg hb).
Context (CTR : cap <= ctr) (FIN : forall tid pc, hs tid = Some pc -> pc = HEnd \/ pc = HClaim).
Context (GAP : cprob mc = true -> exists p, p < stot /\ ct p = CEmpty) (SM : sc_mark sc = true).
Let GL := s_glob S.

Lemma proc_done p : proc c ms rg p -> exists s r i x, rg s = BDone r i /\ r <= x < i /\ sp x = p.
Proof.
  intros (s & r & i & x & R & Hx & Q).
  assert (NB : rg s <> BNone) by (intros X; rewrite X in R; discriminate).
  destruct (g_blk GL s NB) as (HN & _ & LS).
  destruct (block_done c ms mt lg g B MG Hsc HB _ _ _ _ _ _ _ _ _ S CTR FIN GAP s HN LS) as [E|(r0 & i0 & E)];
    rewrite E in R; [discriminate|]. injection R as <- <-. eauto 8.
Qed.

Lemma proc_marked p : proc c ms rg p -> mk p = true.
Proof.
  intros P. destruct (proc_done p P) as (s & r & i & x & E & Hx & <-).
  pose proof (g_st GL s) as O. rewrite E in O. destruct O as (_ & _ & O & _). now apply O.
Qed.

Lemma next_marked x : proc c ms rg (sp x) -> mk (sp (x + 1)) = true.
Proof.
  intros P. destruct (proc_done _ P) as (s & r & i & y & E & Hy & Q).
  pose proof (g_st GL s) as O. rewrite E in O. destruct O as (_ & _ & O & _ & _ & O').
  replace (sp (x + 1)) with (sp (y + 1)) by (apply (sp_add c ms mt lg g MG); exact Q).
  destruct (N.eq_dec (y + 1) i) as [<-|NE]; [now apply O'|]. apply O; auto. lia.
Qed.

Lemma done_frozen : frozen c ms ct mk.
Proof.
  intros k n P.
  pose proof (hm_cap c ms mt lg g MG k) as HL.
  assert (COV : forall p, p < cap -> proc c ms rg p)
    by (eapply (cover c ms mt lg g B MG Hsc HB); eauto).
  destruct (cpd c ms mt lg g B MG Hsc HB) as [CP|CP].
  - apply proc_marked, COV. rewrite (sp_val c ms mt lg g MG), CP. apply N.mod_lt.
    pose proof (cap_pos lg). lia.
  - assert (SX : forall x, sp x = x) by (intros x; rewrite (sp_val c ms mt lg g MG), CP; reflexivity).
    destruct (N.lt_ge_cases (hm k + n) cap) as [L|G].
    + apply proc_marked, COV. now rewrite SX.
    + replace (hm k + n) with (hm k + n - 1 + 1) by lia. apply next_marked. rewrite SX.
      destruct (N.eq_dec (hm k + n) cap) as [E|NE]; [apply COV; lia|].
      apply (cover_over c ms mt lg g B MG Hsc HB _ _ _ _ _ _ _ _ _ S CTR FIN GAP (hm k + n - cap) CP); [|lia].
      intros x Hx. destruct (P (x - hm k) ltac:(lia)) as [X _].
      rewrite SX in X. now replace (hm k + (x - hm k)) with x in X by lia.
Qed.

End Done.

(** Steps of calls on such a version. *)
Section Step.
Context (c : tcfg) (m : mapper) (lg : N) (Hsc : wf_scfg (tsc c)) (Hm : wf_mapper (tmc c) m lg).
Notation sc := (tsc c).
Notation mc := (tmc c).

Lemma tinv_ext t t' ct mk : (forall q, t' q = t q) -> tinv c m t ct mk -> tinv c m t' ct mk.
Proof. intros E I. split; try apply I. intros p L. rewrite E. now apply (ti_cell _ _ _ _ _ I). Qed.

Definition finding (o : op) : bool := match o with OFind _ => true | _ => false end.

Lemma frozen_step t ct mk o pc b t' pc' :
  sc_mark sc = true -> tinv c m t ct mk -> frozen c m ct mk -> op_ok sc o -> thr_inv c m ct o pc ->
  (forall r, pc <> PDone r) -> bstep c m t b o pc = (t', pc') ->
  (forall q, t' q = t q) /\ thr_inv c m ct o pc' /\
  (forall r, pc' = PDone r -> finding o = false -> obs o r = RInvalid \/
     (obs o r = RBackoff /\ exists k f, o = OUpdateB k f)).
Proof.
  intros SM I FR [V FO] T ND ST.
  assert (ENC : forall k n, prefix c m ct k n ->
    let p := remap mc m (home c m k + n) in
    rd c m t p = Some (enc sc (ct p) true) /\ ok_content sc (ct p) true /\ t p = Some (enc sc (ct p) true)).
  { intros k n P p. destruct (rd_tinv c m lg Hm _ _ _ _ _ I P) as (R & L & O).
    rewrite (FR k n P) in R, O. fold p in R, O. sp; auto.
    unfold rd in R. destruct (_ <? _); [auto|discriminate]. }
  assert (SAME : forall p x, t p = Some x -> forall q, fupd t p (Some x) q = t q).
  { intros p x E q. unfold fupd. destruct (N.eqb_spec q p); congruence. }
  assert (MK : forall p v, ok_content sc (ct p) true -> ok_content sc v false ->
                 slot_eqb (enc sc (ct p) true) (enc sc v false) = false).
  { intros p v O0 O1. destruct (slot_eqb _ _) eqn:Q; auto. apply slot_eqb_eq in Q.
    apply (enc_inj sc Hsc) in Q; auto. destruct Q. discriminate. }
  destruct pc as [i|i curr|i curr|i curr|r|]; cbn [bstep] in ST.
  - destruct T as (n & -> & P). destruct (ENC _ _ P) as (R & O & _). rewrite R in ST.
    apply pair_equal_spec in ST. destruct ST as [<- <-]. split; auto.
    destruct (spec_find_or c o) as [[k ->]|NF].
    + cbn [op_key] in *. unfold after_load.
      destruct (is_empty _ _) eqn:IE; [split; [exact Logic.I|discriminate]|].
      destruct (compare_key _ _ _) eqn:CK; [split; [exact Logic.I|discriminate]|].
      split; [|discriminate]. exists (n + 1). cbn [op_key]. split; [lia|]. apply prefix_ext; auto.
      * intros X. rewrite X in IE, O. rewrite (enc_is_empty sc Hsc) in IE; auto. discriminate.
      * intros d X. rewrite X in CK, O. rewrite (enc_compare_key sc Hsc) in CK; auto.
        apply N.eqb_neq in CK. congruence.
    + assert (X : after_load c m o (home c m (op_key o) + n) (remap mc m (home c m (op_key o) + n))
              (enc sc (ct (remap mc m (home c m (op_key o) + n))) true) = PDone (ret_end RC_INVALID)).
      { destruct o; cbn [after_load]; try (now elim (NF k)); rewrite (enc_is_marked sc Hsc); auto. }
      rewrite X. split; [exact Logic.I|]. intros r [= <-] _. left. destruct o; try reflexivity. now elim (NF k).
  - destruct T as (n & d & -> & P & EC & T). destruct (ENC _ _ P) as (R & O & TP). rewrite R in ST.
    unfold cas in ST. rewrite EC, (MK _ CEmpty O) in ST by (split; [discriminate|exact Logic.I]).
    injection ST as <- <-. sp; [now apply SAME| |discriminate]. exists n. auto.
  - destruct T as (n & d & -> & P & EC & T & _). destruct (ENC _ _ P) as (R & O & TP). rewrite R in ST.
    unfold atomic_update in ST. rewrite SM in ST. unfold cas in ST.
    rewrite EC, (MK _ (CLive (op_key o) d) O) in ST by (split; [discriminate|exact V]).
    injection ST as <- <-. split; [now apply SAME|].
    assert (TI : thr_inv c m ct o (PLoad (home c m (op_key o) + n))) by (exists n; auto).
    destruct o; try contradiction; try (split; [exact TI|discriminate]).
    destruct b; [split; [exact TI|discriminate]|]. split; [exact Logic.I|].
    intros r [= <-] _. right. split; [reflexivity|eauto].
  - destruct T as (n & d & -> & P & EC & T). destruct (ENC _ _ P) as (R & O & TP). rewrite R in ST.
    unfold atomic_delete, cas in ST.
    rewrite EC, (MK _ (CLive (op_key o) d) O) in ST by (split; [discriminate|exact V]).
    injection ST as <- <-. sp; [now apply SAME| |discriminate]. exists n. auto.
  - now elim (ND r).
  - destruct T.
Qed.
End Step.
