(** Every step of a call keeps the table invariant and takes effect atomically
    on the abstract map. *)
From Coq Require Import NArith Bool List Lia.
From Verif Require Import Words Slot SlotFacts Mapper MapperFacts ReturnCode MapSpec LinSpec Base BaseInv.
Import ListNotations.
Open Scope N_scope.

Ltac sp := repeat match goal with |- _ /\ _ => split end.

Definition is_erase (o : op) : Prop :=
  match o with OErase _ | OEraseIf _ _ => True | _ => False end.
Definition is_update (o : op) : Prop :=
  match o with OUpdate _ _ | OUpdateB _ _ | OIou _ _ _ => True | _ => False end.

(** The functor's [atomic] member computes the same new value as operator(). *)
Definition functor_ok (f : functor) : Prop :=
  forall g x, fat f = Some g -> fst (g x) = fn f x.

(** Admissible calls: admissible key, consistent functor. *)
Definition op_ok (sc : scfg) (o : op) : Prop :=
  valid_key sc (op_key o) /\ functor_ok (op_fun o).

(** Clients may mix all calls on marking cells; on other cells they use either
    no erase or no update. *)
Definition client_ok (sc : scfg) (client : op -> Prop) : Prop :=
  (forall o, client o -> op_ok sc o) /\
  (sc_mark sc = true \/ (forall o, client o -> ~ is_erase o) \/
   (forall o, client o -> ~ is_update o)).

Section Lin.
Context (c : tcfg) (m : mapper) (lg : N).
Context (Hsc : wf_scfg (tsc c)) (Hm : wf_mapper (tmc c) m lg).
Notation sc := (tsc c).
Notation mc := (tmc c).
Notation tot := (total_slots mc m).
Notation addr := (addressable_slots mc m).
Notation rmp := (remap mc m).
Notation hm := (home c m).

(** Invariant of a call in progress. *)
Definition thr_inv (ct : N -> content) (o : op) (pc : bpc) : Prop :=
  let k := op_key o in
  match pc with
  | PLoad i => exists n, i = hm k + n /\ prefix c m ct k n
  | PCas i curr =>
      exists n d, i = hm k + n /\ prefix c m ct k n /\ curr = enc sc CEmpty false /\
      op_slot o = Slot k d /\
      (cprob mc = false -> rmp i <= addr + 300) /\
      (exists d, spec_op sc o = MInsert k d \/ exists f r, spec_op sc o = MInsertOrUpdate k d f r)
  | PUpd i curr =>
      exists n d, i = hm k + n /\ prefix c m ct k n /\ curr = enc sc (CLive k d) false /\
      is_update o /\
      (sc_mark sc = false -> exists d', ct (rmp i) = CLive k d')
  | PDel i curr =>
      exists n d, i = hm k + n /\ prefix c m ct k n /\ curr = enc sc (CLive k d) false /\
      (o = OErase k \/ o = OEraseIf k d)
  | PDone _ => True
  | PBad => False
  end.

Lemma rd_tinv t ct mk k n :
  tinv c m t ct mk -> prefix c m ct k n ->
  rd c m t (rmp (hm k + n)) =
    Some (enc sc (ct (rmp (hm k + n))) (mk (rmp (hm k + n)))) /\
  rmp (hm k + n) < tot /\ ok_content sc (ct (rmp (hm k + n))) (mk (rmp (hm k + n))).
Proof.
  intros I P. pose proof (prefix_bound c m lg Hm _ _ _ _ _ I P) as L.
  unfold rd. destruct (N.ltb_spec (rmp (hm k + n)) tot); [|lia].
  destruct (ti_cell _ _ _ _ _ I _ L). auto.
Qed.

Lemma prefix_ext ct k n :
  prefix c m ct k n -> ct (rmp (hm k + n)) <> CEmpty ->
  (forall d, ct (rmp (hm k + n)) <> CLive k d) -> prefix c m ct k (n + 1).
Proof.
  intros P E L j Hj. destruct (N.eq_dec j n) as [->|]; [auto|]. apply P. lia.
Qed.

(** Outcome of a step. *)
Definition step_ok (a : amap) (ct : N -> content) (mk : cmark) (o : op) (t' : mem) (pc' : bpc)
  : Prop :=
  exists ct', tinv c m t' ct' mk /\ thr_inv ct' o pc' /\
  ((forall p, ct' p = ct p) \/
   exists p v, (forall q, ct' q = fupd ct p v q) /\ p < tot /\ mk p = false /\ trans (ct p) v /\
               (v = CTomb -> is_erase o)) /\
  ((exists r a', pc' = PDone r /\
      mspec (sc_mark sc) (negb (cprob mc)) a (spec_op sc o) a' (obs o r) /\ absr c m ct' a') \/
   (forall r, pc' <> PDone r) /\ absr c m ct' a).

Lemma spec_find_or o : (exists k, o = OFind k) \/ (forall k, spec_op sc o <> MFind k).
Proof. destruct o; cbn; eauto; right; discriminate. Qed.

(** A step that only reads. *)
Lemma step_ok_read a t ct mk o pc' :
  tinv c m t ct mk -> absr c m ct a -> thr_inv ct o pc' ->
  ((exists r, pc' = PDone r /\
      mspec (sc_mark sc) (negb (cprob mc)) a (spec_op sc o) a (obs o r)) \/
   (forall r, pc' <> PDone r)) ->
  step_ok a ct mk o t pc'.
Proof.
  intros I A T R. exists ct. sp; auto.
  destruct R as [(r & E & S)|N]; [left; exists r, a; auto|right; auto].
Qed.

Lemma load_ok a t ct mk o n :
  tinv c m t ct mk -> absr c m ct a -> prefix c m ct (op_key o) n -> op_ok sc o ->
  let i := hm (op_key o) + n in
  step_ok a ct mk o t (after_load c m o i (rmp i) (enc sc (ct (rmp i)) (mk (rmp i)))).
Proof.
  intros I A P [V F] i.
  destruct (rd_tinv _ _ _ _ _ I P) as (_ & L & O). fold i in L, O.
  pose proof (enc_is_marked sc Hsc _ _ O) as QM.
  pose proof (enc_is_empty sc Hsc _ _ O) as QE.
  pose proof (fun k => enc_compare_key sc Hsc _ _ k O) as QC.
  specialize (QC _ V).
  pose proof (fun d => live_present c m t ct mk a (op_key o) d (rmp i) I A L) as LP.
  pose proof (fun E => empty_absent c m t ct mk a (op_key o) n I A P E) as LA.
  fold i in LA.
  assert (NX : ct (rmp i) <> CEmpty -> (forall d, ct (rmp i) <> CLive (op_key o) d) ->
               thr_inv ct o (PLoad (i + 1))).
  { intros E1 E2. exists (n + 1). split; [unfold i; lia|]. apply prefix_ext; auto. }
  assert (MKT : mk (rmp i) = true -> sc_mark sc = true) by (intros E; apply O; exact E).
  assert (TN : ct (rmp i) = CTomb \/ (exists k' d', ct (rmp i) = CLive k' d' /\ k' <> op_key o) ->
               thr_inv ct o (PLoad (i + 1))).
  { intros [E|(k' & d' & E & NE)]; apply NX; rewrite E; congruence. }
  remember (enc sc (ct (rmp i)) (mk (rmp i))) as s eqn:Es.
  assert (CASES : ct (rmp i) = CEmpty \/
     (exists d, ct (rmp i) = CLive (op_key o) d) \/
     (ct (rmp i) = CTomb \/ exists k' d', ct (rmp i) = CLive k' d' /\ k' <> op_key o)).
  { destruct (ct (rmp i)) as [| |k' d']; auto.
    destruct (N.eq_dec k' (op_key o)) as [->|NE]; [right; left; eauto|].
    right; right; right. eauto. }
  destruct CASES as [E|[[d E]|E]].
  - (* empty cell *)
    specialize (LA E). rewrite E in QE, QC.
    assert (CASPC : mk (rmp i) = false -> forall d,
        op_slot o = Slot (op_key o) d ->
        (exists d, spec_op sc o = MInsert (op_key o) d \/
                   exists f r, spec_op sc o = MInsertOrUpdate (op_key o) d f r) ->
        (negb (cprob mc) && (addr + 300 <? rmp i)) = false -> thr_inv ct o (PCas i s)).
    { intros EM d S1 S2 FL. exists n, d. rewrite Es, E, EM. sp; auto.
      intros CP. rewrite CP in FL. cbn in FL. apply N.ltb_ge in FL. exact FL. }
    destruct o; cbn [after_load op_key] in *; rewrite ?QM, ?QE;
      try (destruct (mk (rmp i)) eqn:EM; [apply step_ok_read; auto; [exact Logic.I|left; eexists; split; [reflexivity|]; cbn; apply s_invalid; auto; discriminate]|]);
      try (apply step_ok_read; auto; [exact Logic.I|left; eexists; split; [reflexivity|]; cbn; now constructor]).
    + destruct (negb (cprob mc) && (addr + 300 <? rmp i)) eqn:FL.
      * apply step_ok_read; auto; [exact Logic.I|left; eexists; split; [reflexivity|]].
        cbn. apply s_insert_full; auto. now apply andb_true_iff in FL.
      * apply step_ok_read; auto; [|right; discriminate].
        eapply CASPC; cbn; eauto.
    + destruct (negb (cprob mc) && (addr + 300 <? rmp i)) eqn:FL.
      * apply step_ok_read; auto; [exact Logic.I|left; eexists; split; [reflexivity|]].
        cbn. apply s_iou_full; auto. now apply andb_true_iff in FL.
      * apply step_ok_read; auto; [|right; discriminate].
        eapply CASPC; cbn; eauto 7.
    + apply step_ok_read; auto; [exact Logic.I|left; eexists; split; [reflexivity|]].
      cbn. apply s_erase_if_miss. congruence.
  - (* the key *)
    specialize (LP d E). rewrite E in QE, QC. rewrite N.eqb_refl in QC.
    assert (SD : sdata s = d) by (subst s; rewrite sdata_enc, E; reflexivity).
    assert (CUR : mk (rmp i) = false -> s = enc sc (CLive (op_key o) d) false)
      by (intros EM; rewrite Es, E, EM; reflexivity).
    destruct o; cbn [after_load op_key] in *; rewrite ?QM, ?QE, ?QC;
      try (destruct (mk (rmp i)) eqn:EM; [apply step_ok_read; auto; [exact Logic.I|left; eexists; split; [reflexivity|]; cbn; apply s_invalid; auto; discriminate]|]);
      try (apply step_ok_read; auto; [exact Logic.I|left; eexists; split; [reflexivity|]; cbn; rewrite SD; now constructor]);
      try (apply step_ok_read; auto; [|right; discriminate]; exists n, d; sp; try exact Logic.I; auto; intros; eauto; fail).
    unfold get_mapped. rewrite SD. destruct (N.eqb_spec d d0) as [->|NE].
    + apply step_ok_read; auto; [|right; discriminate].
      exists n, d0. sp; auto.
    + apply step_ok_read; auto; [exact Logic.I|left; eexists; split; [reflexivity|]].
      cbn. apply s_erase_if_miss. congruence.
  - (* another key or a tombstone *)
    assert (QE' : is_empty sc s = false)
      by (rewrite QE; destruct E as [->|(k' & d' & -> & _)]; reflexivity).
    assert (QC' : compare_key sc s (op_key o) = false)
      by (rewrite QC; destruct E as [->|(k' & d' & -> & NE)]; [reflexivity|now apply N.eqb_neq]).
    specialize (TN E).
    destruct o; cbn [after_load op_key] in *; rewrite ?QM, ?QE', ?QC';
      try (destruct (mk (rmp i)) eqn:EM; [apply step_ok_read; auto; [exact Logic.I|left; eexists; split; [reflexivity|]; cbn; apply s_invalid; auto; discriminate]|]);
      apply step_ok_read; auto; right; discriminate.
Qed.

(** A failed CAS. *)
Lemma step_ok_fail a t ct mk o p pc' s :
  tinv c m t ct mk -> absr c m ct a -> t p = Some s -> thr_inv ct o pc' ->
  ((exists r, pc' = PDone r /\
      mspec (sc_mark sc) (negb (cprob mc)) a (spec_op sc o) a (obs o r)) \/
   (forall r, pc' <> PDone r)) ->
  step_ok a ct mk o (fupd t p (Some s)) pc'.
Proof.
  intros I A E T R. apply step_ok_read; auto. now apply tinv_same.
Qed.

Lemma rd_mem t p s : rd c m t p = Some s -> t p = Some s.
Proof. unfold rd. destruct (p <? tot); [auto|discriminate]. Qed.

Lemma cas_ok a t ct mk o n curr b :
  tinv c m t ct mk -> absr c m ct a -> op_ok sc o ->
  thr_inv ct o (PCas n curr) ->
  forall t' pc', bstep c m t b o (PCas n curr) = (t', pc') -> step_ok a ct mk o t' pc'.
Proof.
  intros I A [V F] (n' & d & -> & P & Ec & Es & B & SO) t' pc' ST.
  destruct (rd_tinv _ _ _ _ _ I P) as (R & L & O).
  cbn [bstep] in ST. rewrite R in ST.
  unfold cas in ST.
  set (p := rmp (hm (op_key o) + n')) in *.
  destruct (slot_eqb (enc sc (ct p) (mk p)) curr) eqn:Q.
  - apply slot_eqb_eq in Q. rewrite Ec in Q.
    assert (OE : ok_content sc CEmpty false) by (split; [discriminate|exact Logic.I]).
    destruct (enc_inj sc Hsc _ _ _ _ O OE Q) as [E EM].
    injection ST as <- <-.
    assert (NA : a (op_key o) = None) by (eapply empty_absent; eauto).
    exists (fupd ct p (CLive (op_key o) d)). sp.
    + rewrite Es. replace (Slot (op_key o) d) with (enc sc (CLive (op_key o) d) (mk p))
        by (rewrite EM; reflexivity).
      apply tinv_write; auto.
      * rewrite E; constructor.
      * rewrite EM. split; [discriminate|exact V].
      * intros k d0 _ [= <- <-]. exists n'. auto.
    + exact Logic.I.
    + right. exists p, (CLive (op_key o) d). sp; auto; [rewrite E; constructor|discriminate].
    + left. exists (BRet RC_SUCCESS_IN (in_slot o curr) (Some p)), (fupd a (op_key o) (Some d)).
      sp; auto.
      * destruct SO as [d1 [SO|(f & r & SO)]]; destruct o; cbn in *; try discriminate;
          injection Es as ->; now constructor.
      * eapply absr_insert; eauto.
  - injection ST as <- <-. apply step_ok_fail; auto.
    + apply rd_mem; exact R.
    + exists n'. auto.
    + right; discriminate.
Qed.

Lemma del_ok a t ct mk o n curr b :
  tinv c m t ct mk -> absr c m ct a -> op_ok sc o ->
  thr_inv ct o (PDel n curr) ->
  forall t' pc', bstep c m t b o (PDel n curr) = (t', pc') -> step_ok a ct mk o t' pc'.
Proof.
  intros I A [V F] (n' & d & -> & P & Ec & SO) t' pc' ST.
  destruct (rd_tinv _ _ _ _ _ I P) as (R & L & O).
  cbn [bstep] in ST. rewrite R in ST.
  unfold atomic_delete, cas in ST.
  set (p := rmp (hm (op_key o) + n')) in *.
  destruct (slot_eqb (enc sc (ct p) (mk p)) curr) eqn:Q.
  - apply slot_eqb_eq in Q. rewrite Ec in Q.
    assert (OE : ok_content sc (CLive (op_key o) d) false) by (split; [discriminate|exact V]).
    destruct (enc_inj sc Hsc _ _ _ _ O OE Q) as [E EM].
    injection ST as <- <-.
    assert (AV : a (op_key o) = Some d) by (eapply live_present; eauto).
    exists (fupd ct p CTomb). sp.
    + replace (deleted_slot sc) with (enc sc CTomb (mk p)) by (rewrite EM; reflexivity).
      apply tinv_write; auto.
      * rewrite E; constructor.
      * rewrite EM. split; [discriminate|exact Logic.I].
      * intros; discriminate.
      * intros E'. rewrite E in E'. discriminate.
    + exact Logic.I.
    + right. exists p, CTomb. sp; auto; [rewrite E; constructor|].
      intros _. destruct SO as [->| ->]; exact Logic.I.
    + left. eexists _, (fupd a (op_key o) None). sp; [reflexivity| |].
      * destruct SO as [->| ->]; cbn in *; econstructor; eauto.
      * eapply absr_delete; eauto.
  - injection ST as <- <-. apply step_ok_fail; auto.
    + apply rd_mem; exact R.
    + exists n'. auto.
    + right; discriminate.
Qed.

Lemma upd_ok a t ct mk o n curr b :
  tinv c m t ct mk -> absr c m ct a -> op_ok sc o ->
  thr_inv ct o (PUpd n curr) ->
  forall t' pc', bstep c m t b o (PUpd n curr) = (t', pc') -> step_ok a ct mk o t' pc'.
Proof.
  intros I A [V F] (n' & d & -> & P & Ec & SO & SM) t' pc' ST.
  destruct (rd_tinv _ _ _ _ _ I P) as (R & L & O).
  cbn [bstep] in ST. rewrite R in ST.
  set (p := rmp (hm (op_key o) + n')) in *.
  (* the common effect of a successful update *)
  assert (SUCC : forall d0 s, ct p = CLive (op_key o) d0 -> mk p = false ->
     sdata s = fun_ret sc (op_fun o) d0 ->
     step_ok a ct mk o (fupd t p (Some (Slot (op_key o) (fn (op_fun o) d0))))
       (PDone (BRet RC_SUCCESS_UP s (Some p)))).
  { intros d0 s E EM SD.
    assert (AV : a (op_key o) = Some d0) by (eapply live_present; eauto).
    exists (fupd ct p (CLive (op_key o) (fn (op_fun o) d0))). sp.
    - replace (Slot (op_key o) (fn (op_fun o) d0))
        with (enc sc (CLive (op_key o) (fn (op_fun o) d0)) (mk p)) by (rewrite EM; reflexivity).
      apply tinv_write; auto.
      + rewrite E; constructor.
      + rewrite EM. split; [discriminate|exact V].
      + intros k d1 E'. rewrite E in E'. discriminate.
      + intros E'. rewrite E in E'. discriminate.
    - exact Logic.I.
    - right. exists p, (CLive (op_key o) (fn (op_fun o) d0)).
      sp; auto; [rewrite E; constructor|discriminate].
    - left. eexists _, (fupd a (op_key o) (Some (fn (op_fun o) d0))). sp; [reflexivity| |].
      + destruct o; try contradiction; cbn in *; rewrite SD; constructor; auto.
      + eapply absr_update; eauto. }
  assert (FAIL : forall s', s' = enc sc (ct p) (mk p) ->
     step_ok a ct mk o (fupd t p (Some s'))
       match o with
       | OUpdateB _ _ => if b then PLoad (hm (op_key o) + n') else PDone (ret_end RC_BACKOFF)
       | _ => PLoad (hm (op_key o) + n')
       end).
  { intros s' ->. apply rd_mem in R.
    assert (TI : thr_inv ct o (PLoad (hm (op_key o) + n'))) by (exists n'; auto).
    destruct o; try contradiction; try (apply step_ok_fail; auto; right; discriminate).
    destruct b; apply step_ok_fail; auto.
    - right; discriminate.
    - left. eexists; split; [reflexivity|]. cbn. constructor. }
  unfold atomic_update in ST. destruct (sc_mark sc) eqn:M.
  - unfold cas in ST. destruct (slot_eqb (enc sc (ct p) (mk p)) curr) eqn:Q.
    + apply slot_eqb_eq in Q. rewrite Ec in Q.
      assert (OE : ok_content sc (CLive (op_key o) d) false) by (split; [discriminate|exact V]).
      destruct (enc_inj sc Hsc _ _ _ _ O OE Q) as [E EM].
      injection ST as <- <-. rewrite Ec. cbn. apply SUCC; auto.
      unfold fun_ret. now rewrite M.
    + injection ST as <- <-. now apply FAIL.
  - destruct (SM eq_refl) as [d' E].
    assert (EM : mk p = false).
    { destruct (mk p); auto. destruct O as [O _]. now rewrite O in M. }
    assert (CELL : enc sc (ct p) (mk p) = Slot (op_key o) d') by (rewrite E, EM; reflexivity).
    destruct (fat (op_fun o)) as [g|] eqn:FA.
    + rewrite CELL in ST. cbn in ST. destruct (g d') as [x r] eqn:G. injection ST as <- <-.
      pose proof (F g d' FA) as FG. rewrite G in FG. cbn in FG. subst x.
      apply SUCC; auto. unfold fun_ret. rewrite M, FA, G. reflexivity.
    + destruct (sdata (enc sc (ct p) (mk p)) =? sdata curr) eqn:Q.
      * apply N.eqb_eq in Q. rewrite CELL in Q. rewrite Ec in Q. cbn in Q. subst d'.
        rewrite CELL, Ec in ST. cbn in ST. injection ST as <- <-.
        apply SUCC; auto. unfold fun_ret. rewrite M, FA. reflexivity.
      * injection ST as <- <-. now apply FAIL.
Qed.

Lemma bstep_ok a t ct mk o pc b t' pc' :
  tinv c m t ct mk -> absr c m ct a -> op_ok sc o -> thr_inv ct o pc ->
  (forall r, pc <> PDone r) -> bstep c m t b o pc = (t', pc') -> step_ok a ct mk o t' pc'.
Proof.
  intros I A O T ND ST. destruct pc as [i|i s|i s|i s|r|].
  - destruct T as (n & -> & P). cbn [bstep] in ST.
    destruct (rd_tinv _ _ _ _ _ I P) as (R & _). rewrite R in ST.
    injection ST as <- <-. now apply load_ok.
  - eapply cas_ok; eauto.
  - eapply upd_ok; eauto.
  - eapply del_ok; eauto.
  - now elim (ND r).
  - contradiction.
Qed.

(** Other threads' writes do not disturb a call in progress. *)
Lemma thr_inv_write ct o pc p v :
  thr_inv ct o pc -> trans (ct p) v ->
  (v = CTomb -> sc_mark sc = true \/ ~ is_update o) ->
  thr_inv (fupd ct p v) o pc.
Proof.
  intros T TR CL. destruct pc as [i|i s|i s|i s|r|]; cbn in *; auto.
  - destruct T as (n & E & P). exists n. split; auto. eapply prefix_trans; eauto.
  - destruct T as (n & d & E & P & R). exists n, d. sp; try apply R; auto. eapply prefix_trans; eauto.
  - destruct T as (n & d & E & P & Ec & U & S). exists n, d. sp; auto; [eapply prefix_trans; eauto|].
    intros M. destruct (S M) as [d' E']. destruct (N.eq_dec (rmp i) p) as [Ep|NE].
    + rewrite Ep in *. rewrite fupd_eq. rewrite E' in TR. inversion TR; subst; eauto.
      destruct (CL eq_refl) as [C|C]; [congruence|contradiction].
    + rewrite fupd_neq by exact NE. eauto.
  - destruct T as (n & d & E & P & R). exists n, d. sp; try apply R; auto. eapply prefix_trans; eauto.
Qed.

Lemma thr_inv_ext ct ct' o pc :
  (forall p, ct' p = ct p) -> thr_inv ct o pc -> thr_inv ct' o pc.
Proof.
  intros E. assert (PE : forall k n, prefix c m ct k n -> prefix c m ct' k n).
  { intros k n P j Hj. rewrite E. auto. }
  destruct pc as [i|i s|i s|i s|r|]; cbn; auto.
  - intros (n & ? & ?). eauto.
  - intros (n & d & ? & ? & ?). exists n, d. auto.
  - intros (n & d & ? & ? & ? & ? & H3). exists n, d. sp; auto. rewrite E. auto.
  - intros (n & d & ? & ? & ?). exists n, d. auto.
Qed.

(** *** The system *)

Definition sys_rel (client : op -> Prop) (s : bsys) (x : aobj amap mop mres) : Prop :=
  exists ct mk, tinv c m (bmem s) ct mk /\ absr c m ct (ast x) /\
  (forall tid, match bthr s tid with
               | None => ath x tid = AIdle
               | Some (o, pc) =>
                   client o /\ thr_inv ct o pc /\
                   match pc with
                   | PDone r => ath x tid = ADone (obs o r)
                   | _ => ath x tid = APend (spec_op sc o)
                   end
               end).

Notation spec := (mspec (sc_mark sc) (negb (cprob mc))).

Lemma sim client s x l s' :
  client_ok sc client -> sys_rel client s x -> bsys_step c m client s l s' ->
  exists x', asteps spec x (match l with Some e => [e] | None => [] end) x' /\
             sys_rel client s' x'.
Proof.
  intros [CO CM] (ct & mk & I & A & T) ST. destruct x as [a th']. cbn in *.
  destruct ST as [t th tid o E CL|t th tid o pc b t' pc' E ND ST|t th p s0 M L E|t th tid o r E].
  - (* invocation *)
    pose proof (T tid) as Tt. cbn in Tt. rewrite E in Tt.
    eexists. split.
    + eapply as_vis; [|apply as_nil]. now apply a_inv.
    + exists ct, mk. cbn. sp; auto. intros u. destruct (N.eq_dec u tid) as [->|NE].
      * rewrite !fupd_eq. sp; try reflexivity; auto. exists 0. split; [lia|]. intros j Hj. lia.
      * rewrite !fupd_neq by exact NE. apply T.
  - (* step of a call *)
    pose proof (T tid) as Tt. cbn in Tt. rewrite E in Tt. destruct Tt as (CL & TI & ATH).
    destruct (bstep_ok a t ct mk o pc b t' pc' I A (CO o CL) TI ND ST)
      as (ct' & I' & TI' & EV & EFF).
    assert (STAB : forall u o' pc'', u <> tid -> th u = Some (o', pc'') -> thr_inv ct' o' pc'').
    { intros u o' pc'' NE Eu. specialize (T u). cbn in T. rewrite Eu in T. destruct T as (CL' & TI'' & _).
      destruct EV as [EV|(p & v & EV & _ & _ & TR & ER)].
      - eapply thr_inv_ext; eauto.
      - eapply thr_inv_ext; eauto. apply thr_inv_write; auto.
        intros ->. destruct CM as [CM|[CM|CM]]; auto.
        + exfalso. eapply CM; eauto.
      }
    assert (ATH' : th' tid = APend (spec_op sc o)).
    { destruct pc; auto. now elim (ND r). }
    assert (OTH : forall st, forall u, u <> tid ->
       match th u with
       | None => fupd th' tid st u = AIdle
       | Some (o0, pc0) => client o0 /\ thr_inv ct' o0 pc0 /\
           match pc0 with PDone r => fupd th' tid st u = ADone (obs o0 r)
                     | _ => fupd th' tid st u = APend (spec_op sc o0) end
       end).
    { intros st u NE. specialize (T u). cbn in T. rewrite fupd_neq by exact NE.
      destruct (th u) as [[o0 pc0]|] eqn:Eu; auto. sp; try apply T. eapply STAB; eauto. }
    destruct EFF as [(r & a' & -> & SP & A')|(ND' & A')].
    + exists (AObj a' (fupd th' tid (ADone (obs o r)))). split.
      * eapply as_tau; [|apply as_nil]. eapply a_lin; eauto.
      * exists ct', mk. cbn. sp; auto. intros u. destruct (N.eq_dec u tid) as [->|NE].
        -- rewrite !fupd_eq. sp; auto.
        -- rewrite (fupd_neq th) by exact NE. apply OTH; exact NE.
    + exists (AObj a th'). split; [apply as_nil|].
      exists ct', mk. cbn. sp; auto. intros u. destruct (N.eq_dec u tid) as [->|NE].
      * rewrite fupd_eq. sp; auto. destruct pc'; auto. now elim (ND' r).
      * rewrite (fupd_neq th) by exact NE. specialize (OTH (th' u) u NE).
        specialize (T u). cbn in T. destruct (th u) as [[o0 pc0]|] eqn:Eu; auto.
        sp; try apply T. eapply STAB; eauto.
  - (* marking *)
    exists (AObj a th'). split; [apply as_nil|].
    exists ct, (fupd mk p true). cbn. sp; auto.
    destruct (ti_cell _ _ _ _ _ I p L) as [E' _]. cbn in E'. rewrite E in E'. injection E' as ->.
    now apply tinv_mark.
  - (* response *)
    pose proof (T tid) as Tt. cbn in Tt. rewrite E in Tt. destruct Tt as (CL & TI & ATH).
    eexists. split.
    + eapply as_vis; [|apply as_nil]. now apply a_ret.
    + exists ct, mk. cbn. sp; auto. intros u. destruct (N.eq_dec u tid) as [->|NE].
      * rewrite !fupd_eq. reflexivity.
      * rewrite !fupd_neq by exact NE. apply T.
Qed.

Lemma asteps_app x tr y tr' z :
  asteps spec x tr y -> asteps spec y tr' z -> asteps spec x (tr ++ tr') z.
Proof. induction 1; cbn; intros; auto; [eapply as_tau|eapply as_vis]; eauto. Qed.

Lemma sim_trace client s x tr s' :
  client_ok sc client -> sys_rel client s x -> lts_steps (bsys_step c m client) s tr s' ->
  exists x', asteps spec x tr x' /\ sys_rel client s' x'.
Proof.
  intros CO R ST. revert x R. induction ST as [s|s s1 s2 tr S ST IH|s e s1 s2 tr S ST IH]; intros x R.
  - exists x. split; [apply as_nil|exact R].
  - destruct (sim client s x None s1 CO R S) as (x1 & A1 & R1).
    destruct (IH x1 R1) as (x2 & A2 & R2). exists x2. split; auto.
    change tr with ([] ++ tr). eapply asteps_app; eauto.
  - destruct (sim client s x (Some e) s1 CO R S) as (x1 & A1 & R1).
    destruct (IH x1 R1) as (x2 & A2 & R2). exists x2. split; auto.
    change (e :: tr) with ([e] ++ tr). eapply asteps_app; eauto.
Qed.

Lemma init_rel client : sys_rel client (bsys_init c m) (AObj amap_empty (fun _ => AIdle)).
Proof.
  exists (fun _ => CEmpty), (fun _ => false). cbn. sp; auto.
  - eapply fresh_tinv; eauto.
  - apply fresh_absr.
Qed.

Theorem base_linearizable client :
  client_ok sc client ->
  linearizable spec (bsys_step c m client) (bsys_init c m) amap_empty.
Proof.
  intros CO tr s ST.
  destruct (sim_trace client _ _ tr s CO (init_rel client) ST) as (x & A & _).
  exists x. exact A.
Qed.

End Lin.
