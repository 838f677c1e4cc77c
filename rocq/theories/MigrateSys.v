(** A migration together with the calls that run on the source meanwhile. *)
From Coq Require Import NArith Bool List Lia.
From Verif Require Import Words Slot SlotFacts Mapper MapperFacts MapSpec LinSpec Base BaseInv BaseLin
  TableSpec Migrate GrowSpec MigrateGeo MigrateInv MigrateStep MigrateRun MigrateHelp MigrateDone.
Import ListNotations.
Open Scope N_scope.

Section Sys.
Context (c : tcfg) (ms mt : mapper) (lg g B : N) (MG : migr c ms mt lg g).
Context (Hsc : wf_scfg (tsc c)) (HB : 0 < B) (LG : lg <= 31) (LB : B <= 2 ^ 31).
Set Default Proof Using "All".
Notation sc := (tsc c).
Notation mc := (tmc c).
Notation cap := (2 ^ lg).
Notation ttot := (total_slots mc mt).
Notation stot := (total_slots mc ms).
Notation sp := (remap mc ms).
Notation fz := (fz c).
Notation glob := (glob c ms mt lg g B).
Notation mkinv := (mkinv c ms).
Notation hinv := (hinv c ms mt lg g B).
Notation thrinv := (thrinv c ms mt lg g B).
Notation sinv := (sinv c ms mt lg g B).
Notation spec := (mspec (sc_mark sc) (negb (cprob mc))).
Let Hm := mg_src _ _ _ _ _ MG.

Definition thr_rel (client : op -> Prop) (ct : N -> content) (th : N -> option (op * bpc))
  (x : aobj amap mop mres) : Prop :=
  forall tid, match th tid with
              | None => ath x tid = AIdle
              | Some (o, pc) =>
                  client o /\ thr_inv c ms ct o pc /\
                  match pc with
                  | PDone r => ath x tid = ADone (obs o r)
                  | _ => ath x tid = APend (spec_op sc o)
                  end
              end.

(** A helper returned only after the counter passed the end. *)
Definition endinv (hs : N -> option hpc) (ctr : N) : Prop :=
  forall tid, hs tid = Some HEnd -> cap <= ctr.

Definition mrel (client : op -> Prop) (s : msys) (x : aobj amap mop mres) : Prop :=
  exists ct mk tct rg hb,
    sinv (msrc s) (mtgt s) (mctr s) (mhlp s) ct mk tct rg hb /\
    endinv (mhlp s) (mctr s) /\ absr c ms ct (ast x) /\ thr_rel client ct (mthr s) x.

(** *** Helpers and the end of the block counter *)

Lemma not_end_start2 i : start2 c ms mt i <> HEnd.
Proof. unfold start2. destruct (init_one _ _ _); discriminate. Qed.
Lemma not_end_next1 e i : next1 c ms mt e i <> HEnd.
Proof. unfold next1. destruct (i <? e); [discriminate|apply not_end_start2]. Qed.
Lemma not_end_after0 e i : after0 c ms mt e i <> HEnd.
Proof.
  unfold after0. destruct (i <? e); [|discriminate].
  destruct (init_range _ _ _ _); [apply not_end_next1|discriminate].
Qed.
Lemma not_end_enter a e : enter c ms mt a e <> HEnd.
Proof.
  unfold enter. destruct (_ || _); [|apply not_end_after0]. destruct (a <? e); discriminate.
Qed.

Lemma hstep_end src tgt ctr pc src' tgt' ctr' pc' :
  hstep c ms mt B src tgt ctr pc = (src', tgt', ctr', pc') ->
  ctr <= ctr' /\ (pc' = HEnd -> pc = HEnd \/ cap <= ctr').
Proof.
  pose proof (addressable_val _ _ _ Hm) as AV.
  intros ST. destruct pc; cbn [hstep] in ST;
    repeat match type of ST with
    | context [match rd ?a ?b ?d ?e with Some _ => _ | None => _ end] => destruct (rd a b d e)
    | context [let '(_, _) := ?x in _] => destruct x
    | context [match ?l with [] => _ | _ :: _ => _ end] => destruct l
    | context [if ?b then _ else _] => destruct b eqn:?
    end; injection ST as <- <- <- <-; (split; [lia|]); try discriminate; auto;
    try (intros X; exfalso; revert X;
      first [apply not_end_start2|apply not_end_next1|apply not_end_after0|apply not_end_enter]);
    try (intros X; exfalso; unfold after_insert in X; destruct ph;
         [now apply not_end_next1 in X|now apply not_end_start2 in X]).
  all: try (intros _; right; match goal with H : (_ <? _) = false |- _ => apply N.ltb_ge in H end; lia).
Qed.

(** *** Steps of calls *)

Lemma hinv_env ct ct' mk tgt (tct : N -> content) pc s b :
  sc_mark sc = true -> hinv ct mk tgt tct pc s b ->
  (forall p, fz mk p -> ct' p = ct p) ->
  (forall i curr, pc = H2Mark i curr -> ct' (sp i) = ct (sp i)) ->
  hinv ct' mk tgt tct pc s b.
Proof.
  intros SM H F Q.
  assert (INS : forall ph i sl j, hinv ct mk tgt tct (HIns ph i sl j) s b ->
                hinv ct' mk tgt tct (HIns ph i sl j) s b).
  { clear H. intros ph i sl j (r & x & k & d & n & H1 & H2 & H3 & H4 & H5 & H6 & H7 & H8).
    exists r, x, k, d, n. sp; auto. rewrite F; auto. }
  destruct pc; cbn in H |- *; try exact H.
  - destruct H as (H1 & H2 & H3 & H4). sp; auto. congruence.
  - destruct H as (H1 & r & H2 & H3 & H4). split; auto. exists r. sp; auto. congruence.
  - destruct H as (H1 & H2 & H3). rewrite (Q i curr eq_refl). auto.
  - apply (INS ph i sl j). exact H.
  - destruct H as [H1 H2]. split; [apply (INS ph i sl j); exact H1|exact H2].
Qed.

Lemma env_sinv src tgt ctr hs ct mk tct rg hb src' ct' :
  sinv src tgt ctr hs ct mk tct rg hb -> sc_mark sc = true ->
  tinv c ms src' ct' mk ->
  ((forall p, ct' p = ct p) \/
   exists p v, (forall q, ct' q = fupd ct p v q) /\ mk p = false /\ trans (ct p) v) ->
  (forall tid i curr, hs tid = Some (H2Mark i curr) ->
    src' (sp i) = src (sp i) \/ src' (sp i) = option_map (mark_slot sc) (src (sp i))) ->
  sinv src' tgt ctr hs ct' mk tct rg hb.
Proof.
  intros S SM I EV UD. pose proof (s_glob S) as GL. pose proof (s_thr S) as T.
  assert (F : forall p, fz mk p -> ct' p = ct p).
  { intros p Fp. destruct EV as [EV|(p0 & v & EV & M0 & TR)]; auto.
    rewrite EV. apply fupd_neq. intros ->. rewrite (Fp SM) in M0. discriminate. }
  assert (NE : forall p, ct p <> CEmpty -> ct' p <> CEmpty).
  { intros p N. destruct EV as [EV|(p0 & v & EV & M0 & TR)]; rewrite EV; auto.
    destruct (N.eq_dec p p0) as [->|NE]; [|rewrite fupd_neq; auto].
    rewrite fupd_eq. inversion TR; congruence. }
  split.
  - eapply (glob_src MG Hsc HB); eauto. now intros p H.
  - intros p L H. rewrite F by (intros _; exact H). now apply (s_mk S).
  - split; try apply T. intros tid pc E. pose proof (t_pc T _ _ E) as X.
    destruct (hb tid) as [s|] eqn:Hb; auto.
    eapply hinv_env; eauto. intros i curr ->.
    destruct X as ([r R] & _). destruct (pos_bound MG Hsc HB GL s r i false R) as (L & _).
    destruct (ti_cell _ _ _ _ _ (g_src GL) _ L) as [E1 O1].
    destruct (ti_cell _ _ _ _ _ I _ L) as [E2 O2].
    destruct (UD tid i curr E) as [Q|Q]; rewrite E1, E2 in Q.
    + injection Q as Q. now apply (enc_inj sc Hsc) in Q.
    + cbn in Q. injection Q as Q. rewrite mark_enc in Q.
      apply (enc_inj sc Hsc) in Q; auto; [apply Q|]. destruct O1 as [_ O1]. split; auto.
Qed.

Lemma thr_run client src ct mk a th th' tid o pc b src' pc' :
  client_ok sc client -> tinv c ms src ct mk -> absr c ms ct a -> thr_rel client ct th (AObj a th') ->
  th tid = Some (o, pc) -> (forall r, pc <> PDone r) -> bstep c ms src b o pc = (src', pc') ->
  exists ct' x', tinv c ms src' ct' mk /\ asteps spec (AObj a th') [] x' /\
    absr c ms ct' (ast x') /\ thr_rel client ct' (fupd th tid (Some (o, pc'))) x' /\
    ((forall p, ct' p = ct p) \/
     exists p v, (forall q, ct' q = fupd ct p v q) /\ mk p = false /\ trans (ct p) v).
Proof.
  intros [CO CM] I A T E ND ST.
  pose proof (T tid) as Tt. cbn in Tt. rewrite E in Tt. destruct Tt as (CL & TI & ATH).
  destruct (bstep_ok c ms lg Hsc Hm a src ct mk o pc b src' pc' I A (CO o CL) TI ND ST)
    as (ct' & I' & TI' & EV & EFF).
  assert (STAB : forall u o' pc'', u <> tid -> th u = Some (o', pc'') -> thr_inv c ms ct' o' pc'').
  { intros u o' pc'' NE Eu. specialize (T u). cbn in T. rewrite Eu in T. destruct T as (CL' & TI'' & _).
    destruct EV as [EV|(p & v & EV & _ & _ & TR & ER)].
    - eapply thr_inv_ext; eauto.
    - eapply thr_inv_ext; eauto. apply thr_inv_write; auto.
      intros ->. destruct CM as [CM|[CM|CM]]; auto.
      exfalso. eapply CM; eauto. }
  assert (ATH' : th' tid = APend (spec_op sc o)).
  { destruct pc; auto. now elim (ND r). }
  assert (EV' : (forall p, ct' p = ct p) \/
     exists p v, (forall q, ct' q = fupd ct p v q) /\ mk p = false /\ trans (ct p) v).
  { destruct EV as [EV|(p & v & EV & _ & M0 & TR & _)]; auto. right. exists p, v. auto. }
  destruct EFF as [(r & a' & -> & SP & A')|(ND' & A')].
  - exists ct', (AObj a' (fupd th' tid (ADone (obs o r)))). sp; auto.
    + eapply as_tau; [|apply as_nil]. eapply a_lin; eauto.
    + intros u. cbn. destruct (N.eq_dec u tid) as [->|NE].
      * rewrite !fupd_eq. sp; auto.
      * rewrite !fupd_neq by exact NE. specialize (T u). cbn in T.
        destruct (th u) as [[o0 pc0]|] eqn:Eu; auto. sp; try apply T. eapply STAB; eauto.
  - exists ct', (AObj a th'). sp; auto; [apply as_nil|].
    intros u. cbn. destruct (N.eq_dec u tid) as [->|NE].
    + rewrite !fupd_eq. sp; auto. destruct pc'; auto. now elim (ND' r).
    + rewrite !fupd_neq by exact NE. specialize (T u). cbn in T.
      destruct (th u) as [[o0 pc0]|] eqn:Eu; auto. sp; try apply T. eapply STAB; eauto.
Qed.

Lemma msim client s x l s' :
  client_ok sc client -> mrel client s x -> msys_step c ms mt B client s l s' ->
  (forall tid, mthr s tid = None) \/ (sc_mark sc = true /\ undisturbed c ms s s') ->
  exists x', asteps spec x (match l with Some e => [e] | None => [] end) x' /\ mrel client s' x'.
Proof.
  intros CO (ct & mk & tct & rg & hb & S & EI & A & T) ST UD. destruct x as [a th']. cbn in *.
  destruct ST as [s t k h th tid E|s t k h th tid pc s' t' k' pc' E ST|s t k h th tid o E CL
                 |s t k h th tid o pc b s' pc' E ND ST|s t k h th tid o r E]; cbn in *.
  - exists (AObj a th'). split; [apply as_nil|]. exists ct, mk, tct, rg, hb. cbn. sp; auto.
    + eapply (join_sinv c ms mt lg g B); eauto.
    + intros u X. destruct (N.eq_dec u tid) as [->|NE].
      * rewrite fupd_eq in X. discriminate.
      * rewrite fupd_neq in X by exact NE. eauto.
  - exists (AObj a th'). split; [apply as_nil|].
    destruct (hstep_inv c ms mt lg g B MG Hsc HB _ _ _ _ _ _ _ _ _ S tid pc s' t' k' pc' LG LB E ST)
      as (mk' & tct' & rg' & hb' & S' & _).
    destruct (hstep_end _ _ _ _ _ _ _ _ ST) as [LE EE].
    exists ct, mk', tct', rg', hb'. cbn. sp; auto.
    intros u X. destruct (N.eq_dec u tid) as [->|NE].
    + rewrite fupd_eq in X. injection X as ->. destruct (EE eq_refl) as [->|]; auto.
      specialize (EI tid E). lia.
    + rewrite fupd_neq in X by exact NE. specialize (EI u X). lia.
  - pose proof (T tid) as Tt. cbn in Tt. rewrite E in Tt.
    eexists. split.
    + eapply as_vis; [|apply as_nil]. now apply a_inv.
    + exists ct, mk, tct, rg, hb. cbn. sp; auto. intros u. destruct (N.eq_dec u tid) as [->|NE]; cbn.
      * rewrite !fupd_eq. sp; try reflexivity; auto. exists 0. split; [lia|]. intros j Hj. lia.
      * rewrite !fupd_neq by exact NE. apply T.
  - destruct UD as [UD|[SM UD]]; [rewrite UD in E; discriminate|].
    destruct (thr_run client _ ct mk a th th' tid o pc b s' pc' CO (g_src (s_glob S)) A T E ND ST)
      as (ct' & x' & I' & AS & A' & T' & EV).
    exists x'. split; auto. exists ct', mk, tct, rg, hb. cbn. sp; auto.
    eapply env_sinv; eauto.
  - pose proof (T tid) as Tt. cbn in Tt. rewrite E in Tt. destruct Tt as (CL & TI & ATH).
    eexists. split.
    + eapply as_vis; [|apply as_nil]. now apply a_ret.
    + exists ct, mk, tct, rg, hb. cbn. sp; auto. intros u. cbn. destruct (N.eq_dec u tid) as [->|NE].
      * rewrite !fupd_eq. reflexivity.
      * rewrite !fupd_neq by exact NE. apply T.
Qed.

Lemma msim_trace client s x tr s' :
  client_ok sc client -> sc_mark sc = true -> mrel client s x ->
  lts_steps (fun s l s' => msys_step c ms mt B client s l s' /\ undisturbed c ms s s') s tr s' ->
  exists x', asteps spec x tr x' /\ mrel client s' x'.
Proof.
  intros CO SM R ST. revert x R.
  induction ST as [s|s s1 s2 tr [S U] ST IH|s e s1 s2 tr [S U] ST IH]; intros x R.
  - exists x. split; [apply as_nil|exact R].
  - destruct (msim client s x None s1 CO R S) as (x1 & A1 & R1); auto.
    destruct (IH x1 R1) as (x2 & A2 & R2). exists x2. split; auto.
    change tr with ([] ++ tr). eapply asteps_app; eauto.
  - destruct (msim client s x (Some e) s1 CO R S) as (x1 & A1 & R1); auto.
    destruct (IH x1 R1) as (x2 & A2 & R2). exists x2. split; auto.
    change (e :: tr) with ([e] ++ tr). eapply asteps_app; eauto.
Qed.

(** Without calls. *)
Lemma alone_step s x l s' :
  (forall tid, mthr s tid = None) -> mrel (fun _ => False) s x ->
  msys_step c ms mt B (fun _ => False) s l s' ->
  (forall tid, mthr s' tid = None) /\ mrel (fun _ => False) s' x /\ l = None.
Proof.
  intros NT R S.
  destruct S as [s t k h th tid E|s t k h th tid pc s' t' k' pc' E STP|s t k h th tid o E CL
             |s t k h th tid o pc b s' pc' E ND STP|s t k h th tid o r E]; cbn in NT.
  - sp; auto. destruct R as (ct0 & mk0 & tct0 & rg0 & hb0 & S0 & E0 & AB0 & T0).
    exists ct0, mk0, tct0, rg0, hb0. cbn in *. sp; auto.
    + eapply (join_sinv c ms mt lg g B); eauto.
    + intros u X. destruct (N.eq_dec u tid) as [->|NE].
      * rewrite fupd_eq in X. discriminate.
      * rewrite fupd_neq in X by exact NE. eauto.
  - sp; auto. destruct R as (ct0 & mk0 & tct0 & rg0 & hb0 & S0 & E0 & AB0 & T0). cbn in *.
    destruct (hstep_inv c ms mt lg g B MG Hsc HB _ _ _ _ _ _ _ _ _ S0 tid pc s' t' k' pc' LG LB E STP)
      as (mk' & tct' & rg' & hb' & S' & _).
    destruct (hstep_end _ _ _ _ _ _ _ _ STP) as [LE EE].
    exists ct0, mk', tct', rg', hb'. cbn. sp; auto.
    intros u X. destruct (N.eq_dec u tid) as [->|NE].
    + rewrite fupd_eq in X. injection X as ->. destruct (EE eq_refl) as [->|]; auto.
      specialize (E0 tid E). lia.
    + rewrite fupd_neq in X by exact NE. specialize (E0 u X). lia.
  - destruct CL.
  - rewrite NT in E. discriminate.
  - rewrite NT in E. discriminate.
Qed.

Lemma msim_alone s x tr s' :
  (forall tid, mthr s tid = None) -> mrel (fun _ => False) s x ->
  lts_steps (msys_step c ms mt B (fun _ => False)) s tr s' ->
  (forall tid, mthr s' tid = None) /\ mrel (fun _ => False) s' x /\ tr = [].
Proof.
  intros NT R ST. induction ST as [s|s s1 s2 tr S ST IH|s e s1 s2 tr S ST IH]; auto.
  - destruct (alone_step s x None s1 NT R S) as (X1 & X2 & _). now apply IH.
  - destruct (alone_step s x (Some e) s1 NT R S) as (_ & _ & X). discriminate.
Qed.

Lemma minit src ct a client :
  tinv c ms src ct (fun _ => false) -> absr c ms ct a ->
  mrel client (msys_init c mt src (fun _ => None)) (AObj a (fun _ => AIdle)).
Proof.
  intros I A. exists ct, (fun _ => false), (fun _ => CEmpty), (fun _ => BNone), (fun _ => None).
  cbn. sp; auto.
  - eapply (init_sinv c ms mt lg g B); eauto.
  - intros tid E. discriminate.
  - intros tid. reflexivity.
Qed.

(** The end. *)
Lemma mdone client s x :
  mrel client s x -> finished s ->
  (cprob mc = true -> forall ct mk, tinv c ms (msrc s) ct mk -> exists p, p < stot /\ ct p = CEmpty) ->
  exists tct, tinv c mt (mtgt s) tct (fun _ => false) /\ absr c mt tct (ast x) /\
              (forall q, q < ttot -> tct q <> CTomb).
Proof.
  intros (ct & mk & tct & rg & hb & S & EI & A & T) [[tid E] F] GAP.
  assert (CTR : cap <= mctr s) by (eapply EI; eauto).
  assert (GAP' : cprob mc = true -> exists p, p < stot /\ ct p = CEmpty).
  { intros CP. eapply GAP; eauto. apply (s_glob S). }
  exists tct. sp.
  - eapply (done_tinv c ms mt lg g B); eauto.
  - intros k d. rewrite (A k d). eapply (done_same c ms mt lg g B); eauto.
  - intros q L. eapply (done_no_tomb c ms mt lg g B); eauto.
Qed.

End Sys.
