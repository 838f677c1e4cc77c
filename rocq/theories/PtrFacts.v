(** Facts behind the properties of tables of pointer cells. *)
From Coq Require Import NArith Bool List Lia.
From Verif Require Import Words Slot Mapper MapperFacts ReturnCode MapSpec LinSpec HistSpec Hist Base BaseInv
  Migrate Ptr PtrSpec PtrWords PtrInv PtrMove PtrGrow PtrSys PtrLin.
Import ListNotations.
Open Scope N_scope.

(** *** Executed schedules are executions *)

Definition lab_ok (alloc : N -> Prop) (client : pop -> Prop) (l : plabel) : Prop :=
  match l with
  | PInv _ o => client o
  | PRun _ a => alloc a
  | PRet _ => True
  | PGrow _ _ _ _ => False
  end.

Lemma pexec1_sound c alloc client s l e s' :
  lab_ok alloc client l -> pexec1 c s l = Some (e, s') -> psys_step c alloc client s e s'.
Proof.
  intros L E. destruct s as [hp m t th]. destruct l as [tid o|tid a|tid|ins del B n]; cbn in E, L; try contradiction.
  - destruct (th tid) eqn:T; [discriminate|]. injection E as <- <-. now constructor.
  - destruct (th tid) as [[o pc]|] eqn:T; [|discriminate].
    assert (X : (forall r, pc <> QDone r) /\ (pc = QAlloc -> alloc a /\ hp a = None) /\
      (let '(hp', t', pc') := qstep c m hp t a o pc in
       Some (@None (event mop mres), PSys hp' m t' (fupd th tid (Some (o, pc'))))) = Some (e, s')).
    { destruct pc; try discriminate; (split; [intros r; discriminate|]); (split; [try discriminate|exact E || idtac]).
      - intros _. split; auto. destruct (hp a); [discriminate|auto].
      - destruct (hp a); [discriminate|exact E]. }
    destruct X as (X1 & X2 & X3).
    destruct (qstep c m hp t a o pc) as [[hp' t'] pc'] eqn:Q. injection X3 as <- <-. econstructor; eauto.
  - destruct (th tid) as [[o pc]|] eqn:T; [|discriminate]. destruct pc; try discriminate.
    injection E as <- <-. econstructor; eauto.
Qed.

Lemma pexec_sound c alloc client ls : forall s tr s',
  Forall (lab_ok alloc client) ls -> pexec c s ls = Some (tr, s') ->
  lts_steps (psys_step c alloc client) s tr s'.
Proof.
  induction ls as [|l ls IH]; intros s tr s' F E; cbn in E.
  - injection E as <- <-. constructor.
  - inversion F; subst. destruct (pexec1 c s l) as [[e s1]|] eqn:E1; [|discriminate].
    destruct (pexec c s1 ls) as [[tr1 s2]|] eqn:E2; [|discriminate]. injection E as <- <-.
    apply pexec1_sound with (1 := H1) in E1. destruct e; [eapply ls_vis|eapply ls_tau]; eauto.
Qed.

(** Growth by one helper. *)
Lemma phrun_steps c ms mt B hp n : forall s,
  pmhlp s 0 <> None -> pmsteps c ms mt B hp s (phrun c ms mt B hp n s).
Proof.
  induction n as [|n IH]; intros s H; cbn [phrun]; [constructor|].
  destruct (pmhlp s 0) as [pc|] eqn:E; [|congruence].
  destruct (phstep c ms mt B hp (pmsrc s) (pmtgt s) (pmctr s) pc) as [[[src tgt] k] pc'] eqn:S.
  econstructor; [|apply IH; cbn; discriminate].
  destruct s as [src0 tgt0 k0 h0]. cbn in *. econstructor; eauto.
Qed.

Lemma phrun_alone c ms mt B hp n : forall s,
  (forall tid, tid <> 0 -> pmhlp s tid = None) ->
  forall tid, tid <> 0 -> pmhlp (phrun c ms mt B hp n s) tid = None.
Proof.
  induction n as [|n IH]; intros s H tid NZ; cbn [phrun]; [auto|].
  destruct (phstep c ms mt B hp _ _ _ _) as [[[src tgt] k] pc']. apply IH; auto.
  intros u NU. cbn. rewrite fupd_neq; auto.
Qed.

Lemma grow_sound c alloc client hp m t th ins del B n lg s' :
  pgrow c = true -> (forall tid, th tid = None) ->
  addressable_slots (pmc c) m = 2 ^ lg -> lg <= 31 -> 0 < B <= 2 ^ 31 ->
  (exists p w, p < total_slots (pmc c) m /\ t p = Some w /\ w_empty (pmk c) w = true) ->
  pexec1 c (PSys hp m t th) (PGrow ins del B n) = Some (None, s') ->
  psys_step c alloc client (PSys hp m t th) None s'.
Proof.
  intros PG NT AD LG BB V E. cbn in E.
  set (s0 := PMSys t (ptarget (pmc c) (resize (pmc c) m ins del)) 0 (fupd (fun _ => None) 0 (Some HClaim))) in *.
  set (s1 := phrun c m (resize (pmc c) m ins del) B hp (N.to_nat n) s0) in *.
  destruct (pmhlp s1 0) as [pc|] eqn:P; [|discriminate]. destruct pc; try discriminate.
  injection E as <-. apply q_grow with (lg := lg) (B := B); auto.
  - intros tid o pc X. rewrite NT in X. discriminate.
  - econstructor; [apply (pm_join _ _ _ _ _ _ _ _ _ 0); left; reflexivity|].
    apply phrun_steps. cbn. discriminate.
  - split; [exists 0; auto|]. intros tid pc X. destruct (N.eq_dec tid 0) as [->|NZ]; [congruence|].
    assert (Y : pmhlp s1 tid = None).
    { apply phrun_alone; auto. intros u NU. cbn. now rewrite fupd_neq. }
    congruence.
Qed.

Lemma lts_app {S E} (step : S -> option E -> S -> Prop) s tr s1 tr' s2 :
  lts_steps step s tr s1 -> lts_steps step s1 tr' s2 -> lts_steps step s (tr ++ tr') s2.
Proof. induction 1; cbn; intros; auto; [eapply ls_tau|eapply ls_vis]; eauto. Qed.

(** *** Invariants of reachable states *)

Section Reach.
Context (c : pcfg) (alloc : N -> Prop) (client : pop -> Prop).
Context (HA : forall a, alloc a -> 0 < a < 2 ^ 48).
Context (HG : pgrow c = true ->
  (forall a, alloc a -> a <> 2 ^ 32) /\ (cmap (pmc c) = false \/ cprob (pmc c) = true)).

Lemma reach_inv lg s : 1 <= lg <= 63 -> ptr_reach c alloc client lg s -> qinv c alloc false s.
Proof.
  intros L (tr & ST).
  destruct (rel_steps c alloc client false HA HG (fun g => False_ind _ (Bool.diff_false_true g)) _ _ _ _
             (init_rel c alloc false HA lg L) ST) as (x & [Q _] & _).
  exact Q.
Qed.

Lemma reach_lin lg : (forall o, client o -> print_ok c o) -> 1 <= lg <= 63 ->
  linearizable (pspec c) (psys_step c alloc client) (psys_init c lg) amap_empty.
Proof.
  intros HC L tr s ST.
  destruct (rel_steps c alloc client true HA HG (fun _ => HC) _ _ _ _
             (init_rel c alloc true HA lg L) ST) as (x & _ & X).
  exists x. now apply X.
Qed.

Lemma reach_safe lg s : 1 <= lg <= 63 -> ptr_reach c alloc client lg s -> ~ bad_access s.
Proof.
  intros L R (tid & o & E). pose proof (reach_inv lg s L R) as Q.
  destruct (qi_thr _ _ _ _ Q tid o _ E) as [T _]. exact T.
Qed.

Lemma reach_cells lg s : 1 <= lg <= 63 -> ptr_reach c alloc client lg s -> quiescent s ->
  forall a, pheap s a <> None <-> exists p, points_to c s p a.
Proof.
  intros L R QS a. pose proof (reach_inv lg s L R) as Q. split.
  - intros X. destruct (qi_all _ _ _ _ Q a X) as [_ [(p & Lp & C)|(tid & o & pc & E & _)]].
    + exists p. split; auto.
    + rewrite QS in E. discriminate.
  - intros (p & Lp & C). apply hkey_none. apply (pi_live _ _ _ _ _ _ (qi_tab _ _ _ _ Q) p a Lp C).
Qed.

Lemma reach_once lg s : 1 <= lg <= 63 -> ptr_reach c alloc client lg s ->
  forall p q a, points_to c s p a -> points_to c s q a -> p = q.
Proof.
  intros L R p q a [Lp C] [Lq C']. pose proof (reach_inv lg s L R) as Q.
  exact (pi_inj _ _ _ _ _ _ (qi_tab _ _ _ _ Q) p q a Lp Lq C C').
Qed.

Lemma reach_destroy lg s : 1 <= lg <= 63 -> ptr_reach c alloc client lg s -> quiescent s ->
  exists hp, destroy c (pmap s) (ptab s) (pheap s) = Some hp /\ forall a, hp a = None.
Proof.
  intros L R QS. apply (destroy_ok c alloc false); [exact (reach_inv lg s L R)|].
  intros tid o pc a E. rewrite QS in E. discriminate.
Qed.

End Reach.

(** *** Emplace without a fingerprint *)

Lemma fresh_rd c m p : p < total_slots (pmc c) m -> prd c m (pfresh c m) p = Some 0.
Proof.
  intros L. unfold prd, pfresh. destruct (N.ltb_spec p (total_slots (pmc c) m)); [reflexivity|lia].
Qed.

Lemma zero_mark m : w_mark m 0 = false.
Proof. unfold w_mark. apply andb_false_r. Qed.
Lemma zero_empty m : w_empty m 0 = true.
Proof. destruct m; reflexivity. Qed.

Lemma next_cell mc m lg k : wf_mapper mc m lg -> k < 2 ^ lg ->
  remap mc m k < total_slots mc m /\ remap mc m (k + 1) < total_slots mc m /\
  remap mc m (k + 1) <> remap mc m k /\ (cprob mc = false -> remap mc m k <= addressable_slots mc m + 300).
Proof.
  intros W L. assert (LW := W). destruct LW as [L1 _].
  assert (2 <= 2 ^ lg) by (change 2 with (2 ^ 1) at 1; apply pow2_le; lia).
  rewrite !(remap_val _ _ _ W), (total_val _ _ _ W), (addressable_val _ _ _ W).
  destruct (cprob mc).
  - sp; try (apply N.mod_lt; lia); [|discriminate].
    rewrite (N.mod_small k) by exact L. destruct (N.lt_ge_cases (k + 1) (2 ^ lg)).
    + rewrite N.mod_small by lia. lia.
    + replace (k + 1) with (2 ^ lg) by lia. rewrite N.mod_same by lia. lia.
  - sp; lia.
Qed.

(** Six steps of emplace and find on a new fixed-size table. *)
Lemma emplace_lost c (alloc : N -> Prop) (client : pop -> Prop) lg k d a :
  pgrow c = false -> 1 <= lg <= 63 -> alloc a -> 0 < a < 2 ^ 48 ->
  client (QEmplace k d) -> client (QFind k) ->
  fingerprint (pmk c) (phk c k) <> 0 ->
  exists s, lts_steps (psys_step c alloc client) (psys_init c lg)
    [EInv 0 (MInsert k d); ERet 0 RInserted; EInv 0 (MFind k); ERet 0 RAbsent] s /\
    pheap s a = Some (k, d) /\ (exists p, points_to c s p a) /\ quiescent s.
Proof.
  intros PG L AL AB CL CF FP. set (m := mk_mapper (pmc c) (2 ^ lg) 0).
  assert (W : wf_mapper (pmc c) m lg) by now apply wf_mk.
  set (h := phome c m k).
  assert (HL : h < 2 ^ lg).
  { unfold h, phome. eapply map_lt; eauto. apply N.mod_lt. discriminate. }
  destruct (next_cell _ _ _ _ W HL) as (R1 & R2 & R3 & R4).
  destruct (bare_word (pmk c) a AB) as (B1 & B2 & B3 & B4).
  set (w := slot_bare (pmk c) a) in *. set (hp := fupd (fun _ => None) a (Some (k, d)) : heap).
  set (t := fupd (pfresh c m) (remap (pmc c) m h) (Some w)).
  assert (T1 : prd c m t (remap (pmc c) m h) = Some w).
  { unfold prd. destruct (N.ltb_spec (remap (pmc c) m h) (total_slots (pmc c) m)); [|lia]. unfold t. now rewrite fupd_eq. }
  assert (T2 : prd c m t (remap (pmc c) m (h + 1)) = Some 0).
  { rewrite <- (fresh_rd c m (remap (pmc c) m (h + 1)) R2). unfold prd, t. now rewrite fupd_neq. }
  assert (EW : w_empty (pmk c) w = false).
  { rewrite empty_iff; auto. rewrite B2. apply N.eqb_neq. lia. }
  assert (CW : w_compare (pmk c) hp w k (phk c k) = Some false).
  { unfold w_compare. rewrite B3. apply N.eqb_neq in FP. now rewrite FP. }
  (* after emplace *)
  set (s1 := PSys hp m t (fupd (fupd (fupd (fupd (fupd (fun _ => None) 0 (Some (QEmplace k d, QAlloc)))
     0 (Some (QEmplace k d, QLoad h w))) 0 (Some (QEmplace k d, QCas h w 0)))
     0 (Some (QEmplace k d, QDone RInserted))) 0 None)).
  set (s2 := PSys hp m t (fupd (fupd (fupd (fupd (pthr s1) 0 (Some (QFind k, QLoad h 0)))
     0 (Some (QFind k, QLoad (h + 1) 0))) 0 (Some (QFind k, QDone RAbsent))) 0 None)).
  exists s2. split; [|split; [|split]].
  - eapply ls_vis.
    { unfold psys_init. fold m. eapply (q_inv c alloc client _ m _ _ 0 (QEmplace k d)); auto. }
    cbn [pstart pop_adds]. eapply ls_tau.
    { eapply q_run with (a := a); [apply fupd_eq|discriminate|auto|]. cbn. rewrite PG. unfold build. rewrite PG.
      fold w h hp. reflexivity. }
    eapply ls_tau.
    { eapply q_run with (a := a); [apply fupd_eq|discriminate|discriminate|]. cbn [qstep].
      rewrite (fresh_rd c m _ R1). cbn [p_after_load]. rewrite zero_mark, zero_empty.
      replace (negb (cprob (pmc c)) && (addressable_slots (pmc c) m + 300 <? remap (pmc c) m h)) with false;
        [reflexivity|].
      destruct (cprob (pmc c)); cbn; auto. symmetry. apply N.ltb_ge. auto. }
    eapply ls_tau.
    { eapply q_run with (a := a); [apply fupd_eq|discriminate|discriminate|]. cbn [qstep].
      rewrite (fresh_rd c m _ R1). unfold w_cas. rewrite N.eqb_refl. fold t.
      unfold wrap_add. rewrite PG. cbn. reflexivity. }
    eapply ls_vis.
    { eapply q_ret. apply fupd_eq. }
    eapply ls_vis.
    { eapply (q_inv c alloc client _ m _ _ 0 (QFind k)); auto. }
    unfold pstart. cbn [pop_adds]. rewrite PG. cbn [pop_key]. fold h.
    eapply ls_tau.
    { eapply q_run with (a := a); [apply fupd_eq|discriminate|discriminate|]. cbn [qstep].
      rewrite T1. cbn [p_after_load]. rewrite EW, CW. reflexivity. }
    eapply ls_tau.
    { eapply q_run with (a := a); [apply fupd_eq|discriminate|discriminate|]. cbn [qstep].
      rewrite T2. cbn [p_after_load]. rewrite zero_empty. reflexivity. }
    eapply ls_vis.
    { eapply q_ret. apply fupd_eq. }
    apply ls_nil.
  - cbn. unfold hp. now rewrite fupd_eq.
  - exists (remap (pmc c) m h). split; [exact R1|]. exists w. cbn. unfold t. rewrite fupd_eq. sp; auto. lia.
  - intros tid. cbn. unfold fupd. destruct (tid =? 0); reflexivity.
Qed.

(** *** Histories of these tables contain no erase *)

Lemma ptr_invoked c alloc client s tr s' : lts_steps (psys_step c alloc client) s tr s' ->
  forall o, invoked tr o -> exists o', client o' /\ o = pspec_op o'.
Proof.
  induction 1 as [s|s s1 s2 tr S ST IH|s e s1 s2 tr S ST IH]; intros o (t & I); auto.
  - destruct I.
  - apply IH. exists t. exact I.
  - destruct I as [->|I]; [|apply IH; exists t; exact I]. inversion S; subst. eauto.
Qed.

Lemma pending_invoked tr u o : pending tr u = Some o -> invoked tr o.
Proof.
  assert (G : forall tr p, fold_left pend1 tr p u = Some o -> p u = Some o \/ invoked tr o).
  { clear tr. induction tr as [|e tr IH]; intros p H; cbn in H; auto. destruct (IH _ H) as [X|(t & X)].
    - destruct e as [t o'|t r]; cbn in X; unfold fupd in X; destruct (N.eqb_spec u t) as [->|]; auto.
      + injection X as ->. right. exists t. now left.
      + discriminate.
    - right. exists t. now right. }
  intros H. destruct (G tr _ H) as [X|X]; [discriminate|auto].
Qed.

Lemma no_erase k o : ~ erases k (pspec_op o).
Proof. destruct o; cbn; auto. Qed.

Section Emplaced.
Context (c : pcfg) (alloc : N -> Prop) (client : pop -> Prop) (lg : N).
Context (LIN : linearizable (pspec c) (psys_step c alloc client) (psys_init c lg) amap_empty).

Lemma ptr_found s tr1 t o0 tr2 tr3 t' tr4 r k d :
  lts_steps (psys_step c alloc client) (psys_init c lg)
    (tr1 ++ [EInv t o0] ++ tr2 ++ [ERet t RInserted] ++ tr3 ++ [EInv t' (MFind k)] ++ tr4 ++ [ERet t' r]) s ->
  inserts k d o0 ->
  (forall e, In e tr2 -> ev_tid e <> t) -> (forall e, In e tr4 -> ev_tid e <> t') ->
  exists v, r = RFound v.
Proof.
  intros ST INS T2 T4. pose proof (ptr_invoked _ _ _ _ _ _ ST) as INV. pose proof (LIN _ _ ST) as L.
  eapply (inserted_stays _ _ k d); eauto.
  - intros u o P. apply pending_invoked in P. destruct P as (v & P).
    destruct (INV o) as (o' & _ & ->); [exists v; apply in_or_app; auto|apply no_erase].
  - intros o (v & P). destruct (INV o) as (o' & _ & ->); [|apply no_erase].
    exists v. rewrite !in_app_iff in *. tauto.
Qed.

Lemma ptr_once s tr1 t o0 tr2 tr3 t' o1 tr4 r k d d' :
  lts_steps (psys_step c alloc client) (psys_init c lg)
    (tr1 ++ [EInv t o0] ++ tr2 ++ [ERet t RInserted] ++ tr3 ++ [EInv t' o1] ++ tr4 ++ [ERet t' r]) s ->
  inserts k d o0 -> inserts k d' o1 ->
  (forall e, In e tr2 -> ev_tid e <> t) -> (forall e, In e tr4 -> ev_tid e <> t') ->
  r <> RInserted.
Proof.
  intros ST INS INS' T2 T4. pose proof (ptr_invoked _ _ _ _ _ _ ST) as INV. pose proof (LIN _ _ ST) as L.
  eapply (inserted_once _ _ k d d'); eauto.
  - intros u o P. apply pending_invoked in P. destruct P as (v & P).
    destruct (INV o) as (o' & _ & ->); [exists v; apply in_or_app; auto|apply no_erase].
  - intros o (v & P). destruct (INV o) as (o' & _ & ->); [|apply no_erase].
    exists v. rewrite !in_app_iff in *. tauto.
Qed.
End Emplaced.

(** A schedule followed by a growth. *)
Lemma reach_grow c alloc client lg ls tr s0 ins del B n lg' s :
  Forall (lab_ok alloc client) ls -> pexec c (psys_init c lg) ls = Some (tr, s0) ->
  pgrow c = true -> quiescent s0 -> addressable_slots (pmc c) (pmap s0) = 2 ^ lg' -> lg' <= 31 ->
  0 < B <= 2 ^ 31 ->
  (exists p w, p < total_slots (pmc c) (pmap s0) /\ ptab s0 p = Some w /\ w_empty (pmk c) w = true) ->
  pexec1 c s0 (PGrow ins del B n) = Some (None, s) ->
  lts_steps (psys_step c alloc client) (psys_init c lg) tr s /\ ptr_reach c alloc client lg s.
Proof.
  intros F E PG Q A L BB V G. apply (pexec_sound _ _ _ _ _ _ _ F) in E.
  assert (X : lts_steps (psys_step c alloc client) (psys_init c lg) tr s).
  { rewrite <- (app_nil_r tr). eapply lts_app; [exact E|].
    eapply ls_tau; [|apply ls_nil]. destruct s0 as [hp m t th]. eapply grow_sound; eauto. }
  split; [exact X|]. exists tr. exact X.
Qed.
