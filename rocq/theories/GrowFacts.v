(** Tables over their whole life: construction, use and migrations. *)
From Coq Require Import NArith Bool List Lia.
From Verif Require Import Words Slot SlotFacts Mapper MapperFacts ReturnCode MapSpec LinSpec
  Base BaseInv BaseLin BaseExec BaseSolo TableSpec BaseFacts Migrate GrowSpec MigrateGeo MigrateInv
  MigrateStep MigrateRun MigrateHelp MigrateDone MigrateSys.
Import ListNotations.
Open Scope N_scope.

(** *** The successor's mapper *)

Lemma resize_migr c m lg lg' ins del :
  wf_mapper (tmc c) m lg -> lg <= 31 -> (cmap (tmc c) = false \/ cprob (tmc c) = true) ->
  addressable_slots (tmc c) (resize (tmc c) m ins del) = 2 ^ lg' ->
  exists g, lg' = lg + g /\ migr c m (resize (tmc c) m ins del) lg g.
Proof.
  intros W L CF E.
  set (ab := fill_above (w64 (ins + (2 ^ 64 - w64 del))) (2 ^ lg)).
  assert (R : resize (tmc c) m ins del =
              mk_mapper (tmc c) (2 ^ (lg + if ab then 1 else 0))
                (if cmap (tmc c) then 2 ^ lg else if ab then 1 else 0)).
  { unfold resize. rewrite (addressable_val _ _ _ W). fold ab.
    f_equal. destruct ab; [rewrite pow2_add1; lia|now rewrite N.add_0_r]. }
  assert (W' : wf_mapper (tmc c) (resize (tmc c) m ins del) (lg + if ab then 1 else 0)).
  { rewrite R. apply wf_mk. destruct W as [[? ?] _]. destruct ab; lia. }
  exists (if ab then 1 else 0). split.
  - rewrite (addressable_val _ _ _ W') in E. apply N.pow_inj_r in E; auto. lia.
  - split; auto.
    + destruct ab; auto.
    + rewrite R. reflexivity.
Qed.

(** *** What the vocabulary means under the invariant *)

Section Facts.
Context (sc : scfg) (mc : mcfg) (hash : N -> N) (lg : N) (m : mapper).
Context (CT : cell_type sc) (WM : wf_mapper mc m lg).
Notation c := (TCfg sc mc hash).
Notation tot := (cells_of mc lg).

Lemma sized_eq : m = sized mc lg (grow_helper m).
Proof. apply WM. Qed.
Lemma lg_ok : 1 <= lg <= 63.
Proof. apply WM. Qed.
Lemma tot_eq' : total_slots mc m = tot.
Proof. rewrite sized_eq. apply tot_eq. exact lg_ok. Qed.

Lemma stored_iff' t ct mk a : tinv c m t ct mk -> (stored sc tot t a <-> absr c m ct a).
Proof. rewrite sized_eq. apply stored_iff; auto. exact lg_ok. Qed.
Lemma vacant_iff' t ct mk p : tinv c m t ct mk -> (vacant sc tot t p <-> p < tot /\ ct p = CEmpty).
Proof. rewrite sized_eq. apply vacant_iff; auto. exact lg_ok. Qed.
Lemma holds_iff' t ct mk p k d :
  tinv c m t ct mk -> user_key sc k -> (holds sc tot t p k d <-> p < tot /\ ct p = CLive k d).
Proof. rewrite sized_eq. apply holds_iff; auto. exact lg_ok. Qed.

Lemma tinv_no_duplicate t ct mk : tinv c m t ct mk -> no_duplicate sc tot t.
Proof.
  intros I k p q d e U Hp Hq.
  apply (holds_iff' _ _ _ _ _ _ I U) in Hp. apply (holds_iff' _ _ _ _ _ _ I U) in Hq.
  destruct Hp as [Lp Ep], Hq as [Lq Eq]. eapply (live_unique c m); eauto; cbn [tmc]; rewrite tot_eq'; auto.
Qed.

Lemma tinv_findable t ct mk : tinv c m t ct mk -> findable sc mc hash lg t.
Proof.
  intros I k p d U Hp. apply (holds_iff' _ _ _ _ _ _ I U) in Hp. destruct Hp as [Lp Ep].
  destruct (ti_reach _ _ _ _ _ I p k d) as (n & En & Pn); cbn [tmc]; auto; [rewrite tot_eq'; auto|].
  exists n. cbn [tmc] in En.
  assert (PE : forall j, remap mc m (home c m k + j) = probe_of mc lg (w64 (hash k)) j).
  { intros j. rewrite sized_eq. apply probe_eq. exact lg_ok. }
  rewrite PE in En. split; auto.
  intros j Hj V. destruct (Pn j Hj) as [NE _]. cbn [tmc] in NE. rewrite PE in NE.
  apply (vacant_iff' _ _ _ _ I) in V. apply NE, V.
Qed.

Lemma tinv_unmarked t ct : tinv c m t ct (fun _ => false) -> unmarked sc tot t.
Proof.
  intros I p x L E. rewrite <- tot_eq' in L. destruct (ti_cell _ _ _ _ _ I p L) as [E' O].
  cbn [tsc] in E', O. assert (x = enc sc (ct p) false) as -> by congruence.
  apply (enc_is_marked sc (cell_type_wf _ CT)). exact O.
Qed.

Lemma unmarked_tinv t ct mk : tinv c m t ct mk -> unmarked sc tot t -> tinv c m t ct (fun _ => false).
Proof.
  intros I U. split; try apply I.
  intros p L. destruct (ti_cell _ _ _ _ _ I p L) as [E O]. cbn [tsc] in E, O.
  assert (mk p = false) as F.
  { rewrite <- (enc_is_marked sc (cell_type_wf _ CT) (ct p) (mk p) O).
    apply (U p); auto. rewrite <- tot_eq'. exact L. }
  rewrite F in E, O. auto.
Qed.

Lemma tinv_no_tombstone t ct :
  tinv c m t ct (fun _ => false) -> (forall p, p < tot -> ct p <> CTomb) -> no_tombstone sc tot t.
Proof.
  intros I NT p L (x & E & W). assert (L' := L). rewrite <- tot_eq' in L.
  destruct (ti_cell _ _ _ _ _ I p L) as [E' O]. cbn [tsc] in E', O.
  assert (x = enc sc (ct p) false) as -> by congruence.
  pose proof (cell_type_wf _ CT) as WF. pose proof (mbit_pos sc WF) as P. unfold mbit in P.
  assert (WW : 2 <= 2 ^ (sc_w sc - 1)).
  { change 2 with (2 ^ 1) at 1. apply N.pow_le_mono_r; [lia|]. unfold wf_scfg in WF; lia. }
  destruct W as [W|[M W]].
  - destruct (ct p) as [| |k d] eqn:Ec; cbn in W.
    + lia.
    + now apply (NT p).
    + destruct O as (_ & _ & _ & O & _). apply O. exact W.
  - pose proof (content_key_small sc WF (ct p) false O M) as S. unfold mbit in S. rewrite W in S. lia.
Qed.

Lemma rest_rel client t ct mk a :
  tinv c m t ct mk -> absr c m ct a -> sys_rel c m client (BSys t idle) (AObj a (fun _ => AIdle)).
Proof. intros I A. exists ct, mk. cbn. auto. Qed.

End Facts.

(** *** Life *)

Section Life.
Context (sc : scfg) (mc : mcfg) (hash : N -> N) (client : op -> Prop).
Context (CT : cell_type sc) (F : fair sc client) (CF : cmap mc = false \/ cprob mc = true).
Notation c := (TCfg sc mc hash).
Let Hsc : wf_scfg sc := cell_type_wf _ CT.
Let CO : client_ok sc client := fair_ok _ _ Hsc F.

(** A migration nobody interferes with. *)
Lemma quiet_move lg lg' m t ct a ins del B tr s :
  wf_mapper mc m lg -> tinv c m t ct (fun _ => false) -> absr c m ct a ->
  lg <= 31 -> 0 < B <= 2 ^ 31 ->
  addressable_slots mc (resize mc m ins del) = 2 ^ lg' ->
  lts_steps (msys_step c m (resize mc m ins del) B nobody)
    (msys_init c (resize mc m ins del) t idle) tr s ->
  finished s ->
  (cprob mc = true -> exists p, vacant sc (cells_of mc lg) (msrc s) p) ->
  wf_mapper mc (resize mc m ins del) lg' /\
  exists tct, tinv c (resize mc m ins del) (mtgt s) tct (fun _ => false) /\
    absr c (resize mc m ins del) tct a /\
    (forall q, q < cells_of mc lg' -> tct q <> CTomb).
Proof.
  intros W I A L [B0 BL] E ST FIN V.
  destruct (resize_migr c m lg lg' ins del W L CF E) as (g & -> & MG).
  pose proof (minit c m _ lg g B MG Hsc B0 L BL t ct a nobody I A) as R0.
  destruct (msim_alone c m _ lg g B MG Hsc B0 L BL
    (msys_init c (resize mc m ins del) t idle) _ tr s (fun _ => eq_refl) R0 ST) as (NT & R & _).
  split; [apply MG|].
  destruct (mdone c m _ lg g B MG Hsc B0 L BL _ _ _ R FIN) as (tct & T1 & T2 & T3).
  - intros CP ct' mk' I'. destruct (V CP) as [p Vp]. exists p.
    apply (vacant_iff' sc mc hash lg m CT W _ _ _ _ I') in Vp.
    cbn [tmc]. rewrite (tot_eq' mc lg m W). exact Vp.
  - exists tct. sp; auto. intros q Hq. apply T3.
    change (q < total_slots mc (resize mc m ins del)).
    rewrite (tot_eq' mc (lg + g) (resize mc m ins del) (mg_tgt _ _ _ _ _ MG)). exact Hq.
Qed.

(** A migration of marking cells with concurrent calls. *)
Lemma busy_move lg lg' m t ct a ins del B tr s :
  wf_mapper mc m lg -> tinv c m t ct (fun _ => false) -> absr c m ct a ->
  lg <= 31 -> 0 < B <= 2 ^ 31 -> sc_mark sc = true ->
  addressable_slots mc (resize mc m ins del) = 2 ^ lg' ->
  lts_steps (calm_step c m (resize mc m ins del) B client)
    (msys_init c (resize mc m ins del) t idle) tr s ->
  exists x, asteps (mspec true (negb (cprob mc))) (AObj a (fun _ => AIdle)) tr x /\
   (finished s ->
    (cprob mc = true -> exists p, vacant sc (cells_of mc lg) (msrc s) p) ->
    wf_mapper mc (resize mc m ins del) lg' /\
    exists tct, tinv c (resize mc m ins del) (mtgt s) tct (fun _ => false) /\
      absr c (resize mc m ins del) tct (ast x) /\
      (forall q, q < cells_of mc lg' -> tct q <> CTomb)).
Proof.
  intros W I A L [B0 BL] SM E ST.
  destruct (resize_migr c m lg lg' ins del W L CF E) as (g & -> & MG).
  pose proof (minit c m _ lg g B MG Hsc B0 L BL t ct a client I A) as R0.
  destruct (msim_trace c m _ lg g B MG Hsc B0 L BL client _ _ tr s CO SM R0 ST) as (x & AS & R).
  exists x. cbn [tsc tmc] in AS. rewrite SM in AS. split; auto. intros FIN V.
  split; [apply MG|].
  destruct (mdone c m _ lg g B MG Hsc B0 L BL _ _ _ R FIN) as (tct & T1 & T2 & T3).
  - intros CP ct' mk' I'. destruct (V CP) as [p Vp]. exists p.
    apply (vacant_iff' sc mc hash lg m CT W _ _ _ _ I') in Vp.
    cbn [tmc]. rewrite (tot_eq' mc lg m W). exact Vp.
  - exists tct. sp; auto. intros q Hq. apply T3.
    change (q < total_slots mc (resize mc m ins del)).
    rewrite (tot_eq' mc (lg + g) (resize mc m ins del) (mg_tgt _ _ _ _ _ MG)). exact Hq.
Qed.

(** Vacancy survives a migration's marks. *)
Definition vac (t : mem) (p : N) : Prop := exists x, t p = Some x /\ word_is sc x 0.

Lemma vac_mark t p i cell curr ok cell' curr' :
  t i = Some cell -> atomic_mark sc cell curr = (ok, cell', curr') ->
  vac t p -> vac (fupd t i (Some cell')) p.
Proof.
  intros E AM V. destruct (N.eq_dec p i) as [->|NE].
  2: { destruct V as (x & Ex & W). exists x. rewrite fupd_neq by exact NE. auto. }
  destruct V as (x & Ex & W). rewrite E in Ex. injection Ex as ->.
  exists cell'. split; [apply fupd_eq|].
  unfold atomic_mark in AM. destruct (sc_mark sc) eqn:M.
  - unfold cas in AM. destruct (slot_eqb x curr) eqn:EQ.
    + injection AM as _ <- _. apply slot_eqb_eq in EQ. subst curr.
      unfold mark_slot. cbn. unfold word_is in *. rewrite M in *. cbn.
      right. split; auto. unfold mbit in *.
      destruct W as [W|[_ W]]; rewrite W; [rewrite N.lor_0_l; lia|].
      rewrite N.add_0_l, N.lor_diag. lia.
    + injection AM as _ <- _. exact W.
  - injection AM as _ <- _. exact W.
Qed.

Lemma vac_hstep m mt B src tgt ctr pc src' tgt' ctr' pc' p :
  hstep c m mt B src tgt ctr pc = (src', tgt', ctr', pc') -> vac src p -> vac src' p.
Proof.
  intros ST V.
  assert (K : forall i cell curr ok cell' curr',
     rd c m src i = Some cell -> atomic_mark sc cell curr = (ok, cell', curr') ->
     vac (fupd src i (Some cell')) p).
  { intros i cell curr ok cell' curr' R AM. eapply vac_mark; eauto.
    unfold rd in R. cbn [tmc] in R. destruct (i <? total_slots mc m); [exact R|discriminate]. }
  destruct pc; cbn [hstep] in ST; cbn [tsc tmc] in ST;
    repeat match type of ST with
    | context [match rd ?a ?b ?d ?e with Some _ => _ | None => _ end] => destruct (rd a b d e) eqn:?
    | context [let '(_, _) := atomic_mark ?a ?b ?e in _] =>
        destruct (atomic_mark a b e) as [[? ?] ?] eqn:?
    | context [match ?l with [] => _ | _ :: _ => _ end] => destruct l
    | context [if ?b then _ else _] => destruct b
    end; try (injection ST as <- _ _ _; solve [exact V|eapply K; eauto]).
Qed.

Lemma vac_quiet m mt B s tr s' p :
  (forall tid, mthr s tid = None) ->
  lts_steps (msys_step c m mt B nobody) s tr s' -> vac (msrc s) p -> vac (msrc s') p.
Proof.
  intros NT ST. induction ST as [s|s s1 s2 tr S ST IH|s e s1 s2 tr S ST IH]; auto; intros V.
  all: assert (X : (forall tid, mthr s1 tid = None) /\ vac (msrc s1) p).
  1, 3: destruct S as [s t k h th tid E|s t k h th tid pc s' t' k' pc' E STP|s t k h th tid o E CL
             |s t k h th tid o pc b s' pc' E ND STP|s t k h th tid o r E]; cbn in NT, V |- *;
        try (rewrite NT in E; discriminate); try (now elim CL); auto;
        split; auto; eapply vac_hstep; eauto.
  all: apply IH; apply X.
Qed.

Lemma vacant_quiet lg m mt B t tr s :
  (cprob mc = true -> exists p, vacant sc (cells_of mc lg) t p) ->
  lts_steps (msys_step c m mt B nobody) (msys_init c mt t idle) tr s ->
  (cprob mc = true -> exists p, vacant sc (cells_of mc lg) (msrc s) p).
Proof.
  intros V ST CP. destruct (V CP) as (p & L & X). exists p. split; auto.
  eapply (vac_quiet m mt B (msys_init c mt t idle)); eauto.
Qed.

Lemma life_inv lg m t :
  life c client lg m t ->
  wf_mapper mc m lg /\ exists ct a, tinv c m t ct (fun _ => false) /\ absr c m ct a.
Proof.
  induction 1 as [lg LG|lg m t tr s L IH ST NT U|lg lg' m t ins del B tr s L IH LG HB E ST FIN V
                 |lg lg' m t ins del B tr s L IH LG HB SM E ST FIN V]; cbn [tmc tsc] in *.
  - split; [now apply wf_mk|]. exists (fun _ => CEmpty), amap_empty. split.
    + eapply (fresh_tinv c (sized mc lg 0) lg); eauto. now apply wf_mk.
    + apply fresh_absr.
  - destruct IH as (W & ct & a & I & A). split; auto.
    destruct (sim_trace c m lg Hsc W client _ _ tr s CO (rest_rel sc mc hash m client t ct _ a I A) ST)
      as (x & _ & ct' & mk' & I' & A' & _).
    exists ct', (ast x). split; auto. eapply unmarked_tinv; eauto.
  - destruct IH as (W & ct & a & I & A).
    destruct (quiet_move lg lg' m t ct a ins del B tr s W I A LG HB E ST FIN) as (W' & tct & T1 & T2 & _).
    { eapply vacant_quiet; eauto. }
    split; auto. eauto.
  - destruct IH as (W & ct & a & I & A).
    destruct (busy_move lg lg' m t ct a ins del B tr s W I A LG HB SM E ST) as (x & _ & X).
    destruct (X FIN V) as (W' & tct & T1 & T2 & _). split; auto. eauto.
Qed.

(** *** The statements *)

Lemma life_stored lg m t : life c client lg m t -> exists a, stored sc (cells_of mc lg) t a.
Proof.
  intros L. destruct (life_inv _ _ _ L) as (W & ct & a & I & A). exists a.
  eapply stored_iff'; eauto.
Qed.

Lemma move_quiet_ok lg lg' m t a ins del B tr s :
  life c client lg m t -> lg <= 31 -> 0 < B <= 2 ^ 31 ->
  addressable_slots mc (resize mc m ins del) = 2 ^ lg' ->
  stored sc (cells_of mc lg) t a ->
  (cprob mc = true -> exists p, vacant sc (cells_of mc lg) t p) ->
  lts_steps (msys_step c m (resize mc m ins del) B nobody)
    (msys_init c (resize mc m ins del) t idle) tr s ->
  finished s ->
  stored sc (cells_of mc lg') (mtgt s) a /\ no_duplicate sc (cells_of mc lg') (mtgt s) /\
  findable sc mc hash lg' (mtgt s) /\ unmarked sc (cells_of mc lg') (mtgt s) /\
  no_tombstone sc (cells_of mc lg') (mtgt s).
Proof.
  intros L LG HB E SA V ST FIN. destruct (life_inv _ _ _ L) as (W & ct & a0 & I & _).
  apply (stored_iff' sc mc hash lg m CT W _ _ _ _ I) in SA.
  destruct (quiet_move lg lg' m t ct a ins del B tr s W I SA LG HB E ST FIN) as (W' & tct & T1 & T2 & T3).
  { eapply vacant_quiet; eauto. }
  sp.
  - eapply stored_iff'; eauto.
  - eapply tinv_no_duplicate; eauto.
  - eapply tinv_findable; eauto.
  - eapply tinv_unmarked; eauto.
  - eapply tinv_no_tombstone; eauto.
Qed.

Lemma move_busy_ok lg lg' m t a ins del B tr s :
  life c client lg m t -> lg <= 31 -> 0 < B <= 2 ^ 31 -> sc_mark sc = true ->
  addressable_slots mc (resize mc m ins del) = 2 ^ lg' ->
  stored sc (cells_of mc lg) t a ->
  lts_steps (calm_step c m (resize mc m ins del) B client)
    (msys_init c (resize mc m ins del) t idle) tr s ->
  exists x, asteps (mspec true (negb (cprob mc))) (AObj a (fun _ => AIdle)) tr x /\
   (finished s ->
    (cprob mc = true -> exists p, vacant sc (cells_of mc lg) (msrc s) p) ->
    stored sc (cells_of mc lg') (mtgt s) (ast x) /\ no_duplicate sc (cells_of mc lg') (mtgt s) /\
    findable sc mc hash lg' (mtgt s) /\ unmarked sc (cells_of mc lg') (mtgt s) /\
    no_tombstone sc (cells_of mc lg') (mtgt s)).
Proof.
  intros L LG HB SM E SA ST. destruct (life_inv _ _ _ L) as (W & ct & a0 & I & _).
  apply (stored_iff' sc mc hash lg m CT W _ _ _ _ I) in SA.
  destruct (busy_move lg lg' m t ct a ins del B tr s W I SA LG HB SM E ST) as (x & AS & X).
  exists x. split; auto. intros FIN V. destruct (X FIN V) as (W' & tct & T1 & T2 & T3).
  sp.
  - eapply stored_iff'; eauto.
  - eapply tinv_no_duplicate; eauto.
  - eapply tinv_findable; eauto.
  - eapply tinv_unmarked; eauto.
  - eapply tinv_no_tombstone; eauto.
Qed.

Lemma life_linearizable lg m t a :
  life c client lg m t -> stored sc (cells_of mc lg) t a ->
  linearizable (mspec (sc_mark sc) (negb (cprob mc))) (bsys_step c m client) (BSys t idle) a.
Proof.
  intros L SA tr s ST. destruct (life_inv _ _ _ L) as (W & ct & a0 & I & _).
  apply (stored_iff' sc mc hash lg m CT W _ _ _ _ I) in SA.
  destruct (sim_trace c m lg Hsc W client _ _ tr s CO (rest_rel sc mc hash m client t ct _ a I SA) ST)
    as (x & AS & _).
  exists x. exact AS.
Qed.

(** Nothing beyond cell 2^lg + 300, and no call leaves the table. *)
Lemma life_overflow lg m t tr s :
  life c client lg m t -> lts_steps (bsys_step c m client) (BSys t idle) tr s ->
  (cprob mc = false -> forall p x, p < cells_of mc lg -> 2 ^ lg + 300 < p -> bmem s p = Some x -> word_is sc x 0) /\
  (forall tid o pc, bthr s tid = Some (o, pc) -> pc <> PBad /\
     forall i, next_access pc = Some i -> remap mc m i < cells_of mc lg /\ bmem s (remap mc m i) <> None).
Proof.
  intros L ST. destruct (life_inv _ _ _ L) as (W & ct & a & I & A).
  destruct (sim_trace c m lg Hsc W client _ _ tr s CO (rest_rel sc mc hash m client t ct _ a I A) ST)
    as (x & _ & ct' & mk' & I' & A' & T). split.
  - intros CP p y Lp Hp E. rewrite <- (tot_eq' mc lg m W) in Lp.
    assert (ct' p = CEmpty) as EC.
    { apply (ti_over _ _ _ _ _ I' CP); auto. cbn [tmc]. rewrite (addressable_val _ _ _ W). exact Hp. }
    assert (vacant sc (cells_of mc lg) (bmem s) p) as V.
    { eapply vacant_iff'; eauto. rewrite <- (tot_eq' mc lg m W). auto. }
    destruct V as (_ & y' & E' & V). congruence.
  - intros tid o pc E. specialize (T tid). rewrite E in T. destruct T as (_ & T & _).
    assert (K : forall n, prefix c m ct' (op_key o) n ->
             remap mc m (home c m (op_key o) + n) < cells_of mc lg /\
             bmem s (remap mc m (home c m (op_key o) + n)) <> None).
    { intros n P. pose proof (prefix_bound c m lg W _ _ _ _ _ I' P) as LP. cbn [tmc] in LP.
      split; [rewrite (tot_eq' mc lg m W) in LP; exact LP|].
      destruct (ti_cell _ _ _ _ _ I' _ LP) as [E' _]. cbn in E'. rewrite E'. discriminate. }
    split; [intros ->; exact T|].
    intros i Ei. destruct pc as [j|j s0|j s0|j s0|r|]; cbn in Ei; try discriminate; injection Ei as ->; cbn in T.
    + destruct T as (n & -> & P). auto.
    + destruct T as (n & d & -> & P & _). auto.
    + destruct T as (n & d & -> & P & _). auto.
    + destruct T as (n & d & -> & P & _). auto.
Qed.

End Life.

(** Cells of a table in use are readable; those that are not vacant are not empty. *)
Lemma life_occupied sc mc hash client lg m t p :
  cell_type sc -> fair sc client -> (cmap mc = false \/ cprob mc = true) ->
  life (TCfg sc mc hash) client lg m t -> p < cells_of mc lg -> ~ vacant sc (cells_of mc lg) t p ->
  exists x, t p = Some x /\ is_empty sc x = false.
Proof.
  intros CT F CF L Lp NV. destruct (life_inv _ _ _ _ CT F CF _ _ _ L) as (W & ct & a & I & _).
  assert (Lp' := Lp). rewrite <- (tot_eq' mc lg m W) in Lp'.
  destruct (ti_cell _ _ _ _ _ I p Lp') as [E O]. cbn [tsc] in E, O.
  exists (enc sc (ct p) false). split; auto.
  rewrite (enc_is_empty sc (cell_type_wf _ CT) _ _ O).
  destruct (ct p) eqn:Ec; auto. elim NV. eapply vacant_iff'; eauto.
Qed.
