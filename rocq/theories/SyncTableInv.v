(** The synchronised growing table refines the machine of Growing.v with calls
    excluded from migrations: the exclusion is what the handshake establishes. *)
From Coq Require Import NArith Bool List Lia.
From Verif Require Import Words Slot Mapper ReturnCode MapSpec LinSpec Base BaseInv BaseLin TableSpec Migrate
  Growing GrowingSpec GrowingFacts Sync SyncInv SyncSpec SyncTable SyncTableSpec.
Import ListNotations.
Open Scope N_scope.

Lemma blocks_lt mc B m b : 0 < B -> (b <? blocks mc B m) = (b * B <? addressable_slots mc m).
Proof.
  intros HB. unfold blocks. set (a := addressable_slots mc m).
  pose proof (N.div_mod (a + B - 1) B ltac:(lia)) as D.
  pose proof (N.mod_lt (a + B - 1) B ltac:(lia)) as L.
  set (q := (a + B - 1) / B) in *. set (r := (a + B - 1) mod B) in *.
  destruct (N.ltb_spec b q), (N.ltb_spec (b * B) a); auto; exfalso; nia.
Qed.

Lemma hstep_ctr c ms mt B s t k pc s' t' k' pc' k2 :
  pc <> HClaim -> hstep c ms mt B s t k pc = (s', t', k', pc') ->
  hstep c ms mt B s t k2 pc = (s', t', k2, pc').
Proof.
  intros N. destruct pc; cbn [hstep]; try congruence;
    repeat match goal with
    | |- context [match rd ?a ?b ?d ?e with _ => _ end] => destruct (rd a b d e)
    | |- context [atomic_mark ?a ?b ?d] => destruct (atomic_mark a b d) as [[? ?] ?]
    | |- context [match ?l with [] => _ | _ :: _ => _ end] => is_var l; destruct l
    | |- context [if ?a <? total_slots ?b ?d then _ else _] => destruct (a <? total_slots b d)
    end; intros [= <- <- <- <-]; auto.
Qed.

(** The current version, from _table and _epoch. *)
Definition cver (p : sst) : N :=
  match s_tab p with TTab v | TMarked v => v | TNull => s_epoch p - 1 end.

(** The organiser has seen all blocks handed out. *)
Definition orgend (x : spc) : bool :=
  match x with
  | PMig6 (KOrg _) _ _ | PGrow9 _ | PWaitStart _ | PWaitMig _ _ _ | PPublish _ => true
  | _ => false
  end.

Section R.
Context (c : tcfg) (B : N) (maps : N -> mapper) (slot : N -> N) (client : op -> Prop).
Context (INJ : own_flags slot) (HB : 0 < B).
Notation mc := (tmc c).
Notation sc := (tsc c).
Notation nblk := (nblk c B maps).
Notation ginv := (SyncInv.ginv false nblk slot).

Lemma ginv_cver cu o p : ginv cu o p -> cver p = cu.
Proof.
  intros G. unfold cver. pose proof (gi_org _ _ _ _ _ _ G) as O. destruct o as [t|].
  - destruct O as (O1 & O2 & O3). rewrite O2, O3. destruct (s_pc p t); cbn; lia.
  - destruct O as [-> _]. reflexivity.
Qed.

Definition is_op (x : spc) : bool := match x with POp _ => true | _ => false end.
Definition is_mv (x : spc) : bool := match x with PMig5 _ _ _ _ => true | _ => false end.

(** Accesses of the handshake other than those of SyncTable with effects. *)
Lemma plain_step cu o p i p' :
  ginv cu o p -> plain (s_pc p i) = true -> go c B maps slot p (SGo i) = Some p' ->
  (forall j, j <> i -> s_pc p' j = s_pc p j) /\ s_next p' = s_next p /\ s_block p' = s_block p /\
  is_op (s_pc p i) = false /\ is_mv (s_pc p i) = false /\
  is_op (s_pc p' i) = false /\ is_mv (s_pc p' i) = false /\
  ((cver p' = cu /\ (orgend (s_pc p' i) = true -> orgend (s_pc p i) = true)) \/
   (s_pc p i = PPublish cu /\ o = Some i /\ s_tab p = TNull /\ s_tab p' = TTab (cu + 1) /\
    orgend (s_pc p' i) = false)).
Proof.
  intros G PL E.
  pose proof (ginv_cver _ _ _ G) as CV.
  assert (KEEP : forall q x, s_tab q = s_tab p -> s_epoch q = s_epoch p -> cver (set_pc q i x) = cu).
  { intros q x E1 E2. unfold cver in *. cbn. now rewrite E1, E2. }
  assert (ORG : forall v, orgof (s_pc p i) = Some v ->
     o = Some i /\ v = cu /\ s_tab p = tabof cu (s_pc p i) /\ s_epoch p = cu + 1).
  { intros v. eapply is_org; eauto. }
  pose proof (gi_th _ _ _ _ _ _ G i) as [_ T].
  unfold go in E. cbn [sync_run1] in E. unfold sync_go, locked, put_store in E.
  destruct (s_pc p i) eqn:P; try discriminate PL; cbn [orgof kver] in ORG;
    repeat match type of E with
    | context [match s_buf ?a ?b with _ => _ end] => destruct (s_buf a b); try discriminate E
    | context [match s_tab ?a with _ => _ end] => destruct (s_tab a) eqn:?
    | context [match s_ops ?a ?b with _ => _ end] => destruct (s_ops a b)
    | context [match s_mig ?a ?b with _ => _ end] => destruct (s_mig a b)
    | context [if ?a <? ?b then _ else _] => destruct (N.ltb_spec a b)
    | context [if ?a =? ?b then _ else _] => destruct (N.eqb_spec a b)
    | context [if s_deleted ?a ?b then _ else _] => destruct (s_deleted a b)
    | context [if s_next ?a ?b then _ else _] => destruct (s_next a b)
    end; try discriminate E; injection E as <-.
  all: cbn [s_pc set_pc s_next s_block set_tab set_epoch set_last set_next set_block set_deleted commit].
  all: try rewrite P.
  all: try rewrite fupd_eq.
  all: try (split; [intros j NJ; try (rewrite fupd_neq by exact NJ); reflexivity|]).
  all: repeat (split; [reflexivity|]).
  all: try (split; [destruct want; reflexivity|]; split; [destruct want; reflexivity|]).
  all: try (split; [destruct k; reflexivity|]; split; [destruct k; reflexivity|]).
  all: try (left; split; [first [apply KEEP; reflexivity|exact CV]|first [discriminate|auto]]; fail).
  - left. split; [now apply KEEP|]. destruct want; discriminate.
  - left. split; [|discriminate]. destruct T as [T0 T]. pose proof (gi_org _ _ _ _ _ _ G) as O.
    destruct o as [t|].
    + destruct O as (_ & _ & O). lia.
    + destruct O as [O _]. unfold cver. cbn. now rewrite O.
  - left. split; [|discriminate]. destruct (ORG v eq_refl) as (_ & -> & _ & _). reflexivity.
  - left. split; [|reflexivity]. destruct (ORG v eq_refl) as (_ & _ & _ & E). unfold cver. cbn. rewrite E. lia.
  - right. destruct (ORG v eq_refl) as (-> & -> & E & _). auto.
  - left. split; [now apply KEEP|]. destruct k as [w|]; [|discriminate].
    destruct (ORG w eq_refl) as (_ & _ & E & _). discriminate E.
  - left. split; [now apply KEEP|]. destruct k as [w|]; [|discriminate].
    destruct (ORG w eq_refl) as (_ & _ & E & _). discriminate E.
  - left. split; [now apply KEEP|]. destruct k; [reflexivity|discriminate].
Qed.

(** The call of a thread at [x] against the call of Growing.v. *)
Definition threl (cu : N) (x : spc) (a : option (op * cpc)) (b : option (op * gpc)) : Prop :=
  match a with
  | None => b = None
  | Some (o, CWait) => b = Some (o, GGet)
  | Some (o, CRun pc) => x = POp cu /\ b = Some (o, GRun cu pc)
  | Some (o, CFin r) => retries o r = false /\ exists u, b = Some (o, GRun u (PDone r))
  end.

(** A thread's part in the migration. *)
Definition hrel (x : spc) (h : hpc) (hh : option hpc) : Prop :=
  (if is_mv x then hh = Some h else hh = None \/ hh = Some HEnd \/ hh = Some HClaim) /\
  (orgend x = true -> hh = Some HEnd).

Definition migrel (cu : N) (p : sst) (h : N -> hpc) (mp : N -> mapper)
  (mg : option (N * (N -> option hpc))) : Prop :=
  if s_next p cu
  then mp (cu + 1) = maps (cu + 1) /\
       exists hh, mg = Some (s_block p cu * B, hh) /\ forall i, hrel (s_pc p i) (h i) (hh i)
  else mg = None /\ forall i, orgend (s_pc p i) = false.

Record rel (s : tst) (g : gsys) : Prop := {
  re_inv : exists o, ginv (cver (t_p s)) o (t_p s);
  re_ver : gver g = cver (t_p s);
  re_mem : forall v, gmem g v = t_mem s v;
  re_map : forall v, v <= cver (t_p s) -> gmap g v = maps v;
  re_blk : forall v, s_next (t_p s) v = false -> s_block (t_p s) v = 0;
  re_thr : forall i, threl (cver (t_p s)) (s_pc (t_p s) i) (t_call s i) (gthr g i);
  re_mig : migrel (cver (t_p s)) (t_p s) (t_h s) (gmap g) (gmig g) }.

Lemma openst_started p o x : openst (opc p o) x -> ~ started (opc p o).
Proof. destruct (opc p o) as [[]|]; cbn; auto. Qed.

(** Nobody operates on a table that is being migrated. *)
Lemma no_op cu o p i : ginv cu o p -> s_pc p i = POp cu -> s_next p cu = false.
Proof.
  intros G E. destruct (s_next p cu) eqn:X; auto. exfalso.
  destruct (gi_next _ _ _ _ _ _ G _ X) as [L|[_ ST]]; [lia|].
  pose proof (gi_th _ _ _ _ _ _ G i) as [_ T]. rewrite E in T. destruct T as [_ T].
  destruct (T eq_refl) as (_ & _ & OS). exact (openst_started _ _ _ OS ST).
Qed.

Lemma rel_exclusive s g : rel s g -> exclusive g.
Proof.
  intros R M tid o v pc E. destruct (re_inv _ _ R) as (og & G).
  pose proof (re_mig _ _ R) as MG. unfold migrel in MG.
  destruct (s_next (t_p s) (cver (t_p s))) eqn:X; [|now destruct MG].
  pose proof (re_thr _ _ R tid) as T. unfold threl in T.
  destruct (t_call s tid) as [[o' [|pc'|r]]|]; rewrite E in T; try discriminate T.
  - destruct T as [T _]. rewrite (no_op _ _ _ _ G T) in X. discriminate.
  - destruct T as (_ & u & T). injection T as _ _ ->. eauto.
Qed.

Lemma room_same (g g' : gsys) : gver g' = gver g -> room c g g'.
Proof. intros E _ N. congruence. Qed.

Notation gstep := (GrowingSpec.sync_step c B client).

(** What a step of the machine is turned into. *)
Definition simulated (g : gsys) (l : option (event mop mres)) (s' : tst) : Prop :=
  exists g', lts_steps gstep g (match l with Some e => [e] | None => [] end) g' /\ rel s' g'.

Lemma sim_none g s' : rel s' g -> simulated g None s'.
Proof. exists g. split; [constructor|auto]. Qed.

Lemma sim_one g l s' g' : gsys_step c B client g l g' -> gver g' = gver g -> rel s' g' -> simulated g l s'.
Proof.
  intros S E R. exists g'. split; [|auto].
  assert (X : gstep g l g') by (split; [exact S|split; [now apply (rel_exclusive s')|now apply room_same]]).
  destruct l as [e|]; econstructor; eauto; constructor.
Qed.

(** Steps of the handshake that change nothing else. *)
Lemma rel_quiet s g i p' :
  rel s g -> (exists l, go c B maps slot (t_p s) l = Some p') ->
  (forall j, j <> i -> s_pc p' j = s_pc (t_p s) j) ->
  s_next p' = s_next (t_p s) -> s_block p' = s_block (t_p s) -> cver p' = cver (t_p s) ->
  (is_op (s_pc (t_p s) i) = false \/ forall o pc, t_call s i <> Some (o, CRun pc)) ->
  is_mv (s_pc p' i) = false -> is_mv (s_pc (t_p s) i) = false ->
  (orgend (s_pc p' i) = true -> orgend (s_pc (t_p s) i) = true) ->
  rel (TSt p' (t_mem s) (t_call s) (t_h s)) g.
Proof.
  intros R [l GO] PC NX BL CV OP MV MV' OE.
  destruct (re_inv _ _ R) as (o & G).
  destruct (step_inv _ _ _ INJ _ _ _ _ _ G GO) as (cu' & o' & G').
  pose proof (ginv_cver _ _ _ G') as <-.
  split; cbn [t_p t_mem t_call t_h]; rewrite ?CV, ?NX, ?BL.
  - exists o'. rewrite <- CV. exact G'.
  - exact (re_ver _ _ R).
  - exact (re_mem _ _ R).
  - exact (re_map _ _ R).
  - exact (re_blk _ _ R).
  - intros j. pose proof (re_thr _ _ R j) as T. destruct (N.eq_dec j i) as [->|NE]; [|now rewrite PC].
    destruct (t_call s i) as [[o1 [|pc|r]]|] eqn:E; try exact T.
    destruct OP as [OP|OP]; [|now elim (OP o1 pc)].
    destruct T as [T _]. rewrite T in OP. discriminate.
  - pose proof (re_mig _ _ R) as M. unfold migrel in *. rewrite NX, BL.
    destruct (s_next (t_p s) (cver (t_p s))).
    2:{ destruct M as [M1 M2]. split; auto. intros j. destruct (N.eq_dec j i) as [->|NE]; [|now rewrite PC].
        destruct (orgend (s_pc p' i)); auto. rewrite (M2 i) in OE. symmetry. auto. }
    destruct M as (M1 & hh & M2 & M3).
    split; auto. exists hh. split; auto. intros j. specialize (M3 j).
    destruct (N.eq_dec j i) as [->|NE]; [|now rewrite PC].
    unfold hrel in *. rewrite MV. rewrite MV' in M3. destruct M3. auto.
Qed.

Lemma threl_same cu x x' a b : threl cu x a b -> (forall o pc, a <> Some (o, CRun pc)) -> threl cu x' a b.
Proof. destruct a as [[o [|pc|r]]|]; cbn; auto. intros _ N. now elim (N o pc). Qed.

Lemma fupd_same {A} (f : N -> A) i j : fupd f i (f i) j = f j.
Proof. unfold fupd. now destruct (N.eqb_spec j i) as [->|]. Qed.

Lemma sim_inv p me ca h i o g :
  rel (TSt p me ca h) g -> ca i = None -> client o ->
  simulated g (Some (EInv i (spec_op sc o))) (TSt p me (fupd ca i (Some (o, CWait))) h).
Proof.
  intros R E CL. destruct g as [v mp gm mg th].
  pose proof (re_thr _ _ R i) as T. cbn in T. rewrite E in T. cbn in T.
  eapply sim_one; [eapply g_inv; eauto|reflexivity|].
  destruct R as [R1 R2 R3 R4 R5 R6 R7]; cbn in *. split; cbn; auto.
  intros j. unfold fupd. destruct (N.eqb_spec j i) as [->|NE]; [reflexivity|apply R6].
Qed.

Lemma sim_ret p me ca h i o r g :
  rel (TSt p me ca h) g -> ca i = Some (o, CFin r) ->
  simulated g (Some (ERet i (gobs o r))) (TSt p me (fupd ca i None) h).
Proof.
  intros R E. destruct g as [v mp gm mg th].
  pose proof (re_thr _ _ R i) as T. cbn in T. rewrite E in T. cbn in T. destruct T as (T1 & u & T2).
  eapply sim_one; [eapply g_ret; eauto|reflexivity|].
  destruct R as [R1 R2 R3 R4 R5 R6 R7]; cbn in *. split; cbn; auto.
  intros j. unfold fupd. destruct (N.eqb_spec j i) as [->|NE]; [reflexivity|apply R6].
Qed.

(** A step of the handshake that keeps the version, together with a new state of
    the call of the same thread. *)
Lemma rel_call s g g' i p' x l :
  rel s g -> go c B maps slot (t_p s) l = Some p' ->
  (forall j, j <> i -> s_pc p' j = s_pc (t_p s) j) ->
  s_next p' = s_next (t_p s) -> s_block p' = s_block (t_p s) -> cver p' = cver (t_p s) ->
  is_mv (s_pc p' i) = false -> is_mv (s_pc (t_p s) i) = false ->
  (orgend (s_pc p' i) = true -> orgend (s_pc (t_p s) i) = true) ->
  gver g' = gver g -> gmem g' = gmem g -> gmap g' = gmap g -> gmig g' = gmig g ->
  (forall j, j <> i -> gthr g' j = gthr g j) ->
  threl (cver (t_p s)) (s_pc p' i) x (gthr g' i) ->
  rel (TSt p' (t_mem s) (fupd (t_call s) i x) (t_h s)) g'.
Proof.
  intros R GO PC NX BL CV MV MV' OE E1 E2 E3 E4 E5 TH.
  destruct (re_inv _ _ R) as (o & G).
  destruct (step_inv _ _ _ INJ _ _ _ _ _ G GO) as (cu' & o' & G').
  pose proof (ginv_cver _ _ _ G') as <-.
  split; cbn [t_p t_mem t_call t_h]; rewrite ?CV, ?NX, ?BL, ?E1, ?E2, ?E3, ?E4.
  - exists o'. rewrite <- CV. exact G'.
  - exact (re_ver _ _ R).
  - exact (re_mem _ _ R).
  - exact (re_map _ _ R).
  - exact (re_blk _ _ R).
  - intros j. pose proof (re_thr _ _ R j) as T. destruct (N.eq_dec j i) as [->|NE].
    + now rewrite fupd_eq.
    + rewrite fupd_neq by exact NE. rewrite PC, E5 by exact NE. exact T.
  - pose proof (re_mig _ _ R) as M. unfold migrel in *. rewrite NX, BL.
    destruct (s_next (t_p s) (cver (t_p s))).
    2:{ destruct M as [M1 M2]. split; auto. intros j. destruct (N.eq_dec j i) as [->|NE]; [|now rewrite PC].
        destruct (orgend (s_pc p' i)); auto. rewrite (M2 i) in OE. symmetry. auto. }
    destruct M as (M1 & hh & M2 & M3).
    split; auto. exists hh. split; auto. intros j. specialize (M3 j).
    destruct (N.eq_dec j i) as [->|NE]; [|now rewrite PC].
    unfold hrel in *. rewrite MV. rewrite MV' in M3. destruct M3. auto.
Qed.

Lemma sim_get p me ca h i v p' g :
  rel (TSt p me ca h) g -> s_pc p i = PGet3 v -> go c B maps slot p (SGo i) = Some p' ->
  simulated g None
    (TSt p' me (match s_pc p' i with POp _ => fupd ca i (begun c maps v (ca i)) | _ => ca end) h).
Proof.
  intros R P GO. pose proof GO as GO'. unfold go in GO. cbn [sync_run1] in GO. unfold sync_go in GO. rewrite P in GO.
  pose proof (re_thr _ _ R i) as T. cbn in T. rewrite P in T.
  assert (NR : forall o pc, ca i <> Some (o, CRun pc)).
  { intros o pc E. rewrite E in T. destruct T. discriminate. }
  assert (Q : p' = set_pc p i PGet4 \/ s_tab p = TTab v /\ p' = set_pc p i (POp v)).
  { destruct (s_tab p) as [w|w|]; try (injection GO as <-; auto; fail). destruct (N.eqb_spec w v) as [EW|EW]; injection GO as <-; [right; now rewrite EW|auto]. }
  clear GO. destruct Q as [->|[TB ->]]; cbn [set_pc s_pc]; rewrite fupd_eq.
  - apply sim_none. apply (rel_quiet _ _ i _ R); cbn; rewrite ?fupd_eq, ?P; eauto; try discriminate.
    intros j NE. now rewrite fupd_neq.
  - assert (CV : cver p = v) by (unfold cver; now rewrite TB).
    assert (DO : forall g' x, gver g' = gver g -> gmem g' = gmem g -> gmap g' = gmap g -> gmig g' = gmig g ->
      (forall j, j <> i -> gthr g' j = gthr g j) -> threl v (POp v) x (gthr g' i) ->
      rel (TSt (set_pc p i (POp v)) me (fupd ca i x) h) g').
    { intros g' x E1 E2 E3 E4 E5 E6. apply (rel_call _ _ g' i _ x _ R GO'); cbn; rewrite ?fupd_eq, ?P; auto; try discriminate.
      - intros j NE. now rewrite fupd_neq.
      - rewrite CV. exact E6. }
    destruct (ca i) as [[o [|pc|r]]|] eqn:E; cbn [begun].
    + destruct g as [gv mp gm mg th]. cbn in T.
      pose proof (re_ver _ _ R) as VR. cbn in VR. rewrite CV in VR. subst gv.
      eapply sim_one; [eapply g_get; eauto|reflexivity|].
      apply DO; cbn; auto.
      * intros j NE. now rewrite fupd_neq.
      * rewrite fupd_eq. split; auto. pose proof (re_map _ _ R v) as RM. cbn in RM. rewrite RM; auto. lia.
    + now elim (NR o pc).
    + apply sim_none. apply DO; auto.
    + apply sim_none. apply DO; auto.
Qed.

Lemma sim_run p me ca h i v o pc b t' pc' g :
  rel (TSt p me ca h) g ->
  s_pc p i = POp v -> ca i = Some (o, CRun pc) -> (forall r, pc <> PDone r) ->
  bstep c (maps v) (me v) b o pc = (t', pc') ->
  simulated g None (TSt p (fupd me v t') (fupd ca i (Some (o, CRun pc'))) h).
Proof.
  intros R P E ND BS. destruct g as [gv mp gm mg th].
  pose proof (re_thr _ _ R i) as T. cbn in T. rewrite E in T. destruct T as [T1 T2]. cbn in T2.
  rewrite P in T1. injection T1 as ->.
  pose proof (re_map _ _ R (cver p) (N.le_refl _)) as RM. pose proof (re_mem _ _ R (cver p)) as RE. cbn in RM, RE.
  eapply sim_one; [eapply g_run; [exact T2|exact ND|rewrite RM, RE; exact BS]|reflexivity|].
  destruct R as [R1 R2 R3 R4 R5 R6 R7]; cbn in *. split; cbn; auto.
  - intros u. unfold fupd. destruct (u =? cver p); auto.
  - intros j. unfold fupd. destruct (N.eqb_spec j i) as [->|NE]; [|apply R6]. cbn. auto.
Qed.

Lemma sim_leave p me ca h i v l p' x g :
  rel (TSt p me ca h) g -> s_pc p i = POp v -> l = SGo i \/ l = SWant i -> finish (ca i) = Some x ->
  go c B maps slot p l = Some p' -> simulated g None (TSt p' me (fupd ca i x) h).
Proof.
  intros R P L F GO.
  assert (Q : exists w, p' = set_pc p i (PRls w)).
  { unfold go in GO. destruct L as [->| ->]; cbn [sync_run1] in GO; unfold sync_go in GO; rewrite P in GO;
      injection GO as <-; eauto. }
  destruct Q as [w Q].
  pose proof (re_thr _ _ R i) as T. cbn in T.
  assert (DO : forall g' y, gver g' = gver g -> gmem g' = gmem g -> gmap g' = gmap g -> gmig g' = gmig g ->
    (forall j, j <> i -> gthr g' j = gthr g j) -> threl (cver p) (PRls w) y (gthr g' i) ->
    rel (TSt p' me (fupd ca i y) h) g').
  { intros g' y E1 E2 E3 E4 E5 E6. apply (rel_call _ _ g' i _ y _ R GO); cbn; rewrite ?Q; cbn; rewrite ?fupd_eq, ?P; auto; try discriminate.
    intros j NE. now rewrite fupd_neq. }
  destruct (ca i) as [[o [|pc|r]]|] eqn:E; cbn [finish] in F.
  - injection F as <-. apply sim_none. apply DO; auto.
  - destruct pc; try discriminate F. injection F as <-. destruct T as [T1 T2].
    destruct (retries o r) eqn:RT.
    + destruct g as [gv mp gm mg th]. cbn in T2.
      eapply sim_one; [eapply g_retry; eauto|reflexivity|].
      apply DO; cbn; auto.
      * intros j NE. now rewrite fupd_neq.
      * now rewrite fupd_eq.
    + apply sim_none. apply DO; auto. cbn. split; eauto.
  - injection F as <-. apply sim_none. apply DO; auto.
  - injection F as <-. apply sim_none. apply DO; auto.
Qed.

Lemma sim_go p me ca h i p' g :
  rel (TSt p me ca h) g -> plain (s_pc p i) = true -> go c B maps slot p (SGo i) = Some p' ->
  t_room c maps (TSt p me ca h) (TSt p' me ca h) -> simulated g None (TSt p' me ca h).
Proof.
  intros R PL GO RM. destruct (re_inv _ _ R) as (o & G). cbn in G.
  destruct (plain_step _ _ _ _ _ G PL GO) as (PC & NX & BL & O1 & M1 & O2 & M2 & CASE).
  destruct CASE as [[CV OE]|(P & -> & TB & TB' & OE)].
  - apply sim_none. apply (rel_quiet _ _ i _ R); cbn; eauto.
  - (* the successor is published *)
    destruct g as [gv mp gm mg th].
    pose proof (re_ver _ _ R) as VR. cbn in VR. subst gv.
    destruct (step_inv _ _ _ INJ _ _ _ _ _ G GO) as (cu' & o' & G').
    pose proof (ginv_cver _ _ _ G') as <-.
    assert (CV : cver p' = cver p + 1) by (unfold cver at 1; now rewrite TB').
    assert (ST : s_next p (cver p) = true).
    { pose proof (re_mig _ _ R) as M. unfold migrel in M. cbn in M.
      destruct (s_next p (cver p)); auto. destruct M as [_ M]. specialize (M i). rewrite P in M. discriminate. }
    pose proof (re_mig _ _ R) as M. unfold migrel in M. cbn in M. rewrite ST in M.
    destruct M as (M1' & hh & -> & M3).
    assert (NP : s_next p' (cver p') = false).
    { destruct (s_next p' (cver p')) eqn:X; auto. rewrite NX, CV in X.
      destruct (gi_next _ _ _ _ _ _ G _ X) as [?|[? _]]; lia. }
    assert (R' : rel (TSt p' me ca h) (GSys (cver p + 1) mp gm None th)).
    { split; cbn [t_p t_mem t_call t_h gver gmap gmem gmig gthr].
      - eauto.
      - auto.
      - exact (re_mem _ _ R).
      - intros v LE. rewrite CV in LE. destruct (N.eq_dec v (cver p + 1)) as [->|NE]; auto.
        apply (re_map _ _ R). cbn. lia.
      - rewrite NX, BL. exact (re_blk _ _ R).
      - intros j. pose proof (re_thr _ _ R j) as T. cbn in T.
        apply (threl_same _ (s_pc p j)).
        + destruct (ca j) as [[o1 [|pc|r]]|] eqn:E; auto. destruct T as [T _].
          rewrite (no_op _ _ _ _ G T) in ST. discriminate.
        + intros o1 pc E. rewrite E in T. destruct T as [T _].
          rewrite (no_op _ _ _ _ G T) in ST. discriminate.
      - unfold migrel. rewrite NP. split; auto. intros j. destruct (N.eq_dec j i) as [->|NE]; auto.
        rewrite PC by exact NE. assert (X : orgof (s_pc p j) = None).
        { apply (gi_only _ _ _ _ _ _ G). congruence. }
        destruct (s_pc p j); cbn in *; auto; try discriminate. now destruct k. }
    exists (GSys (cver p + 1) mp gm None th). split; [|exact R'].
    eapply ls_tau; [|constructor].
    split; [|split].
    + apply g_publish.
      * exists i. apply M3. cbn. now rewrite P.
      * intros j pc E. specialize (M3 j). destruct M3 as [M3 _].
        destruct (is_mv (s_pc p j)) eqn:IM.
        -- exfalso. pose proof (gi_th _ _ _ _ _ _ G j) as [_ T].
           destruct (s_pc p j) eqn:PJ; try discriminate IM. destruct T as (_ & _ & (_ & _ & T) & _).
           cbn in T. rewrite P in T. exact T.
        -- destruct M3 as [M3|[M3|M3]]; rewrite E in M3; try discriminate M3; injection M3 as ->; auto.
    + apply (rel_exclusive _ _ R').
    + intros CP _. cbn. destruct (RM CP (cver p) TB TB') as [q V].
      pose proof (re_map _ _ R (cver p) (N.le_refl _)) as RMM. pose proof (re_mem _ _ R (cver p)) as RE.
      cbn in RMM, RE. rewrite RMM, RE. eauto.
Qed.
Lemma sim_open p me ca h i v ins del p' g :
  rel (TSt p me ca h) g -> s_pc p i = PGrow7 v -> addressable_slots mc (maps v) < 2 ^ 32 ->
  maps (v + 1) = resize mc (maps v) ins del -> go c B maps slot p (SGo i) = Some p' ->
  simulated g None (TSt p' (fupd me (v + 1) (target_mem mc (maps (v + 1)))) ca h).
Proof.
  intros R P AD RS GO. destruct (re_inv _ _ R) as (o & G). cbn in G.
  assert (OG : o = Some i /\ v = cver p).
  { destruct (is_org _ _ _ _ _ _ i v G) as (? & ? & _); [now rewrite P|auto]. }
  destruct OG as [-> ->].
  destruct (step_inv _ _ _ INJ _ _ _ _ _ G GO) as (cu' & o' & G').
  pose proof (ginv_cver _ _ _ G') as <-.
  assert (Q : p' = set_pc (set_next p (cver p)) i (PMig1 (KOrg (cver p)))).
  { unfold go in GO. cbn [sync_run1] in GO. unfold sync_go in GO. rewrite P in GO. unfold locked in GO.
    destruct (s_buf p i); [|discriminate]. now injection GO as <-. }
  assert (CV : cver p' = cver p) by now rewrite Q.
  assert (NX : s_next p (cver p) = false).
  { destruct (s_next p (cver p)) eqn:X; auto. exfalso.
    destruct (gi_next _ _ _ _ _ _ G _ X) as [L|[_ ST]]; [lia|]. cbn in ST. now rewrite P in ST. }
  destruct g as [gv mp gm mg th]. pose proof (re_ver _ _ R) as VR. cbn in VR. subst gv.
  pose proof (re_mig _ _ R) as M. unfold migrel in M. cbn in M. rewrite NX in M. destruct M as [-> M].
  pose proof (re_map _ _ R (cver p) (N.le_refl _)) as RM. cbn in RM.
  assert (ORG : forall j, orgend (s_pc p' j) = false).
  { intros j. rewrite Q. cbn. unfold fupd. destruct (N.eqb_spec j i); auto. }
  assert (MV : forall j, is_mv (s_pc p' j) = false).
  { intros j. rewrite Q. cbn. unfold fupd. destruct (N.eqb_spec j i); auto.
    destruct (is_mv (s_pc p j)) eqn:IM; auto. exfalso. pose proof (gi_th _ _ _ _ _ _ G j) as [_ T].
    destruct (s_pc p j); try discriminate IM. destruct T as (_ & _ & (-> & _) & T & _). congruence. }
  eapply sim_one; [eapply (g_grow c B client _ _ _ _ ins del); rewrite RM; exact AD|reflexivity|].
  rewrite RM, <- RS.
  split; cbn [t_p t_mem t_call t_h gver gmap gmem gmig gthr]; rewrite ?CV.
  - exists o'. rewrite <- CV. exact G'.
  - reflexivity.
  - intros w. unfold fupd. destruct (w =? cver p + 1); auto. apply (re_mem _ _ R).
  - intros w LE. rewrite fupd_neq by lia. now apply (re_map _ _ R).
  - rewrite Q. cbn. intros w. unfold fupd. destruct (w =? cver p); [discriminate|]. apply (re_blk _ _ R).
  - intros j. pose proof (re_thr _ _ R j) as T. cbn in T. rewrite Q. cbn. unfold fupd.
    destruct (N.eqb_spec j i) as [->|NE]; auto. apply (threl_same _ _ _ _ _ T).
    intros o1 pc E. rewrite E in T. destruct T as [T _]. congruence.
  - unfold migrel. assert (E : s_next p' (cver p) = true) by (rewrite Q; cbn; now rewrite fupd_eq).
    rewrite E. split; [now rewrite fupd_eq|]. exists (fun _ => None). split.
    + assert (E0 : s_block p' (cver p) = 0) by (rewrite Q; cbn; now apply (re_blk _ _ R)). now rewrite E0.
    + intros j. unfold hrel. rewrite MV, ORG. split; auto. discriminate.
Qed.

Lemma fupd_id (f : N -> mem) (g : N -> mem) v w u :
  (forall x, f x = g x) -> fupd (fupd f v (f v)) w (f w) u = g u.
Proof. intros E. unfold fupd. destruct (N.eqb_spec u w) as [->|]; [auto|]. destruct (N.eqb_spec u v) as [->|]; auto. Qed.

Lemma join_first g hh k i :
  gmig g = Some (k, hh) -> hh i = None \/ hh i = Some HEnd \/ hh i = Some HClaim -> exclusive g ->
  exists h2, lts_steps gstep g [] (GSys (gver g) (gmap g) (gmem g) (Some (k, h2)) (gthr g)) /\
    h2 i = Some HClaim /\ (forall j, j <> i -> h2 j = hh j).
Proof.
  destruct g as [v mp me mg th]. cbn. intros -> H X.
  assert (J : hh i = None \/ hh i = Some HEnd ->
    exists h2, lts_steps gstep (GSys v mp me (Some (k, hh)) th) [] (GSys v mp me (Some (k, h2)) th) /\
    h2 i = Some HClaim /\ (forall j, j <> i -> h2 j = hh j)).
  { intros H'. exists (fupd hh i (Some HClaim)). split; [|split; [now rewrite fupd_eq|intros; now rewrite fupd_neq]].
    eapply ls_tau; [|constructor]. split; [now apply g_join|]. split; [|now apply room_same].
    intros _. apply X. discriminate. }
  destruct H as [H|[H|H]]; auto. exists hh. split; [constructor|auto].
Qed.

Lemma lts_app {S E} (st : S -> option E -> S -> Prop) a t1 b t2 d :
  lts_steps st a t1 b -> lts_steps st b t2 d -> lts_steps st a (t1 ++ t2) d.
Proof. induction 1; cbn; eauto using ls_tau, ls_vis. Qed.

Lemma sim_claim p me ca h i k v gd p' g :
  rel (TSt p me ca h) g -> s_pc p i = PMig4 k v gd -> go c B maps slot p (SGo i) = Some p' ->
  simulated g None
    (TSt p' me ca
       (match s_pc p' i with
        | PMig5 _ _ b _ =>
            fupd h i (enter c (maps v) (maps (v + 1)) (b * B)
                        (block_end B (addressable_slots mc (maps v)) (b * B)))
        | _ => h
        end)).
Proof.
  intros R P GO. destruct (re_inv _ _ R) as (o & G). cbn in G.
  destruct (step_inv _ _ _ INJ _ _ _ _ _ G GO) as (cu' & o' & G').
  pose proof (ginv_cver _ _ _ G') as <-.
  pose proof (gi_th _ _ _ _ _ _ G i) as [_ T]. rewrite P in T. destruct T as (LE & KO & _ & _ & NX).
  unfold go in GO. cbn [sync_run1] in GO. unfold sync_go in GO. rewrite P in GO. unfold locked in GO.
  destruct (s_buf p i); [|discriminate]. injection GO as <-.
  assert (NR : forall x j, threl (cver p) (fupd (s_pc p) i x j) (ca j) (gthr g j)).
  { intros x j. pose proof (re_thr _ _ R j) as T. cbn in T. unfold fupd.
    destruct (N.eqb_spec j i) as [->|NE]; auto. apply (threl_same _ _ _ _ _ T).
    intros o1 pc E. rewrite E in T. destruct T as [T _]. congruence. }
  destruct (N.eq_dec v (cver p)) as [->|NE].
  - (* the current migration *)
    assert (D : s_deleted p (cver p) = false).
    { destruct (s_deleted p (cver p)) eqn:D; auto. apply (gi_del _ _ _ _ _ _ G) in D. lia. }
    rewrite D in *. cbn [set_pc set_block s_pc] in *. rewrite fupd_eq.
    pose proof (re_mig _ _ R) as M. unfold migrel in M. cbn in M. rewrite NX in M.
    destruct M as (M1 & hh & M2 & M3).
    assert (HI : hh i = None \/ hh i = Some HEnd \/ hh i = Some HClaim).
    { destruct (M3 i) as [M3i _]. rewrite P in M3i. exact M3i. }
    destruct (join_first _ _ _ i M2 HI (rel_exclusive _ _ R)) as (h2 & LS & H2 & H2').
    destruct g as [gv mp gm mg th]. cbn [gver gmap gmem gmig gthr] in *.
    pose proof (re_ver _ _ R) as VR. cbn in VR. subst gv mg.
    pose proof (re_map _ _ R (cver p) (N.le_refl _)) as RM. cbn in RM.
    set (b := s_block p (cver p)) in *.
    set (x := if b <? nblk (cver p) then PMig5 k (cver p) b gd else PMig6 k (cver p) gd) in *.
    set (h' := match x with
               | PMig5 _ _ b _ => fupd h i (enter c (maps (cver p)) (maps (cver p + 1)) (b * B)
                    (block_end B (addressable_slots mc (maps (cver p))) (b * B)))
               | _ => h end).
    assert (HS : hstep c (mp (cver p)) (mp (cver p + 1)) B (gm (cver p)) (gm (cver p + 1)) (b * B) HClaim =
      (gm (cver p), gm (cver p + 1), (b + 1) * B,
        match x with PMig5 _ _ _ _ => h' i | _ => HEnd end)).
    { cbn [hstep]. rewrite RM, M1, <- blocks_lt by exact HB. fold (nblk (cver p)). unfold h', x.
      unfold SyncTable.nblk. destruct (b <? blocks mc B (maps (cver p))); [rewrite fupd_eq|]; do 2 f_equal; lia. }
    eexists. split.
    + apply (lts_app _ _ [] _ [] _ LS). eapply ls_tau; [|constructor].
      split; [eapply g_help; [exact H2|exact HS]|]. split; [|now apply room_same].
      intros _. cbn. apply (rel_exclusive _ _ R). discriminate.
    + split; cbn [t_p t_mem t_call t_h gver gmap gmem gmig gthr].
      * eauto.
      * reflexivity.
      * intros u. apply fupd_id. apply (re_mem _ _ R).
      * apply (re_map _ _ R).
      * cbn. intros w NW. unfold fupd. destruct (N.eqb_spec w (cver p)) as [->|]; [congruence|].
        now apply (re_blk _ _ R).
      * apply NR.
      * unfold migrel. cbn [set_pc set_block s_next s_block s_pc].
        change (cver (set_pc (set_block p (cver p) (b + 1)) i x)) with (cver p).
        rewrite NX. split; auto. eexists. rewrite fupd_eq. split; [reflexivity|].
        intros j. destruct (N.eq_dec j i) as [->|NJ]; [rewrite !fupd_eq|rewrite !fupd_neq by exact NJ].
        -- unfold hrel, h', x. destruct (b <? nblk (cver p)); cbn; auto.
           split; auto. discriminate.
        -- rewrite H2' by exact NJ. specialize (M3 j). unfold h', x.
           destruct (b <? nblk (cver p)); auto. now rewrite fupd_neq.
  - (* a late helper *)
    assert (LT : v < cver p) by lia.
    destruct (gi_old _ _ _ _ _ _ G v LT) as [BL _].
    assert (Q : (s_block p v <? nblk v) = false) by (apply N.ltb_ge; exact BL).
    apply sim_none.
    assert (KH : k = KHelp).
    { destruct k as [w|]; auto. destruct (is_org _ _ _ _ _ _ i w G) as (_ & E & _); [now rewrite P|].
      specialize (KO w eq_refl). lia. }
    subst k.
    assert (DO : forall p2 x, p2 = p \/ p2 = set_block p v (s_block p v + 1) -> x = PFault v \/ x = PMig6 KHelp v gd ->
      ginv (cver (set_pc p2 i x)) o' (set_pc p2 i x) ->
      rel (TSt (set_pc p2 i x) me ca h) g).
    { intros p2 x E1 E2 GG.
      assert (C2 : cver (set_pc p2 i x) = cver p) by (destruct E1 as [->| ->]; reflexivity).
      split; cbn [t_p t_mem t_call t_h]; rewrite ?C2.
      - exists o'. rewrite <- C2. exact GG.
      - exact (re_ver _ _ R).
      - exact (re_mem _ _ R).
      - exact (re_map _ _ R).
      - intros w. destruct E1 as [->| ->]; cbn; [apply (re_blk _ _ R)|].
        unfold fupd. destruct (N.eqb_spec w v) as [->|]; [congruence|]. apply (re_blk _ _ R).
      - intros j. replace (s_pc (set_pc p2 i x) j) with (fupd (s_pc p) i x j); [apply NR|].
        destruct E1 as [->| ->]; reflexivity.
      - pose proof (re_mig _ _ R) as M. unfold migrel in *. cbn in M.
        assert (E : s_next (set_pc p2 i x) = s_next p) by (destruct E1 as [->| ->]; reflexivity).
        assert (E' : s_block (set_pc p2 i x) (cver p) = s_block p (cver p)).
        { destruct E1 as [->| ->]; cbn; auto. rewrite fupd_neq; auto. }
        assert (E3 : s_pc (set_pc p2 i x) = fupd (s_pc p) i x) by (destruct E1 as [->| ->]; reflexivity).
        rewrite E, E', E3. destruct (s_next p (cver p)).
        + destruct M as (M1 & hh & M2 & M3). split; auto. exists hh. split; auto. intros j. specialize (M3 j).
          unfold fupd. destruct (N.eqb_spec j i) as [->|]; auto. rewrite P in M3. destruct M3 as [M3 _].
          destruct E2 as [->| ->]; split; try discriminate; exact M3.
        + destruct M as [M1 M2]. split; auto. intros j. unfold fupd. destruct (N.eqb_spec j i) as [->|]; auto.
          destruct E2 as [->| ->]; reflexivity. }
    destruct (s_deleted p v); cbn zeta in *; rewrite ?Q in *; cbn [set_pc s_pc set_block]; rewrite fupd_eq;
      apply DO; auto.
Qed.

Lemma sim_move p me ca h i k v b gd s' t' k' pc' g :
  rel (TSt p me ca h) g -> s_pc p i = PMig5 k v b gd -> h i <> HClaim ->
  hstep c (maps v) (maps (v + 1)) B (me v) (me (v + 1)) 0 (h i) = (s', t', k', pc') ->
  simulated g None (TSt p (fupd (fupd me v s') (v + 1) t') ca (fupd h i pc')).
Proof.
  intros R P NC HS. destruct (re_inv _ _ R) as (o & G). cbn in G.
  pose proof (gi_th _ _ _ _ _ _ G i) as [_ T]. rewrite P in T. destruct T as (KO & _ & (-> & _) & NX & _).
  pose proof (re_mig _ _ R) as M. unfold migrel in M. cbn in M. rewrite NX in M.
  destruct M as (M1 & hh & M2 & M3).
  assert (HI : hh i = Some (h i)) by (destruct (M3 i) as [M3i _]; rewrite P in M3i; exact M3i).
  destruct g as [gv mp gm mg th]. cbn [gver gmap gmem gmig gthr] in *.
  pose proof (re_ver _ _ R) as VR. cbn in VR. subst gv mg.
  pose proof (re_map _ _ R (cver p) (N.le_refl _)) as RM. cbn in RM.
  pose proof (re_mem _ _ R) as RE. cbn in RE.
  eapply sim_one; [eapply g_help; [exact HI|rewrite RM, M1, !RE; eapply hstep_ctr; [exact NC|exact HS]]|reflexivity|].
  split; cbn [t_p t_mem t_call t_h gver gmap gmem gmig gthr].
  - eauto.
  - reflexivity.
  - intros u. unfold fupd. destruct (u =? cver p + 1); auto. destruct (u =? cver p); auto.
  - apply (re_map _ _ R).
  - apply (re_blk _ _ R).
  - apply (re_thr _ _ R).
  - unfold migrel. rewrite NX. split; auto. eexists. split; [reflexivity|].
    intros j. specialize (M3 j). unfold fupd. destruct (N.eqb_spec j i) as [->|NE]; auto.
    rewrite P. split; [reflexivity|discriminate].
Qed.

Lemma sim_moved p me ca h i k v b gd p' g :
  rel (TSt p me ca h) g -> s_pc p i = PMig5 k v b gd -> h i = HClaim -> go c B maps slot p (SGo i) = Some p' ->
  simulated g None (TSt p' me ca h).
Proof.
  intros R P NC GO. destruct (re_inv _ _ R) as (o & G). cbn in G.
  destruct (step_inv _ _ _ INJ _ _ _ _ _ G GO) as (cu' & o' & G').
  pose proof (ginv_cver _ _ _ G') as <-.
  pose proof (gi_th _ _ _ _ _ _ G i) as [_ T]. rewrite P in T. destruct T as (KO & _ & (-> & _) & NX & _).
  assert (D : forall v, cver p <= v -> s_deleted p v = false).
  { intros v LE. destruct (s_deleted p v) eqn:D; auto. apply (gi_del _ _ _ _ _ _ G) in D. lia. }
  unfold go in GO. cbn [sync_run1] in GO. unfold sync_go in GO. rewrite P, !D in GO by lia. injection GO as <-.
  apply sim_none. split; cbn [t_p t_mem t_call t_h];
    change (cver (set_pc (set_moved p (cver p) b) i (PMig4 k (cver p) gd))) with (cver p) in *.
  - eauto.
  - exact (re_ver _ _ R).
  - exact (re_mem _ _ R).
  - exact (re_map _ _ R).
  - exact (re_blk _ _ R).
  - intros j. pose proof (re_thr _ _ R j) as T. cbn in *. unfold fupd.
    destruct (N.eqb_spec j i) as [->|NE]; auto. apply (threl_same _ _ _ _ _ T).
    intros o1 pc E. rewrite E in T. destruct T as [T _]. congruence.
  - pose proof (re_mig _ _ R) as M. unfold migrel in *. cbn in *. rewrite NX in *.
    destruct M as (M1 & hh & M2 & M3). split; auto. exists hh. split; auto. intros j. specialize (M3 j).
    unfold fupd. destruct (N.eqb_spec j i) as [->|]; auto. rewrite P, NC in M3. destruct M3 as [M3 _].
    split; [right; right; exact M3|discriminate].
Qed.

Lemma sim_destroy p me ca h i p' g :
  rel (TSt p me ca h) g -> ca i = None -> go c B maps slot p (SDestroy i) = Some p' ->
  simulated g None (TSt p' me ca h).
Proof.
  intros R E GO. pose proof GO as GO'. unfold go in GO. cbn [sync_run1] in GO.
  destruct (s_pc p i) eqn:P; try discriminate GO. unfold locked in GO. destruct (s_buf p i); [|discriminate GO].
  injection GO as <-. apply sim_none. apply (rel_quiet _ _ i _ R); cbn; rewrite ?fupd_eq, ?P; eauto; try discriminate.
  intros j NE. now rewrite fupd_neq.
Qed.

Lemma sim s l s' g : rel s g -> ttab_roomy c B maps slot client s l s' -> simulated g l s'.
Proof.
  intros R [S RM]. destruct S.
  - now apply sim_inv.
  - now apply sim_ret.
  - eapply sim_go; eauto.
  - eapply sim_get; eauto.
  - eapply sim_run; eauto.
  - eapply sim_leave; eauto.
  - eapply sim_open; eauto.
  - eapply sim_claim; eauto.
  - eapply sim_move; eauto.
  - eapply sim_moved; eauto.
  - eapply sim_destroy; eauto.
Qed.

Lemma sims s tr s' g : rel s g -> lts_steps (ttab_roomy c B maps slot client) s tr s' ->
  exists g', lts_steps gstep g tr g' /\ rel s' g'.
Proof.
  intros R ST. revert g R. induction ST as [s|s s1 s2 tr S ST IH|s e s1 s2 tr S ST IH]; intros g R.
  - exists g. split; [constructor|auto].
  - destruct (sim _ _ _ _ R S) as (g1 & L1 & R1). destruct (IH _ R1) as (g2 & L2 & R2).
    exists g2. split; [|auto]. exact (lts_app _ _ [] _ _ _ L1 L2).
  - destruct (sim _ _ _ _ R S) as (g1 & L1 & R1). destruct (IH _ R1) as (g2 & L2 & R2).
    exists g2. split; [|auto]. exact (lts_app _ _ [e] _ _ _ L1 L2).
Qed.

Lemma rel_init lg : maps 0 = mk_mapper mc (2 ^ lg) 0 -> rel (ttab_init c maps) (gsys_init c lg).
Proof.
  intros E. split; cbn.
  - exists None. apply ginv_init. exact INJ.
  - reflexivity.
  - intros v. now rewrite E.
  - intros v L. assert (v = 0) as -> by (unfold cver in L; cbn in L; lia). auto.
  - auto.
  - auto.
  - unfold migrel. cbn. auto.
Qed.

End R.

Lemma synctab_linearizable c B maps slot client lg :
  own_flags slot -> cell_type (tsc c) -> client_ok (tsc c) client -> (cmap (tmc c) = false \/ cprob (tmc c) = true) ->
  0 < B <= 2 ^ 31 -> 1 <= lg <= 63 -> maps 0 = mk_mapper (tmc c) (2 ^ lg) 0 ->
  linearizable (mspec false false) (ttab_roomy c B maps slot client) (ttab_init c maps) amap_empty.
Proof.
  intros INJ CT CO CF HB LG E tr s ST.
  destruct (sims c B maps slot client INJ ltac:(lia) _ _ _ _ (rel_init c B maps slot INJ ltac:(lia) lg E) ST) as (g & L & _).
  exact (sync_linearizable c B client (BaseFacts.cell_type_wf _ CT) CO CF HB lg LG tr g L).
Qed.
