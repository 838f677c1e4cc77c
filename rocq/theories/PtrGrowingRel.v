(** Growing tables of pointer cells: the relation and how steps of threads
    preserve it. *)
From Coq Require Import NArith Bool List Lia.
From Verif Require Import Words Slot SlotFacts Mapper MapperFacts ReturnCode MapSpec LinSpec Base
  BaseInv BaseLin TableSpec Migrate Frozen Growing GrowingSpec GrowingInv Ptr PtrSpec PtrWords
  PtrGrowing PtrGrowingSpec PtrGrowingImg PtrGrowingInv.
Import ListNotations.
Open Scope N_scope.

Section Rel.
Context (c : pcfg) (K B : N).
Notation mk := (pmk c).
Notation mc := (pmc c).
Notation ac := (acfg c K).
Notation sc := (asc c K).
Notation spec := (mspec false false).
Notation aobj' := (aobj amap mop mres).
Notation wgood := (wgood c K).
Notation aimg := (aimg c K).
Notation amr := (amr c K).
Notation thread := (option (pop * N * ppc)).

Definition slotok (kp : N -> option N) (hp : heap) (o : pop) (w : N) : Prop :=
  w < 2 ^ 64 /\ w_mark mk w = false /\ w_ptr w <> 0 /\ w_ptr w <> 2 ^ 32 /\
  hp (w_ptr w) = Some (pop_key o, pop_data o) /\ kp (w_ptr w) = None.
Definition fpok (o : pop) (w : N) : Prop := w_fp mk w = fingerprint mk (phk c (pop_key o)).

Definition outok (kp : N -> option N) (o : pop) (out : pout) : Prop :=
  match out with
  | OutIs _ => True
  | OutPresent w => (exists k d, o = QInsert k d \/ o = QEmplace k d) /\ kp (w_ptr w) = Some (pop_key o)
  | OutFound w => (exists k, o = QFind k) /\ kp (w_ptr w) = Some (pop_key o)
  end.

Definition tok (kp : N -> option N) (hp : heap) (o : pop) (pc : ppc) : Prop :=
  match pc with
  | QAlloc => pop_adds o = true
  | QTry w => pop_adds o = true -> slotok kp hp o w
  | QLoad _ w => pop_adds o = true -> slotok kp hp o w /\ fpok o w
  | QCas _ w curr => pop_adds o = true /\ slotok kp hp o w /\ fpok o w /\ wgood kp curr
  | QUpd w curr =>
      kp (w_ptr curr) = Some (pop_key o) /\ (pop_adds o = true -> slotok kp hp o w) /\
      ((exists k f, o = QUpdate k f) \/ exists k d f, o = QIou k d f)
  | QFree w out => pop_adds o = true /\ slotok kp hp o w /\ outok kp o out
  | QRead out => outok kp o out
  | QDone _ => True
  | QBad => False
  end.

Definition ptr_of (o : pop) (w : N) : N := if pop_adds o then w_ptr w else 0.

(** The thread on the table of in-place cells. *)
Definition athr (kp : N -> option N) (x : thread) : option (op * gpc) :=
  match x with
  | Some (o, _, QTry w) => Some (aop o (ptr_of o w), GGet)
  | Some (o, u, QLoad i w) => Some (aop o (ptr_of o w), GRun u (PLoad i))
  | Some (o, u, QCas i w curr) => Some (aop o (ptr_of o w), GRun u (PCas i (aimg kp curr)))
  | _ => None
  end.
Definition active (x : thread) : option (pop * N) :=
  match x with
  | Some (o, _, QTry w) | Some (o, _, QLoad _ w) | Some (o, _, QCas _ w _) => Some (o, ptr_of o w)
  | _ => None
  end.

(** The element a thread has built and not (yet) put into the table. *)
Definition own (x : thread) : option N :=
  match x with
  | Some (o, _, QTry w) | Some (o, _, QLoad _ w) | Some (o, _, QCas _ w _) | Some (o, _, QUpd w _)
  | Some (o, _, QFree w _) => if pop_adds o then Some (w_ptr w) else None
  | _ => None
  end.

Definition ystat (x : thread) (sy : astat mop mres) : Prop :=
  match x with
  | None => sy = AIdle
  | Some (o, _, pc) =>
      match pc with
      | QAlloc | QUpd _ _ => sy = APend (pspec_op o)
      | QFree _ out | QRead out => sy = match out with OutIs r => ADone r | _ => APend (pspec_op o) end
      | QDone r => sy = ADone r
      | _ => True
      end
  end.

Definition migrel (kp : N -> option N) (x y : option (N * (N -> option hpc))) : Prop :=
  match x, y with
  | None, None => True
  | Some (k, h), Some (k', h') =>
      k' = k /\ forall tid, h' tid = option_map (aipc c K kp) (h tid) /\
        (forall pc, h tid = Some pc -> apcok c K kp pc)
  | _, _ => False
  end.

Definition kprel (kp : N -> option N) (x : aobj') : Prop :=
  forall a k, kp a = Some k <-> ast x (k + 1) = Some a.

Record rel (kp : N -> option N) (s : pgsys) (g : gsys) (x y : aobj') : Prop := {
  r_ver : gver g = pgver s;
  r_map : gmap g = pgmap s;
  r_mem : forall u, amr kp (pgmem s u) (gmem g u);
  r_mig : migrel kp (pgmig s) (gmig g);
  r_thr : forall tid, gthr g tid = athr kp (pgthr s tid);
  r_tok : forall tid o u pc, pgthr s tid = Some (o, u, pc) -> pop_key o < K /\ tok kp (pgheap s) o pc;
  r_own : forall t1 t2 a, own (pgthr s t1) = Some a -> own (pgthr s t2) = Some a -> t1 = t2;
  r_hp : hpok kp (pgheap s);
  r_acc : forall a, pgheap s a <> None -> kp a <> None \/ exists tid, own (pgthr s tid) = Some a;
  r_kp : kprel kp x;
  r_fol : follow c K (fun tid => active (pgthr s tid)) (pgheap s) x y;
  r_y : forall tid, ystat (pgthr s tid) (ath y tid);
  r_g : grel ac B (acl K) g x
}.

(** *** Facts *)

Lemma own_slot kp hp o u pc a : tok kp hp o pc -> own (Some (o, u, pc)) = Some a ->
  hp a = Some (pop_key o, pop_data o) /\ kp a = None.
Proof.
  unfold own. destruct pc; cbn [tok]; try discriminate; destruct (pop_adds o) eqn:AD; try discriminate;
    intros T [= <-].
  - destruct (T eq_refl) as (_ & _ & _ & _ & H & H'). auto.
  - destruct (T eq_refl) as ((_ & _ & _ & _ & H & H') & _). auto.
  - destruct T as (_ & (_ & _ & _ & _ & H & H') & _). auto.
  - destruct T as (_ & T & _). destruct (T eq_refl) as (_ & _ & _ & _ & H & H'). auto.
  - destruct T as (_ & (_ & _ & _ & _ & H & H') & _). auto.
Qed.

Lemma slotok_le kp kp' hp hp' o w : slotok kp hp o w ->
  hp' (w_ptr w) = hp (w_ptr w) -> kp' (w_ptr w) = None -> slotok kp' hp' o w.
Proof. intros (A & B' & C & D & E & F) H1 H2. unfold slotok. rewrite H1. sp; auto. Qed.

Lemma outok_le kp kp' o out : kle kp kp' -> outok kp o out -> outok kp' o out.
Proof. intros LE. destruct out; cbn; auto; intros [X Y]; split; auto. Qed.

Lemma tok_le kp kp' hp hp' o u pc : kle kp kp' -> tok kp hp o pc ->
  (forall a, own (Some (o, u, pc)) = Some a -> hp' a = hp a /\ kp' a = None) -> tok kp' hp' o pc.
Proof.
  intros LE T OW. unfold own in OW.
  destruct pc as [|w|i w|i w curr|w curr|w out|out|r|]; cbn [tok] in *; auto.
  - intros AD. rewrite AD in OW. destruct (OW _ eq_refl). eapply slotok_le; eauto.
  - intros AD. rewrite AD in OW. destruct (OW _ eq_refl). destruct (T AD). split; auto. eapply slotok_le; eauto.
  - destruct T as (AD & T1 & T2 & T3). rewrite AD in OW. destruct (OW _ eq_refl).
    sp; auto; [eapply slotok_le; eauto|]. eapply wgood_le; eauto.
  - destruct T as (T1 & T2 & T3). sp; auto. intros AD. rewrite AD in OW. destruct (OW _ eq_refl).
    eapply slotok_le; eauto.
  - destruct T as (AD & T1 & T2). rewrite AD in OW. destruct (OW _ eq_refl).
    sp; auto; [eapply slotok_le; eauto|eapply outok_le; eauto].
  - eapply outok_le; eauto.
Qed.

Lemma athr_le kp kp' hp o u pc : kle kp kp' -> tok kp hp o pc ->
  athr kp' (Some (o, u, pc)) = athr kp (Some (o, u, pc)).
Proof.
  intros LE T. destruct pc; auto. cbn [athr tok] in *. destruct T as (_ & _ & _ & G).
  now destruct (wgood_le c K _ _ _ LE G) as [_ ->].
Qed.

Lemma migrel_le kp kp' x y : kle kp kp' -> migrel kp x y -> migrel kp' x y.
Proof.
  intros LE. destruct x as [[k h]|], y as [[k' h']|]; cbn; auto.
  intros [-> H]. split; auto. intros tid. destruct (H tid) as [E P].
  destruct (h tid) as [pc|]; [|split; auto; discriminate].
  destruct (aipc_le c K _ _ pc LE (P pc eq_refl)) as [G E']. cbn in *. rewrite E'. split; auto.
  intros pc' [= <-]. exact G.
Qed.

Lemma active_athr kp x : active x = None <-> athr kp x = None.
Proof. destruct x as [[[o u] pc]|]; cbn; [|tauto]. destruct pc; split; congruence. Qed.

(** Threads of the table of in-place cells. *)
Lemma grel_pend g x tid o pc :
  grel ac B (acl K) g x -> gthr g tid = Some (o, pc) ->
  (pc = GGet \/ exists u p, pc = GRun u p /\ running p = true) -> finding o = false ->
  ath x tid = APend (spec_op sc o).
Proof.
  intros (ct & mk0 & l & _ & _ & T & _) E R F. specialize (T tid). rewrite E in T.
  destruct R as [->|(u & p & -> & R)]; [apply T|].
  destruct T as [_ T].
  assert (T' : ath x tid = APend (spec_op sc o) \/ old_ok ac (gmap g u) (gmem g u) o p (ath x tid)).
  { destruct p; try discriminate; destruct T as [(_ & _ & T)|[_ T]]; auto. }
  destruct T' as [T'|T']; auto. destruct T' as (_ & lg & ct' & mk' & _ & _ & _ & _ & T').
  destruct o; try discriminate; exact T'.
Qed.

Lemma grel_done g x tid o u r :
  grel ac B (acl K) g x -> gthr g tid = Some (o, GRun u (PDone r)) ->
  ath x tid = fin_stat ac o r.
Proof.
  intros (ct & mk0 & l & _ & _ & T & _) E. specialize (T tid). rewrite E in T. apply T.
Qed.

Lemma grel_bad g x tid o u : grel ac B (acl K) g x -> gthr g tid = Some (o, GRun u PBad) -> False.
Proof.
  intros (ct & mk0 & l & _ & _ & T & _) E. specialize (T tid). rewrite E in T.
  destruct T as [_ [(_ & [] & _)|[_ (_ & lg & ct' & mk' & _ & _ & _ & [] & _)]]].
Qed.

(** *** One step of the table of in-place cells *)

Context (CF : cmap (pmc c) = false \/ cprob (pmc c) = true) (HB : 0 < B <= 2 ^ 31).

Lemma tau_step g g' x act hp y :
  grel ac B (acl K) g x -> gsys_step ac B (acl K) g None g' -> mode ac g g' -> room ac g g' ->
  follow c K act hp x y ->
  exists x' y', grel ac B (acl K) g' x' /\ asteps spec y [] y' /\ follow c K act hp x' y' /\
    moved act x x' y y'.
Proof.
  intros R S M RM F.
  destruct (gsim ac B (acl K) (asc_wf c K) (acl_ok c K) CF HB _ _ _ _ R S M RM) as (x' & A & R').
  destruct (follow_tau c K _ _ _ _ _ A F) as (y' & A' & F' & MV). exists x', y'. auto.
Qed.

(** A thread that is done with its attempt: leaves, or starts over. *)
Lemma leave g x tid o u r :
  grel ac B (acl K) g x -> gthr g tid = Some (o, GRun u (PDone r)) ->
  grel ac B (acl K) (GSys (gver g) (gmap g) (gmem g) (gmig g) (fupd (gthr g) tid None))
    (AObj (ast x) (fupd (ath x) tid AIdle)).
Proof.
  intros (ct & mk0 & l & CI & A & T & FS) E.
  eapply (thr_step ac B (acl K) g x ct mk0 l tid None AIdle CI A T FS). reflexivity.
Qed.

Lemma again g x tid o u r :
  grel ac B (acl K) g x -> gthr g tid = Some (o, GRun u (PDone r)) -> retries o r = true ->
  grel ac B (acl K) (GSys (gver g) (gmap g) (gmem g) (gmig g) (fupd (gthr g) tid (Some (o, GGet)))) x.
Proof.
  intros R E RT. pose proof (grel_done _ _ _ _ _ _ R E) as D. destruct R as (ct & mk0 & l & CI & A & T & FS).
  eapply (thr_step_same ac B (acl K) g x ct mk0 l tid _ CI A T FS).
  specialize (T tid). rewrite E in T. destruct T as [CL _]. split; auto.
  rewrite D. unfold fin_stat. now rewrite RT.
Qed.

Lemma begin g x tid o :
  grel ac B (acl K) g x -> acl K o ->
  grel ac B (acl K) (GSys (gver g) (gmap g) (gmem g) (gmig g) (fupd (gthr g) tid (Some (o, GGet))))
    (AObj (ast x) (fupd (ath x) tid (APend (spec_op sc o)))).
Proof.
  intros (ct & mk0 & l & CI & A & T & FS) CL.
  eapply (thr_step ac B (acl K) g x ct mk0 l tid _ _ CI A T FS). split; auto.
Qed.

Lemma get g x tid o :
  grel ac B (acl K) g x -> gthr g tid = Some (o, GGet) ->
  grel ac B (acl K) (GSys (gver g) (gmap g) (gmem g) (gmig g)
    (fupd (gthr g) tid (Some (o, GRun (gver g) (start ac (gmap g (gver g)) o))))) x.
Proof.
  intros (ct & mk0 & l & CI & A & T & FS) E.
  eapply (thr_step_same ac B (acl K) g x ct mk0 l tid _ CI A T FS).
  specialize (T tid). rewrite E in T. destruct T as [CL T]. split; auto. cbn. left. sp; auto.
  exists 0. split; [lia|]. intros j Hj. lia.
Qed.

(** *** Putting a step of a thread together *)

Lemma rebuild kp s g x y kp' me' hp' tid X g' x' y' tr :
  rel kp s g x y ->
  kle kp kp' ->
  gver g' = pgver s -> gmap g' = pgmap s -> gmig g' = gmig g ->
  (forall v, amr kp' (me' v) (gmem g' v)) ->
  (forall t, gthr g' t = if t =? tid then athr kp' X else gthr g t) ->
  (forall o' u' pc', X = Some (o', u', pc') -> pop_key o' < K /\ tok kp' hp' o' pc') ->
  hpok kp' hp' ->
  (forall t a, t <> tid -> own (pgthr s t) = Some a -> hp' a = pgheap s a /\ kp' a = kp a /\ own X <> Some a) ->
  (forall a, hp' a <> None -> kp' a <> None \/ own X = Some a \/ exists t, t <> tid /\ own (pgthr s t) = Some a) ->
  kprel kp' x' ->
  follow c K (fun t => if t =? tid then active X else active (pgthr s t)) hp' x' y' ->
  ystat X (ath y' tid) ->
  (forall t, t <> tid -> active (pgthr s t) = None -> ath y' t = ath y t) ->
  asteps spec y tr y' ->
  grel ac B (acl K) g' x' ->
  exists kp1 g1 x1 y1, asteps spec y tr y1 /\
    rel kp1 (PGSys (pgver s) (pgmap s) me' (pgmig s) hp' (fupd (pgthr s) tid X)) g1 x1 y1.
Proof.
  intros R LE EV EMP EMG EM ET TK HP OT AC KP FO YS YR AS GR. exists kp', g', x', y'. split; auto.
  assert (OTH : forall t, t <> tid -> fupd (pgthr s) tid X t = pgthr s t) by (intros; now apply fupd_neq).
  split; cbn [pgver pgmap pgmem pgmig pgheap pgthr]; auto.
  - rewrite EMG. eapply migrel_le; eauto. apply R.
  - intros t. rewrite ET. unfold fupd. destruct (N.eqb_spec t tid) as [->|NE]; auto.
    rewrite (r_thr _ _ _ _ _ R). destruct (pgthr s t) as [[[o' u'] pc']|] eqn:Et; auto.
    symmetry. eapply athr_le; eauto. eapply (r_tok _ _ _ _ _ R); eauto.
  - intros t o' u' pc'. unfold fupd. destruct (N.eqb_spec t tid) as [->|NE]; [exact (TK o' u' pc')|].
    intros Et. destruct (r_tok _ _ _ _ _ R _ _ _ _ Et) as [L T]. split; auto.
    eapply (tok_le kp kp' (pgheap s)); eauto. intros a Oa. rewrite <- Et in Oa.
    destruct (OT t a NE Oa) as (H1 & H2 & _). split; auto. rewrite H2.
    rewrite Et in Oa. eapply own_slot; eauto.
  - intros t1 t2 a. destruct (N.eq_dec t1 tid) as [->|N1], (N.eq_dec t2 tid) as [->|N2]; auto.
    + rewrite fupd_eq, OTH by exact N2. intros H1 H2. destruct (OT t2 a N2 H2) as (_ & _ & X2). contradiction.
    + rewrite fupd_eq, OTH by exact N1. intros H1 H2. destruct (OT t1 a N1 H1) as (_ & _ & X2). contradiction.
    + rewrite !OTH by assumption. apply (r_own _ _ _ _ _ R).
  - intros a H. destruct (AC a H) as [?|[?|(t & NE & ?)]]; auto.
    + right. exists tid. now rewrite fupd_eq.
    + right. exists t. now rewrite OTH.
  - assert (EQ : forall t, (if t =? tid then active X else active (pgthr s t)) = active (fupd (pgthr s) tid X t)).
    { intros t. unfold fupd. now destruct (t =? tid). }
    destruct FO as [F1 F2 F3 F4]. split; auto.
    + intros t o' p. rewrite <- EQ. apply F2.
    + intros t. rewrite <- EQ. apply F3.
    + intros t o' p. rewrite <- EQ. apply F4.
  - intros t. destruct (N.eq_dec t tid) as [->|NE]; [now rewrite fupd_eq|]. rewrite OTH by exact NE.
    destruct (active (pgthr s t)) as [[o' p]|] eqn:At.
    + destruct (pgthr s t) as [[[o1 u1] pc1]|]; [|discriminate]. destruct pc1; try discriminate; exact Logic.I.
    + rewrite YR by assumption. apply (r_y _ _ _ _ _ R).
Qed.

End Rel.
