(** Tables of pointer cells: every step keeps the invariant and is a step of
    the atomic map. *)
From Coq Require Import NArith Bool List Lia.
From Verif Require Import Words Slot Mapper MapperFacts ReturnCode MapSpec LinSpec Base BaseInv
  Migrate Ptr PtrSpec PtrWords PtrInv PtrMove PtrGrow.
Import ListNotations.
Open Scope N_scope.

(** What the atomic map says about a call. *)
Definition pstat (o : pop) (pc : ppc) : astat mop mres :=
  match pc with
  | QDone r | QFree _ (OutIs r) | QRead (OutIs r) => ADone r
  | _ => APend (pspec_op o)
  end.

Definition pspec (c : pcfg) :=
  mspec (pmk c && negb (pgrow c)) (negb (cprob (pmc c)) && negb (pgrow c)).

(** The map in a table. *)
Definition pabs (c : pcfg) (m : mapper) (hp : heap) (t : wmem) (a : amap) : Prop :=
  forall k d, a k = Some d <->
    exists p x, p < total_slots (pmc c) m /\ cellp t p x /\ hp x = Some (k, d).

Section Sys.
Context (c : pcfg) (alloc : N -> Prop) (good : Prop).
Context (HA : forall a, alloc a -> 0 < a < 2 ^ 48).
Notation mk := (pmk c).
Notation mc := (pmc c).

Section Table.
Context (m : mapper) (lg : N) (Hm : wf_mapper (pmc c) m lg).
Notation tot := (total_slots mc m).
Notation rmp := (remap mc m).
Notation hm := (phome c m).
Notation inv := (pinv c alloc good m).
Notation ok := (pthr_ok c alloc good m).

Lemma slot_of hp t o pc w : ok hp t o pc -> pslot pc = Some w -> slot_ok c alloc m hp t o w.
Proof.
  destruct pc; cbn; intros T E; try discriminate; injection E as <-; tauto.
Qed.

Lemma owns_ok hp t o pc a : ok hp t o pc -> owns o pc a ->
  alloc a /\ hp a = Some (pop_key o, pop_data o) /\ (forall p, p < tot -> ~ cellp t p a).
Proof.
  intros T (A & w & E & <-). destruct (slot_of hp t o pc w T E A) as (_ & _ & X & Y & Z). auto.
Qed.

(** An empty cell at the end of the path: the key is absent. *)
Lemma absent hp t k n w a : good -> inv hp t -> ppre c good m hp t k n ->
  t (rmp (hm k + n)) = Some w -> w_ptr w = 0 -> pabs c m hp t a -> a k = None.
Proof.
  intros g I P E Z A. destruct (a k) as [d|] eqn:AK; auto. exfalso. apply A in AK.
  destruct AK as (q & x & Lq & Cq & Hx). assert (K : hkey hp x = Some k) by (apply hkey_some; eauto).
  destruct (pi_reach _ _ _ _ _ _ I q x k Lq Cq K) as (n' & En & Pn).
  assert (NC : forall b, ~ cellp t (rmp (hm k + n)) b).
  { intros b (v & Ev & <- & NZ). rewrite E in Ev. injection Ev as <-. contradiction. }
  destruct (N.lt_trichotomy n n') as [X|[<-|X]].
  - destruct (Pn n X) as ((b & Cb) & _). exact (NC b Cb).
  - subst q. exact (NC x Cq).
  - destruct (P n' X) as (b & Cb & G). rewrite En in Cb. rewrite (cellp_fun _ _ _ _ Cb Cq) in G.
    exact (G g K).
Qed.

Lemma stat_deliver o out : pstat o (deliver out) = match out with OutIs r => ADone r | _ => APend (pspec_op o) end.
Proof. destruct out; reflexivity. Qed.

Lemma stat_wrap_add o w code out :
  (pgrow c = true -> (code = RC_FULL \/ code = RC_INVALID) -> pstat o (wrap_add c o w code out) = APend (pspec_op o)) /\
  (pgrow c = false \/ (code <> RC_FULL /\ code <> RC_INVALID) -> forall r, out = OutIs r -> pstat o (wrap_add c o w code out) = ADone r) /\
  (pgrow c = false \/ (code <> RC_FULL /\ code <> RC_INVALID) -> (forall r, out <> OutIs r) -> pstat o (wrap_add c o w code out) = APend (pspec_op o)).
Proof.
  unfold wrap_add.
  assert (X : pgrow c = false \/ (code <> RC_FULL /\ code <> RC_INVALID) ->
              pgrow c && ((code =? RC_FULL) || (code =? RC_INVALID)) = false).
  { intros [-> |[X Y]]; auto. apply N.eqb_neq in X, Y. rewrite X, Y. now rewrite andb_false_r. }
  split; [|split].
  - intros -> [-> | ->]; reflexivity.
  - intros H r ->. rewrite (X H).
    destruct (match o with QIou _ _ _ => code =? RC_SUCCESS_IN | _ => successful code end); reflexivity.
  - intros H NR. rewrite (X H).
    destruct (match o with QIou _ _ _ => code =? RC_SUCCESS_IN | _ => successful code end);
      destruct out as [r| |]; try reflexivity; now elim (NR r).
Qed.

Definition lin (a a' : amap) (o : pop) (s s' : astat mop mres) : Prop :=
  (s' = s /\ forall k, a' k = a k) \/
  (s = APend (pspec_op o) /\ exists r, s' = ADone r /\ pspec c a (pspec_op o) a' r).

Lemma load_lin hp t o i w n curr a :
  good -> inv hp t -> i = hm (pop_key o) + n -> ppre c good m hp t (pop_key o) n ->
  prd c m t (rmp i) = Some curr -> pabs c m hp t a ->
  lin a a o (APend (pspec_op o)) (pstat o (p_after_load c m hp o i (rmp i) w curr)).
Proof.
  intros g I Ei P R A. destruct (rd_ok _ _ _ HA _ _ Hm _ _ _ _ I P) as (w' & R' & E & L & W & F & EM & GM).
  rewrite <- Ei in *. rewrite R in R'. injection R' as <-.
  assert (ABS : w_empty mk curr = true -> a (pop_key o) = None).
  { rewrite EM. intros Z. apply N.eqb_eq in Z. rewrite Ei in E. eapply absent; eauto. }
  assert (INV : w_mark mk curr = true -> mk && negb (pgrow c) = true).
  { intros M. destruct (pgrow c).
    - rewrite GM in M; auto. discriminate.
    - unfold w_mark in M. apply andb_prop in M. destruct M as [-> _]. reflexivity. }
  assert (SAME : lin a a o (APend (pspec_op o)) (APend (pspec_op o))) by (left; auto).
  assert (INVA : w_mark mk curr = true -> pop_adds o = true ->
     lin a a o (APend (pspec_op o)) (pstat o (wrap_add c o w RC_INVALID (OutIs RInvalid)))).
  { intros M AD. destruct (stat_wrap_add o w RC_INVALID (OutIs RInvalid)) as (X1 & X2 & X3).
    specialize (INV M). destruct (pgrow c) eqn:PG; [rewrite andb_false_r in INV; discriminate|].
    rewrite (X2 (or_introl eq_refl) _ eq_refl). right. split; auto. eexists. split; [reflexivity|].
    unfold pspec. rewrite PG. apply s_invalid; auto. intros k'. destruct o; discriminate. }
  assert (FULL : w_empty mk curr = true -> negb (cprob mc) = true -> pop_adds o = true ->
     lin a a o (APend (pspec_op o)) (pstat o (wrap_add c o w RC_FULL (OutIs RFull)))).
  { intros Z CP AD. specialize (ABS Z). destruct (stat_wrap_add o w RC_FULL (OutIs RFull)) as (X1 & X2 & X3).
    destruct (pgrow c) eqn:PG; [rewrite X1; auto|].
    rewrite (X2 (or_introl eq_refl) _ eq_refl). right. split; auto. eexists. split; [reflexivity|].
    unfold pspec. rewrite PG, CP. destruct o; try discriminate; constructor; auto. }
  assert (USED : pop_adds o = true ->
     lin a a o (APend (pspec_op o)) (pstat o (wrap_add c o w RC_ALREADY_USED (OutPresent curr)))).
  { intros _. destruct (stat_wrap_add o w RC_ALREADY_USED (OutPresent curr)) as (X1 & X2 & X3).
    rewrite X3; auto; [right; split; discriminate|discriminate]. }
  destruct o as [k d|k d|k d f|k|k f]; cbn [p_after_load pop_key] in *.
  1, 2, 3: destruct (w_mark mk curr) eqn:M; [now apply INVA|];
    destruct (w_empty mk curr) eqn:Z;
    [destruct (negb (cprob mc)) eqn:CP; cbn [andb]; [|exact SAME];
     destruct (addressable_slots mc m + 300 <? rmp i); [now apply FULL|exact SAME]|].
  1, 2, 3: destruct (w_compare mk hp curr k (phk c k)) as [[|]|]; try exact SAME; now apply USED.
  - destruct (w_empty mk curr) eqn:Z.
    + right. split; auto. eexists. split; [reflexivity|]. apply s_find_miss. auto.
    + destruct (w_compare mk hp curr k (phk c k)) as [[|]|]; exact SAME.
  - destruct (w_mark mk curr) eqn:M.
    + specialize (INV eq_refl). unfold wrap_update.
      destruct (pgrow c) eqn:PG; [rewrite andb_false_r in INV; discriminate|]. cbn.
      right. split; auto. eexists. split; [reflexivity|].
      unfold pspec. rewrite PG. apply s_invalid; auto. intros k'. discriminate.
    + destruct (w_empty mk curr) eqn:Z.
      * unfold wrap_update. change (RC_NOT_FOUND =? RC_INVALID) with false. rewrite andb_false_r. cbn.
        right. split; auto. eexists. split; [reflexivity|]. apply s_update_miss. auto.
      * destruct (w_compare mk hp curr k (phk c k)) as [[|]|]; exact SAME.
Qed.

(** *** One step of a call *)

Record step_ok (hp : heap) (t : wmem) (x : N) (o : pop) (pc : ppc)
  (hp' : heap) (t' : wmem) (pc' : ppc) : Prop := {
  so_inv : inv hp' t';
  so_thr : ok hp' t' o pc';
  so_oth : forall o2 pc2, ok hp t o2 pc2 -> (forall a, owns o2 pc2 a -> ~ owns o pc a) ->
             ok hp' t' o2 pc2;
  so_own : forall a, owns o pc' a -> owns o pc a \/ (pc = QAlloc /\ a = x);
  so_cell : forall p a, p < tot -> cellp t p a -> cellp t' p a;
  so_all : forall a, hp' a <> None -> hp a <> None \/ (alloc a /\ owns o pc' a);
  so_lost : forall a, owns o pc a -> hp' a = None \/ owns o pc' a \/ exists p, p < tot /\ cellp t' p a;
  so_lin : good -> forall a, pabs c m hp t a -> exists a', pabs c m hp' t' a' /\
             lin a a' o (pstat o pc) (pstat o pc')
}.

Lemma pabs_same hp t a : pabs c m hp t a ->
  forall o s, exists a', pabs c m hp t a' /\ lin a a' o s s.
Proof. intros A o s. exists a. split; auto. left. auto. Qed.

Lemma quiet_ok hp t x o pc pc' :
  inv hp t -> ok hp t o pc' ->
  (forall a, owns o pc' a <-> owns o pc a) ->
  (good -> forall a, pabs c m hp t a -> exists a', pabs c m hp t a' /\ lin a a' o (pstat o pc) (pstat o pc')) ->
  step_ok hp t x o pc hp t pc'.
Proof.
  intros I T O LN. split; auto.
  - intros a W. left. now apply O.
  - intros a W. right. left. now apply O.
Qed.

Lemma no_alloc_fresh hp t o pc a : ok hp t o pc -> owns o pc a -> hp a <> None.
Proof. intros T W. destruct (owns_ok _ _ _ _ _ T W) as (_ & -> & _). discriminate. Qed.

Lemma alloc_ok hp t x o pc' :
  inv hp t -> alloc x -> hp x = None -> pop_adds o = true ->
  (exists w, pslot pc' = Some w /\ w < 2 ^ 64 /\ w_ptr w = x /\ w_mark mk w = false /\
     (slot_ok c alloc m (fupd hp x (Some (pop_key o, pop_data o))) t o w ->
      ok (fupd hp x (Some (pop_key o, pop_data o))) t o pc')) ->
  pstat o pc' = APend (pspec_op o) ->
  step_ok hp t x o QAlloc (fupd hp x (Some (pop_key o, pop_data o))) t pc'.
Proof.
  intros I A0 FR AD (w & SL & W & PT & MK & OKW) ST.
  assert (NC : forall p, p < tot -> ~ cellp t p x).
  { intros p L C. destruct (pi_live _ _ _ _ _ _ I p x L C) as [_ K]. apply hkey_none in K. contradiction. }
  assert (NE : forall p a, p < tot -> cellp t p a -> a <> x).
  { intros p a L C ->. exact (NC p L C). }
  assert (KP : keeps c m hp (fupd hp x (Some (pop_key o, pop_data o))) t).
  { intros p a L C. unfold hkey. rewrite fupd_neq; auto. eapply NE; eauto. }
  assert (OW : forall a, owns o pc' a -> a = x).
  { intros a (_ & w' & E & <-). rewrite SL in E. injection E as <-. auto. }
  split; auto.
  - eapply pinv_heap; eauto.
  - apply OKW. intros _. sp; auto.
    + now rewrite PT.
    + rewrite PT, fupd_eq. reflexivity.
    + now rewrite PT.
  - intros o2 pc2 T NO. eapply thr_heap; eauto.
    intros a O2. rewrite fupd_neq; auto. intros ->. apply (no_alloc_fresh _ _ _ _ _ T O2). exact FR.
  - intros a HN. destruct (N.eq_dec a x) as [->|N']; [|rewrite fupd_neq in HN by exact N'; auto].
    right. split; auto. split; auto. exists w. auto.
  - intros a (_ & w' & E & _). discriminate.
  - intros g a PA. exists a. split.
    + intros k d. rewrite (PA k d). split; intros (p & b & L & C & Hb); exists p, b; sp; auto.
      * rewrite fupd_neq; auto. eapply NE; eauto.
      * rewrite fupd_neq in Hb; auto. eapply NE; eauto.
    + left. rewrite ST. auto.
Qed.

Lemma run_ok hp t x o pc hp' t' pc' :
  inv hp t -> ok hp t o pc -> (good -> print_ok c o) ->
  (forall r, pc <> QDone r) -> (pc = QAlloc -> alloc x /\ hp x = None) ->
  qstep c m hp t x o pc = (hp', t', pc') ->
  step_ok hp t x o pc hp' t' pc'.
Proof.
  intros I T PR ND AL ST. destruct pc as [|w|i w|i w curr|w curr|w out|out|r|]; cbn [qstep] in ST.
  - (* QAlloc *)
    destruct (AL eq_refl) as [A0 FR]. pose proof (HA _ A0) as XB. injection ST as <- <- <-. cbn in T.
    assert (BW : build c o x < 2 ^ 64 /\ w_ptr (build c o x) = x /\ w_mark mk (build c o x) = false).
    { unfold build. destruct (pgrow c); [|destruct o].
      1, 3: destruct (bare_word mk x XB) as (? & ? & ? & ?); auto.
      all: match goal with |- context [slot_hash _ _ ?h] =>
             destruct (hash_word mk x h XB) as (? & ? & ? & ?); auto end. }
    destruct BW as (B1 & B2 & B3). apply alloc_ok; auto; [|destruct (pgrow c); reflexivity].
    exists (build c o x). destruct (pgrow c) eqn:PG; sp; auto; intros SO; cbn; sp; auto.
    + intros g _. specialize (PR g). unfold build. rewrite PG. unfold print_ok in PR. rewrite PG in PR.
      destruct o; try discriminate; cbn [pop_key].
      2: { destruct PR as [PR|PR]; [discriminate|].
           destruct (bare_word mk x XB) as (_ & _ & E & _). rewrite E, PR. reflexivity. }
      all: match goal with |- context [slot_hash _ _ ?h] =>
             destruct (hash_word mk x h XB) as (_ & _ & E & _); exact E end.
    + exists 0. split; [lia|]. intros j Lj. lia.
  - (* QTry *)
    injection ST as <- <- <-. cbn in T. destruct T as [PG S].
    assert (OWN : forall a, owns o (QLoad (hm (pop_key o)) (if pop_adds o then set_fingerprint mk w (phk c (pop_key o)) else w)) a
                    <-> owns o (QTry w) a).
    { intros a. unfold owns. cbn. split; intros (A & w' & E & <-); split; auto; injection E as <-; rewrite A in *;
        eexists; (split; [reflexivity|]); destruct (S A) as (_ & Mw & _);
        destruct (set_fp_word mk w (phk c (pop_key o)) Mw) as (_ & Pw & _); congruence. }
    apply quiet_ok; auto.
    + cbn. sp.
      * intros A. destruct (S A) as (S1 & S2 & S3 & S4 & S5). rewrite A.
        destruct (set_fp_word mk w (phk c (pop_key o)) S2) as (X1 & X2 & X3 & X4). rewrite X2. sp; auto.
      * intros g A. rewrite A. destruct (S A) as (S1 & S2 & _).
        destruct (set_fp_word mk w (phk c (pop_key o)) S2) as (X1 & X2 & X3 & X4). exact X3.
      * exists 0. split; [lia|]. intros j Lj. lia.
    + intros g a PA. now apply pabs_same.
  - (* QLoad *)
    cbn in T. destruct T as (S & F & n & Ei & P).
    destruct (load_ok _ _ _ HA _ _ Hm _ _ _ _ _ _ I PR S F Ei P) as (curr & R & T' & O).
    rewrite R in ST. injection ST as <- <- <-. apply quiet_ok; auto.
    intros g a PA. exists a. split; auto. eapply load_lin; eauto.
  - (* QCas *)
    cbn in T. destruct T as (AD & S & F & (n & Ei & P) & -> & LIM).
    destruct (rd_ok _ _ _ HA _ _ Hm _ _ _ _ I P) as (cell & R & E & L & W & Fc & EM & GM).
    rewrite <- Ei in *. rewrite R in ST. unfold w_cas in ST. destruct (N.eqb_spec cell 0) as [EZ|NZ]; [subst cell|].
    + injection ST as <- <- <-. subst i. destruct (S AD) as (S1 & S2 & S3 & S4 & S5).
      assert (WZ : w_ptr w <> 0) by (specialize (HA _ S3); lia).
      pose proof (fun q a => store_cellp t (rmp (hm (pop_key o) + n)) w q a E WZ) as SC.
      assert (PC : wrap_add c o w RC_SUCCESS_IN (OutIs RInserted) = QDone RInserted).
      { unfold wrap_add. change (RC_SUCCESS_IN =? RC_FULL) with false.
        change (RC_SUCCESS_IN =? RC_INVALID) with false. cbn [orb]. rewrite andb_false_r.
        destruct o; reflexivity. }
      rewrite PC. split; auto.
      * eapply pinv_store; eauto.
      * exact Logic.I.
      * intros o2 pc2 T2 NO. eapply thr_tab; [apply store_grows; eauto| |exact T2].
        intros a C NC O2. apply SC in C. destruct C as [C|[_ ->]]; [contradiction|].
        apply (NO _ O2). split; auto. exists w. auto.
      * intros a (_ & w' & X & _). discriminate.
      * intros p a Lp C. apply SC. auto.
      * intros a (_ & w' & X & <-). injection X as <-. right. right.
        exists (rmp (hm (pop_key o) + n)). split; auto. apply SC. auto.
      * intros g a PA. pose proof (absent _ _ _ _ _ _ g I P E eq_refl PA) as AN.
        exists (fupd a (pop_key o) (Some (pop_data o))). split.
        -- intros k d. unfold fupd at 1. destruct (N.eqb_spec k (pop_key o)) as [->|NK].
           ++ split.
              ** intros [= <-]. exists (rmp (hm (pop_key o) + n)), (w_ptr w). sp; auto. apply SC. auto.
              ** intros (p & b & Lp & C & Hb). apply SC in C. destruct C as [C|[_ ->]].
                 --- assert (a (pop_key o) = Some d) by (apply PA; eauto). congruence.
                 --- rewrite S4 in Hb. congruence.
           ++ rewrite (PA k d). split.
              ** intros (p & b & Lp & C & Hb). exists p, b. sp; auto. apply SC. auto.
              ** intros (p & b & Lp & C & Hb). apply SC in C. destruct C as [C|[_ ->]]; [eauto 6|].
                 rewrite S4 in Hb. congruence.
        -- right. split; auto. eexists. split; [reflexivity|].
           destruct o; try discriminate; now constructor.
    + injection ST as <- <- <-.
      assert (EQ : forall q, fupd t (rmp i) (Some cell) q = t q).
      { intros q. unfold fupd. destruct (N.eqb_spec q (rmp i)) as [->|]; auto. }
      assert (CE : forall q a, cellp (fupd t (rmp i) (Some cell)) q a <-> cellp t q a).
      { intros q a. unfold cellp. split; intros (v & Ev & X); exists v; [rewrite EQ in Ev|rewrite EQ]; auto. }
      assert (GR : grows t (fupd t (rmp i) (Some cell)) (rmp i)).
      { split; [intros q _; apply EQ|intros a C; now apply CE]. }
      assert (TH : forall o2 pc2, ok hp t o2 pc2 -> ok hp (fupd t (rmp i) (Some cell)) o2 pc2).
      { intros o2 pc2 T2. eapply thr_tab; eauto. intros a C NC. apply CE in C. contradiction. }
      split; auto.
      * split.
        -- intros p Lp. rewrite EQ. now apply (pi_cell _ _ _ _ _ _ I).
        -- intros p a Lp C. apply CE in C. now apply (pi_live _ _ _ _ _ _ I p).
        -- intros p q a Lp Lq C C'. apply CE in C, C'. now apply (pi_inj _ _ _ _ _ _ I p q a).
        -- intros p a k Lp C K. apply CE in C. destruct (pi_reach _ _ _ _ _ _ I p a k Lp C K) as (n' & En & Pn).
           exists n'. split; auto. intros j Lj. destruct (Pn j Lj) as ((b & Cb) & NE). split; auto.
           exists b. now apply CE.
        -- intros CP p a G Lp C. apply CE in C. now apply (pi_over _ _ _ _ _ _ I CP p a).
        -- intros g p w' k Lp Ep. rewrite EQ in Ep. now apply (pi_fp _ _ _ _ _ _ I g p).
        -- intros g p q a b k Lp Lq C C'. apply CE in C, C'. now apply (pi_key _ _ _ _ _ _ I g p q).
      * apply TH. cbn. sp; auto. exists n. auto.
      * intros p a Lp C. now apply CE.
      * intros g a PA. exists a. split; [|left; auto]. intros k d. rewrite (PA k d).
        split; intros (p & b & Lp & C & Hb); exists p, b; sp; auto; now apply CE.
  - (* QUpd *)
    cbn in T. destruct T as (S & (p & L & C & HK) & UO).
    destruct (pi_live _ _ _ _ _ _ I p _ L C) as [AC KC]. apply hkey_none in KC.
    destruct (hp (w_ptr curr)) as [[k d]|] eqn:Hc; [|contradiction]. injection ST as <- <- <-.
    set (hp' := fupd hp (w_ptr curr) (Some (k, pop_fun o d))).
    assert (KK : forall a, hkey hp' a = hkey hp a).
    { intros a. unfold hkey, hp', fupd. destruct (N.eqb_spec a (w_ptr curr)) as [->|]; auto. now rewrite Hc. }
    assert (KP : keeps c m hp hp' t) by (intros q a _ _; apply KK).
    assert (NO : forall o2 pc2, ok hp t o2 pc2 -> ok hp' t o2 pc2).
    { intros o2 pc2 T2. eapply thr_heap; eauto. intros a O2. unfold hp'. rewrite fupd_neq; auto. intros ->.
      destruct (owns_ok _ _ _ _ _ T2 O2) as (_ & _ & X). exact (X p L C). }
    assert (AN : forall a, hp' a <> None -> hp a <> None).
    { intros a. unfold hp', fupd. destruct (N.eqb_spec a (w_ptr curr)) as [->|]; auto. congruence. }
    set (pc' := if pop_adds o then wrap_add c o w RC_SUCCESS_UP (OutIs (RUpdated 0))
                else wrap_update c RC_SUCCESS_UP (OutIs (RUpdated 0))).
    assert (LIN : good -> (exists k' d' f', o = QIou k' d' f') \/ (exists k' f', o = QUpdate k' f') ->
                  pstat o pc' = ADone (RUpdated 0) ->
                  forall a, pabs c m hp t a -> exists a', pabs c m hp' t a' /\ lin a a' o (APend (pspec_op o)) (pstat o pc')).
    { intros g CASE PS a PA. specialize (HK g). apply hkey_some in HK. destruct HK as [d0 HK].
      rewrite Hc in HK. injection HK as HK HD. clear d0 HD. assert (AK : a k = Some d) by (apply PA; eauto).
      exists (fupd a k (Some (pop_fun o d))). split.
      - intros k' d'. unfold fupd at 1. destruct (N.eqb_spec k' k) as [->|NK].
        + split.
          * intros [= <-]. exists p, (w_ptr curr). sp; auto. unfold hp'. now rewrite fupd_eq.
          * intros (q & b & Lq & Cq & Hb). unfold hp', fupd in Hb.
            destruct (N.eqb_spec b (w_ptr curr)) as [->|NB]; [congruence|].
            assert (p = q).
            { apply (pi_key _ _ _ _ _ _ I g p q (w_ptr curr) b k); auto; apply hkey_some; eauto. }
            subst q. elim NB. eapply cellp_fun; eauto.
        + rewrite (PA k' d'). split; intros (q & b & Lq & Cq & Hb); exists q, b; sp; auto.
          * unfold hp'. rewrite fupd_neq; auto. intros ->. congruence.
          * unfold hp', fupd in Hb. destruct (N.eqb_spec b (w_ptr curr)) as [->|NB]; [congruence|auto].
      - right. split; auto. exists (RUpdated 0). split; auto.
        destruct CASE as [(k' & d' & f' & ->)|(k' & f' & ->)]; cbn [pop_key pop_fun pspec_op] in *; subst k'.
        + change 0 with ((fun _ : N => 0) d). apply s_iou_hit; auto.
        + change 0 with ((fun _ : N => 0) d). apply s_update_hit; auto. }
    destruct o as [k1 d1|k1 d1|k1 d1 f1|k1|k1 f1]; try (now elim UO); cbn [pop_adds] in pc'.
    + (* insert_or_update *)
      assert (E' : pc' = QFree w (OutIs (RUpdated 0))) by (unfold pc', wrap_add;
        change (RC_SUCCESS_UP =? RC_FULL) with false; change (RC_SUCCESS_UP =? RC_INVALID) with false;
        cbn [orb]; now rewrite andb_false_r).
      assert (SO : slot_ok c alloc m hp' t (QIou k1 d1 f1) w).
      { apply (slot_of hp' t _ (QUpd w curr) w); [|reflexivity]. apply NO. cbn. sp; auto. exists p. auto. }
      split; auto.
      * eapply pinv_heap; eauto.
      * rewrite E'. cbn. auto.
      * rewrite E'. auto.
      * intros a O2. right. left. rewrite E'. exact O2.
      * intros g. apply LIN; auto; [left; eauto|]. now rewrite E'.
    + (* update *)
      assert (E' : pc' = QDone (RUpdated 0)) by (unfold pc', wrap_update;
        change (RC_SUCCESS_UP =? RC_INVALID) with false; now rewrite andb_false_r).
      split; auto.
      * eapply pinv_heap; eauto.
      * rewrite E'. exact Logic.I.
      * intros a (X & _). discriminate.
      * intros a (X & _). discriminate.
      * intros g. apply LIN; auto; [right; eauto|]. now rewrite E'.
  - (* QFree *)
    cbn in T. destruct T as (AD & S & OO). destruct (S AD) as (S1 & S2 & S3 & S4 & S5).
    assert (WZ : w_ptr w <> 0) by (specialize (HA _ S3); lia).
    unfold w_cleanup in ST. destruct (N.eqb_spec (w_ptr w) 0) as [|_]; [contradiction|].
    rewrite S4 in ST. injection ST as <- <- <-.
    assert (NE : forall p a, p < tot -> cellp t p a -> a <> w_ptr w).
    { intros p a Lp C ->. exact (S5 p Lp C). }
    assert (KP : keeps c m hp (fupd hp (w_ptr w) None) t).
    { intros p a Lp C. unfold hkey. rewrite fupd_neq; auto. eapply NE; eauto. }
    assert (OW : forall a, owns o (QFree w out) a <-> a = w_ptr w).
    { intros a. split; [intros (_ & w' & X & <-); injection X as <-; auto|]. intros ->. split; auto. exists w. auto. }
    assert (ON : forall a, ~ owns o (deliver out) a).
    { intros a (_ & w' & X & _). destruct out; discriminate. }
    split; auto.
    + eapply pinv_heap; eauto.
    + apply deliver_ok. destruct out as [r|v|v]; cbn in *; auto;
        destruct OO as ((p & Lp & C & HK) & OI); split; auto; exists p; sp; auto; intros g; rewrite (KP p _ Lp C); auto.
    + intros o2 pc2 T2 NO. eapply thr_heap; eauto. intros a O2. rewrite fupd_neq; auto.
      intros ->. apply (NO _ O2). now apply OW.
    + intros a O2. elim (ON a O2).
    + intros a. unfold fupd. destruct (N.eqb_spec a (w_ptr w)) as [->|]; auto; congruence.
    + intros a O2. apply OW in O2. subst a. left. now rewrite fupd_eq.
    + intros g a PA. exists a. split.
      * intros k d. rewrite (PA k d). split; intros (p & b & Lp & C & Hb); exists p, b; sp; auto.
        -- rewrite fupd_neq; auto. eapply NE; eauto.
        -- rewrite fupd_neq in Hb; auto. eapply NE; eauto.
      * left. split; auto. destruct out; reflexivity.
  - (* QRead *)
    cbn in T.
    assert (RD : forall w, held c good m hp t o w -> exists k d, hp (w_ptr w) = Some (k, d) /\
              (good -> k = pop_key o /\ forall a, pabs c m hp t a -> a (pop_key o) = Some d)).
    { intros w (p & Lp & C & HK). destruct (pi_live _ _ _ _ _ _ I p _ Lp C) as [_ K]. apply hkey_none in K.
      destruct (hp (w_ptr w)) as [[k d]|] eqn:Hw; [|contradiction]. exists k, d. split; auto.
      intros g. specialize (HK g). apply hkey_some in HK. destruct HK as [d0 HK].
      rewrite Hw in HK. injection HK as -> _. split; auto. intros a PA. apply PA. eauto. }
    assert (NO : forall pc2 a, pslot pc2 = None -> ~ owns o pc2 a).
    { intros pc2 a X (_ & w' & Y & _). congruence. }
    destruct out as [r|w|w]; cbn in T.
    + injection ST as <- <- <-. apply quiet_ok; try exact Logic.I; auto.
      * intros a. split; intros X; exfalso; eapply NO; eauto; reflexivity.
      * intros g a PA. now apply pabs_same.
    + destruct T as [T OI]. destruct (RD w T) as (k & d & Hw & G). rewrite Hw in ST. injection ST as <- <- <-.
      apply quiet_ok; try exact Logic.I; auto.
      * intros a. split; intros X; exfalso; eapply NO; eauto; reflexivity.
      * intros g a PA. destruct (G g) as [_ GA]. specialize (GA a PA). exists a. split; auto.
        right. split; auto. eexists. split; [reflexivity|].
        destruct o; try (now elim OI); now constructor.
    + destruct T as [T OI]. destruct (RD w T) as (k & d & Hw & G). rewrite Hw in ST. injection ST as <- <- <-.
      apply quiet_ok; try exact Logic.I; auto.
      * intros a. split; intros X; exfalso; eapply NO; eauto; reflexivity.
      * intros g a PA. destruct (G g) as [_ GA]. specialize (GA a PA). exists a. split; auto.
        right. split; auto. eexists. split; [reflexivity|].
        destruct o; try (now elim OI); now constructor.
  - elim (ND r eq_refl).
  - elim T.
Qed.
End Table.
End Sys.
