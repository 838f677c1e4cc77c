(** Invariant of tables of pointer cells: which element is where and who owns
    it. *)
From Coq Require Import NArith Bool List Lia.
From Verif Require Import Words Slot Mapper MapperFacts ReturnCode MapSpec LinSpec Base BaseInv
  Migrate Ptr PtrSpec PtrWords.
Import ListNotations.
Open Scope N_scope.

Ltac sp := repeat match goal with |- _ /\ _ => split end.

(** Cell [p] holds the element at address [a]. *)
Definition cellp (t : wmem) (p a : N) : Prop := exists w, t p = Some w /\ w_ptr w = a /\ a <> 0.

(** The key of the element at an address. *)
Definition hkey (hp : heap) (a : N) : option N := option_map fst (hp a).

Lemma hkey_some hp a k : hkey hp a = Some k <-> exists d, hp a = Some (k, d).
Proof.
  unfold hkey. destruct (hp a) as [[k' d]|]; cbn; split.
  - intros [= ->]. eauto.
  - intros (d' & [= -> ->]). reflexivity.
  - discriminate.
  - intros (d' & E). discriminate.
Qed.
Lemma hkey_none hp a : hkey hp a <> None <-> hp a <> None.
Proof. unfold hkey. destruct (hp a); cbn; split; congruence. Qed.

Lemma cellp_some t p w : t p = Some w -> w_ptr w <> 0 -> cellp t p (w_ptr w).
Proof. intros E N'. exists w. auto. Qed.
Lemma cellp_fun t p a b : cellp t p a -> cellp t p b -> a = b.
Proof. intros (w & E & <- & _) (w' & E' & <- & _). congruence. Qed.

(** The slot a call holds at a program point. *)
Definition pslot (pc : ppc) : option N :=
  match pc with
  | QTry w | QLoad _ w | QCas _ w _ | QUpd w _ | QFree w _ => Some w
  | _ => None
  end.
Definition owns (o : pop) (pc : ppc) (a : N) : Prop :=
  pop_adds o = true /\ exists w, pslot pc = Some w /\ w_ptr w = a.

Section Inv.
Context (c : pcfg) (alloc : N -> Prop) (good : Prop).
Context (HA : forall a, alloc a -> 0 < a < 2 ^ 48).
Notation mk := (pmk c).
Notation mc := (pmc c).

Section Table.
Context (m : mapper) (lg : N) (Hm : wf_mapper (pmc c) m lg).
Notation tot := (total_slots mc m).
Notation addr := (addressable_slots mc m).
Notation rmp := (remap mc m).
Notation hm := (phome c m).

Record pinv (hp : heap) (t : wmem) : Prop := {
  pi_cell : forall p, p < tot ->
    exists w, t p = Some w /\ w < 2 ^ 64 /\ (w_ptr w = 0 -> w_fp mk w = 0) /\
              (pgrow c = true -> w_mark mk w = false);
  pi_live : forall p a, p < tot -> cellp t p a -> alloc a /\ hkey hp a <> None;
  pi_inj : forall p q a, p < tot -> q < tot -> cellp t p a -> cellp t q a -> p = q;
  pi_reach : forall p a k, p < tot -> cellp t p a -> hkey hp a = Some k ->
    exists n, rmp (hm k + n) = p /\
      forall j, j < n -> (exists b, cellp t (rmp (hm k + j)) b) /\ rmp (hm k + j) <> p;
  pi_over : cprob mc = false -> forall p a, addr + 300 < p -> p < tot -> ~ cellp t p a;
  pi_fp : good -> forall p w k, p < tot -> t p = Some w -> w_ptr w <> 0 ->
    hkey hp (w_ptr w) = Some k -> w_fp mk w = fingerprint mk (phk c k);
  pi_key : good -> forall p q a b k, p < tot -> q < tot -> cellp t p a -> cellp t q b ->
    hkey hp a = Some k -> hkey hp b = Some k -> p = q
}.

(** All cells before step [n] on the path of [k] are in use (by other keys). *)
Definition ppre (hp : heap) (t : wmem) (k n : N) : Prop :=
  forall j, j < n -> exists b, cellp t (rmp (hm k + j)) b /\ (good -> hkey hp b <> Some k).

Definition slot_ok (hp : heap) (t : wmem) (o : pop) (w : N) : Prop :=
  pop_adds o = true ->
  w < 2 ^ 64 /\ w_mark mk w = false /\ alloc (w_ptr w) /\
  hp (w_ptr w) = Some (pop_key o, pop_data o) /\ (forall p, p < tot -> ~ cellp t p (w_ptr w)).
Definition print (o : pop) (w : N) : Prop :=
  good -> pop_adds o = true -> w_fp mk w = fingerprint mk (phk c (pop_key o)).

(** A loaded word leads to an element (of the right key) in the table. *)
Definition held (hp : heap) (t : wmem) (o : pop) (w : N) : Prop :=
  exists p, p < tot /\ cellp t p (w_ptr w) /\ (good -> hkey hp (w_ptr w) = Some (pop_key o)).
Definition out_ok (hp : heap) (t : wmem) (o : pop) (out : pout) : Prop :=
  match out with
  | OutIs _ => True
  | OutPresent w => held hp t o w /\ match o with QInsert _ _ | QEmplace _ _ => True | _ => False end
  | OutFound w => held hp t o w /\ match o with QFind _ => True | _ => False end
  end.

Definition upd_op (o : pop) : Prop := match o with QIou _ _ _ | QUpdate _ _ => True | _ => False end.

Definition pthr_ok (hp : heap) (t : wmem) (o : pop) (pc : ppc) : Prop :=
  match pc with
  | QAlloc => pop_adds o = true
  | QTry w => pgrow c = true /\ slot_ok hp t o w
  | QLoad i w => slot_ok hp t o w /\ print o w /\
                 exists n, i = hm (pop_key o) + n /\ ppre hp t (pop_key o) n
  | QCas i w curr =>
      pop_adds o = true /\ slot_ok hp t o w /\ print o w /\
      (exists n, i = hm (pop_key o) + n /\ ppre hp t (pop_key o) n) /\
      curr = 0 /\ (cprob mc = false -> rmp i <= addr + 300)
  | QUpd w curr => slot_ok hp t o w /\ held hp t o curr /\ upd_op o
  | QFree w out => pop_adds o = true /\ slot_ok hp t o w /\ out_ok hp t o out
  | QRead out => out_ok hp t o out
  | QDone _ => True
  | QBad => False
  end.

(** *** Changes that others do not notice *)

(** The heap keeps the keys of the elements in the table. *)
Definition keeps (hp hp' : heap) (t : wmem) : Prop :=
  forall p a, p < tot -> cellp t p a -> hkey hp' a = hkey hp a.

Lemma pinv_heap hp hp' t : pinv hp t -> keeps hp hp' t -> pinv hp' t.
Proof.
  intros I K. split; try apply I.
  - intros p a L C. destruct (pi_live _ _ I p a L C) as [A E]. split; auto. now rewrite (K p a L C).
  - intros p a k L C E. rewrite (K p a L C) in E. now apply (pi_reach _ _ I p a k L C).
  - intros G p w k L E NZ E'. rewrite (K p (w_ptr w) L (cellp_some _ _ _ E NZ)) in E'.
    now apply (pi_fp _ _ I G p w k).
  - intros G p q a b k L L' C C' E E'. rewrite (K p a L C) in E. rewrite (K q b L' C') in E'.
    now apply (pi_key _ _ I G p q a b k).
Qed.

Lemma hm_lt k : hm k < 2 ^ lg.
Proof. unfold phome. eapply map_lt; eauto. apply N.mod_lt. discriminate. Qed.

Lemma cell_bound hp t k n : pinv hp t -> ppre hp t k n -> rmp (hm k + n) < tot.
Proof.
  intros I P. destruct (cprob mc) eqn:CP.
  - eapply remap_lt; eauto.
  - rewrite (remap_val _ _ _ Hm), CP. rewrite (total_val _ _ _ Hm), CP.
    pose proof (hm_lt k) as HL.
    destruct (N.lt_ge_cases (hm k + n) (2 ^ lg + 1024)) as [|G]; [assumption|exfalso].
    pose (j := 2 ^ lg + 301 - hm k).
    assert (J : j < n) by (unfold j; lia).
    destruct (P j J) as (b & C & _). rewrite (remap_val _ _ _ Hm), CP in C.
    replace (hm k + j) with (2 ^ lg + 301) in C by (unfold j; lia).
    apply (pi_over _ _ I CP _ b) in C; auto.
    + rewrite (addressable_val _ _ _ Hm). lia.
    + rewrite (total_val _ _ _ Hm), CP. lia.
Qed.

Lemma ppre_bound hp t k n j : pinv hp t -> ppre hp t k n -> j < n -> rmp (hm k + j) < tot.
Proof. intros I P L. apply (cell_bound hp t k j I). intros j' L'. apply P. lia. Qed.

Lemma thr_heap hp hp' t o pc :
  pinv hp t -> keeps hp hp' t -> (forall a, owns o pc a -> hp' a = hp a) ->
  pthr_ok hp t o pc -> pthr_ok hp' t o pc.
Proof.
  intros I K O T.
  assert (S : forall w, pslot pc = Some w -> slot_ok hp t o w -> slot_ok hp' t o w).
  { intros w E S A. destruct (S A) as (X1 & X2 & X3 & X4 & X5). sp; auto.
    rewrite O; auto. split; eauto. }
  assert (H : forall w, held hp t o w -> held hp' t o w).
  { intros w (p & L & C & G). exists p. sp; auto. intros g. rewrite (K p _ L C). auto. }
  assert (U : forall out, out_ok hp t o out -> out_ok hp' t o out).
  { intros [r|w|w]; cbn; auto; intros []; auto. }
  assert (P : forall n, ppre hp t (pop_key o) n -> ppre hp' t (pop_key o) n).
  { intros n P j L. destruct (P j L) as (b & C & G). exists b. split; auto. intros g.
    rewrite (K _ b (ppre_bound _ _ _ _ _ I P L) C). auto. }
  destruct pc; cbn in *; auto.
  - destruct T. auto.
  - destruct T as (T1 & T2 & n & E & T3). sp; auto. exists n. auto.
  - destruct T as (T1 & T2 & T3 & (n & E & T4) & T5 & T6). sp; auto. exists n. auto.
  - destruct T as (T1 & T2 & T3). auto.
  - destruct T as (T1 & T2 & T3). auto.
Qed.

(** An empty cell becomes used, or a cell is marked. *)
Definition grows (t t' : wmem) (p : N) : Prop :=
  (forall q, q <> p -> t' q = t q) /\ (forall a, cellp t p a -> cellp t' p a).

Lemma grows_cellp t t' p q a : grows t t' p -> cellp t q a -> cellp t' q a.
Proof.
  intros [G1 G2] C. destruct (N.eq_dec q p) as [->|NE]; auto.
  destruct C as (w & E & X). exists w. rewrite G1; auto.
Qed.

(** The new element is [x] (if any). *)
Lemma thr_tab hp t t' p o pc :
  grows t t' p ->
  (forall a, cellp t' p a -> ~ cellp t p a -> ~ owns o pc a) ->
  pthr_ok hp t o pc -> pthr_ok hp t' o pc.
Proof.
  intros G NW T.
  assert (C : forall q a, cellp t q a -> cellp t' q a) by (intros; eapply grows_cellp; eauto).
  assert (S : forall w, pslot pc = Some w -> slot_ok hp t o w -> slot_ok hp t' o w).
  { intros w E S A. destruct (S A) as (X1 & X2 & X3 & X4 & X5). sp; auto.
    intros q L C'. destruct (N.eq_dec q p) as [->|NE].
    - apply (NW _ C'); [auto|split; eauto].
    - apply (X5 q L). destruct C' as (v & E' & X). exists v. destruct G as [G _]. rewrite <- G; auto. }
  assert (H : forall w, held hp t o w -> held hp t' o w).
  { intros w (q & L & C' & g). exists q. auto. }
  assert (U : forall out, out_ok hp t o out -> out_ok hp t' o out).
  { intros [r|w|w]; cbn; auto; intros []; auto. }
  assert (P : forall n, ppre hp t (pop_key o) n -> ppre hp t' (pop_key o) n).
  { intros n P j L. destruct (P j L) as (b & C' & g). exists b. auto. }
  destruct pc; cbn in *; auto.
  - destruct T. auto.
  - destruct T as (T1 & T2 & n & E & T3). sp; auto. exists n. auto.
  - destruct T as (T1 & T2 & T3 & (n & E & T4) & T5 & T6). sp; auto. exists n. auto.
  - destruct T as (T1 & T2 & T3). auto.
  - destruct T as (T1 & T2 & T3). auto.
Qed.

(** Marking a cell. *)
Lemma mark_cellp t p w q a : t p = Some w -> w < 2 ^ 64 ->
  cellp (fupd t p (Some (w_set_mark w))) q a <-> cellp t q a.
Proof.
  intros E L. destruct (N.eq_dec q p) as [->|NE].
  - destruct (set_mark_word w L) as (_ & P & _).
    split; intros (v & Ev & <- & NZ).
    + rewrite fupd_eq in Ev. injection Ev as <-. rewrite P in *. exists w. auto.
    + rewrite E in Ev. injection Ev as <-. exists (w_set_mark w). rewrite fupd_eq, P. auto.
  - split; intros (v & Ev & X); exists v; [rewrite fupd_neq in Ev by exact NE|rewrite fupd_neq by exact NE]; auto.
Qed.

Lemma pinv_mark hp t p w :
  pinv hp t -> mk = true -> pgrow c = false -> p < tot -> t p = Some w ->
  pinv hp (fupd t p (Some (w_set_mark w))).
Proof.
  intros I M NG L E.
  assert (W : w < 2 ^ 64 /\ (w_ptr w = 0 -> w_fp mk w = 0)).
  { destruct (pi_cell _ _ I p L) as (w' & E' & X & Y & _). rewrite E in E'. injection E' as <-. auto. }
  destruct W as [W F]. destruct (set_mark_word w W) as (W' & P & F' & M').
  assert (C : forall q a, cellp (fupd t p (Some (w_set_mark w))) q a <-> cellp t q a)
    by (intros; now apply mark_cellp).
  split.
  - intros q Lq. destruct (N.eq_dec q p) as [->|NE].
    + exists (w_set_mark w). rewrite fupd_eq. rewrite P. sp; auto.
      * rewrite M in *. rewrite F'. auto.
      * rewrite NG. discriminate.
    + rewrite fupd_neq by exact NE. now apply (pi_cell _ _ I).
  - intros q a Lq Cq. apply C in Cq. now apply (pi_live _ _ I q).
  - intros q r a Lq Lr Cq Cr. apply C in Cq, Cr. now apply (pi_inj _ _ I q r a).
  - intros q a k Lq Cq K. apply C in Cq. destruct (pi_reach _ _ I q a k Lq Cq K) as (n & En & Pn).
    exists n. split; auto. intros j Lj. destruct (Pn j Lj) as ((b & Cb) & NE). split; auto.
    exists b. now apply C.
  - intros CP q a G Lq Cq. apply C in Cq. now apply (pi_over _ _ I CP q a G Lq).
  - intros g q v k Lq Eq NZ K. destruct (N.eq_dec q p) as [->|NE].
    + rewrite fupd_eq in Eq. injection Eq as <-. rewrite P in *.
      rewrite <- (pi_fp _ _ I g p w k Lq E NZ K). rewrite M. exact F'.
    + rewrite fupd_neq in Eq by exact NE. now apply (pi_fp _ _ I g q v k).
  - intros g q r a b k Lq Lr Cq Cr Ka Kb. apply C in Cq, Cr. now apply (pi_key _ _ I g q r a b k).
Qed.

(** Storing the slot of a call. *)
Lemma store_cellp t p w q a : t p = Some 0 -> w_ptr w <> 0 ->
  cellp (fupd t p (Some w)) q a <-> (cellp t q a \/ q = p /\ a = w_ptr w).
Proof.
  intros E NZ. destruct (N.eq_dec q p) as [->|NE].
  - split.
    + intros (v & Ev & <- & X). rewrite fupd_eq in Ev. injection Ev as <-. auto.
    + intros [(v & Ev & <- & X)|[_ ->]].
      * rewrite E in Ev. injection Ev as <-. now elim X.
      * exists w. rewrite fupd_eq. auto.
  - split.
    + intros (v & Ev & X). rewrite fupd_neq in Ev by exact NE. left. exists v. auto.
    + intros [(v & Ev & X)|[F _]]; [|contradiction]. exists v. rewrite fupd_neq by exact NE. auto.
Qed.

Lemma store_grows t p w : t p = Some 0 -> w_ptr w <> 0 -> grows t (fupd t p (Some w)) p.
Proof.
  intros E NZ. split.
  - intros q NE. now apply fupd_neq.
  - intros a C. apply (store_cellp t p w); auto.
Qed.

Lemma pinv_store hp t o w n :
  let k := pop_key o in let p := rmp (hm k + n) in
  pinv hp t -> pop_adds o = true -> slot_ok hp t o w -> print o w -> ppre hp t k n ->
  t p = Some 0 -> (cprob mc = false -> p <= addr + 300) ->
  pinv hp (fupd t p (Some w)).
Proof.
  intros k p I A S F P E B. pose proof (cell_bound _ _ _ _ I P) as L.
  change (rmp (hm k + n)) with p in L.
  destruct (S A) as (W1 & W2 & W3 & W4 & W5).
  assert (NZ : w_ptr w <> 0) by (specialize (HA _ W3); lia).
  assert (KW : hkey hp (w_ptr w) = Some k) by (apply hkey_some; eauto).
  pose proof (fun q a => store_cellp t p w q a E NZ) as C.
  assert (NC : forall a, ~ cellp t p a).
  { intros a (v & Ev & <- & X). rewrite E in Ev. injection Ev as <-. now elim X. }
  (* no other cell has the key *)
  assert (FR : good -> forall q b, q < tot -> cellp t q b -> hkey hp b <> Some k).
  { intros g q b Lq Cq Kb. destruct (pi_reach _ _ I q b k Lq Cq Kb) as (n' & En' & Pn').
    destruct (N.lt_trichotomy n n') as [X|[->|X]].
    - destruct (Pn' n X) as ((b' & Cb') & _). exact (NC _ Cb').
    - change (rmp (hm k + n')) with p in En'. subst q. exact (NC _ Cq).
    - destruct (P n' X) as (b' & Cb' & G). rewrite En' in Cb'.
      rewrite (cellp_fun _ _ _ _ Cb' Cq) in G. exact (G g Kb). }
  split.
  - intros q Lq. destruct (N.eq_dec q p) as [->|NE].
    + exists w. rewrite fupd_eq. sp; auto. intros X. contradiction.
    + rewrite fupd_neq by exact NE. now apply (pi_cell _ _ I).
  - intros q a Lq Cq. apply C in Cq. destruct Cq as [Cq|[-> ->]].
    + now apply (pi_live _ _ I q).
    + split; auto. rewrite KW. discriminate.
  - intros q r a Lq Lr Cq Cr. apply C in Cq, Cr. destruct Cq as [Cq|[-> ->]], Cr as [Cr|[-> Ea]]; auto.
    + now apply (pi_inj _ _ I q r a).
    + subst a. elim (W5 q Lq Cq).
    + elim (W5 r Lr Cr).
  - intros q a k' Lq Cq K. apply C in Cq. destruct Cq as [Cq|[-> ->]].
    + destruct (pi_reach _ _ I q a k' Lq Cq K) as (n' & En & Pn).
      exists n'. split; auto. intros j Lj. destruct (Pn j Lj) as ((b & Cb) & NE). split; auto.
      exists b. apply C. auto.
    + rewrite KW in K. injection K as <-. exists n. split; auto. intros j Lj.
      destruct (P j Lj) as (b & Cb & _). split; [exists b; apply C; auto|].
      intros X. rewrite X in Cb. exact (NC _ Cb).
  - intros CP q a G Lq Cq. apply C in Cq. destruct Cq as [Cq|[-> _]].
    + now apply (pi_over _ _ I CP q a G Lq).
    + specialize (B CP). lia.
  - intros g q v k' Lq Eq NZ' K. destruct (N.eq_dec q p) as [->|NE].
    + rewrite fupd_eq in Eq. injection Eq as <-. rewrite KW in K. injection K as <-. now apply F.
    + rewrite fupd_neq in Eq by exact NE. now apply (pi_fp _ _ I g q v k').
  - intros g q r a b k' Lq Lr Cq Cr Ka Kb. apply C in Cq, Cr.
    destruct Cq as [Cq|[-> ->]], Cr as [Cr|[-> ->]]; auto.
    + now apply (pi_key _ _ I g q r a b k').
    + rewrite KW in Kb. injection Kb as <-. elim (FR g q a Lq Cq Ka).
    + rewrite KW in Ka. injection Ka as <-. elim (FR g r b Lr Cr Kb).
Qed.

(** Comparing keys. *)
Lemma compare_ok hp t p w o :
  pinv hp t -> p < tot -> t p = Some w -> w_ptr w <> 0 ->
  exists r, w_compare mk hp w (pop_key o) (phk c (pop_key o)) = Some r /\
    (r = true -> held hp t o w) /\
    (r = true -> hkey hp (w_ptr w) = Some (pop_key o)) /\
    (r = false -> good -> hkey hp (w_ptr w) <> Some (pop_key o)).
Proof.
  intros I L E NZ. pose proof (cellp_some _ _ _ E NZ) as C.
  destruct (pi_live _ _ I p _ L C) as [_ K]. apply hkey_none in K.
  destruct (hp (w_ptr w)) as [[k d]|] eqn:Hk; [|contradiction].
  assert (HK : hkey hp (w_ptr w) = Some k) by (apply hkey_some; eauto).
  unfold w_compare. destruct (N.eqb_spec (fingerprint mk (phk c (pop_key o))) (w_fp mk w)) as [Ef|Nf]; cbn [negb].
  - destruct (N.eqb_spec (w_ptr w) 0) as [|_]; [contradiction|]. rewrite Hk.
    destruct (N.eqb_spec k (pop_key o)) as [->|Nk]; eexists; sp; try reflexivity; try discriminate.
    + intros _. exists p. auto.
    + intros _. auto.
    + intros _ _. rewrite HK. congruence.
  - eexists; sp; try reflexivity; try discriminate.
    intros _ g X. rewrite HK in X. injection X as ->. apply Nf. symmetry.
    eapply (pi_fp _ _ I g p w); eauto.
Qed.

(** What a probing step sees. *)
Lemma rd_ok hp t k n :
  pinv hp t -> ppre hp t k n ->
  exists w, prd c m t (rmp (hm k + n)) = Some w /\ t (rmp (hm k + n)) = Some w /\
    rmp (hm k + n) < tot /\ w < 2 ^ 64 /\ (w_ptr w = 0 -> w_fp mk w = 0) /\
    w_empty mk w = (w_ptr w =? 0) /\ (pgrow c = true -> w_mark mk w = false).
Proof.
  intros I P. pose proof (cell_bound _ _ _ _ I P) as L.
  destruct (pi_cell _ _ I _ L) as (w & E & W & F & G). exists w.
  unfold prd. destruct (N.ltb_spec (rmp (hm k + n)) tot); [|lia]. sp; auto.
  now apply empty_iff.
Qed.

Lemma ppre_next hp t k n b :
  ppre hp t k n -> cellp t (rmp (hm k + n)) b -> (good -> hkey hp b <> Some k) ->
  ppre hp t k (n + 1).
Proof.
  intros P C G j L. destruct (N.eq_dec j n) as [->|]; [eauto|]. apply P. lia.
Qed.

Lemma deliver_ok hp t o out : out_ok hp t o out -> pthr_ok hp t o (deliver out).
Proof. destruct out; cbn; auto. Qed.

Lemma wrap_add_ok hp t o w code out :
  pop_adds o = true -> slot_ok hp t o w -> out_ok hp t o out ->
  (code = RC_FULL \/ code = RC_INVALID \/ code = RC_ALREADY_USED \/ code = RC_SUCCESS_UP /\ exists k d f, o = QIou k d f) ->
  pthr_ok hp t o (wrap_add c o w code out) /\ pslot (wrap_add c o w code out) = Some w.
Proof.
  intros A S U H. unfold wrap_add.
  assert (X : match o with QIou _ _ _ => code =? RC_SUCCESS_IN | _ => successful code end = false).
  { destruct H as [->|[->|[->|[-> (k & d & f & ->)]]]]; try destruct o; reflexivity. }
  rewrite X. destruct (pgrow c) eqn:G; cbn [andb].
  - destruct ((code =? RC_FULL) || (code =? RC_INVALID)); cbn; auto.
  - cbn. auto.
Qed.

Local Ltac addw :=
  match goal with
  | S : slot_ok ?hp ?t ?o ?w, OW : forall pc, pslot pc = _ -> _
    |- context [wrap_add _ ?o ?w ?code ?out] =>
      let Y1 := fresh in let Y2 := fresh in
      destruct (wrap_add_ok hp t o w code out eq_refl S) as [Y1 Y2]; [cbn; auto|auto|];
      split; [exact Y1|exact (OW _ Y2)]
  end.

(** A load. *)
Lemma load_ok hp t o i w n :
  pinv hp t -> (good -> print_ok c o) -> slot_ok hp t o w -> print o w ->
  i = hm (pop_key o) + n -> ppre hp t (pop_key o) n ->
  exists curr, prd c m t (rmp i) = Some curr /\
    pthr_ok hp t o (p_after_load c m hp o i (rmp i) w curr) /\
    (forall a, owns o (p_after_load c m hp o i (rmp i) w curr) a <-> owns o (QLoad i w) a).
Proof.
  intros I PR S F Ei P. destruct (rd_ok _ _ _ _ I P) as (curr & R & E & L & W & Fc & EM & GM).
  rewrite <- Ei in *. exists curr. split; auto.
  assert (NXT : w_ptr curr <> 0 -> (good -> hkey hp (w_ptr curr) <> Some (pop_key o)) ->
                pthr_ok hp t o (QLoad (i + 1) w)).
  { intros NZ NK. cbn. sp; auto. exists (n + 1). split; [lia|].
    eapply ppre_next; eauto. rewrite <- Ei. now apply cellp_some. }
  assert (ZERO : w_mark mk curr = false -> w_ptr curr = 0 -> curr = 0).
  { intros M Z. rewrite (no_ptr mk curr W (Fc Z) Z), M. reflexivity. }
  assert (OW : forall pc, pslot pc = Some w -> forall a, owns o pc a <-> owns o (QLoad i w) a).
  { intros pc X a. unfold owns. rewrite X. cbn. reflexivity. }
  destruct (N.eqb_spec (w_ptr curr) 0) as [Z|NZ].
  - (* empty *)
    destruct o as [k d|k d|k d f|k|k f]; cbn [p_after_load]; rewrite EM;
      cbn [pop_key] in *.
    1, 2, 3: destruct (w_mark mk curr) eqn:M;
      [|destruct (negb (cprob mc) && (addr + 300 <? rmp i)) eqn:FU].
    all: try addw.
    1, 2, 3: split; [|now apply OW]; cbn; sp; auto; try (now exists n);
      intros CP; rewrite CP in FU; cbn in FU; apply N.ltb_ge in FU; auto.
    + split; [exact Logic.I|]. intros a. unfold owns. cbn. split; intros (X & _); discriminate.
    + assert (Y : pthr_ok hp t (QUpdate k f) (if w_mark mk curr then wrap_update c RC_INVALID (OutIs RInvalid)
                else wrap_update c RC_NOT_FOUND (OutIs RAbsent))).
      { unfold wrap_update. change (RC_INVALID =? RC_INVALID) with true.
        change (RC_NOT_FOUND =? RC_INVALID) with false.
        destruct (w_mark mk curr) eqn:M; destruct (pgrow c) eqn:G; cbn; auto.
        split; auto. discriminate. }
      split; auto. intros a. unfold owns. cbn. split; intros (X & _); discriminate.
  - (* in use *)
    destruct (compare_ok hp t (rmp i) curr o I L E NZ) as (r & RC & R1 & R2 & R3).
    destruct o as [k d|k d|k d f|k|k f]; cbn [p_after_load pop_key] in *; rewrite EM, RC.
    1, 2, 3: destruct (w_mark mk curr) eqn:M;
      [|destruct r; [|split; [apply NXT; auto|now apply OW]]].
    all: try addw.
    + split; [|now apply OW]. cbn. auto.
    + destruct r.
      * split; [cbn; auto|]. intros a. unfold owns. cbn. split; intros (X & _); discriminate.
      * split; [apply NXT; auto|]. intros a. unfold owns. cbn. split; intros (X & _); discriminate.
    + assert (Y : pthr_ok hp t (QUpdate k f) (if w_mark mk curr then wrap_update c RC_INVALID (OutIs RInvalid)
                else if r then QUpd w curr else QLoad (i + 1) w)).
      { destruct (w_mark mk curr) eqn:M.
        - unfold wrap_update. change (RC_INVALID =? RC_INVALID) with true. destruct (pgrow c) eqn:G; cbn; auto. split; auto. discriminate.
        - destruct r; [cbn; auto|apply NXT; auto]. }
      split; auto. intros a. unfold owns. cbn. split; intros (X & _); discriminate.
Qed.

End Table.
End Inv.
