(** Several threads using a growing table: counting used cells. *)
From Coq Require Import NArith ZArith Bool List Lia.
From Verif Require Import Words Slot SlotFacts Mapper MapperFacts ReturnCode MapSpec LinSpec
  Base BaseInv BaseLin BaseExec BaseSolo TableSpec BaseFacts Migrate MigrateGeo MigrateInv GrowSpec MigrateRun MigrateHelp
  MigrateDone GrowFacts Seq SeqFacts Growing GrowingSpec GrowingInv GrowingFacts GrowingSolo GrowingRoom
  Count GrowOom OneHandle OneHandleFacts Crowd CrowdSpec CrowdFacts.
Import ListNotations.
Open Scope N_scope.

(** *** Sums over threads *)
Fixpoint nsum (f : N -> Z) (k : nat) : Z := match k with O => 0%Z | S k => (nsum f k + f (N.of_nat k))%Z end.

Lemma nsum_ext f g k : (forall t, t < N.of_nat k -> g t = f t) -> nsum g k = nsum f k.
Proof. induction k as [|k IH]; intros H; cbn [nsum]; auto. rewrite IH, H by (intros; try apply H; lia). reflexivity. Qed.

Lemma nsum_one f g t k : t < N.of_nat k -> (forall t', t' <> t -> g t' = f t') -> nsum g k = (nsum f k - f t + g t)%Z.
Proof.
  intros L H. induction k as [|k IH]; [lia|]. cbn [nsum]. destruct (N.eq_dec t (N.of_nat k)) as [->|NE].
  - rewrite (nsum_ext f g k) by (intros; apply H; lia). lia.
  - rewrite IH by lia. rewrite (H (N.of_nat k)) by lia. lia.
Qed.

Lemma nsum_bound f b k : (forall t, t < N.of_nat k -> (0 <= f t <= b)%Z) -> (0 <= nsum f k <= b * Z.of_nat k)%Z.
Proof.
  induction k as [|k IH]; intros H; [cbn; lia|]. cbn [nsum].
  assert (0 <= nsum f k <= b * Z.of_nat k)%Z by (apply IH; intros; apply H; lia). specialize (H (N.of_nat k) ltac:(lia)). lia.
Qed.

Lemma nsum_plus f g k : nsum (fun t => (f t + g t)%Z) k = (nsum f k + nsum g k)%Z.
Proof. induction k as [|k IH]; cbn [nsum]; lia. Qed.

Section Cells.
Context (c : tcfg) (m : mapper) (lg : N).
Context (Hsc : wf_scfg (tsc c)) (Hm : wf_mapper (tmc c) m lg).
Notation sc := (tsc c).
Notation mc := (tmc c).
Notation rmp := (remap mc m).
Notation tot := (total_slots mc m).

(** A tombstone, marked or not. *)
Definition tmm (s : slot) : bool := get_key sc s =? ddummy sc.

Lemma cnt_any t ct mk : tinv c m t ct mk ->
  cnt (usd c) t tot = length (filter (usedb ct) (nrange 0 (N.to_nat tot))) /\
  cnt tmm t tot = length (filter (tombb ct) (nrange 0 (N.to_nat tot))).
Proof.
  intros I. unfold cnt. split; f_equal; apply filter_ext_in; intros p Hp; apply in_nrange in Hp;
    destruct (ti_cell _ _ _ _ _ I p ltac:(lia)) as [E O]; unfold at_cell; rewrite E.
  - unfold usd, usedb. rewrite (enc_is_empty sc Hsc) by exact O. now destruct (ct p).
  - unfold tmm, tombb. rewrite (enc_get_key sc Hsc) by exact O. destruct (ct p) as [| |k d]; cbn.
    + pose proof (mbit_pos sc Hsc). apply N.eqb_neq. unfold ddummy. lia.
    + apply N.eqb_refl.
    + destruct O as [_ (_ & _ & V & _)]. apply N.eqb_neq. exact V.
Qed.

Lemma room_any t ct mk : tinv c m t ct mk -> N.of_nat (cnt (usd c) t tot) < tot -> exists p, vacant sc tot t p.
Proof.
  intros I L. destruct (cnt_any t ct mk I) as [E _]. rewrite E in L.
  destruct (existsb (fun p => negb (usedb ct p)) (nrange 0 (N.to_nat tot))) eqn:X.
  - apply existsb_exists in X. destruct X as (p & Hp & U). apply in_nrange in Hp. exists p. split; [lia|].
    destruct (ti_cell _ _ _ _ _ I p ltac:(lia)) as [EE O]. eexists. split; [exact EE|].
    assert (Q : ct p = CEmpty) by (unfold usedb in U; now destruct (ct p)). rewrite Q in *. unfold word_is. destruct (mk p) eqn:MK.
    + right. split; [now apply O|]. reflexivity.
    + now left.
  - exfalso. assert (A : filter (usedb ct) (nrange 0 (N.to_nat tot)) = nrange 0 (N.to_nat tot)).
    { revert X. generalize (nrange 0 (N.to_nat tot)). induction l as [|p l IH]; cbn; auto. intros X.
      apply orb_false_iff in X. destruct X as [X1 X2]. apply negb_false_iff in X1. rewrite X1, IH; auto. }
    rewrite A, nrange_length in L. lia.
Qed.

Definition shape (o : op) (pc : bpc) : Prop :=
  match pc with
  | PCas i s => is_empty sc s = true /\ inserting o
  | PUpd i s => updating o
  | PDel i s => erasing o
  | PDone r => gobs o r <> RErased
  | _ => True
  end.

Lemma bstep_counts b o t pc t' pc' : valid_key sc (op_key o) -> ~ erasing o -> shape o pc -> (forall r, pc <> PDone r) ->
  bstep c m t b o pc = (t', pc') ->
  shape o pc' /\ cnt tmm t' tot = cnt tmm t tot /\
  ((exists r, pc' = PDone r /\ retries o r = false /\ gobs o r = RInserted /\ cnt (usd c) t' tot = S (cnt (usd c) t tot)) \/
   (cnt (usd c) t' tot = cnt (usd c) t tot /\ forall r, pc' = PDone r -> gobs o r <> RInserted)).
Proof.
  intros V NE SH ND ST. destruct pc as [i|i s|i s|i s|r|].
  - cbn [bstep] in ST. destruct (rd c m t (rmp i)) as [s|] eqn:R; injection ST as <- <-.
    2: { sp; auto. right. split; auto. discriminate. }
    split; [|split; [reflexivity|right; split; [reflexivity|]]].
    + unfold after_load. destruct o; cbn [op_key] in *;
        repeat match goal with |- context [if ?b then _ else _] => destruct b eqn:? end; cbn; auto; discriminate.
    + intros r E. unfold after_load in E. destruct o; cbn [op_key] in *;
        repeat match type of E with context [if ?b then _ else _] => destruct b eqn:? end; try discriminate E; injection E as <-;
        cbn; discriminate || (intros X; discriminate).
  - destruct SH as (E & IN). cbn [bstep] in ST. destruct (rd c m t (rmp i)) as [s0|] eqn:R.
    2: { injection ST as <- <-. split; [exact Logic.I|]. split; [reflexivity|]. right. split; [reflexivity|discriminate]. }
    assert (L : rmp i < tot) by (unfold rd in R; destruct (N.ltb_spec (rmp i) tot); [auto|discriminate]).
    pose proof (rd_mem _ _ _ _ _ R) as R'. unfold cas in ST.
    destruct (slot_eqb s0 s) eqn:SE; injection ST as <- <-.
    + apply slot_eqb_eq in SE. subst s0. destruct (op_slot_counts c o V IN) as [A1 A2]. destruct (empty_counts c Hsc s E) as [B1 B2].
      split; [destruct o; try contradiction; discriminate|]. split; [|left; eexists; split; [reflexivity|]].
      * apply (cnt_same _ _ _ _ s); auto.
        assert (X1 : tmm (op_slot o) = false).
        { unfold tmm, get_key. apply N.eqb_neq. destruct V as (V1 & V2 & V3 & V4).
          assert (EK : skey (op_slot o) = op_key o) by (destruct o; try contradiction; reflexivity). rewrite EK.
          destruct (sc_mark sc) eqn:M; [|exact V3]. rewrite (land_bmask sc). rewrite N.mod_small; [exact V3|]. now apply V4. }
        rewrite X1. symmetry. unfold tmm, get_key. apply N.eqb_neq. unfold is_empty in E. apply N.eqb_eq in E.
        pose proof (mbit_pos sc Hsc). destruct (sc_mark sc); [rewrite E; unfold ddummy; lia|].
        intros X. rewrite X, (land_bmask sc) in E. unfold ddummy in E. rewrite N.mod_small in E by lia. lia.
      * split; [destruct o; try contradiction; reflexivity|]. split; [destruct o; try contradiction; reflexivity|].
        pose proof (cnt_upd (usd c) t tot (rmp i) s (op_slot o) L R') as X. rewrite A1, B1 in X. cbn [b2n] in X. lia.
    + split; [exact Logic.I|]. split; [apply (cnt_same _ _ _ _ s0); auto|]. right. split; [apply (cnt_same _ _ _ _ s0); auto|discriminate].
  - cbn [bstep] in ST. cbn [shape] in SH. destruct (rd c m t (rmp i)) as [s0|] eqn:R.
    2: { injection ST as <- <-. split; [exact Logic.I|]. split; [reflexivity|]. right. split; [reflexivity|discriminate]. }
    assert (L : rmp i < tot) by (unfold rd in R; destruct (N.ltb_spec (rmp i) tot); [auto|discriminate]).
    pose proof (rd_mem _ _ _ _ _ R) as R'.
    destruct (atomic_update sc s0 s (op_fun o)) as [[rs ok] s1] eqn:AU.
    assert (SK : skey s1 = skey s0).
    { unfold atomic_update, cas in AU. destruct (sc_mark sc).
      - destruct (slot_eqb s0 s) eqn:SE; injection AU as _ _ <-; [apply slot_eqb_eq in SE; now subst|reflexivity].
      - destruct (fat (op_fun o)) as [f|]; [destruct (f (sdata s0)); injection AU as _ _ <-; reflexivity|].
        destruct (sdata s0 =? sdata s); injection AU as _ _ <-; reflexivity. }
    injection ST as <- <-.
    assert (C1 : cnt tmm (fupd t (rmp i) (Some s1)) tot = cnt tmm t tot).
    { apply (cnt_same _ _ _ _ s0); auto. unfold tmm, get_key. now rewrite SK. }
    assert (C2 : cnt (usd c) (fupd t (rmp i) (Some s1)) tot = cnt (usd c) t tot).
    { apply (cnt_same _ _ _ _ s0); auto. unfold usd, is_empty. now rewrite SK. }
    destruct ok; [|destruct o; try contradiction; [| |]].
    + split; [destruct o; try contradiction; discriminate|]. split; [exact C1|]. right. split; auto. intros r [= <-]. destruct o; try contradiction; discriminate.
    + sp; auto; try exact Logic.I. right. split; auto. discriminate.
    + destruct b; (split; [cbn; auto; discriminate|split; [exact C1|right; split; [exact C2|]]]); [discriminate|]. intros r [= <-]. discriminate.
    + sp; auto; try exact Logic.I. right. split; auto. discriminate.
  - now elim NE.
  - now elim (ND r).
  - cbn in ST. injection ST as <- <-. split; [exact Logic.I|]. split; [reflexivity|]. right. split; [reflexivity|discriminate].
Qed.

End Cells.

Lemma fl_65b lg : 9 <= lg <= 32 -> (fl lg mod 65 <> 0)%Z.
Proof.
  intros [L1 L2]. destruct (N.eq_dec lg 32) as [->|NE]; [vm_compute; discriminate|]. apply fl_65. lia.
Qed.


(** What a call contributes that has inserted but has not been counted; whether a call is running. *)
Definition fin1 (x : option (op * gpc)) : Z :=
  match x with
  | Some (o, GRun _ (PDone r)) => if retries o r then 0%Z else match gobs o r with RInserted => 1%Z | _ => 0%Z end
  | _ => 0%Z
  end.
Definition act1 (x : option (op * gpc)) : Z :=
  match x with Some (_, GRun _ pc) => if running pc then 1%Z else 0%Z | _ => 0%Z end.

(** Insertions of a thread that are in the table but not in _elements. *)
Definition own1 (x : option (op * gpc)) (q : kph) (y : Z * Z * Z) : Z :=
  match q with
  | KCall => snd (fst y) + fin1 x
  | KWant _ true | KIn _ true => 0
  | _ => snd (fst y)
  end.

Definition lok (q : kph) (y : Z * Z * Z) : Prop :=
  match q with
  | KWant _ true | KIn _ true => True
  | _ => let '(m, i, x) := y in (m = i /\ x = 0 /\ 0 <= i <= 64)%Z
  end.

Lemma fin1_bound x : (0 <= fin1 x <= 1)%Z.
Proof. unfold fin1. destruct x as [[o [|u [| | | |r|]]]|]; try lia. destruct (retries o r); [lia|]. destruct (gobs o r); lia. Qed.
Lemma act1_bound x : (0 <= act1 x <= 1)%Z.
Proof. unfold act1. destruct x as [[o [|u pc]]|]; try lia. destruct (running pc); lia. Qed.
Lemma fin_act x : (fin1 x + act1 x <= 1)%Z.
Proof. unfold fin1, act1. destruct x as [[o [|u [| | | |r|]]]|]; cbn [running]; try lia. destruct (retries o r); [lia|]. destruct (gobs o r); lia. Qed.

Section Count.
Context (c : tcfg) (B n : N) (client : op -> Prop).
Context (Hsc : wf_scfg (tsc c)) (CO : client_ok (tsc c) client) (NE : forall o, client o -> ~ erasing o).
Context (CP : cprob (tmc c) = true) (HB : 0 < B <= 2 ^ 31).
Notation sc := (tsc c).
Notation mc := (tmc c).

Definition owns (th : N -> option (op * gpc)) (p : N -> kph) (l : N -> Z * Z * Z) : Z :=
  nsum (fun t => own1 (th t) (p t) (l t)) (N.to_nat n).
Definition acts (th : N -> option (op * gpc)) : Z := nsum (fun t => act1 (th t)) (N.to_nat n).

Lemma owns_upd th p l th' p' l' t : t < n -> (forall t', t' <> t -> th' t' = th t' /\ p' t' = p t' /\ l' t' = l t') ->
  owns th' p' l' = (owns th p l - own1 (th t) (p t) (l t) + own1 (th' t) (p' t) (l' t))%Z /\
  acts th' = (acts th - act1 (th t) + act1 (th' t))%Z.
Proof.
  intros L H. split.
  - unfold owns. apply (nsum_one (fun t => own1 (th t) (p t) (l t)) (fun t => own1 (th' t) (p' t) (l' t)) t); [lia|].
    intros t' N0. destruct (H t' N0) as (-> & -> & ->). reflexivity.
  - unfold acts. apply (nsum_one (fun t => act1 (th t)) (fun t => act1 (th' t)) t); [lia|].
    intros t' N0. destruct (H t' N0) as (-> & _). reflexivity.
Qed.

Lemma owns_bound th p l : (forall t, t < n -> lok (p t) (l t)) -> (0 <= owns th p l <= 65 * Z.of_N n)%Z.
Proof.
  intros H. unfold owns. replace (Z.of_N n) with (Z.of_nat (N.to_nat n)) by lia. apply nsum_bound. intros t L.
  specialize (H t ltac:(lia)). pose proof (fin1_bound (th t)). unfold own1, lok in *.
  destruct (p t) as [|u [|]|u [|]]; destruct (l t) as [[m i] x]; cbn [fst snd] in *; lia.
Qed.
Lemma acts_bound th : (0 <= acts th <= Z.of_N n)%Z.
Proof.
  unfold acts. replace (Z.of_N n) with (1 * Z.of_nat (N.to_nat n))%Z by lia. apply nsum_bound. intros t L. apply act1_bound.
Qed.
Lemma both_bound th p l : (forall t, t < n -> lok (p t) (l t)) -> (0 <= owns th p l + acts th <= 65 * Z.of_N n)%Z.
Proof.
  intros H. unfold owns, acts. rewrite <- nsum_plus. replace (Z.of_N n) with (Z.of_nat (N.to_nat n)) by lia. apply nsum_bound. intros t L.
  specialize (H t ltac:(lia)). pose proof (fin1_bound (th t)). pose proof (act1_bound (th t)). pose proof (fin_act (th t)).
  unfold own1, lok in *. destruct (p t) as [|u [|]|u [|]]; destruct (l t) as [[m i] x]; cbn [fst snd] in *; lia.
Qed.

Definition used (mp : N -> mapper) (me : N -> mem) (v : N) : Z := Z.of_nat (cnt (usd c) (me v) (total_slots mc (mp v))).

(** The counting invariant; [lg]: size of the published table. *)
Definition cinv (s : ksys) : Prop :=
  let '(KSys (GSys v mp me mg th) e d l p) := s in
  exists lg, wf_mapper mc (mp v) lg /\ 9 <= lg <= 32 /\ (217 * Z.of_N n <= 2 ^ Z.of_N lg)%Z /\
    (d = 0 /\ e mod 65 = 0 /\ 0 <= e)%Z /\
    (forall t, t < n -> lok (p t) (l t)) /\
    used mp me v = (e + owns th p l)%Z /\ cnt (tmm c) (me v) (total_slots mc (mp v)) = 0%nat /\
    (used mp me v + acts th <= fl lg + 65 * Z.of_N n)%Z /\
    (forall t o g, th t = Some (o, g) -> client o) /\
    (forall t o u pc, th t = Some (o, GRun u pc) -> shape c o pc /\ (running pc = true -> u = v)) /\
    match mg with
    | None => (e < fl lg)%Z \/ exists t w, t < n /\ p t = KWant v w
    | Some _ => mp (v + 1) = resize mc (mp v) (as_size e) (as_size d)
    end.

Lemma wf_inj m lg1 lg2 : wf_mapper mc m lg1 -> wf_mapper mc m lg2 -> lg1 = lg2.
Proof. intros W1 W2. pose proof (addressable_val _ _ _ W1) as E. rewrite (addressable_val _ _ _ W2) in E. apply N.pow_inj_r in E; lia. Qed.

Lemma cinv_vacant s x : cinv s -> grel c B client (k_g s) x ->
  exists q, vacant sc (total_slots mc (gmap (k_g s) (gver (k_g s)))) (gmem (k_g s) (gver (k_g s))) q.
Proof.
  destruct s as [[v mp me mg th] e d l p].
  intros (lg & W & LG & NL & (D & EM & E0) & LO & US & TM & PB & CL & RN & MP) (ct & mk & ts & CI & _).
  pose proof (cur_tinv c B _ _ _ CI) as I. cbn [k_g gmap gver gmem] in *.
  apply (room_any c (mp v) Hsc (me v) ct mk I). unfold used in *. pose proof (fl_bounds lg (proj1 LG)).
  pose proof (acts_bound th). rewrite (tot_pow c CP _ _ W) in *.
  assert (PZ : Z.of_N (2 ^ lg) = (2 ^ Z.of_N lg)%Z) by (rewrite N2Z.inj_pow; reflexivity). lia.
Qed.

(** The updates of one thread. *)
Ltac at1 th p l t th' p' l' L :=
  let A := fresh "A" in let C := fresh "C" in
  destruct (owns_upd th p l th' p' l' t L) as [A C];
  [intros ? ?; rewrite ?fupd_neq by assumption; auto|repeat rewrite fupd_eq in A; repeat rewrite fupd_eq in C].

Lemma lok_upd (p : N -> kph) (l : N -> Z * Z * Z) t q y : (forall t, t < n -> lok (p t) (l t)) -> lok q y ->
  forall t', t' < n -> lok (fupd p t q t') (fupd l t y t').
Proof. intros H X t' L'. unfold fupd. destruct (t' =? t); auto. Qed.
Lemma lok_upd1 (p : N -> kph) (l : N -> Z * Z * Z) t q : (forall t, t < n -> lok (p t) (l t)) -> lok q (l t) ->
  forall t', t' < n -> lok (fupd p t q t') (l t').
Proof. intros H X t' L'. unfold fupd. destruct (N.eqb_spec t' t); subst; auto. Qed.
Lemma lok_upd2 (p : N -> kph) (l : N -> Z * Z * Z) t y : (forall t, t < n -> lok (p t) (l t)) -> lok (p t) y ->
  forall t', t' < n -> lok (p t') (fupd l t y t').
Proof. intros H X t' L'. unfold fupd. destruct (N.eqb_spec t' t); subst; auto. Qed.

Lemma cl_upd (th : N -> option (op * gpc)) t x : (forall t o g, th t = Some (o, g) -> client o) ->
  (forall o g, x = Some (o, g) -> client o) -> forall t' o g, fupd th t x t' = Some (o, g) -> client o.
Proof. intros H X t' o g. unfold fupd. destruct (t' =? t); eauto. Qed.
Lemma rn_upd (th : N -> option (op * gpc)) t x (Q : op -> N -> bpc -> Prop) : (forall t o u pc, th t = Some (o, GRun u pc) -> Q o u pc) ->
  (forall o u pc, x = Some (o, GRun u pc) -> Q o u pc) -> forall t' o u pc, fupd th t x t' = Some (o, GRun u pc) -> Q o u pc.
Proof. intros H X t' o u pc. unfold fupd. destruct (t' =? t); eauto. Qed.

(** A thread that goes on somewhere else is not the one that is about to grow the table. *)
Lemma want_upd (p : N -> kph) t q v (P : Prop) : (forall w, p t <> KWant v w) ->
  P \/ (exists t w, t < n /\ p t = KWant v w) -> P \/ (exists t' w, t' < n /\ fupd p t q t' = KWant v w).
Proof.
  intros H [X|(t' & w & L & E)]; [now left|]. right. exists t', w. split; auto. rewrite fupd_neq; auto. intros ->. now elim (H w).
Qed.

Lemma cinv_step s x l s' : kwf true n s -> grel c B client (k_g s) x -> cinv s -> closed_step true c B n client s l s' -> cinv s'.
Proof.
  intros (W1 & W2 & W3 & W4) GR I [ST CLO]. specialize (W4 eq_refl).
  assert (OK : forall o, client o -> op_ok sc o) by apply CO.
  destruct ST as [v mp me mg th e d l p t o L T P CLI|v mp me mg th e d l p t o L T P SY
    |v mp me mg th e d l p t o u pc b t' pc' L T P ND ST|v mp me mg th e d l p t o u r L T P R IV
    |v mp me mg th e d l p t o u r L T P R NI|v mp me mg th e d l p t o u r L T P R NI NR
    |v mp me mg th e d l p t o u r m i x0 L T P R G C1 M|v mp me mg th e d l p t o u r m i x0 L T P R G SY C1 M CR
    |v mp me mg th e d l p t o u r m i x0 L T P R G SY C1 M CR|v mp me th e d l p t w L P NO AD
    |v mp me mg th e d l p t u w L P NV|v mp me k h th e d l p t o S0 L T P|v mp me k h th e d l p t u w L P H
    |v mp me k h th e d l p t pc s' t' k' pc' L H NH ST|v mp me k h th e d l p EX AL
    |v mp me mg th e d l p t o u L P LT T|v mp me mg th e d l p t o g r u L P LT T|v mp me mg th e d l p t o g u r L P LT T];
    cbn [k_g k_ph k_el k_du k_loc gthr gmig gver gmap gmem] in *;
    destruct I as (lg & W & LG & NL & (D & EM & E0) & LO & US & TM & PB & CL & RN & MP);
    try (pose proof (LO t L) as LT0; rewrite P in LT0).
  - (* inv *) at1 th p l t (fupd th t (Some (o, GGet))) p l L. rewrite T, P in *. cbn [own1 act1 fin1] in *.
    exists lg. sp; auto; try lia; [apply cl_upd; auto; congruence|apply rn_upd; auto; congruence].
  - (* get *) at1 th p l t (fupd th t (Some (o, GRun v (start c (mp v) o)))) p l L. rewrite T, P in *. cbn [own1 act1 fin1 start running] in *.
    assert (NW : ~ wanted n (KSys (GSys v mp me mg th) e d l p)).
    { eapply (CLO t o); eauto. now rewrite fupd_eq. }
    rewrite (SY eq_refl) in *. destruct MP as [EF|WW]; [|now elim NW].
    pose proof (both_bound (fupd th t (Some (o, GRun v (start c (mp v) o)))) p l LO) as BB. cbn [start] in BB.
    exists lg. sp; auto; try lia; try (cbn [start]; lia); [apply cl_upd; auto; intros ? ? [= <- _]; eauto|].
    apply rn_upd; auto. intros o' u' pc' [= <- <- <-]. split; [exact Logic.I|auto].
  - (* run *) destruct (RN _ _ _ _ T) as [SH EU]. assert (RU : running pc = true) by (now apply running_nd). specialize (EU RU). subst u.
    pose proof (CL _ _ _ T) as CLI.
    destruct (bstep_counts c (mp v) Hsc b o (me v) pc t' pc' (proj1 (OK o CLI)) (NE o CLI) SH ND ST) as (SH' & TM' & CC).
    at1 th p l t (fupd th t (Some (o, GRun v pc'))) p l L. rewrite T, P in *. cbn [own1 act1] in *. rewrite RU in *.
    assert (F0 : fin1 (Some (o, GRun v pc)) = 0%Z) by (destruct pc; try discriminate; reflexivity). rewrite F0 in *.
    unfold used in *.
    pose proof (act1_bound (Some (o, GRun v pc'))) as AB. cbn [act1] in AB.
    exists lg. unfold used. rewrite !fupd_eq. destruct CC as [(r & -> & NR & GI & CU)|[CU NI]].
    + assert (F1 : fin1 (Some (o, GRun v (PDone r))) = 1%Z) by (cbn; now rewrite NR, GI). rewrite F1 in *. cbn [running] in *.
      sp; auto; try lia; [apply cl_upd; auto; intros ? ? [= <- _]; eauto|apply rn_upd; auto; intros ? ? ? [= <- <- <-]; auto].
    + assert (F1 : fin1 (Some (o, GRun v pc')) = 0%Z).
      { destruct pc' as [| | | |r|]; try reflexivity. cbn. destruct (retries o r); auto. specialize (NI r eq_refl). destruct (gobs o r); congruence. }
      rewrite F1 in *.
      sp; auto; try lia; [apply cl_upd; auto; intros ? ? [= <- _]; eauto|apply rn_upd; auto; intros ? ? ? [= <- <- <-]; auto].
  - (* invalid *) at1 th p l t th (fupd p t (KIn u false)) l L. rewrite T, P in *. cbn [own1 act1 fin1 running] in *. rewrite R in *.
    exists lg. sp; auto; try lia; [apply lok_upd1; auto|]. destruct mg; auto. apply want_upd; auto. congruence.
  - (* full *) at1 th p l t th (fupd p t (KWant u false)) l L. rewrite T, P in *. cbn [own1 act1 fin1 running] in *. rewrite R in *.
    exists lg. sp; auto; try lia; [apply lok_upd1; auto|]. destruct mg; auto. apply want_upd; auto. congruence.
  - (* ret *) at1 th p l t (fupd th t None) p l L. rewrite T, P in *. cbn [own1 act1 fin1 running] in *. rewrite R in *.
    assert (F0 : match gobs o r with RInserted => 1%Z | _ => 0%Z end = 0%Z) by (destruct (gobs o r); congruence). rewrite F0 in *.
    exists lg. sp; auto; try lia; [apply cl_upd; auto; congruence|apply rn_upd; auto; congruence].
  - (* count *) assert (GI : gobs o r = RInserted).
    { destruct G as [G|G]; auto. now elim (proj1 (RN _ _ _ _ T)). }
    destruct (l t) as [[m0 i0] y0] eqn:EL. rewrite GI in C1. cbn [count1] in C1. injection C1 as <- <- <-. cbn [lok] in LT0.
    at1 th p l t (fupd th t None) p (fupd l t (m0 + 1, i0 + 1, y0)%Z) L. rewrite T, P, EL in *. cbn [own1 act1 fin1 running fst snd] in *. rewrite R, GI in *.
    exists lg. sp; auto; try lia; [apply lok_upd2; auto; rewrite P; cbn; lia|apply cl_upd; auto; congruence|apply rn_upd; auto; congruence].
  - (* flush *) assert (GI : gobs o r = RInserted).
    { destruct G as [G|G]; auto. now elim (proj1 (RN _ _ _ _ T)). }
    destruct (l t) as [[m0 i0] y0] eqn:EL. rewrite GI in C1. cbn [count1] in C1. injection C1 as <- <- <-. cbn [lok] in LT0.
    assert (i0 = 64 /\ y0 = 0)%Z as [-> ->] by lia.
    at1 th p l t (fupd th t None) p (fupd l t (0, 0, 0)%Z) L. rewrite T, P, EL in *. cbn [own1 act1 fin1 running fst snd] in *. rewrite R, GI in *.
    assert (EM' : ((e + 65) mod 65 = 0)%Z) by (replace (e + 65)%Z with (e + 1 * 65)%Z by lia; rewrite Z.mod_add by lia; exact EM).
    exists lg. change (64 + 1)%Z with 65%Z in *.
    sp; auto; try lia; [apply lok_upd2; auto; rewrite P; cbn; lia|apply cl_upd; auto; congruence|apply rn_upd; auto; congruence|].
    rewrite (SY eq_refl) in *. unfold crosses in CR. unfold thresh in CR. rewrite (tot_pow c CP _ _ W) in CR. fold (fl lg) in CR.
    destruct MP as [EF|WW]; [left|now right].
    assert (e + 65 <> fl lg)%Z. { intros X. apply (fl_65b lg LG). now rewrite <- X. }
    destruct (Z.ltb_spec (fl lg) (e + 65)); [|lia]. destruct (Z.ltb_spec e (fl lg)); [discriminate|lia].
  - (* cross *) assert (GI : gobs o r = RInserted).
    { destruct G as [G|G]; auto. now elim (proj1 (RN _ _ _ _ T)). }
    destruct (l t) as [[m0 i0] y0] eqn:EL. rewrite GI in C1. cbn [count1] in C1. injection C1 as <- <- <-. cbn [lok] in LT0.
    assert (i0 = 64 /\ y0 = 0)%Z as [-> ->] by lia.
    at1 th p l t th (fupd p t (KWant v true)) (fupd l t (0, 64 + 1, 0)%Z) L. rewrite T, P, EL in *. cbn [own1 act1 fin1 running fst snd] in *. rewrite R, GI in *.
    assert (EM' : ((e + 65) mod 65 = 0)%Z) by (replace (e + 65)%Z with (e + 1 * 65)%Z by lia; rewrite Z.mod_add by lia; exact EM).
    exists lg. change (64 + 1)%Z with 65%Z in *. sp; auto; try lia; [apply lok_upd; cbn; auto|].
    rewrite (SY eq_refl) in *. right. exists t, true. split; auto. apply fupd_eq.
  - (* start *) at1 th p l t th (fupd p t (KIn v w)) l L. rewrite P in *.
    assert (OW : forall y, own1 (th t) (KIn v w) y = own1 (th t) (KWant v w) y) by (intros y; destruct w; reflexivity). rewrite OW in *.
    unfold begin_grow. exists lg. unfold used in *. rewrite !fupd_neq by lia. rewrite !fupd_eq.
    sp; auto; try lia. apply lok_upd1; auto; destruct w; exact LT0.
  - (* late *) at1 th p l t th (fupd p t (KIn u w)) l L. rewrite P in *.
    assert (OW : forall y, own1 (th t) (KIn u w) y = own1 (th t) (KWant u w) y) by (intros y; destruct w; reflexivity). rewrite OW in *.
    exists lg. sp; auto; try lia; [apply lok_upd1; auto; destruct w; exact LT0|]. destruct mg; auto. destruct NV as [NV|NV]; [|congruence].
    apply want_upd; auto. congruence.
  - (* wait *) at1 th p l t th (fupd p t (KIn v false)) l L. rewrite T, P in *. cbn [own1 act1 fin1] in *.
    exists lg. sp; auto; try lia. apply lok_upd1; auto.
  - (* join *) exists lg. sp; auto; lia.
  - (* help *) destruct GR as (ct & mk & ts & CI & _). cbn [k_g] in CI. destruct CI as (lg' & W' & CI). cbn [gver gmap gmem gmig] in *.
    destruct CI as (LG' & g & tct & rg & hb & MG & S & EI). rewrite <- (wf_inj _ _ _ W W') in *. clear W'. destruct HB as [HB0 HB1].
    destruct (hstep_inv c _ _ lg g B MG Hsc HB0 _ _ _ _ _ _ _ _ _ S t pc s' t' k' pc' LG' HB1 H ST) as (mk' & tct' & rg' & hb' & S' & _).
    destruct (cnt_any c (mp v) Hsc _ _ _ (g_src (s_glob S))) as [A1 A2].
    destruct (cnt_any c (mp v) Hsc _ _ _ (g_src (s_glob S'))) as [A3 A4].
    exists lg. unfold used in *. rewrite !(fupd_neq (fupd me v s') (v + 1) t' v) by lia. rewrite fupd_eq. rewrite A3, A4, <- A1, <- A2. sp; auto; lia.
  - (* publish *) destruct GR as (ct & mk & ts & CI & _). cbn [k_g] in CI.
    pose proof (cur_tinv c B _ _ _ CI) as TI0. cbn [gver gmap gmem] in TI0.
    destruct CI as (lg' & W' & CI). cbn [gver gmap gmem gmig] in *.
    destruct CI as (LG' & g & tct & rg & hb & MG & S & EI). rewrite <- (wf_inj _ _ _ W W') in *. clear W'. destruct HB as [HB0 HB1].
    destruct EX as (t & Lt & Et).
    assert (CTR : 2 ^ lg <= k) by (eapply EI; eauto).
    assert (FIN : forall tid pc, h tid = Some pc -> pc = HEnd \/ pc = HClaim).
    { intros tid pc E. destruct (N.lt_ge_cases tid n) as [L'|L']; [|now rewrite (W2 tid k h L' eq_refl) in E]. left. eauto. }
    pose proof (fl_bounds lg (proj1 LG)) as FB. pose proof (tot_pow c CP _ _ W) as ET.
    assert (PZ : Z.of_N (2 ^ lg) = (2 ^ Z.of_N lg)%Z) by (rewrite N2Z.inj_pow; reflexivity).
    pose proof (acts_bound th) as AB. pose proof (owns_bound th p l LO) as OB.
    assert (GAP : cprob mc = true -> exists q, q < total_slots mc (mp v) /\ ct q = CEmpty).
    { intros _. destruct (room_any c (mp v) Hsc (me v) ct mk TI0) as [q V]; [unfold used in *; rewrite ET in *; lia|].
      exists q. eapply vacant_content; eauto. }
    pose proof (done_tinv c _ _ lg g B MG Hsc HB0 _ _ _ _ _ _ _ _ _ S CTR FIN GAP) as TI.
    pose proof (fun k d => done_same c _ _ lg g B MG Hsc HB0 _ _ _ _ _ _ _ _ _ S CTR FIN GAP k d) as DS.
    pose proof (fun q => done_no_tomb c _ _ lg g B MG Hsc HB0 _ _ _ _ _ _ _ _ _ S CTR FIN GAP q) as NT.
    pose proof (mg_g _ _ _ _ _ MG) as GG. pose proof (mg_tgt _ _ _ _ _ MG) as WT.
    destruct (cnt_any c _ Hsc _ _ _ TI) as [C1 C2]. destruct (cnt_any c (mp v) Hsc _ _ _ TI0) as [C3 C4].
    assert (TC : length (filter (tombb tct) (nrange 0 (N.to_nat (total_slots mc (mp (v + 1)))))) = 0%nat).
    { destruct (filter (tombb tct) _) as [|q l0] eqn:X; auto. exfalso.
      assert (In q (filter (tombb tct) (nrange 0 (N.to_nat (total_slots mc (mp (v + 1))))))) as HI by (rewrite X; now left).
      apply filter_In in HI. destruct HI as [HI1 HI2]. apply in_nrange in HI1. apply (NT q); [lia|]. unfold tombb in HI2. now destruct (tct q). }
    assert (UE : used mp me (v + 1) = used mp me v).
    { unfold used. rewrite C1, C3, !used_split, TC. rewrite TM in C4. rewrite <- C4.
      assert (X1 := live_le c (mp v) lg (mp (v + 1)) (me v) ct _ tct W TI0 (fun k d => proj1 (DS k d))).
      assert (X2 := live_le c (mp (v + 1)) (lg + g) (mp v) _ tct _ ct WT TI (fun k d => proj2 (DS k d))). lia. }
    assert (P31 : (2 ^ Z.of_N lg <= 2147483648)%Z).
    { change 2147483648%Z with (2 ^ 31)%Z. apply Z.pow_le_mono_r; lia. }
    assert (D1 : (0 <= e < 2 ^ 60)%Z). { change (2 ^ 60)%Z with 1152921504606846976%Z. lia. }
    assert (D2 : (0 <= d < 2 ^ 60)%Z). { change (2 ^ 60)%Z with 1152921504606846976%Z. lia. }
    pose proof WT as WT2. rewrite MP in WT2. pose proof (resize_lg c (mp v) lg g e d LG' W WT2 D1 D2) as RG.
    assert (FL2 : (e < fl (lg + g))%Z).
    { pose proof (fl_bounds (lg + g) ltac:(lia)) as FB2. unfold fill_above in RG.
      destruct (Z.ltb_spec e d) as [G0|G0]; cbn [orb] in RG; [lia|].
      destruct (N.ltb_spec (5404319552844595 * 2 ^ lg) (Z.to_N (e - d) * 2 ^ 54)) as [G|G]; subst g.
      - rewrite N2Z.inj_add, Z.pow_add_r in FB2 by lia. change (2 ^ Z.of_N 1)%Z with 2%Z in FB2. lia.
      - rewrite N.add_0_r in *. change (2 ^ 54) with 18014398509481984 in G. lia. }
    assert (PW : (2 ^ Z.of_N lg <= 2 ^ Z.of_N (lg + g))%Z) by (apply Z.pow_le_mono_r; lia).
    pose proof (both_bound th p l LO) as BB.
    exists (lg + g). subst d. rewrite Z.sub_0_r. rewrite UE, C2, TC. sp; auto; try lia.
    intros t0 o u pc T. destruct (RN _ _ _ _ T) as [R1 R2]. split; auto. intros RU.
    destruct (W4 ltac:(discriminate) t0 o u pc T) as [r ->]. discriminate.
  - (* waited *) at1 th p l t th (fupd p t KCall) l L. rewrite T, P in *. cbn [own1 act1 fin1] in *.
    exists lg. sp; auto; try lia; [apply lok_upd1; auto|]. destruct mg; auto. apply want_upd; auto. congruence.
  - (* again *) at1 th p l t (fupd th t (Some (o, GGet))) (fupd p t KCall) l L. rewrite T, P in *. cbn [own1 act1 fin1 running] in *.
    exists lg. sp; auto; try lia; [apply lok_upd1; auto|apply cl_upd; auto; intros ? ? [= <- _]; eauto|apply rn_upd; auto; congruence|].
    destruct mg; auto. apply want_upd; auto. congruence.
  - (* done *) at1 th p l t (fupd th t None) (fupd p t KCall) (fupd l t (0, 0, 0)%Z) L. rewrite T, P in *. cbn [own1 act1 fin1 running fst snd] in *.
    exists lg. sp; auto; try lia; [apply lok_upd; auto; cbn; lia|apply cl_upd; auto; congruence|apply rn_upd; auto; congruence|].
    destruct mg; auto. apply want_upd; auto. congruence.
Qed.

Lemma cinv_init lg : 9 <= lg <= 32 -> (217 * Z.of_N n <= 2 ^ Z.of_N lg)%Z -> cinv (ksys_init c lg).
Proof.
  intros LG NL. pose proof (wf_mk mc lg 0 ltac:(lia)) as W. pose proof (fresh_tinv c _ lg Hsc W) as I.
  pose proof (fl_bounds lg (proj1 LG)).
  assert (F : forall (f : N -> bool) l, (forall p, f p = false) -> filter f l = []).
  { intros f l X. induction l as [|p l IH]; cbn; auto. now rewrite X. }
  assert (Z0 : forall f k, (forall t, f t = 0%Z) -> nsum f k = 0%Z).
  { intros f k X. induction k as [|k IH]; cbn [nsum]; auto. rewrite IH, X. reflexivity. }
  exists lg. unfold used, owns, acts. destruct (cnt_any c _ Hsc _ _ _ I) as [C1 C2]. rewrite C1, C2, !F, !Z0 by reflexivity. cbn [length].
  sp; auto; try lia; try (intros; discriminate). intros t Lt. cbn. lia.
Qed.

Lemma closed_roomy s x l s' : kwf true n s -> grel c B client (k_g s) x -> cinv s -> closed_step true c B n client s l s' ->
  roomy_step true c B n client s l s'.
Proof.
  intros K GR I [ST _]. split; auto. split; [|discriminate]. intros _ V.
  eapply cinv_vacant; eauto.
Qed.

Lemma closed_steps s x tr s' : kwf true n s -> grel c B client (k_g s) x -> cinv s ->
  lts_steps (closed_step true c B n client) s tr s' -> lts_steps (roomy_step true c B n client) s tr s' /\ cinv s'.
Proof.
  intros K GR I ST. revert x K GR I.
  induction ST as [s|s s1 s2 tr S ST IH|s e s1 s2 tr S ST IH]; intros x K GR I; [split; [constructor|auto]| |];
    pose proof (closed_roomy _ _ _ _ K GR I S) as RS; pose proof (cinv_step _ _ _ _ K GR I S) as I1.
  - assert (ONE : lts_steps (roomy_step true c B n client) s [] s1) by (eapply ls_tau; [exact RS|constructor]).
    destruct (roomy_sim true c B n client Hsc CO (or_intror CP) HB _ _ _ _ K ltac:(discriminate) GR ONE) as (x1 & _ & R1 & K1).
    destruct (IH _ K1 R1 I1) as [A1 A2]. split; auto. eapply ls_tau; eauto.
  - assert (ONE : lts_steps (roomy_step true c B n client) s [e] s1) by (eapply ls_vis; [exact RS|constructor]).
    destruct (roomy_sim true c B n client Hsc CO (or_intror CP) HB _ _ _ _ K ltac:(discriminate) GR ONE) as (x1 & _ & R1 & K1).
    destruct (IH _ K1 R1 I1) as [A1 A2]. split; auto. eapply ls_vis; eauto.
Qed.

End Count.
