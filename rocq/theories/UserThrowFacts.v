(** Functions that throw: the simulation of the atomic map. *)
From Coq Require Import NArith Bool List Lia.
From Verif Require Import Words Slot SlotFacts Mapper MapperFacts ReturnCode MapSpec LinSpec Base BaseInv BaseLin
  TableSpec BaseFacts Migrate Frozen Growing GrowingSpec GrowingInv GrowingFacts PtrFacts UserThrow UserThrowSpec.
Import ListNotations.
Open Scope N_scope.

Local Ltac sp := repeat match goal with |- _ /\ _ => split end.

Lemma drop_steps late {St} (spec : St -> mop -> St -> mres -> Prop) x tr x' :
  asteps spec x tr x' -> lts_steps (dropping late spec) x (map UCall tr) x'.
Proof.
  induction 1 as [x|x y z tr S ST IH|x e y z tr S ST IH]; cbn [map].
  - constructor.
  - eapply ls_tau; [|exact IH]. exact (dr_call late spec _ None _ S).
  - eapply ls_vis; [|exact IH]. exact (dr_call late spec _ (Some e) _ S).
Qed.

(** Whatever simulates the atomic map without exceptions. *)
Lemma throw_sim late {S} (spec : amap -> mop -> amap -> mres -> Prop) (step : S -> option (event mop mres) -> S -> Prop) (throws : S -> N -> S -> Prop) (R : S -> aobj amap mop mres -> Prop) :
  (forall s x e s', R s x -> step s e s' ->
     exists x', asteps spec x (match e with Some e => [e] | None => [] end) x' /\ R s' x') ->
  (forall s x t s', R s x -> throws s t s' ->
     exists x', lts_steps (dropping late spec) x [UThrow t] x' /\ R s' x') ->
  forall s tr s', lts_steps (or_throws step throws) s tr s' -> forall x, R s x ->
  exists x', lts_steps (dropping late spec) x tr x' /\ R s' x'.
Proof.
  intros H1 H2.
  assert (ONE : forall s x e s', R s x -> or_throws step throws s e s' ->
    exists x', lts_steps (dropping late spec) x (match e with Some e => [e] | None => [] end) x' /\ R s' x').
  { intros s x e s' Rx OT. destruct OT as [s e0 s' St|s t s' T]; [|eauto].
    destruct (H1 _ _ _ _ Rx St) as (x' & A & R'). exists x'. split; auto. apply (drop_steps late) in A. destruct e0; exact A. }
  intros s tr s' ST. induction ST as [s|s s1 s2 tr St ST IH|s e s1 s2 tr St ST IH]; intros x Rx.
  - exists x. split; auto. constructor.
  - destruct (ONE _ _ _ _ Rx St) as (x1 & A1 & R1). destruct (IH x1 R1) as (x2 & A2 & R2).
    exists x2. split; auto. change tr with ([] ++ tr). eapply lts_app; eauto.
  - destruct (ONE _ _ _ _ Rx St) as (x1 & A1 & R1). destruct (IH x1 R1) as (x2 & A2 & R2).
    exists x2. split; auto. change (e :: tr) with ([e] ++ tr). eapply lts_app; eauto.
Qed.

(** What an update step reports when it is done. *)
Lemma upd_done c m t b o i curr t' r : in_place (tsc c) o = true -> bstep c m t b o (PUpd i curr) = (t', PDone r) ->
  rcode r = RC_SUCCESS_UP.
Proof.
  unfold in_place. intros IP. apply andb_prop in IP. destruct IP as [NM IP]. cbn [bstep].
  destruct (rd c m t (remap (tmc c) m i)) as [cell|]; [|discriminate].
  unfold atomic_update. destruct (sc_mark (tsc c)); [discriminate|]. destruct (fat (op_fun o)) as [g|]; [|discriminate].
  destruct (g (sdata cell)) as [d' r']. intros [= _ <-]. reflexivity.
Qed.

Lemma upd_takes c m ct o i curr : thr_inv c m ct o (PUpd i curr) -> takes_function (spec_op (tsc c) o) = true.
Proof. intros (n & d & _ & _ & _ & U & _). destruct o; cbn in *; tauto || reflexivity. Qed.

Lemma upd_obs o r : rcode r = RC_SUCCESS_UP -> finding o = false -> obs o r = RUpdated (sdata (rslot r)).
Proof. intros E F. unfold obs. destruct o; try discriminate; rewrite E; reflexivity. Qed.

Lemma upd_client c m ct o i curr : thr_inv c m ct o (PUpd i curr) -> finding o = false.
Proof. intros (n & d & _ & _ & _ & U & _). destruct o; cbn in *; tauto || reflexivity. Qed.

(** Tables of fixed size. *)
Lemma base_throw_rel late c m lg client s x t s' :
  wf_scfg (tsc c) -> wf_mapper (tmc c) m lg -> client_ok (tsc c) client ->
  sys_rel c m client s x -> base_throws late c m s t s' ->
  exists x', lts_steps (dropping late (mspec (sc_mark (tsc c)) (negb (cprob (tmc c))))) x [UThrow t] x' /\ sys_rel c m client s' x'.
Proof.
  intros Hsc W CO R TS.
  assert (GO : forall t0 th tid a ath', sys_rel c m client (BSys t0 th) (AObj a ath') ->
            sys_rel c m client (BSys t0 (fupd th tid None)) (AObj a (fupd ath' tid AIdle))).
  { intros t0 th tid a ath' (ct & mk & I & A & T). exists ct, mk. cbn in *. sp; auto.
    intros u. destruct (N.eq_dec u tid) as [->|NE]; [now rewrite !fupd_eq|]. rewrite !fupd_neq by exact NE. apply T. }
  destruct TS as [t0 th tid o i curr E|t0 th tid o i curr b t' r LA E IP ST].
  - destruct x as [a ath']. exists (AObj a (fupd ath' tid AIdle)). split; [|now apply GO].
    destruct R as (ct & mk & I & A & T). cbn in T. specialize (T tid). rewrite E in T. destruct T as (_ & TI & AT).
    eapply ls_vis; [|apply ls_nil]. eapply dr_before; eauto. eapply upd_takes; eauto.
  - assert (F : finding o = false).
    { destruct R as (ct & mk & I & A & T). cbn in T. specialize (T tid). rewrite E in T. destruct T as (_ & TI & _). eapply upd_client; eauto. }
    assert (S : bsys_step c m client (BSys t0 th) None (BSys t' (fupd th tid (Some (o, PDone r)))))
      by (econstructor; eauto; discriminate).
    destruct (sim c m lg Hsc W client _ _ _ _ CO R S) as ([a ath'] & A1 & R1).
    exists (AObj a (fupd ath' tid AIdle)). split.
    + change [UThrow tid] with (map UCall [] ++ [UThrow tid]). eapply lts_app; [apply drop_steps; exact A1|].
      eapply ls_vis; [|apply ls_nil]. destruct R1 as (ct & mk & I & A & T). cbn in T. specialize (T tid). rewrite fupd_eq in T.
      destruct T as (_ & _ & AT). rewrite (upd_obs o r (upd_done _ _ _ _ _ _ _ _ _ IP ST) F) in AT. eapply dr_after; eauto.
    + apply (GO t' _ tid) in R1. destruct R1 as (ct & mk & I & A & T). exists ct, mk. cbn in *. sp; auto.
      intros u. specialize (T u). unfold fupd in *. destruct (N.eqb u tid); auto.
Qed.

Lemma base_throw_lin late c m lg client tr s :
  wf_scfg (tsc c) -> wf_mapper (tmc c) m lg -> client_ok (tsc c) client ->
  lts_steps (or_throws (bsys_step c m client) (base_throws late c m)) (bsys_init c m) tr s ->
  atomic_but_thrown late (mspec (sc_mark (tsc c)) (negb (cprob (tmc c)))) amap_empty tr.
Proof.
  intros Hsc W CO ST.
  destruct (throw_sim late (mspec (sc_mark (tsc c)) (negb (cprob (tmc c)))) _ _ (sys_rel c m client)
    (fun s x e s' R S => sim c m lg Hsc W client s x e s' CO R S)
    (fun s x t s' R S => base_throw_rel late c m lg client s x t s' Hsc W CO R S) _ _ _ ST _ (init_rel c m lg Hsc W client))
    as (x & A & _). exists x. exact A.
Qed.

(** Growing tables. *)
Section G.
Context (c : tcfg) (B : N) (client : op -> Prop).
Context (Hsc : wf_scfg (tsc c)) (CO : client_ok (tsc c) client).
Context (CF : cmap (tmc c) = false \/ cprob (tmc c) = true) (HB : 0 < B <= 2 ^ 31).
Notation spec := (mspec false false).

Lemma grel_gone s x tid : grel c B client s x ->
  grel c B client (GSys (gver s) (gmap s) (gmem s) (gmig s) (fupd (gthr s) tid None)) (AObj (ast x) (fupd (ath x) tid AIdle)).
Proof. intros (ct & mk & l & CI & A & T & FS). eapply thr_step; eauto. reflexivity. Qed.

Lemma grel_upd s x tid o u i curr : grel c B client s x -> gthr s tid = Some (o, GRun u (PUpd i curr)) ->
  ath x tid = APend (spec_op (tsc c) o) /\ takes_function (spec_op (tsc c) o) = true /\ finding o = false.
Proof.
  intros (ct & mk & l & CI & A & T & FS) E. specialize (T tid). rewrite E in T. destruct T as (CL & [(_ & TI & AT)|(_ & OK)]).
  - sp; auto; [eapply upd_takes; eauto|eapply upd_client; eauto].
  - destruct OK as (_ & lg & ct0 & mk0 & _ & _ & _ & TI & AT).
    pose proof (upd_takes _ _ _ _ _ _ TI) as U. pose proof (upd_client _ _ _ _ _ _ TI) as F. sp; auto. destruct o; try discriminate; auto.
Qed.

Lemma grow_throw_rel late s x t s' :
  (late = true -> exclusive s) -> grel c B client s x -> grow_throws late c s t s' ->
  exists x', lts_steps (dropping late spec) x [UThrow t] x' /\ grel c B client s' x'.
Proof.
  intros EX R TS.
  destruct TS as [v mp me mg th tid o u i curr E|v mp me mg th tid o u i curr b t' r LA E IP ST].
  - destruct (grel_upd _ _ _ _ _ _ _ R E) as (AT & U & _). apply (grel_gone _ _ tid) in R.
    eexists. split; [|exact R]. destruct x as [a ath']. eapply ls_vis; [|apply ls_nil]. eapply dr_before; eauto.
  - destruct (grel_upd _ _ _ _ _ _ _ R E) as (AT & U & F).
    assert (S : gsys_step c B client (GSys v mp me mg th) None (GSys v mp (fupd me u t') mg (fupd th tid (Some (o, GRun u (PDone r))))))
      by (econstructor; eauto; discriminate).
    destruct (gsim c B client Hsc CO CF HB _ _ _ _ R S (or_intror (EX LA))) as (x1 & A1 & R1).
    { intros _ NE. now elim NE. }
    assert (AT1 : ath x1 tid = ADone (RUpdated (sdata (rslot r)))).
    { destruct R1 as (ct & mk & l & CI & A & T & FS). specialize (T tid). cbn [gthr] in T. rewrite fupd_eq in T. destruct T as (_ & T).
      rewrite T. pose proof (upd_done _ _ _ _ _ _ _ _ _ IP ST) as RC. unfold fin_stat, gobs.
      rewrite (upd_obs o r RC F). destruct o; try discriminate F; cbn [retries]; rewrite RC; reflexivity. }
    apply (grel_gone _ _ tid) in R1. exists (AObj (ast x1) (fupd (ath x1) tid AIdle)). split.
    + change [UThrow tid] with (map UCall [] ++ [UThrow tid]). eapply lts_app; [apply drop_steps; exact A1|].
      eapply ls_vis; [|apply ls_nil]. destruct x1 as [a1 h1]. eapply dr_after; eauto.
    + destruct R1 as (ct & mk & l & CI & A & T & FS). exists ct, mk, l. cbn [gver gmap gmem gmig gthr ast ath] in *. sp; auto.
      * intros w. specialize (T w). unfold fupd in *. destruct (N.eqb w tid); auto.
      * intros w. specialize (FS w). unfold fupd in *. destruct (N.eqb w tid); auto.
Qed.

Lemma exclusive_throw late s t s' : exclusive s -> grow_throws late c s t s' -> exclusive s'.
Proof.
  intros X TS MG. destruct TS; cbn [gmig gthr] in *; intros w o' v' pc' E; unfold fupd in E;
    destruct (N.eqb w tid); try discriminate; exact (X MG w o' v' pc' E).
Qed.

Lemma sync_throw_lin late lg tr s : 1 <= lg <= 63 ->
  lts_steps (or_throws (sync_step c B client) (grow_throws late c)) (gsys_init c lg) tr s ->
  atomic_but_thrown late spec amap_empty tr.
Proof.
  intros LG ST.
  destruct (fun H1 H2 => throw_sim late spec _ _ (fun s x => exclusive s /\ grel c B client s x) H1 H2 _ _ _ ST _
    (conj (init_exclusive c lg) (ginit_rel c B client Hsc lg LG))) as (x & A & _); [| |exists x; exact A].
  - intros s0 x e s1 (X & R) (S & X' & RM). destruct (gsim c B client Hsc CO CF HB _ _ _ _ R S (or_intror X) RM) as (x1 & A1 & R1). eauto.
  - intros s0 x e s1 (X & R) S. destruct (grow_throw_rel late _ _ _ _ (fun _ => X) R S) as (x1 & A1 & R1).
    exists x1. sp; auto. eapply exclusive_throw; eauto.
Qed.

Lemma async_throw_lin lg tr s : 1 <= lg <= 63 -> sc_mark (tsc c) = true ->
  lts_steps (or_throws (async_step c B client) (grow_throws false c)) (gsys_init c lg) tr s ->
  atomic_but_thrown false spec amap_empty tr.
Proof.
  intros LG SM ST.
  destruct (fun H1 H2 => throw_sim false spec _ _ (fun s x => grel c B client s x) H1 H2 _ _ _ ST _
    (ginit_rel c B client Hsc lg LG)) as (x & A & _); [| |exists x; exact A].
  - intros s0 x e s1 R (S & U & RM). exact (gsim c B client Hsc CO CF HB _ _ _ _ R S (or_introl (conj SM U)) RM).
  - intros s0 x e s1 R S. apply (grow_throw_rel false _ _ _ _ (fun E => False_ind _ (diff_false_true E)) R S).
Qed.
End G.

(** On cells that can be marked no function works in place. *)
Lemma late_marked c : sc_mark (tsc c) = true -> forall s t s', grow_throws true c s t s' -> grow_throws false c s t s'.
Proof.
  intros SM s t s' TS. destruct TS as [|? ? ? ? ? ? ? ? ? ? ? ? ? ? E IP]; [econstructor; eauto|].
  unfold in_place in IP. rewrite SM in IP. discriminate.
Qed.

(** *** Histories without the calls that throw *)

Lemma fupd_at {A} (f : N -> A) k v x : fupd f k v x = if x =? k then v else f x.
Proof. reflexivity. Qed.

Section Hist.
Context {St : Type} (spec : St -> mop -> St -> mres -> Prop).

Lemma done_no_throw x tr y t r : lts_steps (dropping false spec) x tr y -> ath x t = ADone r -> throws_next t tr = false.
Proof.
  induction 1 as [x|x x1 y tr S ST IH|x e x1 y tr S ST IH]; intros E; cbn [throws_next]; auto.
  - apply IH. inversion S as [? e ? A EQ| |]; subst. destruct e; [discriminate|]. inversion A as [|? ? u ? ? ? EU|]; subst. cbn in *.
    rewrite fupd_at. destruct (N.eqb_spec t u) as [->|]; auto. congruence.
  - inversion S as [? e0 ? A EQ|? ? u o EU|]; subst; [|clear S|congruence].
    + destruct e0 as [e0|]; [|discriminate]. match goal with H : option_map _ _ = Some _ |- _ => injection H as <- end. inversion A as [? ? u ? EU| |? ? u ? EU]; subst; cbn in *.
      * destruct (N.eqb_spec u t) as [->|NE]; auto. apply IH. rewrite fupd_neq by congruence. exact E.
      * destruct (N.eqb_spec u t) as [->|NE]; auto. apply IH. rewrite fupd_neq by congruence. exact E.
    + cbn in *. destruct (N.eqb_spec u t) as [->|NE]; [congruence|]. apply IH. rewrite fupd_neq by congruence. exact E.
Qed.

Lemma without_steps x tr y : lts_steps (dropping false spec) x tr y ->
  forall th, (forall t, th t = if throws_next t tr then AIdle else ath x t) ->
  exists y', asteps spec (AObj (ast x) th) (without_thrown tr) y'.
Proof.
  induction 1 as [x|x x1 y tr S ST IH|x e x1 y tr S ST IH]; intros th Q.
  - eexists. constructor.
  - inversion S as [? e ? A EQ| |]; subst. destruct e; [discriminate|]. inversion A as [|m th0 u o m' r EU SP|]; subst. cbn [ast ath] in *.
    assert (NT : throws_next u tr = false). { eapply done_no_throw; [exact ST|]. cbn. now rewrite fupd_eq. }
    destruct (IH (fupd th u (ADone r))) as (y' & A').
    { intros t. rewrite !fupd_at. destruct (N.eqb_spec t u) as [->|NE]; [now rewrite NT|]. apply Q. }
    exists y'. eapply as_tau; [|exact A']. eapply a_lin; eauto. rewrite Q, NT. exact EU.
  - inversion S as [? e0 ? A EQ|m th0 u o EU TF|]; subst; [|clear S|congruence].
    + destruct e0 as [e0|]; [|discriminate]. match goal with H : option_map _ _ = Some _ |- _ => injection H as <- end. cbn [throws_next] in Q.
      inversion A as [m th0 u o EU| |m th0 u r EU]; subst; cbn [ast ath of_thread without_thrown] in *.
      * destruct (throws_next u tr) eqn:NT.
        -- apply IH. intros t. rewrite Q, fupd_at. rewrite (N.eqb_sym u t). destruct (N.eqb_spec t u) as [->|NE]; auto. now rewrite NT.
        -- destruct (IH (fupd th u (APend o))) as (y' & A').
           { intros t. rewrite !fupd_at, Q, (N.eqb_sym u t). destruct (N.eqb_spec t u) as [->|NE]; auto. now rewrite NT. }
           exists y'. eapply as_vis; [|exact A']. apply a_inv. now rewrite Q, N.eqb_refl.
      * destruct (IH (fupd th u AIdle)) as (y' & A').
        { intros t. rewrite !fupd_at, Q, (N.eqb_sym u t). destruct (N.eqb_spec t u) as [->|NE]; auto. now destruct (throws_next u tr). }
        exists y'. eapply as_vis; [|exact A']. apply a_ret. now rewrite Q, N.eqb_refl.
    + cbn [ast ath without_thrown throws_next] in *. apply IH. intros t. rewrite Q, fupd_at, (N.eqb_sym u t).
      destruct (N.eqb_spec t u) as [->|NE]; auto. now destruct (throws_next u tr).
Qed.

Lemma without_lin m0 tr : atomic_but_thrown false spec m0 tr -> linearizable_trace spec m0 (without_thrown tr).
Proof.
  intros (y & ST). destruct (without_steps _ _ _ ST (fun _ => AIdle)) as (y' & A); [|exists y'; exact A].
  intros t. cbn. now destruct (throws_next t tr).
Qed.
End Hist.

(** Executions without exceptions. *)
Lemma or_steps {S} (step : S -> option (event mop mres) -> S -> Prop) throws s tr s' :
  lts_steps step s tr s' -> lts_steps (or_throws step throws) s (map UCall tr) s'.
Proof.
  induction 1 as [s|s s1 s2 tr St ST IH|s e s1 s2 tr St ST IH]; cbn [map].
  - constructor.
  - eapply ls_tau; [|exact IH]. exact (ot_step step throws _ None _ St).
  - eapply ls_vis; [|exact IH]. exact (ot_step step throws _ (Some e) _ St).
Qed.
