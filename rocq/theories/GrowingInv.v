(** Growing tables: the relation to the atomic map and its preservation. *)
From Coq Require Import NArith Bool List Lia.
From Verif Require Import Words Slot SlotFacts Mapper MapperFacts ReturnCode MapSpec LinSpec
  Base BaseInv BaseLin TableSpec BaseFacts Migrate MigrateGeo MigrateInv
  MigrateStep MigrateRun MigrateHelp MigrateDone MigrateSys GrowFacts Frozen Growing GrowingSpec.
Import ListNotations.
Open Scope N_scope.

Lemma asteps_trans {St Op Res} (sp : St -> Op -> St -> Res -> Prop) x tr y tr' z :
  asteps sp x tr y -> asteps sp y tr' z -> asteps sp x (tr ++ tr') z.
Proof. induction 1; cbn; intros; auto; [eapply as_tau|eapply as_vis]; eauto. Qed.

Lemma resize_pow c m lg ins del :
  wf_mapper (tmc c) m lg -> lg <= 31 ->
  exists lg', addressable_slots (tmc c) (resize (tmc c) m ins del) = 2 ^ lg'.
Proof.
  intros W L. unfold resize. rewrite (addressable_val _ _ _ W).
  set (ab := fill_above _ _). destruct W as [[? ?] _].
  exists (if ab then lg + 1 else lg). destruct ab.
  - rewrite N.mul_comm, <- pow2_add1. erewrite addressable_val; [reflexivity|]. apply wf_mk. lia.
  - erewrite addressable_val; [reflexivity|]. apply wf_mk. lia.
Qed.

(** What the base table may answer and what the growing table makes of it. *)
Lemma mspec_weaken inv full m o m' r :
  mspec inv full m o m' r -> r <> RFull -> r <> RInvalid -> mspec false false m o m' r.
Proof. intros H NF NI. inversion H; subst; try congruence; econstructor; eauto. Qed.

Lemma mspec_noop inv full m o m' r :
  mspec inv full m o m' r -> r = RFull \/ r = RInvalid -> m' = m.
Proof. intros H [->| ->]; inversion H; reflexivity. Qed.

Lemma obs_invalid o r : finding o = false -> rcode r = RC_INVALID -> obs o r = RInvalid.
Proof. intros F E. destruct o; try discriminate; cbn [obs]; rewrite E; reflexivity. Qed.
Lemma obs_full o r : finding o = false -> rcode r = RC_FULL -> obs o r = RFull.
Proof. intros F E. destruct o; try discriminate; cbn [obs]; rewrite E; reflexivity. Qed.

Lemma retries_obs o r : retries o r = true -> obs o r = RFull \/ obs o r = RInvalid.
Proof.
  intros H.
  assert (F : finding o = false) by (destruct o; [..|]; try reflexivity; discriminate).
  destruct o; cbn [retries] in H; try discriminate;
    try (apply orb_prop in H; destruct H as [H|H]);
    apply N.eqb_eq in H; auto using obs_invalid, obs_full.
Qed.

Lemma obs_codes o r : finding o = false ->
  (obs o r = RInvalid -> rcode r = RC_INVALID) /\ (obs o r = RFull -> rcode r = RC_FULL).
Proof.
  intros F. destruct o; try discriminate; cbn [obs];
    repeat match goal with |- context [if ?b =? ?d then _ else _] => destruct (N.eqb_spec b d) end;
    split; intros X; try discriminate; auto.
Qed.

Lemma not_retries inv full sc m o m' r :
  mspec inv full m (spec_op sc o) m' (obs o r) -> retries o r = false ->
  obs o r <> RFull /\ obs o r <> RInvalid.
Proof.
  intros H R.
  destruct (finding o) eqn:F.
  { destruct o; try discriminate. cbn in *. destruct (rpos r); split; discriminate. }
  destruct (obs_codes o r F) as [OI OF].
  split; intros X.
  - specialize (OF X). rewrite X in H. destruct o; cbn [retries spec_op] in *; try discriminate;
      try (rewrite OF in R; discriminate); inversion H.
  - specialize (OI X). destruct o; cbn [retries spec_op] in *; try discriminate;
      rewrite OI in R; discriminate.
Qed.

Lemma gobs_obs o r : obs o r <> RFull -> obs o r <> RInvalid -> gobs o r = obs o r.
Proof. unfold gobs. destruct (obs o r); congruence. Qed.

(** A vacant cell of a table of any cell type. *)
Lemma vacant_content c m t ct mk p :
  wf_scfg (tsc c) -> tinv c m t ct mk -> vacant (tsc c) (total_slots (tmc c) m) t p ->
  p < total_slots (tmc c) m /\ ct p = CEmpty.
Proof.
  intros Hsc I (L & x & E & W). split; auto. destruct (ti_cell _ _ _ _ _ I p L) as [E' O].
  rewrite E in E'. injection E' as ->.
  assert (EM : is_empty (tsc c) (enc (tsc c) (ct p) (mk p)) = true).
  { unfold is_empty. rewrite (land_bmask (tsc c)). unfold word_is in W. fold (mbit (tsc c)) in W.
    pose proof (mbit_pos (tsc c) Hsc). apply N.eqb_eq.
    destruct W as [->|[_ ->]]; [apply N.mod_0_l; lia|]. rewrite N.add_0_l. apply N.mod_same. lia. }
  rewrite (enc_is_empty (tsc c) Hsc _ _ O) in EM. destruct (ct p); congruence.
Qed.

(** Writes of other threads, one of which may erase a key. *)
Lemma thr_inv_write_gen c m ct o pc p v :
  thr_inv c m ct o pc -> trans (ct p) v ->
  (v = CTomb -> sc_mark (tsc c) = true \/ ~ is_update o \/ forall i s, pc = PUpd i s -> remap (tmc c) m i <> p) ->
  thr_inv c m (fupd ct p v) o pc.
Proof.
  intros T TR CL. destruct pc as [i|i s|i s|i s|r|].
  - destruct T as (n & E & P). exists n. split; auto. eapply prefix_trans; eauto.
  - destruct T as (n & d & E & P & R). exists n, d. split; [exact E|]. split; [eapply prefix_trans; eauto|exact R].
  - destruct T as (n & d & E & P & Ec & U & S). exists n, d. split; [exact E|]. split; [eapply prefix_trans; eauto|].
    split; [exact Ec|]. split; [exact U|].
    intros M. destruct (S M) as [d' E']. destruct (N.eq_dec (remap (tmc c) m i) p) as [Ep|NE].
    + rewrite Ep in *. rewrite fupd_eq. rewrite E' in TR. inversion TR; subst; eauto.
      destruct (CL eq_refl) as [C|[C|C]]; [congruence|contradiction|]. now elim (C _ _ eq_refl).
    + rewrite fupd_neq by exact NE. eauto.
  - destruct T as (n & d & E & P & R). exists n, d. split; [exact E|]. split; [eapply prefix_trans; eauto|exact R].
  - exact T.
  - exact T.
Qed.

Section G.
Context (c : tcfg) (B : N) (client : op -> Prop).
Context (Hsc : wf_scfg (tsc c)) (CO : client_ok (tsc c) client).
Context (CF : cmap (tmc c) = false \/ cprob (tmc c) = true) (HB : 0 < B <= 2 ^ 31).
Notation sc := (tsc c).
Notation mc := (tmc c).
Notation spec := (mspec false false).

(** The published version and its migration. *)
Definition cur_inv (s : gsys) (ct : N -> content) (mk : cmark) : Prop :=
  exists lg, wf_mapper mc (gmap s (gver s)) lg /\
  match gmig s with
  | None => mk = (fun _ => false) /\ tinv c (gmap s (gver s)) (gmem s (gver s)) ct mk
  | Some (k, h) =>
      lg <= 31 /\ exists g tct rg hb,
      migr c (gmap s (gver s)) (gmap s (gver s + 1)) lg g /\
      sinv c (gmap s (gver s)) (gmap s (gver s + 1)) lg g B
        (gmem s (gver s)) (gmem s (gver s + 1)) k h ct mk tct rg hb /\
      endinv lg h k
  end.

Lemma cur_tinv s ct mk : cur_inv s ct mk -> tinv c (gmap s (gver s)) (gmem s (gver s)) ct mk.
Proof.
  intros (lg & W & H). destruct (gmig s) as [[k h]|]; [|apply H].
  destruct H as (_ & g & tct & rg & hb & _ & S & _). apply (g_src (s_glob S)).
Qed.
Lemma cur_wf s ct mk : cur_inv s ct mk -> exists lg, wf_mapper mc (gmap s (gver s)) lg.
Proof. intros (lg & W & _). eauto. Qed.

(** A call still running on an old version. *)
Definition old_ok (m : mapper) (t : mem) (o : op) (pc : bpc) (st : astat mop mres) : Prop :=
  sc_mark sc = true /\
  exists lg ct mk, wf_mapper mc m lg /\ tinv c m t ct mk /\ frozen c m ct mk /\ thr_inv c m ct o pc /\
  match o with
  | OFind k => exists a r, absr c m ct a /\ spec a (MFind k) a r /\ st = ADone r
  | _ => st = APend (spec_op sc o)
  end.

Definition fin_stat (o : op) (r : bret) : astat mop mres :=
  if retries o r then APend (spec_op sc o) else ADone (gobs o r).

Definition running (pc : bpc) : bool := match pc with PDone _ => false | _ => true end.
Lemma running_nd pc : running pc = true <-> forall r, pc <> PDone r.
Proof. destruct pc; cbn; split; try congruence. intros H. now elim (H r). Qed.

Definition thr_ok (s : gsys) (ct : N -> content) (x : option (op * gpc)) (st : astat mop mres) : Prop :=
  match x with
  | None => st = AIdle
  | Some (o, GGet) => client o /\ st = APend (spec_op sc o)
  | Some (o, GRun u pc) =>
      client o /\
      match pc with
      | PDone r => st = fin_stat o r
      | _ => (u = gver s /\ thr_inv c (gmap s u) ct o pc /\ st = APend (spec_op sc o)) \/
             (u < gver s /\ old_ok (gmap s u) (gmem s u) o pc st)
      end
  end.

Definition grel (s : gsys) (x : aobj amap mop mres) : Prop :=
  exists ct mk l, cur_inv s ct mk /\ absr c (gmap s (gver s)) ct (ast x) /\
  (forall tid, thr_ok s ct (gthr s tid) (ath x tid)) /\
  (forall tid, gthr s tid <> None -> In tid l).

(** Threads that are not touched by a step. *)
Lemma thr_ok_frame s s' ct ct' x st :
  thr_ok s ct x st -> gver s' = gver s ->
  gmap s' (gver s) = gmap s (gver s) ->
  (forall u, u < gver s -> gmap s' u = gmap s u /\ forall q, gmem s' u q = gmem s u q) ->
  (forall o pc, x = Some (o, GRun (gver s) pc) -> client o -> thr_inv c (gmap s (gver s)) ct o pc ->
     thr_inv c (gmap s (gver s)) ct' o pc) ->
  thr_ok s' ct' x st.
Proof.
  intros T EV EM EO K. destruct x as [[o [|u pc]]|]; auto. destruct T as [CL T].
  split; auto.
  assert (GO : forall P : Prop,
    ((u = gver s /\ thr_inv c (gmap s u) ct o pc /\ st = APend (spec_op sc o)) \/
             (u < gver s /\ old_ok (gmap s u) (gmem s u) o pc st)) ->
    ((u = gver s' /\ thr_inv c (gmap s' u) ct' o pc /\ st = APend (spec_op sc o)) \/
             (u < gver s' /\ old_ok (gmap s' u) (gmem s' u) o pc st))).
  { intros _ [(-> & T1 & T2)|(L & SM & lg & ct0 & mk0 & W & I & F & T1 & T2)].
    - left. rewrite EV, EM. sp; auto.
    - right. rewrite EV. destruct (EO u L) as [-> EQ]. split; auto. split; auto.
      exists lg, ct0, mk0. sp; auto. eapply tinv_ext; eauto. }
  destruct pc; auto; apply (GO True); exact T.
Qed.

(** Linearizing all lookups that are still running on the current version. *)
Lemma lin_finds (P : N -> option N) (l : list N) a th :
  (forall tid k, P tid = Some k -> th tid = APend (MFind k)) ->
  exists th', asteps spec (AObj a th) [] (AObj a th') /\
    forall tid, match P tid with
                | Some k => (In tid l -> exists r, spec a (MFind k) a r /\ th' tid = ADone r) /\
                            (~ In tid l -> th' tid = th tid)
                | None => th' tid = th tid
                end.
Proof.
  intros H. induction l as [|t l IH].
  - exists th. split; [apply as_nil|]. intros tid. destruct (P tid); auto. split; [intros []|auto].
  - destruct IH as (th' & A & Q).
    destruct (in_dec N.eq_dec t l) as [I|NI].
    { exists th'. split; auto. intros tid. specialize (Q tid). destruct (P tid); auto.
      destruct Q as [Q1 Q2]. split.
      - intros [<-|X]; auto.
      - intros X. apply Q2. intros Y. apply X. now right. }
    destruct (P t) as [k|] eqn:Pt.
    + assert (X : exists r, spec a (MFind k) a r).
      { destruct (a k) as [v|] eqn:E; [exists (RFound v); eapply s_find_hit; exact E|exists RAbsent; eapply s_find_miss; exact E]. }
      destruct X as [r SP]. exists (fupd th' t (ADone r)). split.
      * change (@nil (event mop mres)) with (@nil (event mop mres) ++ []).
        eapply asteps_trans; [exact A|]. eapply as_tau; [|apply as_nil]. eapply a_lin; eauto.
        specialize (Q t). rewrite Pt in Q. destruct Q as [_ Q]. rewrite (Q NI). auto.
      * intros tid. destruct (N.eq_dec tid t) as [->|NE].
        -- rewrite Pt. split; [|intros X; elim X; now left]. intros _. exists r. now rewrite fupd_eq.
        -- rewrite fupd_neq by exact NE. specialize (Q tid). destruct (P tid); auto.
           destruct Q as [Q1 Q2]. split.
           ++ intros [X|X]; [congruence|auto].
           ++ intros X. apply Q2. intros Y. apply X. now right.
    + exists th'. split; auto. intros tid. specialize (Q tid). destruct (P tid) eqn:Pi; auto.
      destruct Q as [Q1 Q2]. split.
      * intros [<-|X]; [congruence|auto].
      * intros X. apply Q2. intros Y. apply X. now right.
Qed.

Definition mode (s s' : gsys) : Prop :=
  (sc_mark sc = true /\ g_undisturbed c s s') \/ exclusive s.

Lemma start_inv ct m o : thr_inv c m ct o (start c m o).
Proof. exists 0. split; [lia|]. intros j Hj. lia. Qed.

(** A call makes a step on the current version. *)
Lemma run_cur_gen v mp me mg th ct mk l a th' tid o pc b t' pc' :
  let s := GSys v mp me mg th in
  let s' := GSys v mp (fupd me v t') mg (fupd th tid (Some (o, GRun v pc'))) in
  cur_inv s ct mk -> absr c (mp v) ct a ->
  (forall tid, thr_ok s ct (th tid) (th' tid)) ->
  (forall tid, th tid <> None -> In tid l) ->
  th tid = Some (o, GRun v pc) -> running pc = true ->
  bstep c (mp v) (me v) b o pc = (t', pc') -> mode s s' ->
  (forall o, client o -> op_ok sc o) ->
  (forall ct' p, tinv c (mp v) t' ct' mk -> (forall q, ct' q = fupd ct p CTomb q) -> p < total_slots mc (mp v) -> mk p = false -> is_erase o ->
     forall u o' pc'', u <> tid -> th u = Some (o', GRun v pc'') -> client o' ->
     sc_mark sc = true \/ ~ is_update o' \/ forall i s, pc'' = PUpd i s -> remap mc (mp v) i <> p) ->
  exists x', asteps spec (AObj a th') [] x' /\ grel s' x'.
Proof.
  intros s s' CI A T FS E ND ST MD CO1 SAFE.
  pose proof (cur_tinv _ _ _ CI) as I. destruct (cur_wf _ _ _ CI) as [lg0 W0]. cbn [gver gmap gmem s] in I, W0.
  assert (Tt : client o /\ thr_inv c (mp v) ct o pc /\ th' tid = APend (spec_op sc o)).
  { specialize (T tid). rewrite E in T. destruct T as [CL T]. split; auto.
    destruct pc; try discriminate; destruct T as [(_ & T1 & T2)|[L _]]; auto; cbn in L; lia. }
  destruct Tt as (CL & TI & ATH).
  assert (ND' : forall r, pc <> PDone r) by (now apply running_nd).
  destruct (bstep_ok c (mp v) lg0 Hsc W0 a (me v) ct mk o pc b t' pc' I A (CO1 o CL) TI ND' ST)
    as (ct' & I' & TI' & EV & EFF).
  assert (STAB : forall u o' pc'', u <> tid -> th u = Some (o', GRun v pc'') -> client o' ->
            thr_inv c (mp v) ct o' pc'' -> thr_inv c (mp v) ct' o' pc'').
  { intros u o' pc'' NE Eu CL' TI''.
    destruct EV as [EV|(p & w & EV & LP & M0 & TR & ER)].
    - eapply thr_inv_ext; eauto.
    - eapply thr_inv_ext; eauto. apply thr_inv_write_gen; auto.
      intros ->. eapply SAFE; eauto. }
  assert (EV' : (forall p, ct' p = ct p) \/
     exists p w, (forall q, ct' q = fupd ct p w q) /\ mk p = false /\ trans (ct p) w).
  { destruct EV as [EV|(p & w & EV & _ & M0 & TR & _)]; auto. right. exists p, w. auto. }
  assert (CI' : cur_inv s' ct' mk).
  { destruct CI as (lg & W & CI). exists lg. cbn [gver gmap gmem gmig s s'] in *. split; auto.
    rewrite fupd_eq, fupd_neq by lia.
    destruct mg as [[k h]|]; [|now destruct CI].
    destruct CI as (LG & g & tct & rg & hb & MG & S & EI). split; auto.
    exists g, tct, rg, hb. sp; auto.
    destruct MD as [[SM UD]|EX].
    - destruct HB as [HB0 HB1]. eapply (env_sinv c _ _ lg g B MG Hsc HB0 LG HB1); eauto.
      intros u i curr Eu. specialize (UD k h u i curr eq_refl Eu). cbn [gver gmap gmem s s'] in UD.
      rewrite fupd_eq in UD. exact UD.
    - exfalso. destruct (EX ltac:(discriminate) tid o v pc E) as [r ->]. discriminate. }
  assert (FS' : forall u, gthr s' u <> None -> In u l).
  { intros u. cbn. unfold fupd. destruct (N.eqb_spec u tid) as [->|NE]; auto. intros _. apply FS. congruence. }
  assert (REST : forall th2, (forall u, u <> tid -> th2 u = th' u) ->
     forall u, u <> tid -> thr_ok s' ct' (gthr s' u) (th2 u)).
  { intros th2 Q u NE. cbn [gthr s']. rewrite fupd_neq, Q by exact NE.
    eapply (thr_ok_frame s); [apply T|reflexivity|reflexivity| |]; cbn [gver gmap gmem s s'].
    - intros w L. rewrite fupd_neq by lia. auto.
    - intros o' pc'' Eu. eapply STAB; eauto. }
  destruct EFF as [(r & a' & -> & SP & A')|(NDn & A')].
  - destruct (retries o r) eqn:R.
    + (* no effect; the call starts over *)
      assert (a' = a) as -> by (eapply mspec_noop; eauto using retries_obs).
      exists (AObj a th'). split; [apply as_nil|]. exists ct', mk, l. cbn [ast ath]. sp; auto.
      intros u. destruct (N.eq_dec u tid) as [->|NE]; [|now apply REST].
      cbn [gthr s']. rewrite fupd_eq. split; auto. unfold fin_stat. now rewrite R.
    + destruct (not_retries _ _ _ _ _ _ _ SP R) as [NF NI].
      exists (AObj a' (fupd th' tid (ADone (obs o r)))). split.
      * eapply as_tau; [|apply as_nil]. eapply a_lin; eauto. eapply mspec_weaken; eauto.
      * exists ct', mk, l. cbn [ast ath]. sp; auto.
        intros u. destruct (N.eq_dec u tid) as [->|NE].
        -- cbn [gthr s']. rewrite !fupd_eq. split; auto. unfold fin_stat. rewrite R. now rewrite gobs_obs.
        -- apply REST; auto. intros w Nw. now rewrite fupd_neq.
  - exists (AObj a th'). split; [apply as_nil|]. exists ct', mk, l. cbn [ast ath]. sp; auto.
    intros u. destruct (N.eq_dec u tid) as [->|NE]; [|now apply REST].
    cbn [gthr s']. rewrite fupd_eq. split; auto.
    destruct pc'; try (left; cbn [gver gmap s']; sp; auto; fail). now elim (NDn r).
Qed.

(** A call makes a step on the current version. *)
Lemma run_cur v mp me mg th ct mk l a th' tid o pc b t' pc' :
  let s := GSys v mp me mg th in
  let s' := GSys v mp (fupd me v t') mg (fupd th tid (Some (o, GRun v pc'))) in
  cur_inv s ct mk -> absr c (mp v) ct a ->
  (forall tid, thr_ok s ct (th tid) (th' tid)) ->
  (forall tid, th tid <> None -> In tid l) ->
  th tid = Some (o, GRun v pc) -> running pc = true ->
  bstep c (mp v) (me v) b o pc = (t', pc') -> mode s s' ->
  exists x', asteps spec (AObj a th') [] x' /\ grel s' x'.
Proof.
  intros s s' CI A T FS E ND ST MD. destruct CO as [CO1 CO2].
  eapply run_cur_gen; eauto. intros ct' p _ _ _ _ ER u o' pc'' NE Eu CL'.
  destruct CO2 as [CM|[CM|CM]]; auto. exfalso.
  specialize (T tid). rewrite E in T. destruct T as [CL _]. now apply (CM o CL).
Qed.

(** A call makes a step on an old version. *)
Lemma run_old v mp me mg th ct mk l a th' tid o u pc b t' pc' :
  let s := GSys v mp me mg th in
  let s' := GSys v mp (fupd me u t') mg (fupd th tid (Some (o, GRun u pc'))) in
  cur_inv s ct mk -> absr c (mp v) ct a ->
  (forall tid, thr_ok s ct (th tid) (th' tid)) ->
  (forall tid, th tid <> None -> In tid l) ->
  th tid = Some (o, GRun u pc) -> running pc = true -> u < v ->
  bstep c (mp u) (me u) b o pc = (t', pc') ->
  exists x', asteps spec (AObj a th') [] x' /\ grel s' x'.
Proof.
  intros s s' CI A T FS E ND LU ST.
  assert (Tt : client o /\ old_ok (mp u) (me u) o pc (th' tid)).
  { specialize (T tid). rewrite E in T. destruct T as [CL T]. split; auto.
    destruct pc; try discriminate; destruct T as [(X & _)|[L O]]; auto; cbn in X; lia. }
  destruct Tt as (CL & SM & lg & cu & ku & W & I & FR & TI & STT).
  assert (ND' : forall r, pc <> PDone r) by (now apply running_nd).
  destruct CO as [CO1 CO2].
  destruct (frozen_step c (mp u) lg Hsc W (me u) cu ku o pc b t' pc' SM I FR (CO1 o CL) TI ND' ST)
    as (SAME & TI' & RES).
  assert (CI' : cur_inv s' ct mk).
  { destruct CI as (lg1 & W1 & CI). exists lg1. cbn [gver gmap gmem gmig s s'] in *. split; auto.
    rewrite !fupd_neq by lia. exact CI. }
  assert (FS' : forall u, gthr s' u <> None -> In u l).
  { intros w. cbn. unfold fupd. destruct (N.eqb_spec w tid) as [->|NE]; auto. intros _. apply FS. congruence. }
  assert (REST : forall th2, (forall u, u <> tid -> th2 u = th' u) ->
     forall u, u <> tid -> thr_ok s' ct (gthr s' u) (th2 u)).
  { intros th2 Q w NE. cbn [gthr s']. rewrite fupd_neq, Q by exact NE.
    eapply (thr_ok_frame s); [apply T|reflexivity|reflexivity| |auto]; cbn [gver gmap gmem s s'].
    intros z L. split; auto. intros q. unfold fupd. destruct (N.eqb_spec z u) as [->|]; auto. }
  assert (OLD : running pc' = true -> thr_ok s' ct (Some (o, GRun u pc')) (th' tid)).
  { intros R. split; auto.
    assert (X : u < v /\ old_ok (mp u) t' o pc' (th' tid)).
    { split; auto. split; auto. exists lg, cu, ku. sp; auto. eapply tinv_ext; eauto. }
    destruct pc'; try discriminate; right; cbn [gver gmap gmem s']; rewrite fupd_eq; exact X. }
  destruct (running pc') eqn:R'.
  { exists (AObj a th'). split; [apply as_nil|]. exists ct, mk, l. cbn [ast ath]. sp; auto.
    intros w. destruct (N.eq_dec w tid) as [->|NE]; [|now apply REST].
    cbn [gthr s']. rewrite fupd_eq. auto. }
  destruct pc' as [| | | |r|]; try discriminate.
  destruct (finding o) eqn:F.
  - (* the lookup was linearized when the version was replaced *)
    destruct o; try discriminate. destruct STT as (a0 & r0 & A0 & SP0 & E0).
    destruct (bstep_ok c (mp u) lg Hsc W a0 (me u) cu ku (OFind k) pc b t' _ I A0 (CO1 _ CL) TI ND' ST)
      as (ct' & _ & _ & _ & EFF).
    destruct EFF as [(r1 & a' & [= <-] & SP & _)|(NDn & _)]; [|now elim (NDn r)].
    assert (RR : gobs (OFind k) r = r0).
    { rewrite gobs_obs; [|cbn; destruct (rpos r); discriminate..].
      cbn [spec_op] in SP. remember (obs (OFind k) r) as ob.
      inversion SP; inversion SP0; subst; try congruence;
        match goal with H : forall _, MFind ?k <> MFind _ |- _ => now elim (H k) end. }
    exists (AObj a th'). split; [apply as_nil|]. exists ct, mk, l. cbn [ast ath]. sp; auto.
    intros w. destruct (N.eq_dec w tid) as [->|NE]; [|now apply REST].
    cbn [gthr s']. rewrite fupd_eq. split; auto. rewrite E0. unfold fin_stat. cbn [retries]. now rewrite RR.
  - assert (ATH : th' tid = APend (spec_op sc o)) by (destruct o; try discriminate; exact STT).
    destruct (RES r eq_refl eq_refl) as [OI|[OB (k & f & ->)]].
    + destruct (obs_codes o r F) as [C1 _]. specialize (C1 OI).
      assert (R : retries o r = true) by (destruct o; try discriminate; cbn [retries]; rewrite C1; reflexivity).
      exists (AObj a th'). split; [apply as_nil|]. exists ct, mk, l. cbn [ast ath]. sp; auto.
      intros w. destruct (N.eq_dec w tid) as [->|NE]; [|now apply REST].
      cbn [gthr s']. rewrite fupd_eq. split; auto. unfold fin_stat. now rewrite R.
    + assert (R : retries (OUpdateB k f) r = false).
      { destruct (retries (OUpdateB k f) r) eqn:X; auto. apply retries_obs in X. destruct X; congruence. }
      exists (AObj a (fupd th' tid (ADone RBackoff))). split.
      * eapply as_tau; [|apply as_nil]. eapply a_lin; eauto. cbn. constructor.
      * exists ct, mk, l. cbn [ast ath]. sp; auto.
        intros w. destruct (N.eq_dec w tid) as [->|NE].
        -- cbn [gthr s']. rewrite !fupd_eq. split; auto. unfold fin_stat. rewrite R. unfold gobs. now rewrite OB.
        -- apply REST; auto. intros z Nz. now rewrite fupd_neq.
Qed.

(** Steps of threads outside of the table. *)
Lemma thr_step s x ct mk l tid y st' :
  cur_inv s ct mk -> absr c (gmap s (gver s)) ct (ast x) ->
  (forall tid, thr_ok s ct (gthr s tid) (ath x tid)) ->
  (forall tid, gthr s tid <> None -> In tid l) ->
  thr_ok s ct y st' ->
  grel (GSys (gver s) (gmap s) (gmem s) (gmig s) (fupd (gthr s) tid y))
       (AObj (ast x) (fupd (ath x) tid st')).
Proof.
  intros CI A T FS Y. exists ct, mk, (tid :: l). cbn [ast ath]. sp; auto.
  - intros u. cbn [gthr]. destruct (N.eq_dec u tid) as [->|NE].
    + rewrite !fupd_eq. destruct y as [[o []]|]; exact Y.
    + rewrite !fupd_neq by exact NE. specialize (T u). destruct (gthr s u) as [[o []]|]; exact T.
  - intros u. cbn [gthr]. unfold fupd. destruct (N.eqb_spec u tid) as [->|NE]; [now left|].
    intros X. right. now apply FS.
Qed.

Lemma thr_step_same s x ct mk l tid y :
  cur_inv s ct mk -> absr c (gmap s (gver s)) ct (ast x) ->
  (forall tid, thr_ok s ct (gthr s tid) (ath x tid)) ->
  (forall tid, gthr s tid <> None -> In tid l) ->
  thr_ok s ct y (ath x tid) ->
  grel (GSys (gver s) (gmap s) (gmem s) (gmig s) (fupd (gthr s) tid y)) x.
Proof.
  intros CI A T FS Y. exists ct, mk, (tid :: l). sp; auto.
  - intros u. cbn [gthr]. destruct (N.eq_dec u tid) as [->|NE].
    + rewrite !fupd_eq. destruct y as [[o []]|]; exact Y.
    + rewrite !fupd_neq by exact NE. specialize (T u). destruct (gthr s u) as [[o []]|]; exact T.
  - intros u. cbn [gthr]. unfold fupd. destruct (N.eqb_spec u tid) as [->|NE]; [now left|].
    intros X. right. now apply FS.
Qed.

Definition find_on (s : gsys) (tid : N) : option N :=
  match gthr s tid with
  | Some (OFind k, GRun u pc) => if (u =? gver s) && running pc then Some k else None
  | _ => None
  end.

(** The switch to the next version. *)
Lemma publish_ok v mp me k h th x :
  let s := GSys v mp me (Some (k, h)) th in
  let s' := GSys (v + 1) mp me None th in
  grel s x -> (exists tid, h tid = Some HEnd) ->
  (forall tid pc, h tid = Some pc -> pc = HEnd \/ pc = HClaim) ->
  mode s s' -> room c s s' ->
  exists x', asteps spec x [] x' /\ grel s' x'.
Proof.
  intros s s' (ct & mk & l & CI & A & T & FS) [hd HD] FIN MD RM. destruct x as [a th'].
  pose proof (cur_tinv _ _ _ CI) as I.
  destruct CI as (lg & W & CI). cbn [gver gmap gmem gmig gthr ast ath s] in *.
  destruct CI as (LG & g & tct & rg & hb & MG & S & EI). destruct HB as [HB0 HB1].
  assert (CTR : 2 ^ lg <= k) by (eapply EI; eauto).
  assert (GAP : cprob mc = true -> exists p, p < total_slots mc (mp v) /\ ct p = CEmpty).
  { intros CP. destruct (RM CP) as [p V]; [cbn; lia|]. cbn in V. exists p.
    eapply vacant_content; eauto. }
  pose proof (done_tinv c _ _ lg g B MG Hsc HB0 _ _ _ _ _ _ _ _ _ S CTR FIN GAP) as TI.
  assert (AN : absr c (mp (v + 1)) tct a).
  { intros k0 d. rewrite (A k0 d). eapply (done_same c _ _ lg g B MG Hsc HB0); eauto. }
  destruct (lin_finds (find_on s) l a th') as (th2 & AS & Q).
  { intros tid k0 F. unfold find_on in F. specialize (T tid). cbn [gthr gver s] in F.
    destruct (th tid) as [[o [|u pc]]|]; try discriminate; destruct o; try discriminate.
    destruct ((u =? v) && running pc) eqn:R; [|discriminate]. injection F as <-.
    apply andb_prop in R. destruct R as [R1 R2]. apply N.eqb_eq in R1. subst u.
    destruct T as [CL T]. destruct pc; try discriminate;
      (destruct T as [(_ & _ & T)|(X & _)]; [exact T|cbn in X; lia]). }
  exists (AObj a th2). split; auto. exists tct, (fun _ => false), l. cbn [gver gmap gmem gmig gthr ast ath s'].
  sp; auto.
  - exists (lg + g). cbn [gver gmap gmem gmig s']. split; [apply MG|]. split; auto.
  - intros tid. specialize (T tid). specialize (Q tid). unfold find_on in Q. cbn [gthr gver s] in Q.
    destruct (th tid) as [[o [|u pc]]|] eqn:Et; cbn [thr_ok] in T |- *.
    + assert (Q' : th2 tid = th' tid) by (destruct o; exact Q). rewrite Q'. exact T.
    + destruct T as [CL T]. split; auto.
      destruct (running pc) eqn:R.
      2: { destruct pc; try discriminate.
           assert (Q' : th2 tid = th' tid) by (destruct o; try exact Q; rewrite andb_false_r in Q; exact Q).
           now rewrite Q'. }
      cbn [gver gmap gmem s s'] in *.
      assert (T' : u = v /\ thr_inv c (mp u) ct o pc /\ th' tid = APend (spec_op sc o) \/
                   u < v /\ old_ok (mp u) (me u) o pc (th' tid)) by (destruct pc; try discriminate; exact T).
      assert (G : u < v + 1 /\ old_ok (mp u) (me u) o pc (th2 tid)).
      { destruct T' as [(-> & T1 & T2)|(L & T1)].
        - split; [lia|].
          assert (SM : sc_mark sc = true).
          { destruct MD as [[SM _]|EX]; auto. exfalso.
            destruct (EX ltac:(discriminate) tid o v pc Et) as [r ->]. discriminate. }
          split; auto. exists lg, ct, mk. sp; auto.
          + eapply (done_frozen c (mp v) (mp (v + 1)) lg g B); eauto.
          + rewrite N.eqb_refl in Q. cbn [andb] in Q.
            destruct o; try (rewrite Q; exact T2).
            destruct Q as [Q _]. destruct (Q (FS tid ltac:(congruence))) as (r & SP & E2).
            exists a, r. auto.
        - split; [lia|]. assert (Q' : th2 tid = th' tid).
          { destruct o; try exact Q. destruct (N.eqb_spec u v); [lia|exact Q]. }
          now rewrite Q'. }
      destruct pc; try discriminate; right; exact G.
    + now rewrite Q.
Qed.

(** All steps, given those of calls on cells. *)
Lemma gsim_with s x e s' :
  (forall v mp me mg th tid o u pc b t' pc', s = GSys v mp me mg th -> e = None ->
     s' = GSys v mp (fupd me u t') mg (fupd th tid (Some (o, GRun u pc'))) ->
     th tid = Some (o, GRun u pc) -> (forall r, pc <> PDone r) -> bstep c (mp u) (me u) b o pc = (t', pc') ->
     exists x', asteps spec x [] x' /\ grel s' x') ->
  grel s x -> gsys_step c B client s e s' -> mode s s' -> room c s s' ->
  exists x', asteps spec x (match e with Some e => [e] | None => [] end) x' /\ grel s' x'.
Proof.
  intros RUN R ST MD RM. pose proof R as R0. destruct R as (ct & mk & l & CI & A & T & FS).
  destruct ST as [v mp me mg th tid o E CL|v mp me mg th tid o E|v mp me mg th tid o u pc b t' pc' E ND ST
    |v mp me mg th tid o u r E RT|v mp me mg th tid o u r E RT|v mp me th ins del LT
    |v mp me k h th tid E|v mp me k h th tid pc s' t' k' pc' E ST|v mp me k h th EX FIN].
  - pose proof (T tid) as Tt. cbn [gthr] in Tt. rewrite E in Tt. cbn in Tt. destruct x as [a th'].
    eexists. split.
    + eapply as_vis; [|apply as_nil]. now apply a_inv.
    + eapply (thr_step _ (AObj a th') ct mk l tid (Some (o, GGet)) _ CI A T FS). split; auto.
  - pose proof (T tid) as Tt. cbn [gthr] in Tt. rewrite E in Tt. destruct Tt as [CL Tt].
    exists x. split; [apply as_nil|].
    eapply (thr_step_same _ x ct mk l tid (Some (o, GRun v (start c (mp v) o))) CI A T FS).
    split; auto. cbn. left. sp; auto. apply start_inv.
  - eapply RUN; eauto.
  - pose proof (T tid) as Tt. cbn [gthr] in Tt. rewrite E in Tt. destruct Tt as [CL Tt].
    exists x. split; [apply as_nil|].
    eapply (thr_step_same _ x ct mk l tid (Some (o, GGet)) CI A T FS). split; auto.
    rewrite Tt. unfold fin_stat. now rewrite RT.
  - pose proof (T tid) as Tt. cbn [gthr] in Tt. rewrite E in Tt. destruct Tt as [CL Tt].
    unfold fin_stat in Tt. rewrite RT in Tt. destruct x as [a th'].
    eexists. split.
    + eapply as_vis; [|apply as_nil]. now apply a_ret.
    + eapply (thr_step _ (AObj a th') ct mk l tid None _ CI A T FS). reflexivity.
  - exists x. split; [apply as_nil|].
    destruct CI as (lg & W & CI). cbn [gver gmap gmem gmig gthr] in *. destruct CI as [-> I].
    assert (LG : lg <= 31).
    { rewrite (addressable_val _ _ _ W) in LT. apply N.pow_lt_mono_r_iff in LT; lia. }
    set (mt := resize mc (mp v) ins del).
    assert (WT : exists lg', addressable_slots mc mt = 2 ^ lg').
    { eapply resize_pow; eauto. }
    destruct WT as [lg' EA].
    destruct (resize_migr c (mp v) lg lg' ins del W LG CF EA) as (g & -> & MG). fold mt in MG.
    exists ct, (fun _ => false), l. cbn [gver gmap gmem gmig gthr]. sp; auto.
    + exists lg. cbn [gver gmap gmem gmig]. rewrite !fupd_eq, !fupd_neq by lia. split; auto. split; auto.
      exists g, (fun _ => CEmpty), (fun _ => BNone), (fun _ => None). sp; auto.
      * eapply (init_sinv c (mp v) mt lg g B); eauto. apply HB.
      * intros tid X. discriminate.
    + cbn. rewrite fupd_neq by lia. auto.
    + intros tid. eapply thr_ok_frame; [apply T|reflexivity| | |auto]; cbn [gver gmap gmem].
      * rewrite fupd_neq by lia. reflexivity.
      * intros u L. rewrite !fupd_neq by lia. auto.
  - exists x. split; [apply as_nil|].
    destruct CI as (lg & W & CI). cbn [gver gmap gmem gmig gthr] in *.
    destruct CI as (LG & g & tct & rg & hb & MG & S & EI).
    exists ct, mk, l. cbn [gver gmap gmem gmig gthr]. sp; auto.
    exists lg. cbn [gver gmap gmem gmig]. split; auto. split; auto. exists g, tct, rg, hb. sp; auto.
    + eapply (join_sinv c _ _ lg g B); eauto. apply HB.
    + intros u X. destruct (N.eq_dec u tid) as [->|NE].
      * rewrite fupd_eq in X. discriminate.
      * rewrite fupd_neq in X by exact NE. eauto.
  - exists x. split; [apply as_nil|].
    destruct CI as (lg & W & CI). cbn [gver gmap gmem gmig gthr] in *.
    destruct CI as (LG & g & tct & rg & hb & MG & S & EI). destruct HB as [HB0 HB1].
    destruct (hstep_inv c _ _ lg g B MG Hsc HB0 _ _ _ _ _ _ _ _ _ S tid pc s' t' k' pc' LG HB1 E ST)
      as (mk' & tct' & rg' & hb' & S' & _).
    destruct (hstep_end c _ _ lg g B MG Hsc HB0 LG HB1 _ _ _ _ _ _ _ _ ST) as [LE EE].
    exists ct, mk', l. cbn [gver gmap gmem gmig gthr]. sp; auto.
    + exists lg. cbn [gver gmap gmem gmig]. split; auto. split; auto. exists g, tct', rg', hb'.
      rewrite !fupd_eq, fupd_neq, fupd_eq by lia. sp; auto.
      intros u X. destruct (N.eq_dec u tid) as [->|NE].
      * rewrite fupd_eq in X. injection X as ->. destruct (EE eq_refl) as [->|]; auto.
        specialize (EI tid E). lia.
      * rewrite fupd_neq in X by exact NE. specialize (EI u X). lia.
    + intros u. eapply thr_ok_frame; [apply T|reflexivity|reflexivity| |auto]; cbn [gver gmap gmem].
      intros z L. rewrite !fupd_neq by lia. auto.
  - eapply publish_ok; eauto.
Qed.

Theorem gsim s x e s' :
  grel s x -> gsys_step c B client s e s' -> mode s s' -> room c s s' ->
  exists x', asteps spec x (match e with Some e => [e] | None => [] end) x' /\ grel s' x'.
Proof.
  intros R ST MD RM. apply (gsim_with s x e s'); auto.
  intros v mp me mg th tid o u pc b t' pc' -> -> -> E ND ST'. clear ST RM.
  destruct R as (ct & mk & l & CI & A & T & FS).
  destruct x as [a th']. apply running_nd in ND.
  pose proof (T tid) as Tt. cbn [gthr] in Tt. rewrite E in Tt. destruct Tt as [CL Tt].
  destruct (N.eq_dec u v) as [->|NE].
  - eapply run_cur; eauto.
  - eapply run_old; eauto.
    destruct pc; try discriminate; destruct Tt as [(X & _)|[L _]]; auto; cbn in X; congruence.
Qed.

End G.
