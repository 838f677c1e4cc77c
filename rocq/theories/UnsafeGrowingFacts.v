(** Unsafe updates that are kept apart are atomic on tables with synchronised growing: with
    that care they are the updates of Growing.v. *)
From Coq Require Import NArith Bool List Lia.
From Verif Require Import Words Slot SlotFacts Mapper MapperFacts ReturnCode MapSpec LinSpec
  Base BaseInv BaseLin TableSpec BaseFacts Migrate GrowSpec GrowFacts Growing GrowingSpec GrowingInv GrowingFacts
  Tso Unsafe UnsafeSpec UnsafeFacts UnsafeGrowing UnsafeGrowingSpec.
Import ListNotations.
Open Scope N_scope.

Section UG.
Context (c : tcfg) (B : N) (client : call -> Prop).
Context (Hsc : wf_scfg (tsc c)) (CO : calls_ok c client).
Context (CF : cmap (tmc c) = false \/ cprob (tmc c) = true) (HB : 0 < B <= 2 ^ 31).
Notation sc := (tsc c).
Notation mc := (tmc c).
Notation spec := (mspec false false).

Definition cl (o : op) : Prop := exists q, client q /\ as_safe q = o.

Lemma cl_ok : client_ok sc cl.
Proof.
  destruct CO as [A H]. split.
  - intros o (q & Q & <-). auto.
  - destruct H as [H|[H|H]]; auto; right; [left|right]; intros o (q & Q & <-); auto.
Qed.

Lemma nobody_cl s l s' : gsys_step c B nobody s l s' -> gsys_step c B cl s l s'.
Proof.
  intros S. destruct S.
  - destruct H0.
  - now apply g_get.
  - eapply g_run; eauto.
  - eapply g_retry; eauto.
  - eapply g_ret; eauto.
  - now apply g_grow.
  - now apply g_join.
  - eapply g_help; eauto.
  - now apply g_publish.
Qed.

(** The cell an unsafe update has found is as it was when it was found. *)
Definition found (s : gsys) (o : op) (i : N) (y : slot) : Prop :=
  rd c (gmap s (gver s)) (gmem s (gver s)) (remap mc (gmap s (gver s)) i) = Some y /\
  is_marked sc y = false /\ compare_key sc y (op_key o) = true.

Definition upos (s : gsys) (md : umode) (o : op) (x : gpc) : Prop :=
  match x with
  | GGet => md = UOn
  | GRun v pc =>
      match pc with
      | PDone _ => md = UOn
      | PUpd i y => v = gver s /\ found s o i y /\ (md = UOn \/ md = URead y)
      | _ => v = gver s /\ md = UOn
      end
  end.

Definition uinv (x : ugsys) : Prop :=
  forall u o p, gthr (fst x) u = Some (o, p) -> snd x u <> UOff ->
    (exists q, client q /\ unsafe q /\ as_safe q = o) /\ upos (fst x) (snd x u) o p.

Lemma found_live s ct mk o i y :
  tinv c (gmap s (gver s)) (gmem s (gver s)) ct mk -> valid_key sc (op_key o) -> found s o i y ->
  let p := remap mc (gmap s (gver s)) i in
  p < total_slots mc (gmap s (gver s)) /\ y = enc sc (ct p) (mk p) /\ mk p = false /\
  exists d, ct p = CLive (op_key o) d.
Proof.
  intros I V (R & M & K) p.
  assert (L : p < total_slots mc (gmap s (gver s))).
  { unfold rd in R. fold p in R. destruct (N.ltb_spec p (total_slots mc (gmap s (gver s)))); [auto|discriminate]. }
  apply rd_mem in R. destruct (ti_cell _ _ _ _ _ I p L) as [E O]. fold p in R. rewrite R in E. injection E as E.
  split; auto. split; auto. rewrite E in M, K. rewrite (enc_is_marked sc Hsc _ _ O) in M. split; auto.
  rewrite (enc_compare_key sc Hsc _ _ _ O V) in K. destruct (ct p) as [| |k d]; try discriminate.
  apply N.eqb_eq in K. subst k. eauto.
Qed.

(** What was found stays while others make steps that respect the care. *)
Lemma found_run s x w o' pc b t' pc' u o i y md :
  grel c B cl s x -> u <> w -> gthr s u = Some (o, GRun (gver s) (PUpd i y)) ->
  gthr s w = Some (o', GRun (gver s) pc) -> (forall r, pc <> PDone r) ->
  bstep c (gmap s (gver s)) (gmem s (gver s)) b o' pc = (t', pc') ->
  ug_apart (s, md) -> md u <> UOff -> found s o i y -> cl o ->
  rd c (gmap s (gver s)) t' (remap mc (gmap s (gver s)) i) = Some y.
Proof.
  intros (ct & mk & l & CI & A & T & _) NE Eu Ew ND ST AP MD FO CLo.
  pose proof (cur_tinv _ _ _ _ _ CI) as I. destruct (cur_wf _ _ _ _ _ CI) as [lg W].
  pose proof (T w) as Tw. rewrite Ew in Tw. destruct Tw as [CLw Tw].
  assert (TI : thr_inv c (gmap s (gver s)) ct o' pc).
  { destruct pc; try (destruct Tw as [(_ & X & _)|[X _]]; [exact X|lia]). now elim (ND r). }
  pose proof cl_ok as [OK _].
  destruct (found_live _ _ _ _ _ _ I (proj1 (OK o CLo)) FO) as (L & Ey & Mp & d & Cp).
  set (p := remap mc (gmap s (gver s)) i) in *.
  destruct (bstep_ok c _ lg Hsc W (ast x) _ ct mk o' pc b t' pc' I A (OK o' CLw) TI ND ST) as (ct' & I' & _ & EV & EFF).
  assert (AA : exists a', absr c (gmap s (gver s)) ct' a' /\ a' (op_key o) = ast x (op_key o)).
  { destruct EFF as [(r & a' & -> & SP & A')|(_ & A')]; [|eauto]. exists a'. split; auto.
    destruct (N.eq_dec (op_key o) (op_key o')) as [EK|NK].
    - assert (NC : ~ (updating o' \/ erasing o')).
      { intros CH. exact (AP u w o o' _ _ NE Eu Ew MD CH EK). }
      eapply (spec_quiet c o'); eauto.
      assert (ast x (op_key o) = Some d) by (apply A; eauto). congruence.
    - eapply spec_other; eauto. intros X. apply NK. rewrite X. destruct o'; reflexivity. }
  destruct AA as (a' & A' & EA).
  assert (C' : ct' p = CLive (op_key o) d).
  { eapply keep with (ct := ct) (a := ast x) (a' := a'); eauto.
    destruct EV as [EV|(p' & v & EV & R1 & R2 & R3 & _)]; auto. right. exists p', v. sp; auto. }
  destruct (ti_cell _ _ _ _ _ I' p L) as [E' _]. unfold rd.
  destruct (N.ltb_spec p (total_slots mc (gmap s (gver s)))); [|lia].
  rewrite E', C', Ey, Cp. reflexivity.
Qed.

(** The unsafe store is the successful update of Base.v. *)
Lemma store_is_update s x q i y b :
  grel c B cl s x -> client q -> unsafe q -> found s (as_safe q) i y ->
  let m := gmap s (gver s) in let t := gmem s (gver s) in
  bstep c m t b (as_safe q) (PUpd i y) =
  (store_word t (remap mc m i, fn (op_fun (as_safe q)) (sdata y)),
   PDone (BRet RC_SUCCESS_UP (fst (non_atomic_update sc y (op_fun (as_safe q)))) (Some (remap mc m i)))).
Proof.
  intros (ct & mk & l & CI & A & T & _) CQ U FO m t.
  pose proof (cur_tinv _ _ _ _ _ CI) as I.
  assert (V : valid_key sc (op_key (as_safe q))) by apply (proj1 CO q CQ).
  destruct (found_live _ _ _ _ _ _ I V FO) as (L & Ey & Mp & d & Cp). fold m in L, Ey, Mp, Cp.
  destruct FO as (R & _). fold m t in R.
  destruct (ti_cell _ _ _ _ _ I _ L) as [_ O]. fold m in O.
  assert (GK : get_key sc y = skey y).
  { rewrite Ey, (enc_get_key sc Hsc _ _ O), Mp. reflexivity. }
  cbn [bstep]. rewrite R. unfold store_word. cbn [fst snd]. rewrite (rd_mem _ _ _ _ _ R).
  assert (FA : fat (op_fun (as_safe q)) = None) by (destruct q; [contradiction|reflexivity|reflexivity]).
  unfold atomic_update, non_atomic_update. rewrite FA, GK. cbn [fst].
  destruct (sc_mark sc).
  - unfold cas. rewrite slot_eqb_refl. reflexivity.
  - rewrite N.eqb_refl. reflexivity.
Qed.

Lemma load_found m t b o i t' j y :
  bstep c m t b o (PLoad i) = (t', PUpd j y) ->
  t' = t /\ rd c m t (remap mc m j) = Some y /\ is_marked sc y = false /\ compare_key sc y (op_key o) = true.
Proof.
  cbn [bstep]. destruct (rd c m t (remap mc m i)) as [z|] eqn:R; [|discriminate]. intros X.
  assert (Y : t' = t /\ after_load c m o i (remap mc m i) z = PUpd j y) by (split; congruence).
  destruct Y as [-> Y]. split; auto.
  destruct o; cbn [after_load op_key] in *; destruct (is_marked sc z) eqn:M; try discriminate;
    repeat match type of Y with (if ?b then _ else _) = _ => destruct b eqn:?H end; try discriminate;
    injection Y as <- <-; auto.
Qed.

Definition urel (x : ugsys) (a : aobj amap mop mres) : Prop :=
  grel c B cl (fst x) a /\ exclusive (fst x) /\ uinv x.

(** Steps of Growing.v keep the invariant of the unsafe calls. *)
Lemma uinv_base s kd l s' a :
  urel (s, kd) a -> gsys_step c B cl s l s' -> (forall u o, l <> Some (EInv u o)) -> ug_apart (s, kd) ->
  (forall u o v i y, gthr s u = Some (o, GRun v (PUpd i y)) -> kd u <> UOff -> gthr s' u = gthr s u) ->
  uinv (s', kd).
Proof.
  intros (G & X & UI) ST NI AP NU. intros u o p E MD. cbn [fst snd] in *.
  assert (SAME : forall s1, gver s1 = gver s -> gmap s1 (gver s) = gmap s (gver s) ->
    (forall q, gmem s1 (gver s) q = gmem s (gver s) q) -> gthr s u = Some (o, p) -> 
    (exists q, client q /\ unsafe q /\ as_safe q = o) /\ upos s1 (kd u) o p).
  { intros s1 E1 E2 E3 E4. destruct (UI u o p E4 MD) as [Q P]. split; auto. cbn [fst snd] in P.
    destruct p as [|v pc]; auto. destruct pc as [i|i y|i y|i y|r|]; cbn in *; rewrite ?E1; auto.
    unfold found in *. rewrite E1, E2. unfold rd in *. rewrite E3. exact P. }
  destruct ST as [v mp me mg th tid o' E0 CL|v mp me mg th tid o' E0|v mp me mg th tid o' w pc b t' pc' E0 ND ST
    |v mp me mg th tid o' w r E0 RT|v mp me mg th tid o' w r E0 RT|v mp me th ins del LT
    |v mp me k h th tid E0|v mp me k h th tid pc s' t' k' pc' E0 ST|v mp me k h th EX FIN]; cbn [gthr] in *.
  - now elim (NI tid (spec_op sc o')).
  - destruct (N.eq_dec u tid) as [->|NE].
    + rewrite fupd_eq in E. injection E as <- <-. destruct (UI tid o' GGet E0 MD) as [Q P]. split; auto.
      cbn in P |- *. auto.
    + rewrite fupd_neq in E by exact NE. apply SAME; auto.
  - destruct (N.eq_dec u tid) as [->|NE].
    + rewrite fupd_eq in E. injection E as <- <-. destruct (UI tid o' _ E0 MD) as [Q P]. split; auto.
      cbn [fst snd upos gver] in P |- *.
      assert (NPU : forall i y, pc <> PUpd i y).
      { intros i y ->. specialize (NU tid o' w i y E0 MD). rewrite fupd_eq, E0 in NU.
        injection NU as NU. subst pc'. clear - ST. cbn [bstep] in ST.
        destruct (rd _ _ _ _); [|discriminate]. destruct (atomic_update _ _ _ _) as [[? []] ?]; try discriminate.
        destruct o'; try discriminate. destruct b; discriminate. }
      assert (P0 : w = v /\ kd tid = UOn).
      { destruct pc as [j|j z|j z|j z|r|]; cbn in P; auto; [now elim (NPU j z)|now elim (ND r)]. }
      destruct P0 as [-> P0]. destruct pc' as [i|i y|i y|i y|r|]; auto.
      split; auto. split; auto. unfold found. cbn [gver gmap gmem]. rewrite fupd_eq.
      destruct pc as [j|j z|j z|j z|r|].
      * destruct (load_found _ _ _ _ _ _ _ _ ST) as (-> & R & M & K). auto.
      * cbn [bstep] in ST. destruct (rd _ _ _ _); [|discriminate]. destruct (cas _ _ _ _) as [[[] ?] ?]; discriminate.
      * now elim (NPU j z).
      * cbn [bstep] in ST. destruct (rd _ _ _ _); [|discriminate].
        destruct (atomic_delete _ _ _) as [[[] ?] ?]; discriminate.
      * now elim (ND r).
      * discriminate.
    + rewrite fupd_neq in E by exact NE. destruct (UI u o p E MD) as [Q P]. split; auto.
      cbn [fst snd] in P. destruct p as [|z pc0]; auto. destruct pc0 as [j|j y|j y|j y|r|]; auto.
      cbn [upos gver] in P |- *. destruct P as (-> & FO & P). split; auto. split; auto.
      destruct (N.eq_dec w v) as [->|NV].
      * unfold found. cbn [gver gmap gmem]. rewrite fupd_eq. split; [|exact (proj2 FO)].
        exact (found_run (GSys v mp me mg th) a tid o' pc b t' pc' u o j y kd G NE E E0 ND ST AP MD FO
          ltac:(destruct Q as (q & Q1 & _ & Q2); exists q; auto)).
      * unfold found in *. cbn [gver gmap gmem] in *. rewrite fupd_neq by congruence. exact FO.
  - destruct (N.eq_dec u tid) as [->|NE].
    + rewrite fupd_eq in E. injection E as <- <-. destruct (UI tid o' _ E0 MD) as [Q P]. split; auto.
    + rewrite fupd_neq in E by exact NE. apply SAME; auto.
  - destruct (N.eq_dec u tid) as [->|NE].
    + rewrite fupd_eq in E. discriminate.
    + rewrite fupd_neq in E by exact NE. apply SAME; auto.
  - apply SAME; auto; cbn [gver gmap gmem]; [|intros q]; rewrite fupd_neq by lia; reflexivity.
  - apply SAME; auto.
  - destruct (UI u o p E MD) as [Q P]. split; auto. destruct p as [|z pc0]; auto.
    destruct (X ltac:(discriminate) u o z pc0 E) as [r ->]. exact P.
  - destruct (UI u o p E MD) as [Q P]. split; auto. destruct p as [|z pc0]; auto.
    destruct (X ltac:(discriminate) u o z pc0 E) as [r ->]. exact P.
Qed.

Lemma ug_sim x a l x' :
  urel x a -> ug_sync_step c B client x l x' ->
  exists a', asteps spec a (match l with Some e => [e] | None => [] end) a' /\ urel x' a'.
Proof.
  intros R (ST & X' & RM & AP & _). pose proof R as (G & X & UI).
  destruct ST as [v mp me mg th kd u q E CQ|s kd l s' ST NU|s kd u o v i y curr E MD RD|v mp me mg th kd u o w i y curr E MD];
    cbn [fst snd] in *.
  - destruct (gsim c B cl Hsc cl_ok CF HB _ _ _ _ G
      (g_inv c B cl v mp me mg th u (as_safe q) E (ex_intro _ q (conj CQ eq_refl))) (or_intror X) RM) as (a' & A1 & G').
    exists a'. split; auto. split; [exact G'|]. split; [exact X'|].
    intros u0 o p Eu MD. cbn [fst snd gthr] in *. unfold fupd in Eu, MD.  destruct (N.eqb_spec u0 u) as [->|NE].
    + injection Eu as <- <-. split.
      * exists q. destruct q; cbn in *; auto.
      * cbn. unfold fupd. rewrite N.eqb_refl. destruct q; cbn in *; auto; now elim MD.
    + destruct (UI u0 o p Eu MD) as [Q P]. split; auto. cbn in P |- *. unfold fupd.
      destruct (N.eqb_spec u0 u); [congruence|]. exact P.
  - pose proof (nobody_cl _ _ _ ST) as ST'.
    destruct (gsim c B cl Hsc cl_ok CF HB _ _ _ _ G ST' (or_intror X) RM) as (a' & A1 & G').
    exists a'. split; auto. split; [exact G'|]. split; [exact X'|].
    eapply uinv_base; eauto. intros u o ->. inversion ST; subst. contradiction.
  - exists a. split; [apply as_nil|]. split; [exact G|]. split; [exact X|].
    intros u0 o0 p0 Eu MD0. cbn [fst snd] in *. destruct (N.eq_dec u0 u) as [->|NE].
    + rewrite E in Eu. injection Eu as <- <-. destruct (UI u o _ E ltac:(cbn; congruence)) as [Q P]. split; auto.
      cbn in P |- *. destruct P as (-> & FO & _). split; auto. split; auto. right. rewrite fupd_eq. f_equal.
      destruct FO as [FO _]. congruence.
    + rewrite fupd_neq in MD0 |- * by exact NE. now apply UI.
  - destruct (UI u o _ E ltac:(cbn; congruence)) as [(q & CQ & U & <-) P]. cbn in P.
    destruct P as (-> & FO & P). destruct P as [P|P]; [congruence|]. rewrite MD in P. injection P as ->.
    pose proof (store_is_update _ _ q i y true G CQ U FO) as SU. cbn [gver gmap gmem] in SU.
    set (p := remap mc (mp v) i) in *.
    set (s' := GSys v mp (fupd me v (store_word (me v) (p, fn (op_fun (as_safe q)) (sdata y)))) mg
      (fupd th u (Some (as_safe q, GRun v (PDone (BRet RC_SUCCESS_UP (fst (non_atomic_update sc y (op_fun (as_safe q)))) (Some p))))))) in *.
    assert (ST : gsys_step c B cl (GSys v mp me mg th) None s').
    { eapply g_run; eauto. discriminate. }
    destruct (gsim c B cl Hsc cl_ok CF HB _ _ _ _ G ST (or_intror X) RM) as (a' & A1 & G').
    exists a'. split; auto. split; [exact G'|]. split; [exact X'|].
    intros u0 o p0 Eu MD0. cbn [fst snd gthr s'] in *. destruct (N.eq_dec u0 u) as [->|NE].
    + rewrite fupd_eq in Eu. injection Eu as <- <-. split; [eauto|]. cbn. apply fupd_eq.
    + rewrite fupd_neq in Eu by exact NE. rewrite fupd_neq in MD0 |- * by exact NE.
      destruct (UI u0 o p0 Eu MD0) as [Q P0]. split; auto. cbn [fst snd] in P0.
      destruct p0 as [|z pc0]; auto. destruct pc0 as [j|j y'|j y'|j y'|r|]; auto.
      cbn [upos gver s'] in P0 |- *. destruct P0 as (-> & FO' & P0). split; auto. split; auto.
      unfold found. cbn [gver gmap gmem s']. rewrite fupd_eq. split; [|exact (proj2 FO')].
      refine (found_run (GSys v mp me mg th) a u (as_safe q) (PUpd i y) true _ _ u0 o j y' kd G NE Eu E _ SU AP MD0 FO' _); [discriminate|].
      destruct Q as (q' & Q1 & _ & Q2). exists q'. auto.
Qed.

Lemma ug_sim_trace x a tr x' :
  urel x a -> lts_steps (ug_sync_step c B client) x tr x' ->
  exists a', asteps spec a tr a' /\ urel x' a'.
Proof.
  intros R ST. revert a R. induction ST as [s|s s1 s2 tr S ST IH|s e s1 s2 tr S ST IH]; intros x R.
  - exists x. split; [apply as_nil|exact R].
  - destruct (ug_sim _ _ _ _ R S) as (x1 & A1 & R1).
    destruct (IH x1 R1) as (x2 & A2 & R2). exists x2. split; auto.
    change tr with ([] ++ tr). eapply asteps_trans; eauto.
  - destruct (ug_sim _ _ _ _ R S) as (x1 & A1 & R1).
    destruct (IH x1 R1) as (x2 & A2 & R2). exists x2. split; auto.
    change (e :: tr) with ([e] ++ tr). eapply asteps_trans; eauto.
Qed.

Theorem ug_linearizable lg : 1 <= lg <= 63 ->
  linearizable spec (ug_sync_step c B client) (ug_init c lg) amap_empty.
Proof.
  intros LG tr s ST. destruct (ug_sim_trace (ug_init c lg) (AObj amap_empty (fun _ => AIdle)) tr s) as (x & A & _); [|exact ST|].
  - split; [apply (ginit_rel c B cl Hsc lg LG)|]. split; [apply init_exclusive|].
    intros u o p E. discriminate.
  - exists x. exact A.
Qed.

End UG.
