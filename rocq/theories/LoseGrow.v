(** Synchronised growing tables whose cells cannot be marked, under any mix of calls. *)
From Coq Require Import NArith Bool List Lia.
From Verif Require Import Words Slot SlotFacts Mapper MapperFacts ReturnCode MapSpec LinSpec
  Base BaseInv BaseLin TableSpec Migrate Growing GrowingSpec GrowingInv GrowingFacts LoseSpec LoseFacts LoseBase.
Import ListNotations.
Open Scope N_scope.

Section G.
Context (c : tcfg) (B : N) (client : op -> Prop).
Context (Hsc : wf_scfg (tsc c)) (SM : sc_mark (tsc c) = false).
Context (CO : forall o, client o -> op_ok (tsc c) o).
Context (CF : cmap (tmc c) = false \/ cprob (tmc c) = true) (HB : 0 < B <= 2 ^ 31).
Notation sc := (tsc c).
Notation mc := (tmc c).
Notation spec := (mspec false false).

(** *** Helpers *)

Definition hlike (x y : hpc) : Prop :=
  x = y \/
  (exists e i a b, x = H1Mark e i a /\ y = H1Mark e i b /\ skey a = ddummy sc /\ skey b = ddummy sc) \/
  (exists i a b, x = H2Mark i a /\ y = H2Mark i b /\ skey a = ddummy sc /\ skey b = ddummy sc).

Lemma dd_deleted a : skey a = ddummy sc -> is_deleted sc a = true.
Proof. intros E. unfold is_deleted. now rewrite E, N.eqb_refl. Qed.

Ltac fin := sp; auto using same_write, olike_refl; try (now left).

Lemma same_hstep ms mt src srcn tgt tgtn k pc pcn src' tgt' k' pc' :
  same sc src srcn -> same sc tgt tgtn -> hlike pc pcn ->
  hstep c ms mt B src tgt k pc = (src', tgt', k', pc') ->
  exists srcn' tgtn' pcn', hstep c ms mt B srcn tgtn k pcn = (srcn', tgtn', k', pcn') /\
    same sc src' srcn' /\ same sc tgt' tgtn' /\ hlike pc' pcn'.
Proof.
  intros S T H ST.
  assert (AM : forall x e, atomic_mark sc x e = (true, x, e)) by (intros; unfold atomic_mark; now rewrite SM).
  destruct H as [<-|[(e & i & a & b & -> & -> & Ea & Eb)|(i & a & b & -> & -> & Ea & Eb)]].
  - destruct pc as [| |e i|e i s|e i l|e i|e i s|i l|i|i s|ph i s j|ph i s j|]; cbn [hstep] in *.
    + injection ST as <- <- <- <-. eexists _, _, _. split; [reflexivity|]. fin.
    + injection ST as <- <- <- <-. eexists _, _, _. split; [reflexivity|]. fin.
    + pose proof (rd_like c ms src srcn i S) as R. injection ST as <- <- <- <-.
      eexists _, _, _. split; [reflexivity|]. fin.
      destruct (rd c ms src i) as [x|], (rd c ms srcn i) as [y|]; cbn in R; try contradiction; [|now left].
      destruct R as [->|[X Y]]; [now left|].
      rewrite (dd_not_empty c Hsc x X), (dd_not_empty c Hsc y Y). now left.
    + pose proof (rd_like c ms src srcn i S) as R.
      destruct (rd c ms src i) as [x|], (rd c ms srcn i) as [y|]; cbn in R; try contradiction;
        rewrite ?AM in *; injection ST as <- <- <- <-; eexists _, _, _; (split; [reflexivity|]); fin.
    + destruct l as [|p l]; [injection ST as <- <- <- <-; eexists _, _, _; (split; [reflexivity|]); fin|].
      destruct (p <? total_slots mc mt); injection ST as <- <- <- <-; eexists _, _, _; (split; [reflexivity|]); fin.
    + pose proof (rd_like c ms src srcn i S) as R. injection ST as <- <- <- <-.
      eexists _, _, _. split; [reflexivity|]. fin.
      destruct (rd c ms src i) as [x|], (rd c ms srcn i) as [y|]; cbn in R; try contradiction; [|now left].
      destruct R as [->|[X Y]]; [now left|]. right. left. exists e, i, x, y. auto.
    + pose proof (rd_like c ms src srcn i S) as R.
      destruct (rd c ms src i) as [x|], (rd c ms srcn i) as [y|]; cbn in R; try contradiction;
        rewrite ?AM in *; injection ST as <- <- <- <-; eexists _, _, _; (split; [reflexivity|]); fin.
    + destruct l as [|p l]; [injection ST as <- <- <- <-; eexists _, _, _; (split; [reflexivity|]); fin|].
      destruct (p <? total_slots mc mt); injection ST as <- <- <- <-; eexists _, _, _; (split; [reflexivity|]); fin.
    + pose proof (rd_like c ms src srcn (remap mc ms i) S) as R. injection ST as <- <- <- <-.
      eexists _, _, _. split; [reflexivity|]. fin.
      destruct (rd c ms src (remap mc ms i)) as [x|], (rd c ms srcn (remap mc ms i)) as [y|]; cbn in R; try contradiction; [|now left].
      destruct R as [->|[X Y]]; [now left|]. right. right. exists i, x, y. auto.
    + pose proof (rd_like c ms src srcn (remap mc ms i) S) as R.
      destruct (rd c ms src (remap mc ms i)) as [x|], (rd c ms srcn (remap mc ms i)) as [y|]; cbn in R; try contradiction;
        rewrite ?AM in *; injection ST as <- <- <- <-; eexists _, _, _; (split; [reflexivity|]); fin.
    + pose proof (rd_like c mt tgt tgtn (remap mc mt j) T) as R. injection ST as <- <- <- <-.
      eexists _, _, _. split; [reflexivity|]. fin.
      destruct (rd c mt tgt (remap mc mt j)) as [x|], (rd c mt tgtn (remap mc mt j)) as [y|]; cbn in R; try contradiction; [|now left].
      destruct R as [->|[X Y]]; [now left|].
      rewrite (dd_not_empty c Hsc x X), (dd_not_empty c Hsc y Y). now left.
    + destruct (remap mc mt j <? total_slots mc mt); injection ST as <- <- <- <-; eexists _, _, _; (split; [reflexivity|]); fin.
    + injection ST as <- <- <- <-. eexists _, _, _. split; [reflexivity|]. fin.
  - cbn [hstep] in *. pose proof (rd_like c ms src srcn i S) as R.
    destruct (rd c ms src i) as [x|], (rd c ms srcn i) as [y|]; cbn in R; try contradiction; rewrite ?AM in *;
      injection ST as <- <- <- <-; eexists _, _, _; (split; [reflexivity|]); fin.
    rewrite (dd_not_empty c Hsc a Ea), (dd_not_empty c Hsc b Eb), (dd_deleted a Ea), (dd_deleted b Eb). now left.
  - cbn [hstep] in *. pose proof (rd_like c ms src srcn (remap mc ms i) S) as R.
    destruct (rd c ms src (remap mc ms i)) as [x|], (rd c ms srcn (remap mc ms i)) as [y|]; cbn in R; try contradiction; rewrite ?AM in *;
      injection ST as <- <- <- <-; eexists _, _, _; (split; [reflexivity|]); fin.
    rewrite (dd_not_empty c Hsc a Ea), (dd_not_empty c Hsc b Eb), (dd_deleted a Ea), (dd_deleted b Eb). now left.
Qed.

(** *** The clean system *)

Definition ohlike (x y : option hpc) : Prop :=
  match x, y with Some p, Some q => hlike p q | None, None => True | _, _ => False end.
Definition mlike (x y : option (N * (N -> option hpc))) : Prop :=
  match x, y with
  | Some (k, h), Some (k', h') => k = k' /\ forall t, ohlike (h t) (h' t)
  | None, None => True
  | _, _ => False
  end.

Definition gtlike (v : N) (m : mapper) (tn : mem) (f : bool) (x y : option (op * gpc)) : Prop :=
  x = y \/ exists o i k d, x = Some (o, GRun v (PUpd i (Slot k d))) /\ y = Some (o, GRun v (PLoad i)) /\
           f = true /\ is_update o /\ gone c tn (remap mc m i).

Definition lrel (s : gsys) (w : wobj) : Prop :=
  exists men mgn thn x fl, grel c B client (GSys (gver s) (gmap s) men mgn thn) x /\ wrel x fl w /\
    (forall u, same sc (gmem s u) (men u)) /\ mlike (gmig s) mgn /\
    forall u, gtlike (gver s) (gmap s (gver s)) (men (gver s)) (fl u) (gthr s u) (thn u).

(** Nobody is about to update a deleted cell while the table is migrated. *)
Lemma all_equal s men mgn thn fl :
  exclusive s -> gmig s <> None -> mlike (gmig s) mgn ->
  (forall u, gtlike (gver s) (gmap s (gver s)) (men (gver s)) (fl u) (gthr s u) (thn u)) ->
  forall u, gthr s u = thn u.
Proof.
  intros EX MG ML L u. destruct (L u) as [E|(o & i & k & d & E & _)]; auto.
  exfalso. destruct (EX MG _ _ _ _ E) as [r X]. discriminate.
Qed.

Lemma clean_exclusive s men mgn thn fl :
  exclusive s -> mlike (gmig s) mgn ->
  (forall u, gtlike (gver s) (gmap s (gver s)) (men (gver s)) (fl u) (gthr s u) (thn u)) ->
  exclusive (GSys (gver s) (gmap s) men mgn thn).
Proof.
  intros EX ML L MG u o v pc E. cbn [gmig gthr] in *.
  assert (MG' : gmig s <> None).
  { intros X. rewrite X in ML. destruct mgn; [contradiction|]. now elim MG. }
  rewrite <- (all_equal s men mgn thn fl EX MG' ML L u) in E. eapply EX; eauto.
Qed.

(** Calls about to update a cell that is deleted in [t'] go back. *)
Definition gback (v : N) (m : mapper) (t' : mem) (tid : N) (thn : N -> option (op * gpc)) : N -> option (op * gpc) :=
  fun u => match thn u with
           | Some (o, GRun w (PUpd i s)) =>
               if u =? tid then Some (o, GRun w (PUpd i s))
               else if gone_dec c t' (remap mc m i) then Some (o, GRun w (PLoad i)) else Some (o, GRun w (PUpd i s))
           | y => y
           end.

Lemma gback_cases v m t' tid thn u :
  gback v m t' tid thn u = thn u \/
  exists o w i s, u <> tid /\ thn u = Some (o, GRun w (PUpd i s)) /\
    gback v m t' tid thn u = Some (o, GRun w (PLoad i)) /\ gone c t' (remap mc m i).
Proof.
  unfold gback. destruct (thn u) as [[o [|w [i|i s|i s|i s|r|]]]|]; auto.
  destruct (N.eqb_spec u tid); auto. destruct (gone_dec c t' (remap mc m i)); auto.
  right. exists o, w, i, s. auto.
Qed.

Lemma thr_ok_back s ct o w i s0 st :
  thr_ok c client s ct (Some (o, GRun w (PUpd i s0))) st -> 
  w = gver s /\ thr_inv c (gmap s w) ct o (PUpd i s0) /\ thr_ok c client s ct (Some (o, GRun w (PLoad i))) st.
Proof.
  intros [CL [(E & TI & AT)|(_ & X & _)]]; [|congruence]. split; [exact E|]. split; [exact TI|].
  split; [exact CL|]. left. split; [exact E|]. split; [|exact AT].
  destruct TI as (n & d & E1 & P & _). exists n. auto.
Qed.

Lemma up_not_retried o r : rcode r = RC_SUCCESS_UP -> retries o r = false.
Proof. intros E. destruct o; cbn [retries]; rewrite ?E; reflexivity. Qed.

Lemma glose_run v mp me mg th w tid o u pc b t' pc' :
  lrel (GSys v mp me mg th) w -> exclusive (GSys v mp me mg th) ->
  th tid = Some (o, GRun u pc) -> (forall r, pc <> PDone r) ->
  bstep c (mp u) (me u) b o pc = (t', pc') ->
  exists w', lts_steps (wstep spec) w [] w' /\
             lrel (GSys v mp (fupd me u t') mg (fupd th tid (Some (o, GRun u pc')))) w'.
Proof.
  intros (men & mgn & thn & x & fl & R & W & S & ML & L) EX E ND ST. cbn [gver gmap gmem gmig gthr] in *.
  assert (mg = None) as ->.
  { destruct mg as [p|]; auto. exfalso. destruct (EX ltac:(discriminate) _ _ _ _ E) as [r ->]. now elim (ND r). }
  destruct mgn as [?|]; [contradiction|].
  pose proof R as R0. destruct R0 as (ct & mk & l & CI & A & T & FS). cbn [gver gmap gmem gmig gthr] in *.
  pose proof CI as CI0. destruct CI0 as (lg & Wf & MK & I). cbn [gver gmap gmem gmig gthr] in *.
  pose proof (L tid) as Lt. rewrite E in Lt.
  assert (Uv : u = v).
  { destruct Lt as [Et|(o1 & i & k & d & E1 & _)]; [|congruence].
    pose proof (T tid) as Tt. rewrite <- Et in Tt. destruct Tt as [_ Tt].
    destruct pc as [i|i s|i s|i s|r|]; try (destruct Tt as [(X & _)|(_ & X & _)]; [exact X|congruence]). now elim (ND r). }
  subst u. rename ST into ST0.
  destruct Lt as [Et|(o1 & i & k & d & E1 & E2 & F & U & G)].
  - symmetry in Et. pose proof (T tid) as Tt. rewrite Et in Tt.
    assert (TT : client o /\ thr_inv c (mp v) ct o pc /\ ath x tid = APend (spec_op sc o)).
    { destruct Tt as [CL Tt]. split; auto.
      destruct pc as [i|i s|i s|i s|r|]; try (destruct Tt as [(_ & X & Y)|(_ & X & _)]; [auto|congruence]). now elim (ND r). }
    destruct TT as (CL & TI & ATH).
    destruct (same_bstep c (mp v) lg Hsc Wf SM (me v) (men v) ct mk b o pc t' pc' (S v) I (CO o CL) TI ST0) as (tn' & STn & S').
    set (thb := gback v (mp v) tn' tid thn).
    assert (Eb : thb tid = Some (o, GRun v pc)).
    { unfold thb, gback. rewrite Et, N.eqb_refl. destruct pc; reflexivity. }
    assert (Tb : forall z, thr_ok c client (GSys v mp men None thn) ct (thb z) (ath x z)).
    { intros z. destruct (gback_cases v (mp v) tn' tid thn z) as [Q|(o1 & w1 & i & s & _ & E1 & Q & _)]; fold thb in Q; rewrite Q; auto.
      pose proof (T z) as Tz. rewrite E1 in Tz. apply thr_ok_back in Tz. apply Tz. }
    destruct x as [a th']. cbn [ast ath] in *.
    destruct (run_cur_gen c B client Hsc HB v mp men None thb ct mk l a th' tid o pc b tn' pc') as (x' & AS & R').
    { exact CI. } { exact A. }
    { intros z. specialize (Tb z). destruct (thb z) as [[o1 [|w1 p1]]|]; exact Tb. }
    { intros z Hz. apply FS. intros X. apply Hz. unfold thb, gback. now rewrite X. }
    { exact Eb. } { now apply running_nd. } { exact STn. }
    { right. intros X. now elim X. }
    { exact CO. }
    { intros ct' p I' Q LP M0 ER z o' pc'' NE Ez CLz. right. right. intros i s -> X.
      assert (Gp : gone c tn' p).
      { unfold gone. destruct (ti_cell _ _ _ _ _ I' p LP) as [C _]. rewrite C, Q, fupd_eq, M0. reflexivity. }
      unfold thb, gback in Ez.
      destruct (thn z) as [[o0 [|w0 [j|j s0|j s0|j s0|r|]]]|]; try discriminate.
      destruct (N.eqb_spec z tid); [contradiction|].
      destruct (gone_dec c tn' (remap mc (mp v) j)) as [Y|Y]; [discriminate|]. injection Ez as <- <- <- <-. congruence. }
    destruct (lift_steps _ _ _ _ AS fl w W) as (w' & fl' & WS & W' & MON & HIT).
    exists w'. split; [exact WS|].
    exists (fupd men v tn'), None, (fupd thb tid (Some (o, GRun v pc'))), x', fl'. cbn [gver gmap gmem gmig gthr].
    split; [exact R'|]. split; [exact W'|]. split; [|split; [exact Logic.I|]].
    { intros z. unfold fupd. destruct (z =? v); auto. }
    intros u. rewrite fupd_eq. destruct (N.eq_dec u tid) as [->|NE]; [rewrite !fupd_eq; now left|].
    rewrite !fupd_neq by exact NE.
    destruct (L u) as [Lu|(o1 & i & k & d & E1 & E2 & F & U & G)].
    + rewrite Lu. destruct (gback_cases v (mp v) tn' tid thn u) as [EB|(o1 & w1 & i & s & _ & E1 & EB & G)]; fold thb in EB; rewrite EB; [now left|].
      right. pose proof (T u) as Tu. rewrite E1 in Tu. pose proof (proj1 Tu) as CLu.
      apply thr_ok_back in Tu. cbn [gver gmap] in Tu.
      destruct Tu as (-> & (n & d & Ei & P & Es & U & LV) & _).
      exists o1, i, (op_key o1), d. rewrite E1. subst s. sp; auto.
      destruct (LV SM) as [d' EL]. subst i.
      destruct (rd_tinv c (mp v) lg Wf _ _ _ _ _ I P) as (RD & LT & OK).
      apply rd_some in RD. rewrite (no_marks c (mp v) SM _ _ _ _ I LT), EL in RD.
      assert (NG : ~ gone c (men v) (remap mc (mp v) (home c (mp v) (op_key o1) + n))).
      { unfold gone. rewrite RD. intros [= X _]. elim (valid_dd c (op_key o1)); [apply CO; auto|exact X]. }
      destruct (bstep_gone c (mp v) lg Wf SM _ _ _ _ _ _ _ _ _ I (CO o CL) TI STn G NG) as (ER & (d0 & Q) & DN).
      rewrite RD in Q. injection Q as KEY _.
      destruct R' as (ct2 & mk2 & l2 & _ & _ & T2 & _). cbn [gthr gver] in T2.
      eapply (HIT eq_refl tid (spec_op sc o) ATH) with (o' := spec_op sc o1).
      * pose proof (T2 tid) as X. rewrite fupd_eq, DN in X. destruct X as (_ & X). rewrite X.
        unfold fin_stat. destruct o; try contradiction; reflexivity.
      * pose proof (T2 u) as X. rewrite fupd_neq in X by exact NE. rewrite EB in X.
        destruct X as [_ [(_ & _ & X)|(X & _)]]; [exact X|cbn in X; lia].
      * rewrite !spec_key. exact KEY.
    + assert (EB : thb u = Some (o1, GRun v (PLoad i))) by (unfold thb, gback; rewrite E2; reflexivity).
      rewrite EB. right. exists o1, i, k, d. sp; auto.
      * apply MON; auto. intros ? [].
      * eapply (bstep_keeps c (mp v) lg Hsc Wf SM); eauto.
  - injection E1 as <- ->. pose proof (T tid) as Tt. rewrite E2 in Tt.
    destruct Tt as (CL & [(_ & (n & Ei & P) & ATH)|(X & _)]); [|cbn in X; lia]. subst i. cbn [gmap] in P, G, E2, E, ST0 |- *.
    destruct (rd_tinv c (mp v) lg Wf _ _ _ _ _ I P) as (RD & LT & OK).
    destruct (dead_step c (mp v) SM (me v) (men v) b o _ _ t' pc' (S v) G LT U (ex_intro _ k (ex_intro _ d eq_refl)) (proj2 (CO o CL)) ST0)
      as (S' & CASES).
    assert (S2 : forall z, same sc (fupd me v t' z) (men z)).
    { intros z. unfold fupd. destruct (N.eqb_spec z v) as [->|]; auto. }
    destruct CASES as [(r & v0 & -> & OB & RC)|[->|(k0 & f & r & -> & -> & OB & RC)]].
    + destruct (lift_lost spec x fl w tid (spec_op sc o) v0 W ATH F (spec_updates c o U)) as (w' & WS & W').
      exists w'. split; [exact WS|].
      eexists men, None, (fupd thn tid (Some (o, GRun v (PDone r)))), _, fl. cbn [gver gmap gmem gmig gthr].
      split; [|split; [exact W'|]].
      * eapply (thr_step c B client (GSys v mp men None thn) x ct mk l tid (Some (o, GRun v (PDone r)))); eauto.
        split; auto. unfold fin_stat. rewrite (up_not_retried o r RC). rewrite gobs_obs; rewrite OB; congruence.
      * split; [exact S2|]. split; [exact Logic.I|]. intros u. destruct (N.eq_dec u tid) as [->|NE]; [rewrite !fupd_eq; now left|].
        rewrite !fupd_neq by exact NE. apply L.
    + exists w. split; [apply ls_nil|]. exists men, None, thn, x, fl. cbn [gver gmap gmem gmig gthr]. sp; auto.
      intros u. destruct (N.eq_dec u tid) as [->|NE]; [rewrite !fupd_eq, E2; now left|].
      rewrite !fupd_neq by exact NE. apply L.
    + destruct x as [a th']. cbn [ast ath] in *.
      assert (AS : asteps spec (AObj a th') [] (AObj a (fupd th' tid (ADone RBackoff)))).
      { eapply as_tau; [|apply as_nil]. eapply a_lin; eauto. constructor. }
      destruct (lift_steps _ _ _ _ AS fl w W) as (w' & fl' & WS & W' & MON & _).
      exists w'. split; [exact WS|].
      eexists men, None, (fupd thn tid (Some (OUpdateB k0 f, GRun v (PDone r)))), _, fl'. cbn [gver gmap gmem gmig gthr].
      split; [|split; [exact W'|]].
      * eapply (thr_step c B client (GSys v mp men None thn) (AObj a th') ct mk l tid (Some (OUpdateB k0 f, GRun v (PDone r)))); eauto.
        split; auto. subst r. reflexivity.
      * split; [exact S2|]. split; [exact Logic.I|]. intros u. destruct (N.eq_dec u tid) as [->|NE]; [rewrite !fupd_eq; now left|].
        rewrite !fupd_neq by exact NE. destruct (L u) as [Lu|(o1 & i & k1 & d1 & E1' & E2' & F' & U' & G')]; [now left|].
        right. exists o1, i, k1, d1. sp; auto. apply MON; auto. intros ? [].
Qed.

Lemma gtlike_mon v m tn f f' x y : (f = true -> f' = true) -> gtlike v m tn f x y -> gtlike v m tn f' x y.
Proof.
  intros M [E|(o & i & k & d & E1 & E2 & F & U & G)]; [now left|]. right. exists o, i, k, d. sp; auto.
Qed.

Lemma vacant_like tot t tn p : same sc t tn -> vacant sc tot t p -> vacant sc tot tn p.
Proof.
  intros S (L & x & E & W). split; auto. specialize (S p). rewrite E in S.
  destruct (tn p) as [y|]; [|contradiction]. exists y. split; auto.
  destruct S as [<-|[X Y]]; auto. exfalso. destruct W as [W|[W _]]; [|congruence].
  destruct (dd_pos c Hsc). congruence.
Qed.

Lemma room_like v mp me men mg mgn th thn v' mp' me' men' mg' mgn' th' thn' :
  (forall u, same sc (me u) (men u)) ->
  room c (GSys v mp me mg th) (GSys v' mp' me' mg' th') -> room c (GSys v mp men mgn thn) (GSys v' mp' men' mgn' thn').
Proof.
  intros S R CP NE. destruct (R CP NE) as [p V]. exists p. cbn in *. eapply vacant_like; eauto.
Qed.

(** Steps that do not touch a cell on behalf of a call. *)
Lemma glose_sim s w e s' :
  lrel s w -> exclusive s -> sync_step c B client s e s' ->
  exists w', lts_steps (wstep spec) w (match e with Some e => [e] | None => [] end) w' /\ lrel s' w'.
Proof.
  intros R EX (ST & EX' & RM).
  destruct ST as [v mp me mg th tid o E CL|v mp me mg th tid o E|v mp me mg th tid o u pc b t' pc' E ND ST
    |v mp me mg th tid o u r E RT|v mp me mg th tid o u r E RT|v mp me th ins del LT
    |v mp me k h th tid E|v mp me k h th tid pc s' t' k' pc' E ST|v mp me k h th EH FIN].
  3: { eapply glose_run; eauto. }
  all: destruct R as (men & mgn & thn & x & fl & R & W & S & ML & L).
  all: pose proof R as R0; destruct R0 as (ct & mk & l & CI & A & T & FS); cbn [gver gmap gmem gmig gthr] in *.
  - (* a call begins *)
    assert (En : thn tid = None) by (destruct (L tid) as [X|(o1 & i & k & d & E1 & _)]; congruence).
    destruct x as [a th']. pose proof (T tid) as Tt. rewrite En in Tt. cbn in Tt.
    assert (AS : asteps spec (AObj a th') [EInv tid (spec_op sc o)] (AObj a (fupd th' tid (APend (spec_op sc o))))).
    { eapply as_vis; [|apply as_nil]. now apply a_inv. }
    destruct (lift_steps _ _ _ _ AS fl w W) as (w' & fl' & WS & W' & MON & _).
    exists w'. split; [exact WS|]. eexists men, mgn, (fupd thn tid (Some (o, GGet))), _, fl'. cbn [gver gmap gmem gmig gthr].
    split; [|split; [exact W'|]].
    + eapply (thr_step c B client (GSys v mp men mgn thn) (AObj a th') ct mk l tid (Some (o, GGet))); eauto. split; auto.
    + split; [exact S|]. split; [exact ML|]. intros u. destruct (N.eq_dec u tid) as [->|NE]; [rewrite !fupd_eq; now left|].
      rewrite !fupd_neq by exact NE. eapply gtlike_mon; [|apply L]. apply MON. intros o' [[= X _]|[]]. congruence.
  - (* get_table *)
    assert (En : thn tid = Some (o, GGet)) by (destruct (L tid) as [X|(o1 & i & k & d & E1 & _)]; congruence).
    pose proof (T tid) as Tt. rewrite En in Tt. destruct Tt as [CL Tt].
    exists w. split; [apply ls_nil|]. eexists men, mgn, (fupd thn tid (Some (o, GRun v (start c (mp v) o)))), x, fl. cbn [gver gmap gmem gmig gthr].
    split; [|split; [exact W|]].
    + eapply (thr_step_same c B client (GSys v mp men mgn thn) x ct mk l tid (Some (o, GRun v (start c (mp v) o)))); eauto.
      split; auto. cbn. left. sp; auto. exists 0. split; [lia|]. intros j Hj. lia.
    + split; [exact S|]. split; [exact ML|]. intros u. destruct (N.eq_dec u tid) as [->|NE]; [rewrite !fupd_eq; now left|].
      rewrite !fupd_neq by exact NE. apply L.
  - (* the call starts over *)
    assert (En : thn tid = Some (o, GRun u (PDone r))) by (destruct (L tid) as [X|(o1 & i & k & d & E1 & _)]; congruence).
    pose proof (T tid) as Tt. rewrite En in Tt. destruct Tt as [CL Tt].
    exists w. split; [apply ls_nil|]. eexists men, mgn, (fupd thn tid (Some (o, GGet))), x, fl. cbn [gver gmap gmem gmig gthr].
    split; [|split; [exact W|]].
    + eapply (thr_step_same c B client (GSys v mp men mgn thn) x ct mk l tid (Some (o, GGet))); eauto.
      split; auto. rewrite Tt. unfold fin_stat. now rewrite RT.
    + split; [exact S|]. split; [exact ML|]. intros z. destruct (N.eq_dec z tid) as [->|NE]; [rewrite !fupd_eq; now left|].
      rewrite !fupd_neq by exact NE. apply L.
  - (* a call returns *)
    assert (En : thn tid = Some (o, GRun u (PDone r))) by (destruct (L tid) as [X|(o1 & i & k & d & E1 & _)]; congruence).
    destruct x as [a th']. pose proof (T tid) as Tt. rewrite En in Tt. destruct Tt as [CL Tt].
    unfold fin_stat in Tt. rewrite RT in Tt. cbn in Tt.
    assert (AS : asteps spec (AObj a th') [ERet tid (gobs o r)] (AObj a (fupd th' tid AIdle))).
    { eapply as_vis; [|apply as_nil]. now apply a_ret. }
    destruct (lift_steps _ _ _ _ AS fl w W) as (w' & fl' & WS & W' & MON & _).
    exists w'. split; [exact WS|]. eexists men, mgn, (fupd thn tid None), _, fl'. cbn [gver gmap gmem gmig gthr].
    split; [|split; [exact W'|]].
    + eapply (thr_step c B client (GSys v mp men mgn thn) (AObj a th') ct mk l tid None); eauto. reflexivity.
    + split; [exact S|]. split; [exact ML|]. intros z. destruct (N.eq_dec z tid) as [->|NE]; [rewrite !fupd_eq; now left|].
      rewrite !fupd_neq by exact NE. eapply gtlike_mon; [|apply L]. apply MON. intros o' [X|[]]. discriminate X.
  - (* a migration begins *)
    destruct mgn as [?|]; [contradiction|].
    assert (EQ : forall z, th z = thn z).
    { intros z. destruct (L z) as [X|(o1 & i & k & d & E1 & _)]; auto.
      exfalso. destruct (EX' ltac:(discriminate) _ _ _ _ E1) as [r X]. discriminate. }
    set (mt := resize mc (mp v) ins del) in *.
    set (sn' := GSys v (fupd mp (v + 1) mt) (fupd men (v + 1) (target_mem mc mt)) (Some (0, fun _ => None)) thn).
    destruct (gsim_with c B client Hsc CF HB (GSys v mp men None thn) x None sn') as (x' & AS & R'); auto.
    { intros v0 mp0 me0 mg0 th0 tid o u pc b t' pc' Q1 _ Q2. injection Q1 as <- <- <- <- <-. discriminate Q2. }
    { apply g_grow. exact LT. }
    { right. intros X. now elim X. }
    { intros CP NE. now elim NE. }
    destruct (lift_steps _ _ _ _ AS fl w W) as (w' & fl' & WS & W' & MON & _).
    exists w'. split; [exact WS|]. eexists _, _, thn, x', fl'. cbn [gver gmap gmem gmig gthr].
    split; [exact R'|]. split; [exact W'|]. split; [|split].
    + intros z. unfold fupd. destruct (z =? v + 1); [apply same_refl|apply S].
    + split; [reflexivity|]. intros t. exact Logic.I.
    + intros z. left. apply EQ.
  - (* a helper joins *)
    destruct mgn as [[kn hn]|]; [|contradiction]. destruct ML as [<- ML].
    pose proof (all_equal (GSys v mp me (Some (k, h)) th) men (Some (k, hn)) thn fl EX ltac:(discriminate) (conj eq_refl ML) L) as EQ. cbn [gthr] in EQ.
    pose proof (clean_exclusive (GSys v mp me (Some (k, h)) th) men (Some (k, hn)) thn fl EX (conj eq_refl ML) L) as EXn.
    set (sn' := GSys v mp men (Some (k, fupd hn tid (Some HClaim))) thn).
    destruct (gsim_with c B client Hsc CF HB (GSys v mp men (Some (k, hn)) thn) x None sn') as (x' & AS & R'); auto.
    { intros v0 mp0 me0 mg0 th0 t1 o u pc b t' pc' Q1 _ Q2 Q3 Q4. injection Q1 as <- <- <- <- <-.
      exfalso. destruct (EXn ltac:(discriminate) _ _ _ _ Q3) as [r ->]. now elim (Q4 r). }
    { apply g_join. pose proof (ML tid) as M. destruct E as [E|E]; rewrite E in M; destruct (hn tid) as [q|]; cbn in M; try contradiction; auto.
      destruct M as [<-|[(e & i & a & b & X & _)|(i & a & b & X & _)]]; [auto|discriminate..]. }
    { right. exact EXn. }
    { intros CP NE. now elim NE. }
    destruct (lift_steps _ _ _ _ AS fl w W) as (w' & fl' & WS & W' & MON & _).
    exists w'. split; [exact WS|]. eexists _, _, thn, x', fl'. cbn [gver gmap gmem gmig gthr].
    split; [exact R'|]. split; [exact W'|]. split; [exact S|]. split.
    + split; [reflexivity|]. intros t. unfold fupd. destruct (t =? tid); [now left|apply ML].
    + intros z. left. apply EQ.
  - (* a helper makes a step *)
    destruct mgn as [[kn hn]|]; [|contradiction]. destruct ML as [<- ML].
    pose proof (all_equal (GSys v mp me (Some (k, h)) th) men (Some (k, hn)) thn fl EX ltac:(discriminate) (conj eq_refl ML) L) as EQ. cbn [gthr] in EQ.
    pose proof (clean_exclusive (GSys v mp me (Some (k, h)) th) men (Some (k, hn)) thn fl EX (conj eq_refl ML) L) as EXn.
    pose proof (ML tid) as M. rewrite E in M. destruct (hn tid) as [pcn|] eqn:En; [|contradiction].
    destruct (same_hstep (mp v) (mp (v + 1)) _ _ _ _ k pc pcn s' t' k' pc' (S v) (S (v + 1)) M ST) as (sn & tn & pcn' & STn & S1 & S2 & M').
    set (sn' := GSys v mp (fupd (fupd men v sn) (v + 1) tn) (Some (k', fupd hn tid (Some pcn'))) thn).
    destruct (gsim_with c B client Hsc CF HB (GSys v mp men (Some (k, hn)) thn) x None sn') as (x' & AS & R'); auto.
    { intros v0 mp0 me0 mg0 th0 t1 o u pc0 b t0 pc0' Q1 _ Q2 Q3 Q4. injection Q1 as <- <- <- <- <-.
      exfalso. destruct (EXn ltac:(discriminate) _ _ _ _ Q3) as [r ->]. now elim (Q4 r). }
    { eapply g_help; eauto. }
    { right. exact EXn. }
    { intros CP NE. now elim NE. }
    destruct (lift_steps _ _ _ _ AS fl w W) as (w' & fl' & WS & W' & MON & _).
    exists w'. split; [exact WS|]. eexists _, _, thn, x', fl'. cbn [gver gmap gmem gmig gthr].
    split; [exact R'|]. split; [exact W'|]. split; [|split].
    + intros z. unfold fupd. destruct (z =? v + 1); [exact S2|]. destruct (z =? v); [exact S1|apply S].
    + split; [reflexivity|]. intros t. unfold fupd. destruct (t =? tid); [exact M'|apply ML].
    + intros z. left. apply EQ.
  - (* the next version *)
    destruct mgn as [[kn hn]|]; [|contradiction]. destruct ML as [<- ML].
    pose proof (all_equal (GSys v mp me (Some (k, h)) th) men (Some (k, hn)) thn fl EX ltac:(discriminate) (conj eq_refl ML) L) as EQ. cbn [gthr] in EQ.
    pose proof (clean_exclusive (GSys v mp me (Some (k, h)) th) men (Some (k, hn)) thn fl EX (conj eq_refl ML) L) as EXn.
    set (sn' := GSys (v + 1) mp men None thn).
    destruct (gsim_with c B client Hsc CF HB (GSys v mp men (Some (k, hn)) thn) x None sn') as (x' & AS & R'); auto.
    { intros v0 mp0 me0 mg0 th0 t1 o u pc0 b t0 pc0' Q1 _ Q2 Q3 Q4. injection Q1 as <- <- <- <- <-.
      exfalso. destruct (EXn ltac:(discriminate) _ _ _ _ Q3) as [r ->]. now elim (Q4 r). }
    { apply g_publish.
      - destruct EH as [tid EH]. exists tid. pose proof (ML tid) as M. rewrite EH in M.
        destruct (hn tid) as [q|]; cbn in M; try contradiction.
        destruct M as [<-|[(e & i & a & b & X & _)|(i & a & b & X & _)]]; [auto|discriminate..].
      - intros tid q Eq. pose proof (ML tid) as M. rewrite Eq in M. destruct (h tid) as [p|] eqn:Eh; cbn in M; try contradiction.
        destruct (FIN tid p Eh) as [->| ->]; (destruct M as [<-|[(e & i & a & b & X & _)|(i & a & b & X & _)]]; [auto|discriminate..]). }
    { right. exact EXn. }
    { eapply room_like; [exact S|exact RM]. }
    destruct (lift_steps _ _ _ _ AS fl w W) as (w' & fl' & WS & W' & MON & _).
    exists w'. split; [exact WS|]. eexists _, _, thn, x', fl'. cbn [gver gmap gmem gmig gthr].
    split; [exact R'|]. split; [exact W'|]. split; [exact S|]. split; [exact Logic.I|].
    intros z. left. apply EQ.
Qed.

Theorem sync_lose lg tr s : 1 <= lg <= 63 ->
  lts_steps (sync_step c B client) (gsys_init c lg) tr s -> atomic_but_lost spec tr.
Proof.
  intros LG ST.
  assert (G : forall s0 w, lrel s0 w -> exclusive s0 -> lts_steps (sync_step c B client) s0 tr s ->
    exists w', lts_steps (wstep spec) w tr w').
  { clear ST. intros s0 w R X ST. revert w R X.
    induction ST as [s|s s1 s2 tr S ST IH|s e s1 s2 tr S ST IH]; intros w R X.
    - exists w. apply ls_nil.
    - destruct (glose_sim _ _ _ _ R X S) as (w1 & A1 & R1). destruct (IH _ R1 (proj1 (proj2 S))) as (w2 & A2).
      exists w2. change tr with ([] ++ tr). eapply wsteps_app; eauto.
    - destruct (glose_sim _ _ _ _ R X S) as (w1 & A1 & R1). destruct (IH _ R1 (proj1 (proj2 S))) as (w2 & A2).
      exists w2. change (e :: tr) with ([e] ++ tr). eapply wsteps_app; eauto. }
  destruct (G (gsys_init c lg) winit) as (w & A); auto; [|apply init_exclusive|exists w; exact A].
  eexists _, _, _, (AObj amap_empty (fun _ => AIdle)), (fun _ => false).
  split; [apply (ginit_rel c B client Hsc lg LG)|]. split; [split; [reflexivity|intros t; reflexivity]|].
  split; [intros u; apply same_refl|]. split; [exact Logic.I|]. intros u. now left.
Qed.

End G.
