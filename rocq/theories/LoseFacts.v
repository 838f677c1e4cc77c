(** Cells that cannot be marked: what an update that races an erase can do.  The system is
    compared with one in which deleted cells are clean and calls about to update a deleted
    cell have gone back to loading it. *)
From Coq Require Import NArith Bool List Lia.
From Verif Require Import Words Slot SlotFacts Mapper MapperFacts ReturnCode MapSpec LinSpec
  Base BaseInv BaseLin LoseSpec.
Import ListNotations.
Open Scope N_scope.

Notation winit := (WObj amap_empty (fun _ => WIdle)).

(** *** From the atomic map to the map that may lose updates *)

Definition wrel (x : aobj amap mop mres) (fl : N -> bool) (w : wobj) : Prop :=
  wst w = ast x /\
  forall t, wth w t = match ath x t with AIdle => WIdle | APend o => WPend o (fl t) | ADone r => WDone r end.

Lemma wsteps_app spec x tr y tr' z :
  lts_steps (wstep spec) x tr y -> lts_steps (wstep spec) y tr' z -> lts_steps (wstep spec) x (tr ++ tr') z.
Proof. induction 1; cbn; intros; auto; [eapply ls_tau|eapply ls_vis]; eauto. Qed.

Lemma done_stays spec x x' t r :
  asteps spec x [] x' -> ath (x : aobj amap mop mres) t = ADone r -> ath x' t = ADone r.
Proof.
  remember [] as tr eqn:Q. induction 1 as [a|a b c tr S ST IH|a e b c tr S ST IH]; intros E; auto; [|discriminate].
  apply IH; auto. inversion S; subst; cbn in *. rewrite fupd_neq; [exact E|congruence].
Qed.

Lemma pend_back spec x x' t o :
  asteps spec x [] x' -> ath (x' : aobj amap mop mres) t = APend o -> ath x t = APend o.
Proof.
  remember [] as tr eqn:Q. induction 1 as [a|a b c tr S ST IH|a e b c tr S ST IH]; intros E; auto; [|discriminate].
  specialize (IH Q E). inversion S; subst; cbn in *.
  match goal with H : fupd _ ?u _ t = _ |- _ => rename u into w end.
  destruct (N.eq_dec t w) as [->|NE]; [rewrite fupd_eq in IH; discriminate|now rewrite fupd_neq in IH].
Qed.

Definition quiet_for (u : N) (tr : list (event mop mres)) : Prop := forall o, ~ In (EInv u o) tr.

Lemma lift_tau spec x x' fl w :
  astep spec x None x' -> wrel x fl w ->
  exists w' fl', wstep spec w None w' /\ wrel x' fl' w' /\ (forall u, fl u = true -> fl' u = true) /\
    forall t o, ath x t = APend o -> ath x' t = ADone RErased ->
      forall u o', ath x' u = APend o' -> mop_key o' = mop_key o -> fl' u = true.
Proof.
  intros S [W1 W2]. inversion S as [|a th t o a' r E SP|]; subst. destruct w as [a0 wt]. cbn in *. subst a0.
  pose proof (W2 t) as Wt. rewrite E in Wt.
  set (fl' := fun u => match r, th u with RErased, APend o' => fl u || (mop_key o' =? mop_key o) | _, _ => fl u end).
  exists (WObj a' (fupd (fun u => hits r (mop_key o) (wt u)) t (WDone r))), fl'. split; [|split; [|split]].
  - eapply w_lin; eauto.
  - split; [reflexivity|]. intros u. cbn [wth ath].
    destruct (N.eq_dec u t) as [->|NE]; [now rewrite !fupd_eq|]. rewrite !fupd_neq by exact NE.
    rewrite W2. unfold fl'. destruct (th u), r; reflexivity.
  - intros u Fu. unfold fl'. destruct r; auto. destruct (th u); auto. rewrite Fu. reflexivity.
  - intros t' o' E1 E2 u o'' E3 K. destruct (N.eq_dec t' t) as [->|NE].
    + rewrite fupd_eq in E2. injection E2 as ->. assert (o' = o) as -> by congruence.
      destruct (N.eq_dec u t) as [->|NE]; [rewrite fupd_eq in E3; discriminate|].
      rewrite fupd_neq in E3 by exact NE. unfold fl'. rewrite E3, K, N.eqb_refl. apply orb_true_r.
    + rewrite fupd_neq in E2 by exact NE. congruence.
Qed.

Lemma lift_vis spec x e x' fl w :
  astep spec x (Some e) x' -> wrel x fl w ->
  exists w' fl', wstep spec w (Some e) w' /\ wrel x' fl' w' /\
    (forall u, (forall o, e <> EInv u o) -> fl u = true -> fl' u = true).
Proof.
  intros S [W1 W2]. destruct w as [a0 wt]. inversion S as [a th t o E| |a th t r E]; subst; cbn in *; subst a0.
  - exists (WObj a (fupd wt t (WPend o false))), (fupd fl t false). split; [|split; [split|]].
    + apply w_inv. rewrite W2, E. reflexivity.
    + reflexivity.
    + intros u. cbn [wth ath]. destruct (N.eq_dec u t) as [->|NE]; [now rewrite !fupd_eq|].
      rewrite !fupd_neq by exact NE. apply W2.
    + intros u Q Fu. rewrite fupd_neq; auto. intros ->. now elim (Q o).
  - exists (WObj a (fupd wt t WIdle)), fl. split; [|split; [split|]].
    + apply w_ret. rewrite W2, E. reflexivity.
    + reflexivity.
    + intros u. cbn [wth ath]. destruct (N.eq_dec u t) as [->|NE]; [now rewrite !fupd_eq|].
      rewrite !fupd_neq by exact NE. apply W2.
    + auto.
Qed.

Lemma lift_steps spec x tr x' : asteps spec x tr x' -> forall fl w, wrel x fl w ->
  exists w' fl', lts_steps (wstep spec) w tr w' /\ wrel x' fl' w' /\
    (forall u, quiet_for u tr -> fl u = true -> fl' u = true) /\
    (tr = [] -> forall t o, ath x t = APend o -> ath x' t = ADone RErased ->
      forall u o', ath x' u = APend o' -> mop_key o' = mop_key o -> fl' u = true).
Proof.
  induction 1 as [a|a b c tr S ST IH|a e b c tr S ST IH]; intros fl w R.
  - exists w, fl. split; [apply ls_nil|]. split; [exact R|]. split; [auto|]. intros _ t o E1 E2. congruence.
  - destruct (lift_tau _ _ _ _ _ S R) as (w1 & f1 & S1 & R1 & M1 & H1).
    destruct (IH f1 w1 R1) as (w2 & f2 & S2 & R2 & M2 & H2).
    exists w2, f2. split; [eapply ls_tau; eauto|]. split; [exact R2|]. split; [auto|].
    intros -> t o E1 E2 u o' E3 K.
    assert (X : ath b t = APend o \/ ath b t = ADone RErased).
    { inversion S as [|a0 th t0 o0 a' r E SP|]; subst. cbn in *.
      destruct (N.eq_dec t t0) as [->|NE]; [|rewrite fupd_neq by exact NE; now left].
      right. rewrite fupd_eq. assert (Y : ath (AObj a' (fupd th t0 (ADone r))) t0 = ADone r) by (cbn; apply fupd_eq).
      pose proof (done_stays _ _ _ _ _ ST Y). congruence. }
    destruct X as [X|X].
    + eapply H2; eauto.
    + apply M2; [intros z []|]. eapply H1; eauto. eapply pend_back; eauto.
  - destruct (lift_vis _ _ _ _ _ _ S R) as (w1 & f1 & S1 & R1 & M1).
    destruct (IH f1 w1 R1) as (w2 & f2 & S2 & R2 & M2 & _).
    exists w2, f2. split; [eapply ls_vis; eauto|]. split; [exact R2|]. split; [|discriminate].
    intros u Q F. apply M2; [intros o X; apply (Q o); now right|]. apply M1; auto.
    intros o ->. apply (Q o). now left.
Qed.

(** A lost update. *)
Lemma lift_lost spec x fl w t o v :
  wrel x fl w -> ath x t = APend o -> fl t = true -> updates o = true ->
  exists w', lts_steps (wstep spec) w [] w' /\
    wrel (AObj (ast x) (fupd (ath x) t (ADone (RUpdated (reported o v))))) fl w'.
Proof.
  intros [W1 W2] E F U. destruct w as [a wt]. cbn in *.
  eexists. split; [eapply ls_tau; [|apply ls_nil]; eapply (w_lost spec a wt t o v); auto; now rewrite W2, E, F|].
  split; [exact W1|]. intros u. cbn [wth ath]. destruct (N.eq_dec u t) as [->|NE]; [now rewrite !fupd_eq|].
  rewrite !fupd_neq by exact NE. apply W2.
Qed.

(** *** Memories that differ in the data of deleted cells *)

Definition slike (sc : scfg) (a b : slot) : Prop := a = b \/ (skey a = ddummy sc /\ skey b = ddummy sc).
Definition olike (sc : scfg) (x y : option slot) : Prop :=
  match x, y with Some a, Some b => slike sc a b | None, None => True | _, _ => False end.
Definition same (sc : scfg) (t tn : mem) : Prop := forall p, olike sc (t p) (tn p).

Lemma olike_refl sc x : olike sc x x.
Proof. destruct x; cbn; [now left|exact I]. Qed.
Lemma same_refl sc t : same sc t t.
Proof. intros p. apply olike_refl. Qed.
Lemma same_write sc t tn p x y : same sc t tn -> olike sc x y -> same sc (fupd t p x) (fupd tn p y).
Proof. intros S O q. unfold fupd. destruct (q =? p); [exact O|apply S]. Qed.
Lemma same_left sc t tn p x : same sc t tn -> olike sc x (tn p) -> same sc (fupd t p x) tn.
Proof. intros S O q. unfold fupd. destruct (N.eqb_spec q p) as [->|]; [exact O|apply S]. Qed.

Section L.
Context (c : tcfg) (m : mapper) (lg : N).
Context (Hsc : wf_scfg (tsc c)) (Hm : wf_mapper (tmc c) m lg) (SM : sc_mark (tsc c) = false).
Notation sc := (tsc c).
Notation mc := (tmc c).
Notation rmp := (remap mc m).

Lemma rd_like t tn p : same sc t tn -> olike sc (rd c m t p) (rd c m tn p).
Proof. intros S. unfold rd. destruct (p <? _); [apply S|exact I]. Qed.

Lemma dd_pos : ddummy sc <> 0 /\ ddummy sc < mbit sc.
Proof. pose proof (mbit_pos sc Hsc). unfold ddummy. lia. Qed.

Lemma dd_not_empty a : skey a = ddummy sc -> is_empty sc a = false.
Proof.
  intros E. destruct dd_pos. unfold is_empty. rewrite land_bmask, E, N.mod_small by lia. now apply N.eqb_neq.
Qed.
Lemma valid_dd k : valid_key sc k -> k <> ddummy sc.
Proof. intros V. exact (proj1 (proj2 (proj2 V))). Qed.
Lemma dd_not_key a k : skey a = ddummy sc -> valid_key sc k -> compare_key sc a k = false.
Proof.
  intros E V. unfold compare_key. rewrite SM, E. apply N.eqb_neq. intros X. now elim (valid_dd k V).
Qed.
Lemma slot_eqb_dd a b : skey a = ddummy sc -> skey b <> ddummy sc -> slot_eqb a b = false.
Proof. intros E F. unfold slot_eqb. rewrite E. destruct (N.eqb_spec (ddummy sc) (skey b)); [congruence|reflexivity]. Qed.

Lemma after_load_like o i p a b :
  valid_key sc (op_key o) -> slike sc a b -> after_load c m o i p a = after_load c m o i p b.
Proof.
  intros V [->|[E1 E2]]; [reflexivity|].
  destruct o; cbn [after_load op_key] in *; unfold is_marked; rewrite ?SM;
    rewrite (dd_not_empty a E1), (dd_not_empty b E2), (dd_not_key a _ E1 V), (dd_not_key b _ E2 V); reflexivity.
Qed.

(** A cell with a live key is the same in both memories. *)
Lemma live_like t tn ct mk p k d :
  same sc t tn -> tinv c m tn ct mk -> p < total_slots mc m -> ct p = CLive k d -> mk p = false -> t p = tn p.
Proof.
  intros S I L E M. specialize (S p). destruct (ti_cell _ _ _ _ _ I p L) as [C O].
  rewrite E, M in C, O. rewrite C in *. destruct (t p) as [a|]; cbn in S; [|contradiction].
  destruct S as [->|[_ X]]; [reflexivity|]. cbn in X. exfalso. destruct O as [_ V]. now apply (valid_dd k V).
Qed.

Lemma no_marks t ct mk p : tinv c m t ct mk -> p < total_slots mc m -> mk p = false.
Proof.
  intros I L. destruct (ti_cell _ _ _ _ _ I p L) as [_ [O _]]. destruct (mk p); auto. rewrite SM in O. now discriminate O.
Qed.

Lemma fst_update cell cell2 curr f :
  cell = cell2 -> atomic_update sc cell curr f = atomic_update sc cell2 curr f.
Proof. intros ->. reflexivity. Qed.

(** A step takes the same way on both memories. *)
Lemma same_bstep t tn ct mk b o pc t' pc' :
  same sc t tn -> tinv c m tn ct mk -> op_ok sc o -> thr_inv c m ct o pc ->
  bstep c m t b o pc = (t', pc') ->
  exists tn', bstep c m tn b o pc = (tn', pc') /\ same sc t' tn'.
Proof.
  intros S I [V F] T ST. destruct pc as [i|i s|i s|i s|r|]; cbn [bstep] in *.
  - pose proof (rd_like t tn (rmp i) S) as R.
    destruct (rd c m t (rmp i)) as [x|], (rd c m tn (rmp i)) as [y|]; cbn in R; try contradiction;
      injection ST as <- <-; exists tn; split; auto.
    now rewrite (after_load_like o i (rmp i) x y V R).
  - pose proof (rd_like t tn (rmp i) S) as R. destruct T as (n & d & -> & P & -> & Q & _).
    destruct (rd c m t _) as [x|], (rd c m tn _) as [y|]; cbn in R; try contradiction.
    2: injection ST as <- <-; exists tn; split; auto.
    destruct R as [->|[X Y]].
    + destruct (cas sc y _ (op_slot o)) as [[ok cell'] e]. injection ST as <- <-.
      eexists. split; [reflexivity|]. apply same_write; [exact S|apply olike_refl].
    + unfold cas in *. rewrite (slot_eqb_dd x) in ST by (cbn; auto; destruct dd_pos; auto).
      rewrite (slot_eqb_dd y) by (cbn; auto; destruct dd_pos; auto).
      injection ST as <- <-. eexists. split; [reflexivity|]. apply same_write; [exact S|]. right. auto.
  - destruct T as (n & d & -> & P & -> & U & L). destruct (L SM) as [d' E].
    destruct (rd_tinv c m lg Hm _ _ _ _ _ I P) as (R & LT & O).
    pose proof (no_marks _ _ _ _ I LT) as M0.
    pose proof (live_like t tn ct mk _ _ _ S I LT E M0) as EQ.
    assert (R' : rd c m t (rmp (home c m (op_key o) + n)) = rd c m tn (rmp (home c m (op_key o) + n)))
      by (unfold rd; destruct (_ <? _); auto).
    rewrite R' in ST. rewrite R in ST |- *.
    destruct (atomic_update sc _ _ (op_fun o)) as [[res ok] cell']. injection ST as <- <-.
    eexists. split; [reflexivity|]. apply same_write; [exact S|apply olike_refl].
  - pose proof (rd_like t tn (rmp i) S) as R. destruct T as (n & d & -> & P & -> & Q).
    destruct (rd c m t _) as [x|], (rd c m tn _) as [y|]; cbn in R; try contradiction.
    2: injection ST as <- <-; exists tn; split; auto.
    unfold atomic_delete in *.
    destruct R as [->|[X Y]].
    + destruct (cas sc y _ _) as [[ok cell'] e]. injection ST as <- <-.
      eexists. split; [reflexivity|]. apply same_write; [exact S|apply olike_refl].
    + unfold cas in *. rewrite (slot_eqb_dd x) in ST by (cbn; auto using valid_dd).
      rewrite (slot_eqb_dd y) by (cbn; auto using valid_dd).
      injection ST as <- <-. eexists. split; [reflexivity|]. apply same_write; [exact S|]. right. auto.
  - injection ST as <- <-. exists tn. auto.
  - injection ST as <- <-. exists tn. auto.
Qed.

Definition gone (t : mem) (p : N) : Prop := t p = Some (deleted_slot sc).
Lemma gone_dec t p : {gone t p} + {~ gone t p}.
Proof. unfold gone. repeat decide equality. Defined.

Lemma rd_some t p x : rd c m t p = Some x -> t p = Some x.
Proof. unfold rd. destruct (p <? _); [auto|discriminate]. Qed.

(** Deleted cells stay deleted. *)
Lemma bstep_keeps tn ct mk b o pc tn' pc' q :
  tinv c m tn ct mk -> op_ok sc o -> thr_inv c m ct o pc ->
  bstep c m tn b o pc = (tn', pc') -> gone tn q -> gone tn' q.
Proof.
  intros I [V F] T ST G. unfold gone in *. destruct pc as [i|i s|i s|i s|r|]; cbn [bstep] in *.
  - destruct (rd c m tn (rmp i)); injection ST as <- <-; auto.
  - destruct T as (n & d & -> & P & -> & Q & _).
    destruct (rd c m tn _) as [y|] eqn:R; [|injection ST as <- <-; auto]. apply rd_some in R.
    unfold cas in ST. destruct (slot_eqb y _) eqn:EQ.
    + injection ST as <- <-. unfold fupd. destruct (N.eqb_spec q (rmp (home c m (op_key o) + n))) as [->|]; auto.
      rewrite R in G. injection G as ->. rewrite slot_eqb_dd in EQ; [discriminate|reflexivity|cbn; destruct dd_pos; auto].
    + injection ST as <- <-. unfold fupd. destruct (N.eqb_spec q (rmp (home c m (op_key o) + n))) as [->|]; auto.
      now rewrite <- R.
  - destruct T as (n & d & -> & P & -> & U & L). destruct (L SM) as [d' E].
    destruct (rd_tinv c m lg Hm _ _ _ _ _ I P) as (R & LT & O). rewrite R in ST. apply rd_some in R.
    destruct (atomic_update sc _ _ (op_fun o)) as [[res ok] cell'].
    injection ST as <- <-. unfold fupd. destruct (N.eqb_spec q (rmp (home c m (op_key o) + n))) as [->|]; auto.
    exfalso. rewrite (no_marks _ _ _ _ I LT), E, G in R. injection R as R _. cbn in R. now elim (valid_dd _ V).
  - destruct T as (n & d & -> & P & -> & Q).
    destruct (rd c m tn _) as [y|] eqn:R; [|injection ST as <- <-; auto]. apply rd_some in R.
    unfold atomic_delete, cas in ST. destruct (slot_eqb y _) eqn:EQ.
    + injection ST as <- <-. unfold fupd. destruct (N.eqb_spec q (rmp (home c m (op_key o) + n))) as [->|]; auto.
    + injection ST as <- <-. unfold fupd. destruct (N.eqb_spec q (rmp (home c m (op_key o) + n))) as [->|]; auto.
      now rewrite <- R.
  - injection ST as <- <-. auto.
  - injection ST as <- <-. auto.
Qed.

(** Only a successful erase deletes a cell, and that cell held its key. *)
Lemma bstep_gone tn ct mk b o pc tn' pc' q :
  tinv c m tn ct mk -> op_ok sc o -> thr_inv c m ct o pc ->
  bstep c m tn b o pc = (tn', pc') -> gone tn' q -> ~ gone tn q ->
  is_erase o /\ (exists d, tn q = Some (Slot (op_key o) d)) /\ pc' = PDone (BRet RC_SUCCESS_DEL empty_slot None).
Proof.
  intros I [V F] T ST G NG. unfold gone in *. destruct pc as [i|i s|i s|i s|r|]; cbn [bstep] in *.
  - exfalso. destruct (rd c m tn (rmp i)); injection ST as <- <-; auto.
  - exfalso. destruct T as (n & d & -> & P & -> & Q & _).
    destruct (rd c m tn _) as [y|] eqn:R; [|injection ST as <- <-; auto]. apply rd_some in R.
    unfold cas in ST. destruct (slot_eqb y _) eqn:EQ; injection ST as <- <-; unfold fupd in G;
      destruct (N.eqb_spec q (rmp (home c m (op_key o) + n))) as [->|]; auto.
    + rewrite Q in G. injection G as G _. now elim (valid_dd _ V).
    + apply NG. now rewrite R.
  - exfalso. destruct T as (n & d & -> & P & -> & U & L). destruct (L SM) as [d' E].
    destruct (rd_tinv c m lg Hm _ _ _ _ _ I P) as (R & LT & O). rewrite R in ST. apply rd_some in R.
    rewrite (no_marks _ _ _ _ I LT), E in ST.
    destruct (atomic_update sc _ _ (op_fun o)) as [[res ok] cell'] eqn:AU.
    injection ST as <- <-. unfold fupd in G. destruct (N.eqb_spec q (rmp (home c m (op_key o) + n))) as [->|]; auto.
    injection G as ->. unfold atomic_update in AU. rewrite SM in AU. cbn in AU.
    assert (X : op_key o = ddummy sc).
    { destruct (fat (op_fun o)) as [g|]; [destruct (g d'); injection AU as _ _ AU _; exact AU|].
      destruct (d' =? d); injection AU as _ _ AU _; exact AU. }
    now elim (valid_dd _ V).
  - destruct T as (n & d & -> & P & -> & Q).
    destruct (rd c m tn _) as [y|] eqn:R; [|injection ST as <- <-; now elim NG]. apply rd_some in R.
    unfold atomic_delete, cas in ST. destruct (slot_eqb y _) eqn:EQ.
    + injection ST as <- <-. unfold fupd in G. destruct (N.eqb_spec q (rmp (home c m (op_key o) + n))) as [->|]; [|now elim NG].
      apply slot_eqb_eq in EQ. subst y. split; [|split].
      * destruct Q as [Q|Q]; rewrite Q; exact Logic.I.
      * exists d. exact R.
      * reflexivity.
    + exfalso. injection ST as <- <-. unfold fupd in G. destruct (N.eqb_spec q (rmp (home c m (op_key o) + n))) as [->|]; auto.
      apply NG. now rewrite R.
  - exfalso. injection ST as <- <-. auto.
  - exfalso. injection ST as <- <-. auto.
Qed.

(** What a call does that is about to update a deleted cell. *)
Lemma dead_step t tn b o i s t' pc' :
  same sc t tn -> gone tn (rmp i) -> rmp i < total_slots mc m -> is_update o ->
  (exists k d, s = Slot k d) -> functor_ok (op_fun o) ->
  bstep c m t b o (PUpd i s) = (t', pc') ->
  same sc t' tn /\
  ((exists r v, pc' = PDone r /\ obs o r = RUpdated (reported (spec_op sc o) v) /\ rcode r = RC_SUCCESS_UP) \/
   pc' = PLoad i \/
   (exists k f r, o = OUpdateB k f /\ pc' = PDone r /\ obs o r = RBackoff /\ r = ret_end RC_BACKOFF)).
Proof.
  intros S G LT U (k & d & ->) F ST. cbn [bstep] in ST.
  unfold rd in ST. destruct (N.ltb_spec (rmp i) (total_slots mc m)); [|lia].
  pose proof (S (rmp i)) as R. rewrite G in R. destruct (t (rmp i)) as [x|]; [|contradiction].
  assert (KX : skey x = ddummy sc) by (destruct R as [->|[X _]]; [reflexivity|exact X]).
  destruct (atomic_update sc x (Slot k d) (op_fun o)) as [[res ok] cell'] eqn:AU.
  injection ST as <- <-.
  unfold atomic_update in AU. rewrite SM in AU. cbn in AU.
  assert (KC : skey cell' = ddummy sc /\ (ok = true -> exists v, sdata res = fun_ret sc (op_fun o) v)).
  { unfold fun_ret. rewrite SM. destruct (fat (op_fun o)) as [g|].
    - destruct (g (sdata x)) as [d' r] eqn:Gx. injection AU as <- <- <-. split; [exact KX|]. intros _. exists (sdata x). rewrite Gx. reflexivity.
    - destruct (sdata x =? d); injection AU as <- <- <-; (split; [exact KX|]); [|discriminate].
      intros _. exists d. reflexivity. }
  destruct KC as [KC RV]. split.
  - apply same_left; [exact S|]. rewrite G. right. auto.
  - destruct ok.
    + left. destruct (RV eq_refl) as [v E]. eexists _, v. split; [reflexivity|].
      split; [|reflexivity]. destruct o; try contradiction; cbn in E |- *; rewrite E; reflexivity.
    + right. destruct o; try contradiction; auto. destruct b; auto. right. eexists _, _, _. sp; reflexivity.
Qed.

End L.
