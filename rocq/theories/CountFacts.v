(** Invariants of the element counters. *)
From Coq Require Import ZArith List Bool Lia.
From Verif Require Import Count CountSpec.
Import ListNotations.
Open Scope Z_scope.

Definition fopt (f : handle -> Z) (x : option handle) : Z := match x with Some h => f h | None => 0 end.

Lemma total_cons f x l : total f (x :: l) = fopt f x + total f l.
Proof. destruct x; cbn; lia. Qed.

Lemma total_app f l1 l2 : total f (l1 ++ l2) = total f l1 + total f l2.
Proof. induction l1 as [|[h|] l1 IH]; cbn; lia. Qed.

Lemma total_put f : forall l i h x, nth_error l i = Some (Some h) ->
  total f (put i x l) = total f l - f h + fopt f x.
Proof.
  induction l as [|y l IH]; intros [|i] h x E; cbn [nth_error] in E; try discriminate.
  - injection E as ->. cbn [put]. rewrite !total_cons. cbn [fopt]. lia.
  - cbn [put]. rewrite !total_cons, (IH _ _ _ E). lia.
Qed.

Lemma in_put l : forall i x y, In y (put i x l) -> y = x \/ In y l.
Proof.
  induction l as [|z l IH]; intros [|i] x y H; cbn [put] in H; auto.
  - destruct H as [<-|H]; auto. right. now right.
  - destruct H as [<-|H]; [right; now left|]. destruct (IH _ _ _ H); auto. right. now right.
Qed.

Lemma total_ge f l : (forall h, In (Some h) l -> 0 <= f h) -> 0 <= total f l.
Proof.
  induction l as [|[h|] l IH]; cbn; intros H; [lia| |].
  - pose proof (H h (or_introl eq_refl)). assert (0 <= total f l) by (apply IH; intros; apply H; now right). lia.
  - apply IH. intros. apply H. now right.
Qed.

Lemma total_le f g l : (forall h, In (Some h) l -> f h <= g h) -> total f l <= total g l.
Proof.
  induction l as [|[h|] l IH]; cbn; intros H; [lia| |].
  - pose proof (H h (or_introl eq_refl)). assert (total f l <= total g l) by (apply IH; intros; apply H; now right). lia.
  - apply IH. intros. apply H. now right.
Qed.

Lemma total_member f l h : (forall h, In (Some h) l -> 0 <= f h) -> In (Some h) l -> f h <= total f l.
Proof.
  intros P H. induction l as [|x l IH]; [contradiction|].
  assert (P' : forall h, In (Some h) l -> 0 <= f h) by (intros; apply P; now right).
  rewrite total_cons. destruct H as [->|H].
  - cbn. pose proof (total_ge f l P'). lia.
  - specialize (IH P' H). destruct x; cbn; [|lia]. pose proof (P h0 (or_introl eq_refl)). lia.
Qed.

Lemma total_plus f g l : total (fun h => f h + g h) l = total f l + total g l.
Proof. induction l as [|[h|] l IH]; cbn; lia. Qed.

Lemma total_const l : total (fun _ => 1) l = live l.
Proof. induction l as [|[h|] l IH]; cbn [total live]; lia. Qed.

Lemma total_ext f g l : (forall h, In (Some h) l -> f h = g h) -> total f l = total g l.
Proof.
  intros H. apply Z.le_antisymm; apply total_le; intros h I; rewrite (H h I); lia.
Qed.

(** Insertions and erasures still to be published; tombstones on their way from
    one counter to the other; growth steps in progress. *)
Definition oI (h : handle) : Z := match h_flush h with FGrow => 0 | _ => h_ins h end.
Definition oD (h : handle) : Z := match h_flush h with FElems _ | FGrow => 0 | _ => h_del h end.
Definition infD (h : handle) : Z := match h_reset h with RAsync t => t | RSync2 r => - r | _ => 0 end.
Definition resetting (h : handle) : Z := match h_reset h with RNone => 0 | _ => 1 end.

Definition hinv (d : Z) (h : handle) : Prop :=
  0 <= h_ins h /\ 0 <= h_del h /\ h_ins h + h_del h <= 65 /\
  (h_flush h = FNone -> h_upd h = h_ins h + h_del h /\ h_upd h <= 64 /\ h_dying h = false) /\
  (h_flush h = FNone \/ h_flush h = FGrow \/ h_reset h = RNone) /\
  match h_reset h with
  | RNone => True
  | RAsync t => 0 <= t
  | RSync r | RSync2 r => 0 <= r <= d
  end.

Record cinv (s : cstate) : Prop := {
  ci_h : forall h, In (Some h) (g_handles s) -> hinv (g_dummies s) h;
  ci_busy : total resetting (g_handles s) = if g_busy s then 1 else 0;
  ci_d : 0 <= g_dummies s;
  ci_rn : g_erased s <= g_inserted s;
  ci_r0 : 0 <= g_erased s;
  ci_sum : exists rem, 0 <= rem /\ 0 <= g_elems s + rem /\ 0 <= rem + total infD (g_handles s) /\
    g_elems s + rem + total oI (g_handles s) = g_inserted s /\
    g_dummies s + rem + total infD (g_handles s) + total oD (g_handles s) = g_erased s }.

Lemma nth_in l i h : nth_error l i = Some (Some h) -> In (@Some handle h) l.
Proof. apply nth_error_In. Qed.

Lemma resetting_nonneg l h : In (Some h) l -> 0 <= resetting h.
Proof. intros _. unfold resetting. destruct (h_reset h); lia. Qed.

Lemma hinv_mono d d' h : d <= d' -> hinv d h -> hinv d' h.
Proof. unfold hinv. intros L (A & B & C & D & E & G). repeat (split; auto). destruct (h_reset h); lia. Qed.

(** While [h] is the only handle that corrects the counters, the others do not care
    about the tombstone counter. *)
Lemma others l i h :
  nth_error l i = Some (Some h) -> total resetting l <= 1 -> resetting h = 1 ->
  forall x y, In (Some y) (put i x l) -> Some y = x \/ h_reset y = RNone.
Proof.
  revert i. induction l as [|z l IH]; intros [|i] E T R x y H; cbn [nth_error] in E; try discriminate.
  - injection E as ->. cbn [put] in H. destruct H as [<-|H]; [now left|right].
    rewrite total_cons in T. cbn [fopt] in T. rewrite R in T.
    pose proof (total_member resetting l y (fun h => resetting_nonneg l h) H) as M.
    unfold resetting in M at 1. destruct (h_reset y); [reflexivity|lia..].
  - cbn [put] in H. rewrite total_cons in T.
    pose proof (total_member resetting l h (fun h => resetting_nonneg l h) (nth_in _ _ _ E)) as M. rewrite R in M.
    destruct H as [->|H].
    + right. cbn [fopt] in T. unfold resetting in T at 1. destruct (h_reset y); [reflexivity|lia..].
    + apply (IH i) with (x := x); auto. destruct z; cbn [fopt] in T; [|lia].
      unfold resetting in T at 1. destruct (h_reset h0); lia.
Qed.

Lemma hinv_free d d' h : h_reset h = RNone -> hinv d h -> hinv d' h.
Proof. unfold hinv. intros ->. tauto. Qed.

Ltac sums E := rewrite ?total_app, ?(total_put _ _ _ _ _ E); cbn [total fopt].

Lemma cinv_step s ev s' : cstep s ev s' -> cinv s -> cinv s'.
Proof.
  intros ST [H B D RN R0 (rem & P1 & P2 & P5 & P3 & P4)].
  destruct ST as [e d l b n r hs|e d l b n r hs i h E F R|e d l b n r hs i h E F R|e d l b n r hs i h E F R
    |e d l b n r hs i h E F R L|e d l b n r hs i h E F|e d l b n r hs i h lim E F|e d l b n r hs i h lim E F
    |e d l b n r hs i h E F R|e d l n r hs i h E F R|e d l b n r hs i h tmp l' E R|e d l n r hs i h E F R
    |e d l b n r hs i h x E R|e d l b n r hs i h x l' E R];
  cbn [g_elems g_dummies g_limit g_busy g_inserted g_erased g_handles] in *.
  - (* new *)
    split; cbn [g_elems g_dummies g_busy g_inserted g_erased g_handles]; auto.
    + intros h I. apply in_app_or in I. destruct I as [I|[[= <-]|[]]]; [now apply H|].
      unfold hinv, new_handle; cbn. repeat split; auto; lia.
    + rewrite total_app. cbn. lia.
    + exists rem. rewrite !total_app. cbn. repeat split; lia.
  - (* move *)
    pose proof (H h (nth_in _ _ _ E)) as HH.
    split; cbn [g_elems g_dummies g_busy g_inserted g_erased g_handles]; auto.
    + intros h' I. apply in_app_or in I. destruct I as [I|[[= <-]|[]]]; auto.
      apply in_put in I. destruct I as [[= ->]|I]; [|now apply H].
      unfold hinv, new_handle; cbn. repeat split; auto; lia.
    + sums E. cbn. lia.
    + exists rem. sums E. cbn. repeat split; try lia.
  - (* destroy *)
    pose proof (H h (nth_in _ _ _ E)) as HH.
    split; cbn [g_elems g_dummies g_busy g_inserted g_erased g_handles]; auto.
    + intros h' I. apply in_put in I. destruct I as [[= ->]|I]; [|now apply H].
      destruct HH as (H1 & H2 & H3 & H4 & H5 & H6). unfold hinv; cbn. repeat split; auto; try discriminate; lia.
    + sums E. unfold resetting. rewrite R. cbn. fold resetting. lia.
    + exists rem. sums E. unfold oI, oD, infD. rewrite F, R. cbn. fold oI oD infD. repeat split; lia.
  - (* insert *)
    destruct (H h (nth_in _ _ _ E)) as (H1 & H2 & H3 & H4 & H5 & H6). destruct (H4 F) as (H7 & H8 & H9).
    split; cbn [g_elems g_dummies g_busy g_inserted g_erased g_handles]; auto; [| |lia|].
    + intros h' I. apply in_put in I. destruct I as [[= ->]|I]; [|now apply H].
      unfold hinv, counted; cbn [h_ins h_del h_upd h_flush h_reset h_dying].
      destruct (Z.ltb_spec 64 (h_upd h + 1)); repeat split; auto; try discriminate; lia.
    + sums E. unfold resetting. rewrite R. cbn. fold resetting. lia.
    + exists rem. sums E. unfold oI, oD, infD, counted. cbn [h_ins h_del h_flush h_reset]. rewrite F, R.
      fold oI oD infD. destruct (64 <? h_upd h + 1); repeat split; lia.
  - (* erase *)
    destruct (H h (nth_in _ _ _ E)) as (H1 & H2 & H3 & H4 & H5 & H6). destruct (H4 F) as (H7 & H8 & H9).
    split; cbn [g_elems g_dummies g_busy g_inserted g_erased g_handles]; auto; [| |lia|lia|].
    + intros h' I. apply in_put in I. destruct I as [[= ->]|I]; [|now apply H].
      unfold hinv, counted; cbn [h_ins h_del h_upd h_flush h_reset h_dying].
      destruct (Z.ltb_spec 64 (h_upd h + 1)); repeat split; auto; try discriminate; lia.
    + sums E. unfold resetting. rewrite R. cbn. fold resetting. lia.
    + exists rem. sums E. unfold oI, oD, infD, counted. cbn [h_ins h_del h_flush h_reset]. rewrite F, R.
      fold oI oD infD. destruct (64 <? h_upd h + 1); repeat split; lia.
  - (* get the table *)
    destruct (H h (nth_in _ _ _ E)) as (H1 & H2 & H3 & H4 & H5 & H6).
    assert (R : h_reset h = RNone) by (destruct H5 as [X|[X|X]]; auto; congruence).
    split; cbn [g_elems g_dummies g_busy g_inserted g_erased g_handles]; auto.
    + intros h' I. apply in_put in I. destruct I as [[= ->]|I]; [|now apply H].
      unfold hinv; cbn. repeat split; auto; try discriminate; lia.
    + sums E. unfold resetting. rewrite R. cbn. fold resetting. lia.
    + exists rem. sums E. unfold oI, oD, infD. cbn [h_ins h_del h_flush h_reset]. rewrite F, R.
      fold oI oD infD. repeat split; lia.
  - (* tombstones *)
    destruct (H h (nth_in _ _ _ E)) as (H1 & H2 & H3 & H4 & H5 & H6).
    assert (R : h_reset h = RNone) by (destruct H5 as [X|[X|X]]; auto; congruence).
    split; cbn [g_elems g_dummies g_busy g_inserted g_erased g_handles]; auto; [| |lia|].
    + intros h' I. apply in_put in I. destruct I as [[= ->]|I]; [|now apply (hinv_mono d); [lia|apply H]].
      unfold hinv; cbn. repeat split; auto; try discriminate; lia.
    + sums E. unfold resetting. rewrite R. cbn. fold resetting. lia.
    + exists rem. sums E. unfold oI, oD, infD. cbn [h_ins h_del h_flush h_reset]. rewrite F, R.
      fold oI oD infD. repeat split; lia.
  - (* elements *)
    destruct (H h (nth_in _ _ _ E)) as (H1 & H2 & H3 & H4 & H5 & H6).
    assert (R : h_reset h = RNone) by (destruct H5 as [X|[X|X]]; auto; congruence).
    split; cbn [g_elems g_dummies g_busy g_inserted g_erased g_handles]; auto.
    + intros h' I. apply in_put in I. destruct I as [I|I]; [|now apply H].
      destruct (crosses e (h_ins h) lim).
      * injection I as ->. unfold hinv; cbn. repeat split; auto; try discriminate; lia.
      * unfold flushed in I. destruct (h_dying h); [discriminate|]. injection I as ->.
        unfold hinv, new_handle; cbn. repeat split; auto; lia.
    + sums E. unfold resetting at 2. rewrite R.
      assert (X : fopt resetting (if crosses e (h_ins h) lim
         then Some (Handle 0 (h_ins h) (h_del h) FGrow RNone (h_dying h)) else flushed h) = 0).
      { destruct (crosses _ _ _); [reflexivity|]. unfold flushed. now destruct (h_dying h). }
      rewrite X. lia.
    + exists rem. sums E.
      assert (X : forall f, (f = oI \/ f = oD \/ f = infD) -> fopt f (if crosses e (h_ins h) lim
         then Some (Handle 0 (h_ins h) (h_del h) FGrow RNone (h_dying h)) else flushed h) = 0).
      { intros f C. destruct (crosses _ _ _); unfold flushed; try destruct (h_dying h);
          destruct C as [-> | [-> | ->]]; reflexivity. }
      rewrite !X by auto. unfold oI at 2, oD at 2, infD at 2 4. rewrite F, R. repeat split; lia.
  - (* grown *)
    destruct (H h (nth_in _ _ _ E)) as (H1 & H2 & H3 & H4 & H5 & H6).
    split; cbn [g_elems g_dummies g_busy g_inserted g_erased g_handles]; auto.
    + intros h' I. apply in_put in I. destruct I as [I|I]; [|now apply H].
      unfold flushed in I. destruct (h_dying h); [discriminate|]. injection I as ->.
      unfold hinv, new_handle; cbn. repeat split; auto; lia.
    + sums E. unfold resetting at 2. rewrite R.
      assert (X : fopt resetting (flushed h) = 0) by (unfold flushed; now destruct (h_dying h)).
      rewrite X. lia.
    + exists rem. sums E.
      assert (X : forall f, (f = oI \/ f = oD \/ f = infD) -> fopt f (flushed h) = 0).
      { intros f C. unfold flushed; destruct (h_dying h); destruct C as [-> | [-> | ->]]; reflexivity. }
      rewrite !X by auto. unfold oI at 2, oD at 2, infD at 2 4. rewrite F, R. repeat split; lia.
  - (* async *)
    destruct (H h (nth_in _ _ _ E)) as (H1 & H2 & H3 & H4 & H5 & H6).
    assert (FR : forall y, In (Some y) hs -> h_reset y = RNone).
    { intros y I. pose proof (total_member resetting hs y (fun h => resetting_nonneg hs h) I) as M.
      unfold resetting in M at 1. destruct (h_reset y); [reflexivity|lia..]. }
    split; cbn [g_elems g_dummies g_busy g_inserted g_erased g_handles]; auto; [| |lia|].
    + intros h' I. apply in_put in I. destruct I as [[= ->]|I].
      * unfold hinv; cbn [h_ins h_del h_upd h_flush h_reset h_dying]. tauto.
      * apply (hinv_free d); auto.
    + sums E. unfold resetting at 2 3. rewrite R. cbn. lia.
    + exists rem. sums E. unfold oI at 2 3, oD at 2 3, infD at 2 3 5 6. rewrite R. cbn.
      repeat split; lia.
  - (* async, second step *)
    destruct (H h (nth_in _ _ _ E)) as (H1 & H2 & H3 & H4 & H5 & H6). rewrite R in H6.
    assert (RS : resetting h = 1) by (unfold resetting; now rewrite R).
    pose proof (total_member resetting hs h (fun h => resetting_nonneg hs h) (nth_in _ _ _ E)) as M.
    assert (b = true) by (destruct b; [auto|lia]). subst b.
    split; cbn [g_elems g_dummies g_busy g_inserted g_erased g_handles]; auto.
    + intros h' I. apply in_put in I. destruct I as [[= ->]|I]; [|now apply H].
      unfold hinv; cbn [h_ins h_del h_upd h_flush h_reset h_dying]. tauto.
    + sums E. rewrite RS. cbn. lia.
    + exists (rem + tmp). sums E. unfold oI at 2 3, oD at 2 3, infD at 2 3 5 6. rewrite R. cbn.
      repeat split; lia.
  - (* sync *)
    destruct (H h (nth_in _ _ _ E)) as (H1 & H2 & H3 & H4 & H5 & H6).
    split; cbn [g_elems g_dummies g_busy g_inserted g_erased g_handles]; auto.
    + intros h' I. apply in_put in I. destruct I as [[= ->]|I]; [|now apply H].
      unfold hinv; cbn [h_ins h_del h_upd h_flush h_reset h_dying]. repeat split; try tauto; try lia; now apply H4.
    + sums E. unfold resetting at 2 3. rewrite R. cbn. lia.
    + exists rem. sums E. unfold oI at 2 3, oD at 2 3, infD at 2 3 5 6. rewrite R. cbn.
      repeat split; lia.
  - (* sync, second step *)
    destruct (H h (nth_in _ _ _ E)) as (H1 & H2 & H3 & H4 & H5 & H6). rewrite R in H6.
    split; cbn [g_elems g_dummies g_busy g_inserted g_erased g_handles]; auto.
    + intros h' I. apply in_put in I. destruct I as [[= ->]|I]; [|now apply H].
      unfold hinv; cbn [h_ins h_del h_upd h_flush h_reset h_dying].
      assert (X : h_flush h = FNone \/ h_flush h = FGrow) by (rewrite R in H5; destruct H5 as [X|[X|X]]; auto; discriminate).
      repeat split; try tauto; try lia; now apply H4.
    + sums E. unfold resetting at 2 3. rewrite R. cbn. lia.
    + exists (rem + x). sums E. unfold oI at 2 3, oD at 2 3, infD at 2 3 5 6. rewrite R. cbn.
      repeat split; lia.
  - (* sync, third step *)
    destruct (H h (nth_in _ _ _ E)) as (H1 & H2 & H3 & H4 & H5 & H6). rewrite R in H6.
    assert (RS : resetting h = 1) by (unfold resetting; now rewrite R).
    pose proof (total_member resetting hs h (fun h => resetting_nonneg hs h) (nth_in _ _ _ E)) as M.
    assert (b = true) by (destruct b; [auto|lia]). subst b.
    split; cbn [g_elems g_dummies g_busy g_inserted g_erased g_handles]; auto; [| |lia|].
    + intros h' I.
      destruct (others hs i h E ltac:(lia) RS _ _ I) as [[= ->]|X].
      * unfold hinv; cbn [h_ins h_del h_upd h_flush h_reset h_dying]. tauto.
      * apply in_put in I. destruct I as [[= ->]|I]; [unfold hinv; cbn [h_ins h_del h_upd h_flush h_reset h_dying]; tauto|].
        apply (hinv_free d); auto.
    + sums E. rewrite RS. cbn. lia.
    + exists rem. sums E. unfold oI at 2 3, oD at 2 3, infD at 2 3 5 6. rewrite R. cbn.
      repeat split; lia.
Qed.

Lemma cinv_init lim : cinv (cinit lim).
Proof.
  split; cbn; try lia; try (intros h []). exists 0. repeat split; lia.
Qed.

Lemma cinv_steps s tr s' : csteps s tr s' -> cinv s -> cinv s'.
Proof. induction 1; eauto using cinv_step. Qed.

Lemma cinv_reachable lim s : reachable lim s -> cinv s.
Proof. intros [tr ST]. eapply cinv_steps; eauto. apply cinv_init. Qed.

Lemma owed_split h : owed h = oI h - oD h - infD h.
Proof. unfold owed, oI, oD, infD. destruct (h_flush h), (h_reset h); lia. Qed.

Lemma total_owed l : total owed l = total oI l - total oD l - total infD l.
Proof. induction l as [|[h|] l IH]; cbn; rewrite ?owed_split; lia. Qed.

(** *** Consequences *)

Lemma range lim s : reachable lim s ->
  - g_erased s <= g_elems s <= g_inserted s /\ 0 <= g_dummies s <= g_erased s /\
  0 <= g_erased s <= g_inserted s.
Proof.
  intros R. destruct (cinv_reachable _ _ R) as [H B D RN R0 (rem & P1 & P2 & P5 & P3 & P4)].
  assert (0 <= total oI (g_handles s)).
  { apply total_ge. intros h I. destruct (H h I) as (H1 & _). unfold oI. destruct (h_flush h); lia. }
  assert (0 <= total oD (g_handles s)).
  { apply total_ge. intros h I. destruct (H h I) as (_ & H1 & _). unfold oD. destruct (h_flush h); lia. }
  assert (X : 0 <= g_dummies s + total infD (g_handles s)).
  { clear - H B D. revert B D H. generalize (g_handles s) as l, (g_dummies s) as d. intros l d B D H.
    assert (K : 0 <= d -> total resetting l <= 1 -> 0 <= d + total infD l).
    { clear B D. revert H. induction l as [|[h|] l IH]; cbn [total]; intros H D' T; [lia| |].
      - assert (H' : forall h, In (Some h) l -> hinv d h) by (intros; apply H; now right).
        assert (0 <= total resetting l) by (apply total_ge; intros; eapply resetting_nonneg; eauto).
        destruct (h_reset h) eqn:E; unfold resetting in T at 1; unfold infD at 1; rewrite E in *.
        + specialize (IH H' D' ltac:(lia)). lia.
        + assert (Z : forall y, In (Some y) l -> infD y = 0).
          { intros y I. pose proof (total_member resetting l y (fun h => resetting_nonneg l h) I) as M.
            unfold resetting in M at 1. unfold infD. destruct (h_reset y); [reflexivity|lia..]. }
          rewrite (total_ext infD (fun _ => 0) l Z).
          assert (total (fun _ => 0) l = 0) by (clear; induction l as [|[h|] l IH]; cbn [total]; lia).
          destruct (H h (or_introl eq_refl)) as (_ & _ & _ & _ & _ & H6). rewrite E in H6. lia.
        + assert (Z : forall y, In (Some y) l -> infD y = 0).
          { intros y I. pose proof (total_member resetting l y (fun h => resetting_nonneg l h) I) as M.
            unfold resetting in M at 1. unfold infD. destruct (h_reset y); [reflexivity|lia..]. }
          rewrite (total_ext infD (fun _ => 0) l Z).
          assert (total (fun _ => 0) l = 0) by (clear; induction l as [|[h|] l IH]; cbn [total]; lia). lia.
        + assert (Z : forall y, In (Some y) l -> infD y = 0).
          { intros y I. pose proof (total_member resetting l y (fun h => resetting_nonneg l h) I) as M.
            unfold resetting in M at 1. unfold infD. destruct (h_reset y); [reflexivity|lia..]. }
          rewrite (total_ext infD (fun _ => 0) l Z).
          assert (total (fun _ => 0) l = 0) by (clear; induction l as [|[h|] l IH]; cbn [total]; lia).
          destruct (H h (or_introl eq_refl)) as (_ & _ & _ & _ & _ & H6). rewrite E in H6. lia.
      - apply IH; auto. intros; apply H; now right. }
    apply K; [exact D|]. destruct (g_busy s); lia. }
  lia.
Qed.

Lemma inserted_mono s tr s' : csteps s tr s' -> g_inserted s <= g_inserted s'.
Proof.
  induction 1 as [|s1 s2 s3 tr ST _ IH|s1 e s2 s3 tr ST _ IH]; [lia| |];
    (etransitivity; [|exact IH]); destruct ST; cbn; lia.
Qed.

Lemma csteps_app s1 t1 s2 t2 s3 : csteps s1 t1 s2 -> csteps s2 t2 s3 -> csteps s1 (t1 ++ t2) s3.
Proof. induction 1; cbn; eauto using csteps. Qed.

(** *** Crossing the limit *)

(** Handles in update_numbers use the current limit. *)
Definition uses (L : Z) (h : handle) : Prop :=
  match h_flush h with FDummies l | FElems l => l = L | _ => True end.

Lemma uses_step s e s' : cstep s e s' -> e <> Some CPublish ->
  (forall h, In (Some h) (g_handles s) -> uses (g_limit s) h) ->
  g_limit s' = g_limit s /\ (forall h, In (Some h) (g_handles s') -> uses (g_limit s) h).
Proof.
  intros ST NP U. destruct ST; cbn [g_limit g_handles] in *; try congruence;
    (split; [reflexivity|]); intros h' I; try (apply in_app_or in I; destruct I as [I|I]);
    try (apply in_put in I; destruct I as [I|I]); try (now apply U);
    try (destruct I as [[= <-]|[]]); try (injection I as ->); try exact Logic.I; try (now apply U; eapply nth_in; eauto).
  - unfold uses, counted. cbn [h_flush]. now destruct (_ <? _).
  - unfold uses, counted. cbn [h_flush]. now destruct (_ <? _).
  - reflexivity.
  - pose proof (U _ (nth_in _ _ _ H)) as X. unfold uses in *. rewrite H0 in X. exact X.
  - destruct (crosses _ _ _); [injection I as ->; exact Logic.I|].
    unfold flushed in I. destruct (h_dying h); [discriminate|injection I as ->; exact Logic.I].
  - unfold flushed in I. destruct (h_dying h); [discriminate|injection I as ->; exact Logic.I].
  - exact (U _ (nth_in _ _ _ H)).
  - exact (U _ (nth_in _ _ _ H)).
  - exact (U _ (nth_in _ _ _ H)).
Qed.

Lemma crossing : forall s tr s', csteps s tr s' -> one_version tr -> cinv s ->
  (forall h, In (Some h) (g_handles s) -> uses (g_limit s) h) ->
  g_elems s <= g_limit s < g_elems s' ->
  exists i old ins g, In (CFlush i old ins (g_limit s) g) tr /\
    old <= g_limit s < old + ins /\ (old <> g_limit s -> g = true).
Proof.
  induction 1 as [s|s1 s2 s3 tr ST _ IH|s1 e s2 s3 tr ST _ IH]; intros OV CI U C; [lia| |].
  - destruct (uses_step _ _ _ ST ltac:(discriminate) U) as [EL U'].
    pose proof (cinv_step _ _ _ ST CI) as CI'. rewrite EL in IH. apply IH; auto. split; [|apply C].
    inversion ST; subst; cbn [g_elems g_limit] in *; try lia.
    destruct (ci_h _ CI h (nth_in _ _ _ H)) as (_ & _ & _ & _ & _ & H6). rewrite H0 in H6. lia.
  - assert (NP : Some e <> Some CPublish) by (intros [= ->]; apply OV; now left).
    destruct (uses_step _ _ _ ST NP U) as [EL U'].
    pose proof (cinv_step _ _ _ ST CI) as CI'. rewrite EL in IH.
    destruct (Z.le_gt_cases (g_elems s2) (g_limit s1)) as [LE|GT].
    + destruct IH as (i & old & ins & g & I & A); auto; [intros X; apply OV; now right|lia|].
      exists i, old, ins, g. split; [now right|exact A].
    + clear IH. inversion ST; subst; cbn [g_elems g_limit g_handles] in *; try (exfalso; now apply NP).
      match goal with E : nth_error _ _ = Some (Some ?h), F : h_flush ?h = FElems _ |- _ =>
        pose proof (U _ (nth_in _ _ _ E)) as X; unfold uses in X; rewrite F in X; subst lim end.
      eexists _, _, _, _. split; [left; reflexivity|]. split; [lia|].
      intros NE. unfold crosses. destruct (Z.ltb_spec l (e0 + h_ins h)), (Z.ltb_spec e0 l); cbn; auto; lia.
Qed.

(** *** Executing schedules *)

Inductive clabel :=
| KNew | KMove (i : nat) | KDestroy (i : nat) | KInsert (i : nat) | KErase (i : nat)
| KRun (i : nat)                          (* continue update_numbers *)
| KAsync (i : nat) | KSync (i : nat)      (* a growth step begins to correct the counters *)
| KReset (i : nat) (l : Z).               (* ... continues; [l] is the limit of the new table *)

Definition idle_b (h : handle) : bool :=
  match h_flush h, h_reset h with FNone, RNone => true | _, _ => false end.
Definition may_reset (h : handle) : bool :=
  match h_flush h, h_reset h with FNone, RNone | FGrow, RNone => true | _, _ => false end.

Definition crun1 (s : cstate) (k : clabel) : option (option cevent * cstate) :=
  let '(CState e d l b n r hs) := s in
  let get i := match nth_error hs i with Some (Some h) => Some h | _ => None end in
  let set i h := put i h hs in
  match k with
  | KNew => Some (None, CState e d l b n r (hs ++ [Some new_handle]))
  | KMove i =>
      match get i with
      | Some h => if idle_b h then Some (None, CState e d l b n r (set i (Some new_handle) ++ [Some h])) else None
      | None => None
      end
  | KDestroy i =>
      match get i with
      | Some h => if idle_b h then Some (None, CState e d l b n r (set i (Some (Handle 0 (h_ins h) (h_del h) FTable RNone true)))) else None
      | None => None
      end
  | KInsert i =>
      match get i with
      | Some h => if idle_b h then Some (None, CState e d l b (n + 1) r (set i (Some (counted 1 0 h)))) else None
      | None => None
      end
  | KErase i =>
      match get i with
      | Some h => if idle_b h && (r <? n) then Some (None, CState e d l b n (r + 1) (set i (Some (counted 0 1 h)))) else None
      | None => None
      end
  | KRun i =>
      match get i with
      | Some h =>
          match h_flush h with
          | FTable => Some (None, CState e d l b n r (set i (Some (Handle 0 (h_ins h) (h_del h) (FDummies l) RNone (h_dying h)))))
          | FDummies lim => Some (None, CState e (d + h_del h) l b n r (set i (Some (Handle 0 (h_ins h) (h_del h) (FElems lim) RNone (h_dying h)))))
          | FElems lim => Some (Some (CFlush i e (h_ins h) lim (crosses e (h_ins h) lim)),
                            CState (e + h_ins h) d l b n r
                             (set i (if crosses e (h_ins h) lim then Some (Handle 0 (h_ins h) (h_del h) FGrow RNone (h_dying h)) else flushed h)))
          | FGrow => match h_reset h with RNone => Some (None, CState e d l b n r (set i (flushed h))) | _ => None end
          | FNone => None
          end
      | None => None
      end
  | KAsync i =>
      match get i with
      | Some h => if may_reset h && negb b then Some (None, CState e 0 l true n r (set i (Some (Handle (h_upd h) (h_ins h) (h_del h) (h_flush h) (RAsync d) (h_dying h))))) else None
      | None => None
      end
  | KSync i =>
      match get i with
      | Some h => if may_reset h && negb b then Some (None, CState e d l true n r (set i (Some (Handle (h_upd h) (h_ins h) (h_del h) (h_flush h) (RSync d) (h_dying h))))) else None
      | None => None
      end
  | KReset i l' =>
      match get i with
      | Some h =>
          match h_reset h with
          | RAsync tmp => Some (Some CPublish, CState (e - tmp) d l' false n r (set i (Some (Handle (h_upd h) (h_ins h) (h_del h) (h_flush h) RNone (h_dying h)))))
          | RSync x => Some (None, CState (e - x) d l b n r (set i (Some (Handle (h_upd h) (h_ins h) (h_del h) (h_flush h) (RSync2 x) (h_dying h)))))
          | RSync2 x => Some (Some CPublish, CState e (d - x) l' false n r (set i (Some (Handle (h_upd h) (h_ins h) (h_del h) (h_flush h) RNone (h_dying h)))))
          | RNone => None
          end
      | None => None
      end
  end.

Fixpoint crun (s : cstate) (ks : list clabel) : option (list cevent * cstate) :=
  match ks with
  | [] => Some ([], s)
  | k :: ks =>
      match crun1 s k with
      | None => None
      | Some (e, s') =>
          match crun s' ks with
          | None => None
          | Some (tr, s'') => Some (match e with Some x => x :: tr | None => tr end, s'')
          end
      end
  end.

Lemma crun1_sound s k e s' : crun1 s k = Some (e, s') -> cstep s e s'.
Proof.
  destruct s as [el d l b n r hs].
  assert (ID : forall h, idle_b h = true -> h_flush h = FNone /\ h_reset h = RNone).
  { intros h. unfold idle_b. destruct (h_flush h), (h_reset h); auto; discriminate. }
  assert (MR : forall h, may_reset h = true -> (h_flush h = FNone \/ h_flush h = FGrow) /\ h_reset h = RNone).
  { intros h. unfold may_reset. destruct (h_flush h), (h_reset h); auto; discriminate. }
  unfold crun1. destruct k as [|i|i|i|i|i|i|i|i l'].
  - intros [= <- <-]. constructor.
  - destruct (nth_error hs i) as [[h|]|] eqn:E; try discriminate. destruct (idle_b h) eqn:IB; [|discriminate].
    intros [= <- <-]. destruct (ID h IB). now apply c_move.
  - destruct (nth_error hs i) as [[h|]|] eqn:E; try discriminate. destruct (idle_b h) eqn:IB; [|discriminate].
    intros [= <- <-]. destruct (ID h IB). now apply c_destroy.
  - destruct (nth_error hs i) as [[h|]|] eqn:E; try discriminate. destruct (idle_b h) eqn:IB; [|discriminate].
    intros [= <- <-]. destruct (ID h IB). now apply c_insert.
  - destruct (nth_error hs i) as [[h|]|] eqn:E; try discriminate. destruct (idle_b h) eqn:IB; [|discriminate].
    destruct (Z.ltb_spec r n); [|discriminate].
    intros [= <- <-]. destruct (ID h IB). now apply c_erase.
  - destruct (nth_error hs i) as [[h|]|] eqn:E; try discriminate. destruct (h_flush h) eqn:F; try discriminate.
    + intros [= <- <-]. now apply c_table.
    + intros [= <- <-]. now apply (c_dummies _ _ _ _ _ _ _ _ _ lim).
    + intros [= <- <-]. now apply c_elems.
    + destruct (h_reset h) eqn:R; try discriminate. intros [= <- <-]. now apply c_grown.
  - destruct (nth_error hs i) as [[h|]|] eqn:E; try discriminate. destruct (may_reset h) eqn:IB; [|discriminate].
    destruct b; [discriminate|]. intros [= <- <-]. destruct (MR h IB). now apply c_async.
  - destruct (nth_error hs i) as [[h|]|] eqn:E; try discriminate. destruct (may_reset h) eqn:IB; [|discriminate].
    destruct b; [discriminate|]. intros [= <- <-]. destruct (MR h IB). now apply c_sync.
  - destruct (nth_error hs i) as [[h|]|] eqn:E; try discriminate. destruct (h_reset h) eqn:R; try discriminate.
    + intros [= <- <-]. now apply c_async2.
    + intros [= <- <-]. now apply c_sync2.
    + intros [= <- <-]. now apply c_sync3.
Qed.

Lemma crun_sound : forall ks s tr s', crun s ks = Some (tr, s') -> csteps s tr s'.
Proof.
  induction ks as [|k ks IH]; intros s tr s' E; cbn [crun] in E; [injection E as <- <-; constructor|].
  destruct (crun1 s k) as [[e s1]|] eqn:E1; [|discriminate].
  destruct (crun s1 ks) as [[tr2 s2]|] eqn:E2; [|discriminate]. injection E as <- <-.
  apply crun1_sound in E1. apply IH in E2. destruct e; [eapply cs_vis|eapply cs_tau]; eauto.
Qed.

(** Handles that live for one insertion each. *)
Definition visitor (i : nat) : list clabel := [KNew; KInsert i; KDestroy i; KRun i; KRun i; KRun i].

Lemma visitor_run L (n : nat) :
  let s := CState (Z.of_nat n) 0 L false (Z.of_nat n) 0 (repeat None n) in
  crun s (visitor n) =
  Some ([CFlush n (Z.of_nat n) 1 L false],
        CState (Z.of_nat (S n)) 0 L false (Z.of_nat (S n)) 0 (repeat None (S n))).
Proof.
  assert (P : forall x h, put n x (repeat None n ++ [Some h]) = repeat None n ++ [x]).
  { intros x h. induction n as [|n IH]; cbn [repeat app put]; [reflexivity|now rewrite IH]. }
  assert (Q : forall h, nth_error (repeat None n ++ [@Some handle h]) n = Some (Some h)).
  { intros h. induction n as [|n IH]; cbn; [reflexivity|]. apply IH. intros. 
    clear -P. specialize (P x h0). cbn in P. now injection P. }
  cbv zeta. unfold visitor. unfold crun, crun1.
  rewrite Q. cbn [idle_b new_handle h_flush h_reset]. rewrite P, Q.
  cbn [idle_b counted new_handle h_flush h_reset h_upd h_ins h_del h_dying Z.add Pos.add Z.ltb Z.compare Pos.compare Pos.compare_cont].
  rewrite P, Q. cbn [h_flush h_reset h_upd h_ins h_del h_dying]. rewrite P, Q. cbn [h_flush h_reset h_upd h_ins h_del h_dying].
  rewrite P, Q. cbn [h_flush h_reset h_upd h_ins h_del h_dying].
  assert (C : crosses (Z.of_nat n) 1 L = false).
  { unfold crosses. destruct (Z.ltb_spec L (Z.of_nat n + 1)), (Z.ltb_spec (Z.of_nat n) L); auto; lia. }
  rewrite C. rewrite P. unfold flushed. cbn [h_dying].
  replace (repeat None n ++ [@None handle]) with (repeat (@None handle) (S n)).
  2:{ clear. induction n; cbn; [reflexivity|]. f_equal. exact IHn. }
  repeat f_equal; lia.
Qed.

Lemma visitors L (n : nat) :
  exists tr, csteps (cinit L) tr (CState (Z.of_nat n) 0 L false (Z.of_nat n) 0 (repeat None n)) /\
    forall i old ins lim g, In (CFlush i old ins lim g) tr -> g = false.
Proof.
  induction n as [|n (tr & ST & A)].
  - exists []. split; [constructor|intros; contradiction].
  - pose proof (visitor_run L n) as V. cbv zeta in V. apply crun_sound in V.
    eexists. split; [eapply csteps_app; eauto|].
    intros i old ins lim g I. apply in_app_or in I. destruct I as [I|[I|[]]]; [eauto|congruence].
Qed.
