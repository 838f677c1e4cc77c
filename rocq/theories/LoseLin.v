(** Histories in which no update overlaps an erase of its key are linearizable. *)
From Coq Require Import NArith Bool List Lia.
From Verif Require Import Words MapSpec LinSpec BaseInv GrowingSpec LoseSpec LoseFacts.
Import ListNotations.
Open Scope N_scope.

Section L.
Context (inv full : bool).
Notation spec := (mspec inv full).

Lemma erased_by m o m' : spec m o m' RErased -> erases o = true.
Proof. intros H. inversion H; reflexivity. Qed.

Definition strip (x : wstat) : astat mop mres :=
  match x with WIdle => AIdle | WPend o _ => APend o | WDone r => ADone r end.
Definition xrel (x : aobj amap mop mres) (w : wobj) : Prop :=
  ast x = wst w /\ forall t, ath x t = strip (wth w t).

Definition winv (tr : list (event mop mres)) (w : wobj) : Prop :=
  forall t, match wth w t with
            | WIdle => True
            | WPend o h => open_after tr t = Some o /\ (h = true -> updates o = false)
            | WDone r => True
            end.

Lemma open_snoc tr e : open_after (tr ++ [e]) = opened (open_after tr) e.
Proof. unfold open_after. now rewrite fold_left_app. Qed.

Lemma no_overlap_lin w tr w' : lts_steps (wstep spec) w tr w' -> forall tr0 x,
  winv tr0 w -> xrel x w -> no_overlap (tr0 ++ tr) -> exists x', asteps spec x tr x'.
Proof.
  induction 1 as [w|w w1 w2 tr S ST IH|w e w1 w2 tr S ST IH]; intros tr0 x W X NO.
  - exists x. apply as_nil.
  - destruct x as [a th]. destruct X as [X1 X2]. cbn [ast ath] in *.
    inversion S as [|m wt t o h m' r E SP|m wt t o v E U|]; subst; cbn [wst wth] in *.
    + pose proof (X2 t) as Xt. cbn in Xt. rewrite E in Xt.
      destruct (IH tr0 (AObj m' (fupd th t (ADone r)))) as (x' & A); auto.
      * intros u. cbn [wth]. destruct (N.eq_dec u t) as [->|NE]; [now rewrite fupd_eq|].
        rewrite fupd_neq by exact NE. pose proof (W u) as Wu. pose proof (W t) as Wt. cbn [wth] in Wu, Wt. rewrite E in Wt.
        destruct (wt u) as [|o' h'|r'] eqn:Eu; [destruct r; exact Logic.I| |destruct r; exact Logic.I].
        destruct r; auto. cbn. destruct Wu as [O1 O2]. split; auto. intros Q.
        destruct h'; [auto|]. cbn in Q. apply N.eqb_eq in Q. destruct (updates o') eqn:U; auto. exfalso.
        eapply (NO tr0 tr u t o' o); eauto; [apply Wt|]. eapply erased_by; eauto.
      * split; [reflexivity|]. intros u. cbn [ath wth]. destruct (N.eq_dec u t) as [->|NE]; [now rewrite !fupd_eq|].
        rewrite !fupd_neq by exact NE. pose proof (X2 u) as Xu. cbn in Xu. rewrite Xu.
        destruct (wt u), r; reflexivity.
      * exists x'. eapply as_tau; [|exact A]. eapply a_lin; eauto.
    + exfalso. pose proof (W t) as Wt. cbn [wth] in Wt. rewrite E in Wt. destruct Wt as [_ Q]. rewrite (Q eq_refl) in U. discriminate.
  - destruct x as [a th]. destruct X as [X1 X2]. cbn [ast ath] in *.
    replace (tr0 ++ e :: tr) with ((tr0 ++ [e]) ++ tr) in NO by (now rewrite <- app_assoc).
    inversion S as [m wt t o E| | |m wt t r E]; subst; cbn [wst wth] in *; pose proof (X2 t) as Xt; cbn in Xt; rewrite E in Xt.
    + destruct (IH (tr0 ++ [EInv t o]) (AObj m (fupd th t (APend o)))) as (x' & A); auto.
      * intros u. cbn [wth]. rewrite open_snoc. cbn [opened]. destruct (N.eq_dec u t) as [->|NE].
        -- rewrite !fupd_eq. split; [reflexivity|discriminate].
        -- rewrite !fupd_neq by exact NE. apply W.
      * split; [reflexivity|]. intros u. cbn [ath wth]. destruct (N.eq_dec u t) as [->|NE]; [now rewrite !fupd_eq|].
        rewrite !fupd_neq by exact NE. apply X2.
      * exists x'. eapply as_vis; [|exact A]. now apply a_inv.
    + destruct (IH (tr0 ++ [ERet t r]) (AObj m (fupd th t AIdle))) as (x' & A); auto.
      * intros u. cbn [wth]. rewrite open_snoc. cbn [opened]. destruct (N.eq_dec u t) as [->|NE].
        -- rewrite !fupd_eq. exact Logic.I.
        -- rewrite !fupd_neq by exact NE. apply W.
      * split; [reflexivity|]. intros u. cbn [ath wth]. destruct (N.eq_dec u t) as [->|NE]; [now rewrite !fupd_eq|].
        rewrite !fupd_neq by exact NE. apply X2.
      * exists x'. eapply as_vis; [|exact A]. now apply a_ret.
Qed.

Theorem lost_only_on_overlap tr :
  atomic_but_lost spec tr -> no_overlap tr -> linearizable_trace spec amap_empty tr.
Proof.
  intros [w A] NO. destruct (no_overlap_lin _ _ _ A [] (AObj amap_empty (fun _ => AIdle))) as (x & X); auto.
  - intros t. exact Logic.I.
  - split; [reflexivity|]. intros t. reflexivity.
  - exists x. exact X.
Qed.

End L.

(** One thread after the other never overlaps. *)
Lemma in_turn_open t l : forall tr1 tr2, in_turn t l = tr1 ++ tr2 ->
  forall th, (forall u, th u = None) -> forall u v o o',
    fold_left opened tr1 th u = Some o -> fold_left opened tr1 th v = Some o' -> u = t /\ v = t.
Proof.
  induction l as [|[o0 r] l IH]; intros tr1 tr2 E th N u v o o' E1 E2; cbn in E.
  - destruct tr1; [|discriminate]. cbn in E1. rewrite N in E1. discriminate.
  - destruct tr1 as [|e1 tr1]; [cbn in E1; rewrite N in E1; discriminate|].
    injection E as <- E. destruct tr1 as [|e2 tr1].
    + cbn in E1, E2. unfold fupd in E1, E2.
      destruct (N.eqb_spec u t), (N.eqb_spec v t); auto; rewrite N in *; discriminate.
    + injection E as <- E. cbn [fold_left opened] in E1, E2. eapply IH; [exact E| |exact E1|exact E2].
      intros z. unfold fupd. destruct (z =? t); auto.
Qed.

Lemma in_turn_no_overlap t l : no_overlap (in_turn t l).
Proof.
  intros tr1 tr2 u v o o' E E1 E2 U R. exfalso. unfold open_after in *.
  destruct (in_turn_open t l tr1 tr2 E (fun _ => None) (fun _ => eq_refl) u v o o' E1 E2) as [-> ->].
  rewrite E1 in E2. injection E2 as <-. destruct o; discriminate.
Qed.
