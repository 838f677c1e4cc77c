(** What is left of the guarantees of TraceSpec.v and of the content of a table when updates
    may be lost to a concurrent erase. *)
From Coq Require Import NArith Bool List Lia.
From Verif Require Import Words Slot SlotFacts Mapper MapperFacts MapSpec LinSpec HistSpec Base BaseInv BaseLin
  TableSpec BaseFacts Hist HistCount TraceSpec TraceFacts LoseFacts LoseBase LoseLin.
From Verif Require LoseSpec.
Import ListNotations.
Open Scope N_scope.

Section H.
Context (inv full : bool) (keep : N -> Prop).
Notation spec := (mspec inv full).
Notation upd o := (LoseSpec.updates o = true).
Notation era o := (LoseSpec.erases o = true).
Definition may_lose (o : mop) : Prop := upd o /\ ~ keep (mop_key o).

Definition kinv (w : LoseSpec.wobj) : Prop :=
  forall t, match LoseSpec.wth w t with
            | LoseSpec.WPend o h => (era o -> ~ keep (mop_key o)) /\ (h = true -> ~ keep (mop_key o))
            | _ => True
            end.

(** If keys in [keep] are never erased their updates are never lost. *)
Lemma lose_lossy_from w tr w' : lts_steps (LoseSpec.wstep spec) w tr w' -> forall x,
  kinv w -> xrel x w -> (forall o, invoked tr o -> era o -> ~ keep (mop_key o)) ->
  exists x', asteps (lossy may_lose spec) x tr x'.
Proof.
  induction 1 as [w|w w1 w2 tr S ST IH|w e w1 w2 tr S ST IH]; intros x K X NE.
  - exists x. apply as_nil.
  - destruct x as [a th]. destruct X as [X1 X2]. cbn [ast ath] in *.
    inversion S as [|m wt t o h m' r E SP|m wt t o v E U|]; subst; cbn [LoseSpec.wst LoseSpec.wth] in *.
    + pose proof (X2 t) as Xt. cbn in Xt. rewrite E in Xt.
      destruct (IH (AObj m' (fupd th t (ADone r)))) as (x' & A); auto.
      * intros u. cbn [LoseSpec.wth]. destruct (N.eq_dec u t) as [->|NT]; [now rewrite fupd_eq|].
        rewrite fupd_neq by exact NT. pose proof (K u) as Ku. pose proof (K t) as Kt. cbn in Ku, Kt. rewrite E in Kt.
        destruct (wt u) as [|o' h'|r'] eqn:Eu; [destruct r; exact Logic.I| |destruct r; exact Logic.I].
        destruct r; auto. cbn. destruct Ku as [K1 K2]. split; auto. intros Q.
        destruct h'; [auto|]. cbn in Q. apply N.eqb_eq in Q. rewrite Q. apply (proj1 Kt). eapply erased_by; eauto.
      * split; [reflexivity|]. intros u. cbn [ath LoseSpec.wth]. destruct (N.eq_dec u t) as [->|NT]; [now rewrite !fupd_eq|].
        rewrite !fupd_neq by exact NT. pose proof (X2 u) as Xu. cbn in Xu. rewrite Xu. destruct (wt u), r; reflexivity.
      * exists x'. eapply as_tau; [|exact A]. eapply a_lin; eauto. now left.
    + pose proof (X2 t) as Xt. cbn in Xt. rewrite E in Xt. pose proof (K t) as Kt. cbn in Kt. rewrite E in Kt.
      destruct (IH (AObj m (fupd th t (ADone (RUpdated (LoseSpec.reported o v)))))) as (x' & A); auto.
      * intros u. cbn [LoseSpec.wth]. destruct (N.eq_dec u t) as [->|NT]; [now rewrite fupd_eq|].
        rewrite fupd_neq by exact NT. apply K.
      * split; [reflexivity|]. intros u. cbn [ath LoseSpec.wth]. destruct (N.eq_dec u t) as [->|NT]; [now rewrite !fupd_eq|].
        rewrite !fupd_neq by exact NT. apply X2.
      * exists x'. eapply as_tau; [|exact A]. eapply a_lin; eauto. right. split; [split; auto; now apply (proj2 Kt)|eauto].
  - destruct x as [a th]. destruct X as [X1 X2]. cbn [ast ath] in *.
    assert (NE' : forall o, invoked tr o -> era o -> ~ keep (mop_key o)).
    { intros o [u I]. apply NE. exists u. now right. }
    inversion S as [m wt t o E| | |m wt t r E]; subst; cbn [LoseSpec.wst LoseSpec.wth] in *;
      pose proof (X2 t) as Xt; cbn in Xt; rewrite E in Xt.
    + destruct (IH (AObj m (fupd th t (APend o)))) as (x' & A); auto.
      * intros u. cbn [LoseSpec.wth]. destruct (N.eq_dec u t) as [->|NT].
        -- rewrite fupd_eq. split; [|discriminate]. intros Er. apply NE; auto. exists t. now left.
        -- rewrite fupd_neq by exact NT. apply K.
      * split; [reflexivity|]. intros u. cbn [ath LoseSpec.wth]. destruct (N.eq_dec u t) as [->|NT]; [now rewrite !fupd_eq|].
        rewrite !fupd_neq by exact NT. apply X2.
      * exists x'. eapply as_vis; [|exact A]. now apply a_inv.
    + destruct (IH (AObj m (fupd th t AIdle))) as (x' & A); auto.
      * intros u. cbn [LoseSpec.wth]. destruct (N.eq_dec u t) as [->|NT]; [now rewrite fupd_eq|].
        rewrite fupd_neq by exact NT. apply K.
      * split; [reflexivity|]. intros u. cbn [ath LoseSpec.wth]. destruct (N.eq_dec u t) as [->|NT]; [now rewrite !fupd_eq|].
        rewrite !fupd_neq by exact NT. apply X2.
      * exists x'. eapply as_vis; [|exact A]. now apply a_ret.
Qed.

Lemma lose_lossy tr :
  LoseSpec.atomic_but_lost spec tr -> (forall o, invoked tr o -> era o -> ~ keep (mop_key o)) ->
  linearizable_trace (lossy may_lose spec) amap_empty tr.
Proof.
  intros [w A] NE. destruct (lose_lossy_from _ _ _ A (AObj amap_empty (fun _ => AIdle))) as (x & X); auto.
  - intros t. exact Logic.I.
  - split; [reflexivity|]. intros t. reflexivity.
  - exists x. exact X.
Qed.
End H.

Section Guarantees.
Context {S : Type} (step : S -> option ev -> S -> Prop) (init : S) (inv full : bool).
Context (LOSE : forall tr s, lts_steps step init tr s -> LoseSpec.atomic_but_lost (mspec inv full) tr).
Notation loose := (may_lose (fun _ => False)).

Lemma find_not_lost keep k : ~ may_lose keep (MFind k).
Proof. intros [H _]. discriminate H. Qed.
Lemma lossy_any tr s : lts_steps step init tr s -> linearizable_trace (lossy loose (mspec inv full)) amap_empty tr.
Proof. intros ST. apply lose_lossy; eauto. Qed.

Lemma lose_keys : keeps_keys step init.
Proof.
  intros k d t r t' o0 tr s ST (tr1 & tr2 & tr3 & tr4 & -> & I & P1 & P2 & P3 & P4).
  apply (inserted_stays_lossy loose inv full (find_not_lost _) k d tr1 t o0 tr2 tr3 t' tr4 r); auto. exact (lossy_any _ _ ST).
Qed.
Lemma lose_values : keeps_values step init.
Proof.
  intros k d t r t' tr s ST (tr1 & tr2 & tr3 & tr4 & -> & I & P1 & P2 & P3 & P4).
  apply (inserted_value_stays_lossy loose inv full (find_not_lost _) k d tr1 t (MInsert k d) tr2 tr3 t' tr4 r); auto.
  exact (lossy_any _ _ ST).
Qed.
Lemma lose_winner : one_winner step init.
Proof.
  intros k d d' t r t' o0 o1 tr s ST I1 (tr1 & tr2 & tr3 & tr4 & -> & I & P1 & P2 & P3 & P4).
  apply (inserted_once_lossy loose inv full k d d' tr1 t o0 tr2 tr3 t' o1 tr4 r); auto. exact (lossy_any _ _ ST).
Qed.
Lemma lose_counts : counts_exactly step init.
Proof.
  intros k t r tr1 tr2 s ST H1 H2 H3 H4.
  apply (count_exact_lossy (may_lose (fun k' => k' = k)) inv full k tr1 t tr2 r); auto.
  - intros o [_ N]. exact N.
  - apply lose_lossy; [exact (LOSE _ _ ST)|]. intros o [u I] Er EK. rewrite !in_app_iff in I.
    destruct I as [I|[[[= _ <-]|[]]|[I|[I|[]]]]]; try discriminate.
    + assert (C : counting k o) by (apply H1; now exists u). destruct o; try discriminate; cbn in *; contradiction.
    + rewrite (H3 o) in Er; [discriminate|now exists u|exact EK].
Qed.
End Guarantees.

(** *** The content of a table *)
Section C.
Context (sc : scfg) (mc : mcfg) (hash : N -> N) (lg gh : N).
Context (CT : cell_type sc) (LG : 1 <= lg <= 63) (SM : sc_mark sc = false).
Context (client : op -> Prop) (AD : forall o, client o -> op_ok sc o).
Notation c := (TCfg sc mc hash).
Notation m := (sized mc lg gh).
Notation tot := (cells_of mc lg).
Notation spec := (mspec false (negb (cprob mc))).
Let wfs : wf_scfg sc := cell_type_wf _ CT.
Let wfm : wf_mapper mc m lg := wf_mk mc lg gh LG.

Lemma dd_not_user : ~ user_key sc (ddummy sc).
Proof. unfold user_key. rewrite SM. unfold ddummy, mbit. intros (_ & _ & H & _). now apply H. Qed.
Lemma dd_not_zero : ddummy sc <> 0.
Proof. destruct CT as (b & [E|E]); rewrite E; vm_compute; discriminate. Qed.

Lemma same_sym t tn : same sc t tn -> same sc tn t.
Proof.
  intros S p. specialize (S p). unfold olike in *. destruct (t p), (tn p); auto. destruct S as [->|[A B]]; [now left|right; auto].
Qed.
Lemma same_holds t tn p k d : same sc t tn -> user_key sc k -> holds sc tot t p k d -> holds sc tot tn p k d.
Proof.
  intros S U (L & x & E & W & D). split; auto. specialize (S p). unfold olike in S. rewrite E in S.
  destruct (tn p) as [y|]; [|contradiction]. exists y. destruct S as [<-|[A _]]; auto.
  exfalso. destruct W as [W|[W _]]; [|congruence]. apply dd_not_user. now rewrite <- A, W.
Qed.
Lemma same_vacant t tn p : same sc t tn -> vacant sc tot t p -> vacant sc tot tn p.
Proof.
  intros S (L & x & E & W). split; auto. specialize (S p). unfold olike in S. rewrite E in S.
  destruct (tn p) as [y|]; [|contradiction]. exists y. destruct S as [<-|[A _]]; auto.
  exfalso. destruct W as [W|[W _]]; [|congruence]. apply dd_not_zero. now rewrite <- A, W.
Qed.

Theorem lose_content tr s :
  lts_steps (bsys_step c m client) (bsys_init c m) tr s ->
  (exists w, lts_steps (LoseSpec.wstep spec) (LoseSpec.WObj amap_empty (fun _ => LoseSpec.WIdle)) tr w /\
     stored sc tot (bmem s) (LoseSpec.wst w)) /\
  (forall k p q d e, user_key sc k -> holds sc tot (bmem s) p k d -> holds sc tot (bmem s) q k e -> p = q) /\
  (forall k p d, user_key sc k -> holds sc tot (bmem s) p k d ->
     exists n, probe_of mc lg (w64 (hash k)) n = p /\
               forall j, j < n -> ~ vacant sc tot (bmem s) (probe_of mc lg (w64 (hash k)) j)).
Proof.
  intros ST. destruct (lose_trace c m lg wfs wfm SM client AD _ _ _ _ (lose_init c m lg wfs wfm client) ST)
    as (w & A & (tn & thn & x & fl & (ct & mk & I & AB & _) & [W1 _] & SA & _)).
  cbn [bmem] in *. pose proof (same_sym _ _ SA) as SB. split; [|split].
  - exists w. split; [exact A|]. rewrite W1. apply (stored_iff sc mc hash lg gh CT LG _ _ _ _ I) in AB.
    intros k d. rewrite (AB k d). split; intros (U & p & H); split; auto; exists p; eapply same_holds; eauto.
  - intros k p q d e U Hp Hq. apply (same_holds _ _ _ _ _ SA U) in Hp. apply (same_holds _ _ _ _ _ SA U) in Hq.
    apply (holds_iff sc mc hash lg gh CT LG _ _ _ _ _ _ I U) in Hp. apply (holds_iff sc mc hash lg gh CT LG _ _ _ _ _ _ I U) in Hq.
    destruct Hp as [Lp Ep], Hq as [Lq Eq]. eapply (live_unique c m); eauto; cbn [tmc]; rewrite (tot_eq mc lg gh LG); auto.
  - intros k p d U Hp. apply (same_holds _ _ _ _ _ SA U) in Hp.
    apply (holds_iff sc mc hash lg gh CT LG _ _ _ _ _ _ I U) in Hp. destruct Hp as [Lp Ep].
    destruct (ti_reach _ _ _ _ _ I p k d) as (n & En & Pn); cbn [tmc]; auto; [rewrite (tot_eq mc lg gh LG); auto|].
    exists n. cbn [tmc] in En. rewrite (probe_eq sc mc hash lg gh LG) in En. split; auto.
    intros j Hj V. destruct (Pn j Hj) as [NE _]. cbn [tmc] in NE. rewrite (probe_eq sc mc hash lg gh LG) in NE.
    apply (same_vacant _ _ _ SA) in V. apply (vacant_iff sc mc hash lg gh CT LG _ _ _ _ I) in V. apply NE, V.
Qed.
End C.
