(** Halved loads: when the key word is loaded first and nothing is erased, every
    execution has the same calls and results as one with whole loads. *)
From Coq Require Import NArith Bool List Lia.
From Verif Require Import Words Slot Mapper ReturnCode MapSpec LinSpec Base BaseInv TableSpec MigrateExec Torn.
Import ListNotations.
Open Scope N_scope.

Section Sim.
Context (c : tcfg) (m : mapper) (client : op -> Prop).
Context (NE : forall o, client o -> ~ erasing o).
Notation sc := (tsc c).
Notation mc := (tmc c).
Notation cell t i := (rd c m t (remap mc m i)).

(** The cell is in use. *)
Definition busy (t : mem) (i : N) : Prop := exists y, cell t i = Some y /\ is_empty sc y = false.

(** The same call with halved and with whole loads. *)
Definition trel (t : mem) (o : op) (tp : tpc) (pc : bpc) : Prop :=
  match tp with
  | TAt (PCas i x) => is_empty sc x = true /\ exists x0, pc = PCas i x0 /\ (x0 = x \/ (is_empty sc x0 = true /\ busy t i))
  | TAt (PUpd i x) => pc = PUpd i x /\ busy t i
  | TAt (PDel _ _) => False
  | TAt q => pc = q
  | TKey i k =>
      exists y, cell t i = Some y /\
      ((pc = PLoad i /\ skey y = k /\ is_empty sc y = false) \/
       (exists x0, skey x0 = k /\ is_empty sc x0 = true /\
          pc = after_load c m o i (remap mc m i) x0 /\ (y = x0 \/ is_empty sc y = false)))
  | TData _ _ => False
  end.

Definition srel (s : tsys) (b : bsys) : Prop :=
  tmem s = bmem b /\
  forall tid, match tthr s tid, bthr b tid with
              | None, None => True
              | Some (o, tp), Some (o', pc) => o = o' /\ client o /\ trel (tmem s) o tp pc
              | _, _ => False
              end.

(** How cells change while nothing is erased. *)
Definition grows (t t' : mem) : Prop :=
  forall p y, t p = Some y -> exists y', t' p = Some y' /\
    (y' = y \/ (is_empty sc y = true /\ is_empty sc y' = false) \/
     (is_empty sc y = false /\ skey y' = skey y)).

Lemma empty_key x y : skey x = skey y -> is_empty sc x = is_empty sc y.
Proof. unfold is_empty. now intros ->. Qed.

Lemma grows_rd t t' p y : grows t t' -> rd c m t p = Some y -> exists y', rd c m t' p = Some y' /\
    (y' = y \/ (is_empty sc y = true /\ is_empty sc y' = false) \/
     (is_empty sc y = false /\ skey y' = skey y)).
Proof. unfold rd. destruct (p <? total_slots mc m); [|discriminate]. intros G. apply G. Qed.

Lemma grows_refl t : grows t t.
Proof. intros p y E. eauto. Qed.

Lemma grows_upd t p y y' : rd c m t p = Some y ->
  (y' = y \/ (is_empty sc y = true /\ is_empty sc y' = false) \/ (is_empty sc y = false /\ skey y' = skey y)) ->
  grows t (fupd t p (Some y')).
Proof.
  intros R H q z E. unfold fupd. destruct (N.eqb_spec q p) as [->|NQ]; [|eauto].
  unfold rd in R. destruct (p <? total_slots mc m); [|discriminate]. rewrite E in R. injection R as ->. eauto.
Qed.

Lemma busy_grows t t' i : grows t t' -> busy t i -> busy t' i.
Proof.
  intros G (y & E & B). destruct (grows_rd _ _ _ _ G E) as (y' & E' & [->|[[X _]|[_ K]]]); [exists y; auto|congruence|].
  exists y'. split; auto. now rewrite (empty_key y' y K).
Qed.

Lemma trel_grows t t' o tp pc : grows t t' -> trel t o tp pc -> trel t' o tp pc.
Proof.
  intros G. destruct tp as [q|i k|i d]; cbn [trel]; auto.
  - destruct q; auto.
    + intros (A & x0 & -> & [->|[B1 B2]]); split; auto; exists x0 || exists curr; split; auto.
      right. split; auto. eapply busy_grows; eauto.
    + intros [-> B]. split; auto. eapply busy_grows; eauto.
  - intros (y & E & H). destruct (grows_rd _ _ _ _ G E) as (y' & E' & C). exists y'. split; auto.
    destruct H as [(-> & K & B)|(x0 & K & X & -> & H)].
    + left. destruct C as [->|[[C _]|[_ C]]]; [auto|congruence|].
      repeat split; auto; [congruence|]. now rewrite (empty_key y' y C).
    + right. exists x0. split; [|split; [|split]]; auto. destruct C as [->|[[C1 C2]|[C1 C2]]]; auto.
      right. now rewrite (empty_key y' y C2).
Qed.

Hypothesis NK : forall o, client o -> is_empty sc (Slot (op_key o) 0) = false.

Lemma op_slot_used o i x p y : after_load c m o i p y = PCas i x -> client o -> is_empty sc (op_slot o) = false.
Proof.
  intros H CL. pose proof (NK o CL) as K. destruct o; cbn [after_load] in H;
    repeat match type of H with context [if ?b then _ else _] => destruct b end; try discriminate; exact K.
Qed.

(** What follows a load. *)
Lemma after_cases o i p x : client o ->
  match after_load c m o i p x with
  | PCas j y => j = i /\ y = x /\ is_empty sc x = true /\ is_empty sc (op_slot o) = false
  | PUpd j y => j = i /\ y = x /\ is_empty sc x = false
  | PDel _ _ | PBad => False
  | PLoad j => is_empty sc x = false
  | PDone _ => True
  end.
Proof.
  intros CL. pose proof (NE o CL) as NO. pose proof (NK o CL) as K.
  destruct o; cbn [after_load erasing] in *; try (now elim NO);
    repeat match goal with |- context [if ?b then _ else _] => destruct b eqn:? end; auto.
Qed.

(** The same key word, empty: the same decision. *)
Lemma after_same o i p x x0 : client o -> is_empty sc x = true -> skey x = skey x0 ->
  match after_load c m o i p x with
  | PCas j y => after_load c m o i p x0 = PCas j x0
  | q => after_load c m o i p x0 = q
  end.
Proof.
  intros CL E K. pose proof (NE o CL) as NO. assert (E0 : is_empty sc x0 = true) by now rewrite <- (empty_key x x0 K).
  assert (M : is_marked sc x = is_marked sc x0) by (unfold is_marked; now rewrite K).
  destruct o; cbn [after_load erasing] in *; try (now elim NO); rewrite ?M, E, E0;
    repeat match goal with |- context [if ?b then _ else _] => destruct b eqn:? end; auto.
Qed.

(** A call with whole loads that only inserts and updates. *)
Lemma bstep_grows t b o pc t' pc' :
  client o -> bstep c m t b o pc = (t', pc') ->
  match pc with
  | PCas i x => is_empty sc x = true /\ is_empty sc (op_slot o) = false
  | PUpd i x => busy t i
  | PDel _ _ => False
  | _ => True
  end -> grows t t'.
Proof.
  intros CL. destruct pc as [i|i x|i x|i x|r|]; cbn [bstep]; try (intros [= <- <-]; intros; apply grows_refl); try contradiction.
  - destruct (cell t i); intros [= <- <-] _; apply grows_refl.
  - destruct (cell t i) as [y|] eqn:R; [|intros [= <- <-] _; apply grows_refl].
    unfold cas. destruct (slot_eqb y x) eqn:Q.
    + intros [= <- <-] [E1 E2]. eapply grows_upd; eauto. right; left. split; auto.
      unfold slot_eqb in Q. apply andb_true_iff in Q. destruct Q as [Q _]. apply N.eqb_eq in Q.
      now rewrite (empty_key y x Q).
    + intros [= <- <-] _. eapply grows_upd; eauto.
  - destruct (cell t i) as [y|] eqn:R; [|intros [= <- <-] _; apply grows_refl].
    destruct (atomic_update sc y x (op_fun o)) as [[res ok] y'] eqn:U. intros [= <- <-] (z & E & B).
    rewrite R in E. injection E as <-. eapply grows_upd; eauto. right; right. split; auto.
    unfold atomic_update, cas in U. destruct (sc_mark sc).
    + destruct (slot_eqb y x) eqn:Q; injection U as _ _ <-; auto.
      unfold slot_eqb in Q. apply andb_true_iff in Q. destruct Q as [Q _]. apply N.eqb_eq in Q. cbn. auto.
    + destruct (fat (op_fun o)) as [g|]; [destruct (g (sdata y)); injection U as _ _ <-; auto|].
      destruct (sdata y =? sdata x); injection U as _ _ <-; auto.
Qed.

Lemma slot_eqb_empty y x : is_empty sc y = false -> is_empty sc x = true -> slot_eqb y x = false.
Proof.
  intros A B. destruct (slot_eqb y x) eqn:Q; auto. unfold slot_eqb in Q. apply andb_true_iff in Q.
  destruct Q as [Q _]. apply N.eqb_eq in Q. rewrite (empty_key y x Q) in A. congruence.
Qed.

Definition insertish (o : op) (pc : bpc) : Prop :=
  match pc with PCas _ _ => is_empty sc (op_slot o) = false | _ => True end.
Definition insertt (o : op) (tp : tpc) : Prop :=
  match tp with TAt pc => insertish o pc | _ => True end.

(** One access with halved loads is zero or one access with whole loads. *)
Lemma step_sim t b o tp t' tp' pc :
  client o -> insertt o tp -> trel t o tp pc -> (forall r, tp <> TAt (PDone r)) ->
  tstep c m true t b o tp = (t', tp') ->
  grows t t' /\ insertt o tp' /\
  ((t' = t /\ trel t' o tp' pc) \/
   (exists pc', (forall r, pc <> PDone r) /\ bstep c m t b o pc = (t', pc') /\ trel t' o tp' pc')).
Proof.
  intros CL IN R ND ST. destruct tp as [q|i k|i d].
  2: { (* the value half *)
    cbn [tstep] in ST. destruct R as (y & E & H). rewrite E in ST. injection ST as <- <-.
    split; [apply grows_refl|].
    destruct H as [(-> & K & B)|(x0 & K & X & -> & H)].
    - replace (Slot k (sdata y)) with y by (destruct y; cbn in *; congruence).
      pose proof (after_cases o i (remap mc m i) y CL) as AC.
      split. { cbn [insertt]. destruct (after_load c m o i (remap mc m i) y); cbn; auto. now destruct AC as (_ & _ & _ & AC). }
      right. exists (after_load c m o i (remap mc m i) y). split; [discriminate|].
      cbn [bstep]. rewrite E. split; auto. cbn [trel].
      destruct (after_load c m o i (remap mc m i) y) as [j|j z|j z|j z|r|]; auto.
      + destruct AC as (-> & -> & AC & _). split; auto. eauto.
      + destruct AC as (-> & -> & AC). split; auto. exists y. auto.
    - set (x := Slot k (sdata y)). assert (KX : skey x = skey x0) by (cbn; congruence).
      assert (EX : is_empty sc x = true) by now rewrite (empty_key x x0 KX).
      pose proof (after_cases o i (remap mc m i) x CL) as AC.
      pose proof (after_same o i (remap mc m i) x x0 CL EX KX) as AS.
      split. { cbn [insertt]. destruct (after_load c m o i (remap mc m i) x); cbn; auto. now destruct AC as (_ & _ & _ & AC). }
      left. split; auto. cbn [trel].
      destruct (after_load c m o i (remap mc m i) x) as [j|j z|j z|j z|r|]; auto; try congruence.
      + destruct AC as (-> & -> & AC & _). split; auto. exists x0. split; auto.
        destruct H as [->|H].
        * left. unfold x. destruct x0; cbn in *. congruence.
        * right. split; auto. exists y. auto.
      + destruct AC as (_ & _ & AC). congruence. }
  2: { contradiction. }
  destruct q as [i|i x|i x|i x|r|]; cbn [trel insertt insertish] in *.
  - (* the key half *)
    subst pc. cbn [tstep] in ST. destruct (cell t i) as [y|] eqn:E.
    + injection ST as <- <-. split; [apply grows_refl|]. split; [exact I|].
      destruct (is_empty sc y) eqn:B.
      * right. exists (after_load c m o i (remap mc m i) y). split; [discriminate|]. cbn [bstep]. rewrite E.
        split; auto. cbn [trel]. exists y. split; auto. right. exists y. auto.
      * left. split; auto. cbn [trel]. exists y. split; auto.
    + injection ST as <- <-. split; [apply grows_refl|]. split; [exact I|]. right. exists PBad.
      split; [discriminate|]. cbn [bstep]. rewrite E. split; auto. reflexivity.
  - destruct R as (EX & x0 & -> & H). cbn [tstep] in ST.
    destruct (bstep c m t b o (PCas i x)) as [t1 pc1] eqn:S. injection ST as <- <-.
    pose proof (bstep_grows _ _ _ _ _ _ CL S (conj EX IN)) as G. split; auto.
    destruct H as [->|[E0 (y & EY & BY)]].
    + cbn [bstep] in S. assert (IN1 : insertish o pc1).
      { destruct (cell t i); [|injection S as _ <-; exact I]. destruct (cas sc s x (op_slot o)) as [[ok s'] ?].
        injection S as _ <-. destruct ok; exact I. }
      split; auto. right. exists pc1. split; [discriminate|]. split; [exact S|].
      cbn [trel]. destruct (cell t i); [|injection S as _ <-; reflexivity].
      destruct (cas sc s x (op_slot o)) as [[ok s'] ?]. injection S as _ <-. destruct ok; reflexivity.
    + cbn [bstep] in S |- *. rewrite EY in S |- *. unfold cas in S |- *.
      rewrite (slot_eqb_empty y x BY EX) in S. rewrite (slot_eqb_empty y x0 BY E0). injection S as <- <-.
      split; [exact I|]. right. exists (PLoad i). split; [discriminate|]. split; reflexivity.
  - destruct R as [-> B]. cbn [tstep] in ST.
    destruct (bstep c m t b o (PUpd i x)) as [t1 pc1] eqn:S. injection ST as <- <-.
    pose proof (bstep_grows _ _ _ _ _ _ CL S B) as G. split; auto.
    cbn [bstep] in S. destruct B as (y & EY & BY). rewrite EY in S.
    destruct (atomic_update sc y x (op_fun o)) as [[res ok] y'] eqn:U.
    assert (Q : (exists r, pc1 = PDone r) \/ pc1 = PLoad i).
    { injection S as _ <-. destruct ok; eauto. destruct o; eauto. destruct b; eauto. }
    split. { destruct Q as [[r ->]| ->]; exact I. }
    right. exists pc1. split; [discriminate|]. split.
    + reflexivity.
    + destruct Q as [[r ->]| ->]; reflexivity.
  - contradiction.
  - now elim (ND r).
  - subst pc. cbn in ST. injection ST as <- <-. split; [apply grows_refl|]. split; [exact I|]. left. split; reflexivity.
Qed.

Definition sinsert (s : tsys) : Prop := forall tid o tp, tthr s tid = Some (o, tp) -> insertt o tp.

Lemma sys_sim s b l s' :
  srel s b -> sinsert s -> tsys_step c m true client s l s' ->
  sinsert s' /\ exists b', srel s' b' /\
    lts_steps (bsys_step c m client) b (match l with Some e => [e] | None => [] end) b'.
Proof.
  intros [EM R] IN ST. destruct b as [t0 bth]. cbn [bmem bthr] in *. destruct ST as [t th tid o E CL|t th tid o tp bb t' tp' E ND S|t th tid o r E];
    cbn [tmem tthr] in *; subst t0; pose proof (R tid) as Rt; rewrite E in Rt.
  - destruct (bth tid) as [|] eqn:EB; [contradiction|]. split.
    + intros t1 o1 tp1. cbn. unfold fupd. destruct (t1 =? tid); [intros [= <- <-]; exact I|apply IN].
    + exists (BSys t (fupd bth tid (Some (o, start c m o)))). split.
      * split; auto. intros t1. cbn. unfold fupd. destruct (N.eqb_spec t1 tid) as [E1|]; [|apply R].
        split; auto. split; auto. reflexivity.
      * eapply ls_vis; [|constructor]. now apply bs_inv.
  - destruct (bth tid) as [[o' pc]|] eqn:EB; [|contradiction]. destruct Rt as (<- & CL & TR).
    destruct (step_sim t bb o tp t' tp' pc CL (IN tid o tp E) TR ND S) as (G & IN' & H).
    split.
    + intros t1 o1 tp1. cbn. unfold fupd. destruct (t1 =? tid); [intros [= <- <-]; exact IN'|apply IN].
    + assert (REST : forall pc', trel t' o tp' pc' -> srel (TSys t' (fupd th tid (Some (o, tp')))) (BSys t' (fupd bth tid (Some (o, pc'))))).
      { intros pc' T. split; auto. intros t1. cbn. unfold fupd. destruct (N.eqb_spec t1 tid) as [E1|]; [auto|].
        pose proof (R t1) as R1. destruct (th t1) as [[o1 tp1]|]; auto. destruct (bth t1) as [[o2 pc2]|]; auto.
        destruct R1 as (-> & C1 & T1). split; auto. split; auto. eapply trel_grows; eauto. }
      destruct H as [[-> T]|(pc' & ND' & BS & T)].
      * exists (BSys t bth). split; [|constructor]. specialize (REST pc T). destruct REST as [_ REST].
        split; auto. intros t1. specialize (REST t1). cbn in *. unfold fupd in *. destruct (N.eqb_spec t1 tid) as [E1|]; auto.
        rewrite E1, EB. exact REST.
      * eexists. split; [apply (REST pc' T)|]. eapply ls_tau; [|constructor]. eapply bs_run; eauto.
  - destruct (bth tid) as [[o' pc]|] eqn:EB; [|contradiction]. destruct Rt as (<- & CL & TR). cbn in TR. subst pc. split.
    + intros t1 o1 tp1. cbn. unfold fupd. destruct (t1 =? tid); [discriminate|apply IN].
    + eexists. split; [|eapply ls_vis; [|constructor]; eapply bs_ret; eauto]. split; auto.
      intros t1. cbn. unfold fupd. destruct (N.eqb_spec t1 tid) as [E1|]; [auto|apply R].
Qed.

Lemma steps_sim s b tr s' :
  srel s b -> sinsert s -> lts_steps (tsys_step c m true client) s tr s' ->
  exists b', srel s' b' /\ lts_steps (bsys_step c m client) b tr b'.
Proof.
  intros R IN S. revert b R IN. induction S as [s|s s1 s2 tr S1 S2 IH|s e s1 s2 tr S1 S2 IH]; intros b R IN.
  - exists b. split; auto. constructor.
  - destruct (sys_sim _ _ _ _ R IN S1) as (IN1 & b1 & R1 & L1).
    destruct (IH _ R1 IN1) as (b2 & R2 & L2). exists b2. split; auto.
    change tr with ([] ++ tr). eapply steps_app; eauto.
  - destruct (sys_sim _ _ _ _ R IN S1) as (IN1 & b1 & R1 & L1).
    destruct (IH _ R1 IN1) as (b2 & R2 & L2). exists b2. split; auto.
    change (e :: tr) with ([e] ++ tr). eapply steps_app; eauto.
Qed.

Lemma halved_whole tr s' :
  lts_steps (tsys_step c m true client) (tsys_init c m) tr s' ->
  exists b', srel s' b' /\ lts_steps (bsys_step c m client) (bsys_init c m) tr b'.
Proof.
  apply steps_sim.
  - split; auto. intros tid. exact I.
  - intros tid o tp. discriminate.
Qed.

End Sim.
