(** Values reported by updates. *)
From Coq Require Import NArith Bool List Lia.
From Verif Require Import Words Slot SlotFacts Mapper MapSpec LinSpec Base BaseInv BaseFacts TableSpec LinFacts.
Import ListNotations.
Open Scope N_scope.

Lemma invoked_by_client c m client s tr s' :
  lts_steps (bsys_step c m client) s tr s' ->
  forall t o, In (EInv t o) tr -> exists o', client o' /\ o = spec_op (tsc c) o'.
Proof.
  induction 1 as [s|s s1 s2 tr S ST IH|s e s1 s2 tr S ST IH]; intros t o I; auto.
  - contradiction.
  - eapply IH; eauto.
  - destruct I as [->|I]; [|eapply IH; eauto].
    inversion S; subst. eauto.
Qed.

Lemma fun_ret_new sc f v : reports_new sc f -> fun_ret sc f v = fn f v.
Proof.
  intros R. unfold fun_ret. destruct R as [->|R]; [reflexivity|].
  destruct (sc_mark sc); [reflexivity|]. destruct (fat f) as [g|] eqn:E; auto.
Qed.

Lemma reported_value :
  forall sc mc hash lg gh (client : op -> Prop),
    cell_type sc -> 1 <= lg <= 63 -> fair sc client ->
    (forall k d f, client (OUpdate k f) \/ client (OUpdateB k f) \/ client (OIou k d f) ->
       reports_new sc f) ->
    linearizable
      (fun m o m' r => mspec (sc_mark sc) (negb (cprob mc)) m o m' r /\
                       forall v, r = RUpdated v -> m' (mop_key o) = Some v)
      (bsys_step (TCfg sc mc hash) (sized mc lg gh) client)
      (bsys_init (TCfg sc mc hash) (sized mc lg gh)) amap_empty.
Proof.
  intros sc mc hash lg gh client CT LG F RN tr s ST.
  destruct (linearizable_fair sc mc hash lg gh CT LG client F tr s ST) as [x S].
  exists x. eapply asteps_strengthen with (G := fun o => exists o', client o' /\ o = spec_op sc o').
  3: discriminate. 2: exact S.
  - intros a o a' r (o' & C & ->) SP. split; auto. intros v ->.
    destruct o'; cbn in *; inversion SP; subst; cbn; rewrite ?fupd_eq; f_equal; symmetry;
      apply fun_ret_new; eapply RN; eauto.
  - intros t o I. exact (invoked_by_client _ _ _ _ _ _ ST t o I).
Unshelve. all: exact 0.
Qed.
