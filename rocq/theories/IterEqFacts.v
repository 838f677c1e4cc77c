(** The cell of an iterator belongs to one key for ever. *)
From Coq Require Import NArith Bool List Lia.
From Verif Require Import Words Slot SlotFacts Mapper MapperFacts ReturnCode MapSpec LinSpec
  Base BaseInv BaseLin TableSpec BaseFacts Iter IterFacts IterEqSpec IterEq.
Import ListNotations.
Open Scope N_scope.

Section Eq.
Context (c : tcfg) (m : mapper) (lg : N).
Context (Hsc : wf_scfg (tsc c)) (Hm : wf_mapper (tmc c) m lg).
Context (client : op -> Prop) (CO : client_ok (tsc c) client).
Notation sc := (tsc c).
Notation tot := (total_slots (tmc c) m).

Lemma ct_unique t ct mk ct' mk' p :
  tinv c m t ct mk -> tinv c m t ct' mk' -> p < tot -> ct p = ct' p.
Proof.
  intros I I' L. destruct (ti_cell _ _ _ _ _ I p L) as [E O]. destruct (ti_cell _ _ _ _ _ I' p L) as [E' O'].
  assert (X : enc sc (ct p) (mk p) = enc sc (ct' p) (mk' p)) by congruence.
  now destruct (enc_inj sc Hsc _ _ _ _ O O' X).
Qed.

(** [P p k]: some call for key [k] has returned an iterator to cell [p]. *)
Definition einv (P : N -> N -> Prop) (s : bsys) : Prop :=
  (forall ct mk, tinv c m (bmem s) ct mk ->
     (forall p k, P p k -> p < tot /\ ((exists d, ct p = CLive k d) \/ ct p = CTomb)) /\
     ((forall o, client o -> ~ is_erase o) -> forall p, p < tot -> ct p <> CTomb)) /\
  (forall p k k', P p k -> P p k' -> k = k') /\
  (forall tid o r p, bthr s tid = Some (o, PDone r) -> rpos r = Some p -> P p (op_key o)).

Lemma trans_kept v v' k : trans v v' -> ((exists d, v = CLive k d) \/ v = CTomb) ->
  (exists d, v' = CLive k d) \/ v' = CTomb.
Proof.
  intros T [[d ->]| ->]; inversion T; subst; eauto.
Qed.

Lemma einv_step P s x l s' :
  sys_rel c m client s x -> einv P s -> bsys_step c m client s l s' ->
  exists P' : N -> N -> Prop, (forall p k, P p k -> P' p k) /\ einv P' s'.
Proof.
  intros (ct & mk & I & A & T) (E1 & E2 & E3) ST.
  destruct ST as [t th tid o E CL|t th tid o pc b t' pc' E ND ST|t th p s0 M L E|t th tid o r E];
    cbn [bthr bmem] in *.
  - exists P. split; auto. split; [exact E1|]. split; [exact E2|]. cbn [bthr].
    intros u o' r p. unfold fupd. destruct (u =? tid); [intros [=]|apply E3].
  - pose proof (T tid) as Tt. cbn in Tt. rewrite E in Tt. destruct Tt as (CL & TI & _).
    destruct CO as [CO1 CM].
    destruct (bstep_ok c m lg Hsc Hm (ast x) t ct mk o pc b t' pc' I A (CO1 o CL) TI ND ST)
      as (ct' & I' & TI' & EV & _).
    destruct (E1 ct mk I) as [K1 K2].
    assert (TR : forall q, trans (ct q) (ct' q)).
    { intros q. destruct EV as [EV|(p & v & EV & _ & _ & TR & _)]; rewrite EV; [constructor|].
      unfold fupd. destruct (N.eqb_spec q p) as [->|]; [exact TR|constructor]. }
    assert (NT : (forall o, client o -> ~ is_erase o) -> forall q, q < tot -> ct' q <> CTomb).
    { intros NE q Lq. destruct EV as [EV|(p & v & EV & _ & _ & _ & ER)]; rewrite EV; [now apply K2|].
      unfold fupd. destruct (N.eqb_spec q p) as [->|]; [|now apply K2].
      intros ->. exact (NE o CL (ER eq_refl)). }
    assert (RET : forall r p, pc' = PDone r -> rpos r = Some p ->
              p < tot /\ exists d, ct' p = CLive (op_key o) d).
    { intros r p -> RP. destruct (bstep_shows c m lg Hsc Hm t ct mk o pc b t' r I (CO1 o CL) TI ND ST) as [RO RC].
      unfold ret_ok in RO. unfold ret_cell in RC. rewrite RP in RO, RC.
      destruct RO as [L _]. destruct RC as (y & Ey & Q & _).
      destruct (live_of_compare c m Hsc ct' mk t' p y (op_key o) I' L Ey Q (proj1 (CO1 o CL))) as (d & Ed & _).
      eauto. }
    set (P' := fun p k => P p k \/ (exists r, pc' = PDone r /\ rpos r = Some p /\ k = op_key o)).
    exists P'. split; [now left|]. split; [|split].
    + intros ct2 mk2 I2. split.
      * intros p k H.
        assert (G : p < tot /\ ((exists d, ct' p = CLive k d) \/ ct' p = CTomb)).
        { destruct H as [H|(r & Er & RP & ->)].
          - destruct (K1 p k H) as [L D]. split; [exact L|]. eapply trans_kept; eauto.
          - destruct (RET r p Er RP) as [L D]. auto. }
        destruct G as [L G]. split; [exact L|].
        rewrite (ct_unique t' ct2 mk2 ct' mk p I2 I' L). exact G.
      * intros NE p L. rewrite (ct_unique t' ct2 mk2 ct' mk p I2 I' L). now apply NT.
    + intros p k k'.
      assert (ONE : forall k0, P p k0 -> (exists r, pc' = PDone r /\ rpos r = Some p) -> k0 = op_key o).
      { intros k0 H (r & Er & RP). destruct (RET r p Er RP) as (L & d & Ed).
        destruct (K1 p k0 H) as [_ D]. apply (trans_kept _ _ _ (TR p)) in D.
        destruct D as [[d0 D]|D]; congruence. }
      intros [H|(r & Er & RP & ->)] [H'|(r' & Er' & RP' & ->)]; auto.
      * eapply E2; eauto.
      * apply ONE; eauto.
      * symmetry. apply ONE; eauto.
    + cbn [bthr]. intros u o' r p. unfold fupd. destruct (N.eqb_spec u tid) as [->|NE].
      * intros [= -> ->] RP. right. exists r. auto.
      * intros Eu RP. left. eapply E3; eauto.
  - exists P. split; auto. split; [|split; [exact E2|exact E3]].
    cbn [bmem]. intros ct2 mk2 I2.
    assert (I' : tinv c m (fupd t p (Some (mark_slot sc s0))) ct (fupd mk p true)).
    { destruct (ti_cell _ _ _ _ _ I p L) as [E' _]. rewrite E in E'. injection E' as ->.
      now apply tinv_mark. }
    destruct (E1 ct mk I) as [K1 K2]. split.
    + intros q k H. destruct (K1 q k H) as [Lq D]. split; [exact Lq|].
      rewrite (ct_unique _ ct2 mk2 ct _ q I2 I' Lq). exact D.
    + intros NE q Lq. rewrite (ct_unique _ ct2 mk2 ct _ q I2 I' Lq). now apply K2.
  - exists P. split; auto. split; [exact E1|]. split; [exact E2|]. cbn [bthr].
    intros u o' r' p. unfold fupd. destruct (u =? tid); [discriminate|apply E3].
Qed.

Lemma einv_steps P s x tr s' :
  sys_rel c m client s x -> einv P s -> lts_steps (bsys_step c m client) s tr s' ->
  exists (P' : N -> N -> Prop) x', (forall p k, P p k -> P' p k) /\ einv P' s' /\ sys_rel c m client s' x'.
Proof.
  intros R V ST. revert P x R V.
  induction ST as [s|s s1 s2 tr S ST IH|s e s1 s2 tr S ST IH]; intros P x R V; [eauto 6| |].
  all: destruct (einv_step P s x _ s1 R V S) as (P1 & S1 & V1).
  all: destruct (sim c m lg Hsc Hm client s x _ s1 CO R S) as (x1 & _ & R1).
  all: destruct (IH P1 x1 R1 V1) as (P2 & x2 & S2 & V2 & R2).
  all: exists P2, x2; split; [|split]; auto.
Qed.

Lemma einv_init : einv (fun _ _ => False) (bsys_init c m).
Proof.
  split; [|split].
  - intros ct mk I. split; [contradiction|]. intros _ p L.
    rewrite (ct_unique _ ct mk _ _ p I (fresh_tinv c m lg Hsc Hm) L). discriminate.
  - contradiction.
  - discriminate.
Qed.

(** Which answers carry a position. *)
Lemma bstep_pos t b o pc t' r :
  (forall r, pc <> PDone r) -> bstep c m t b o pc = (t', PDone r) ->
  (o = OFind (op_key o) \/
   (rpos r = None <-> (rcode r =? RC_SUCCESS_IN) || (rcode r =? RC_ALREADY_USED) || (rcode r =? RC_SUCCESS_UP) = false)).
Proof.
  intros ND ST. destruct o as [k d|k|k f|k f|k d f|k|k d]; [|now left| | | | |]; right;
    (destruct pc as [i|i s|i s|i s|r0|]; [| | | |now elim (ND r0)|discriminate]); cbn [bstep] in ST;
    (destruct (rd c m t (remap (tmc c) m i)) as [x|]; [|discriminate]).
  all: try (cbn [after_load] in ST;
    repeat match type of ST with
    | context [if ?b then _ else _] => destruct b
    end; try discriminate; injection ST as <- <-; cbn; split; (reflexivity || discriminate)).
  all: unfold atomic_update, atomic_delete, cas in ST.
  all: repeat match type of ST with
    | context [if ?b then _ else _] => destruct b
    | context [match fat ?f with _ => _ end] => destruct (fat f)
    | context [let '(_, _) := ?e in _] => destruct e
    end; try discriminate; injection ST as <- <-; cbn; split; (reflexivity || discriminate).
Qed.

Definition pos_ok (s : bsys) : Prop :=
  forall tid o r, bthr s tid = Some (o, PDone r) -> (rpos r <> None <-> shows_element (obs o r)).

Lemma pos_step s l s' : pos_ok s -> bsys_step c m client s l s' -> pos_ok s'.
Proof.
  intros V ST tid' o' r'.
  destruct ST as [t th tid o E CL|t th tid o pc b t' pc' E ND ST|t th p s0 M L E|t th tid o r E];
    cbn [bthr] in *; try (apply V).
  - unfold fupd. destruct (tid' =? tid); [intros [=]|apply V].
  - unfold fupd. destruct (tid' =? tid); [|apply V]. intros [= -> ->].
    destruct (bstep_pos t b o' pc t' r' ND ST) as [EF|PO].
    + rewrite EF. cbn. destruct (rpos r'); cbn; split; auto; try congruence; try contradiction; discriminate.
    + destruct (rpos r') as [p|] eqn:RP.
      * assert (X : ((rcode r' =? RC_SUCCESS_IN) || (rcode r' =? RC_ALREADY_USED) || (rcode r' =? RC_SUCCESS_UP)) = true).
        { destruct (_ || _ || _); auto. destruct PO as [_ PO]. discriminate (PO eq_refl). }
        split; [|discriminate]. intros _. unfold obs. rewrite RP.
        destruct o'; cbn; auto;
          destruct (rcode r' =? RC_SUCCESS_IN), (rcode r' =? RC_ALREADY_USED), (rcode r' =? RC_SUCCESS_UP);
          cbn in *; auto; discriminate.
      * destruct PO as [PO _]. specialize (PO eq_refl).
        apply orb_false_iff in PO as [PO X3]. apply orb_false_iff in PO as [X1 X2].
        split; [congruence|]. unfold obs. rewrite RP, X1, X2, X3.
        destruct o'; cbn; try contradiction;
          destruct (rcode r' =? RC_SUCCESS_DEL), (rcode r' =? RC_NOT_FOUND), (rcode r' =? RC_FULL), (rcode r' =? RC_INVALID);
          contradiction.
  - unfold fupd. destruct (tid' =? tid); [discriminate|apply V].
Qed.

Lemma pos_steps s tr s' : pos_ok s -> lts_steps (bsys_step c m client) s tr s' -> pos_ok s'.
Proof.
  intros V ST. induction ST as [s|s s1 s2 tr S ST IH|s e s1 s2 tr S ST IH]; auto; apply IH; eapply pos_step; eauto.
Qed.

End Eq.

Section Table.
Context (sc : scfg) (mc : mcfg) (hash : N -> N) (lg gh : N).
Context (CT : cell_type sc) (LG : 1 <= lg <= 63).
Context (client : op -> Prop) (F : fair sc client).
Notation c := (TCfg sc mc hash).
Notation m := (sized mc lg gh).
Notation tot := (cells_of mc lg).
Context (s1 s2 : bsys) (tr : list (event mop mres)).
Context (R1 : table_reachable c m client s1) (R2 : lts_steps (bsys_step c m client) s1 tr s2).
Context (t1 t2 : N) (o1 o2 : op) (r1 r2 : bret).
Context (D1 : bthr s1 t1 = Some (o1, PDone r1)) (D2 : bthr s2 t2 = Some (o2, PDone r2)).

Lemma two_issued p1 p2 :
  rpos r1 = Some p1 -> rpos r2 = Some p2 ->
  (p1 = p2 -> op_key o1 = op_key o2) /\
  (op_key o1 = op_key o2 ->
   ((exists d, holds sc tot (bmem s2) p1 (op_key o1) d) /\ (exists d, holds sc tot (bmem s2) p2 (op_key o2) d)) \/
   (forall o, client o -> ~ erasing o) -> p1 = p2).
Proof.
  intros P1 P2. pose proof (cell_type_wf _ CT) as W. pose proof (wfm mc lg gh LG) as WM.
  pose proof (fair_ok _ _ W F) as CO. destruct R1 as [tr0 R0].
  destruct (einv_steps c m lg W WM client CO _ _ _ _ _ (init_rel c m lg W WM client)
    (einv_init c m lg W WM client) R0) as (Q1 & x1 & _ & V1 & X1).
  destruct (einv_steps c m lg W WM client CO _ _ _ _ _ X1 V1 R2) as (Q2 & x2 & S2 & V2 & X2).
  assert (A1 : Q2 p1 (op_key o1)) by (apply S2; destruct V1 as (_ & _ & V1); eapply V1; eauto).
  assert (A2 : Q2 p2 (op_key o2)) by (destruct V2 as (_ & _ & V2); eapply V2; eauto).
  destruct V2 as (V2 & FN & _). split; [intros <-; eapply FN; eauto|].
  destruct X2 as (ct & mk & I & _ & TT). destruct (V2 ct mk I) as [K1 K2].
  intros EK H. destruct (K1 _ _ A1) as [L1 C1]. destruct (K1 _ _ A2) as [L2 C2].
  assert (G : (exists d, ct p1 = CLive (op_key o1) d) /\ exists d, ct p2 = CLive (op_key o2) d).
  { destruct H as [[[d1 H1] [d2 H2]]|H].
    - assert (U : user_key sc (op_key o2)).
      { specialize (TT t2). rewrite D2 in TT. destruct TT as (CL & _). apply (proj1 F) in CL. apply CL. }
      assert (U1 : user_key sc (op_key o1)) by now rewrite EK.
      apply (holds_iff sc mc hash lg gh CT LG _ _ _ _ _ _ I U1) in H1.
      apply (holds_iff sc mc hash lg gh CT LG _ _ _ _ _ _ I U) in H2.
      split; [exists d1|exists d2]; tauto.
    - assert (NE : forall o, client o -> ~ is_erase o) by (intros o CL E; apply (H o CL); now destruct o).
      split; [destruct C1 as [C1|C1]|destruct C2 as [C2|C2]]; auto; exfalso; [exact (K2 NE p1 L1 C1)|exact (K2 NE p2 L2 C2)]. }
  destruct G as [[d1 G1] [d2 G2]]. rewrite EK in G1. eapply (live_unique c m); eauto.
Qed.

Lemma end_iff : it_eqb (ret_iter c m r2) it_end = true <-> ~ shows_element (obs o2 r2).
Proof.
  assert (V : pos_ok s2).
  { destruct R1 as [tr0 R0]. assert (V0 : pos_ok (bsys_init c m)) by (intros t o r H; discriminate).
    pose proof (pos_steps c m client _ _ _ V0 R0) as V1. exact (pos_steps c m client _ _ _ V1 R2). }
  specialize (V t2 o2 r2 D2). unfold ret_iter. destruct (rpos r2).
  - split; [discriminate|]. intros N. elim N. now apply V.
  - split; [|reflexivity]. intros _ N. apply V in N. congruence.
Qed.

End Table.
