(** Growing tables: a call running alone completes without a growth step when its
    probe path has a free cell. *)
From Coq Require Import NArith Bool List Lia.
From Verif Require Import Words Slot SlotFacts Mapper MapperFacts ReturnCode MapSpec LinSpec
  Base BaseInv BaseLin BaseExec BaseSolo TableSpec BaseFacts Migrate GrowFacts MigrateExec Frozen Growing GrowingSpec GrowingInv
  GrowingFacts.
Import ListNotations.
Open Scope N_scope.

Section S.
Context (c : tcfg) (m : mapper) (lg : N).
Context (Hsc : wf_scfg (tsc c)) (Hm : wf_mapper (tmc c) m lg).
Notation sc := (tsc c).
Notation mc := (tmc c).

Lemma cas_self s n : cas sc s s n = (true, n, s).
Proof. unfold cas. now rewrite slot_eqb_refl. Qed.

(** Alone, a call answers FULL only after it has seen every cell of its path up
    to the limit in use, and INVALID only if it has seen a marked cell. *)
Lemma solo_full t ct mk o : forall n i t' r,
  tinv c m t ct mk -> (forall p, mk p = false) -> finding o = false -> valid_key sc (op_key o) ->
  solo c m n t o (PLoad i) = (t', PDone r) ->
  (rcode r = RC_FULL -> cprob mc = false /\
     forall p, i <= p <= addressable_slots mc m + 300 ->
       ct p <> CEmpty /\ forall d, ct p <> CLive (op_key o) d) /\
  rcode r <> RC_INVALID.
Proof.
  induction n as [|n IH]; intros i t' r I MK F V S; cbn [solo] in S; [discriminate|].
  cbn [bstep] in S. set (p := remap mc m i) in *.
  destruct (rd c m t p) as [s|] eqn:R; [|].
  2: { exfalso. clear -S. revert S. generalize n. clear. induction n; cbn; [discriminate|auto]. }
  assert (Lp : p < total_slots mc m).
  { unfold rd in R. destruct (N.ltb_spec p (total_slots mc m)); [assumption|discriminate]. }
  pose proof (rd_mem _ _ _ _ _ R) as E.
  destruct (ti_cell _ _ _ _ _ I p Lp) as [E' O]. rewrite E in E'. injection E' as ES.
  assert (NM : is_marked sc s = false).
  { rewrite ES, (enc_is_marked sc Hsc _ _ O). apply MK. }
  assert (EM : is_empty sc s = match ct p with CEmpty => true | _ => false end).
  { rewrite ES. apply (enc_is_empty sc Hsc _ _ O). }
  assert (ND : forall k t1 r1 r2, solo c m k t1 o (PDone r1) = (t', PDone r2) -> r1 = r2).
  { induction k; cbn; intros t1 r1 r2; [intros [= _ <-]; auto|apply IHk]. }
  assert (CK : compare_key sc s (op_key o) = match ct p with CLive k' _ => k' =? op_key o | _ => false end).
  { rewrite ES. apply (enc_compare_key sc Hsc _ _ _ O V). }
  assert (NEXT : is_empty sc s = false -> compare_key sc s (op_key o) = false -> solo c m n t o (PLoad (i + 1)) = (t', PDone r) ->
     (rcode r = RC_FULL -> cprob mc = false /\
        forall p, i <= p <= addressable_slots mc m + 300 ->
       ct p <> CEmpty /\ forall d, ct p <> CLive (op_key o) d) /\ rcode r <> RC_INVALID).
  { intros NE NK S'. destruct (IH _ _ _ I MK F V S') as [A1 A2]. split; auto. intros RF.
    destruct (A1 RF) as [CP A]. split; auto. intros q Hq.
    destruct (N.eq_dec q i) as [->|N1]; [|apply A; lia].
    unfold p in EM, CK. rewrite (remap_val _ _ _ Hm), CP in EM, CK. rewrite NE in EM. rewrite NK in CK.
    split; [destruct (ct i); congruence|]. intros d E1. rewrite E1, N.eqb_refl in CK. discriminate. }
  assert (CASE : forall pc, (pc = PCas i s \/ pc = PUpd i s \/ pc = PDel i s) ->
     solo c m n t o pc = (t', PDone r) -> rcode r <> RC_FULL /\ rcode r <> RC_INVALID).
  { intros pc Q S'. destruct n as [|k]; cbn [solo] in S'.
    { destruct Q as [-> |[-> | ->]]; discriminate. }
    destruct Q as [-> |[-> | ->]]; cbn [bstep] in S'; fold p in S'; rewrite R in S'.
    - rewrite cas_self in S'. apply ND in S'. subst r. cbn. split; discriminate.
    - unfold atomic_update in S'. destruct (sc_mark sc) eqn:SM.
      + rewrite cas_self in S'. apply ND in S'. subst r. cbn. split; discriminate.
      + destruct (fat (op_fun o)) as [g|].
        * destruct (g (sdata s)). apply ND in S'. subst r. cbn. split; discriminate.
        * rewrite N.eqb_refl in S'. apply ND in S'. subst r. cbn. split; discriminate.
    - unfold atomic_delete in S'. rewrite cas_self in S'. apply ND in S'. subst r. cbn. split; discriminate. }
  assert (CASE' : forall pc, (pc = PCas i s \/ pc = PUpd i s \/ pc = PDel i s) ->
     solo c m n t o pc = (t', PDone r) ->
     (rcode r = RC_FULL -> cprob mc = false /\
        forall p, i <= p <= addressable_slots mc m + 300 ->
       ct p <> CEmpty /\ forall d, ct p <> CLive (op_key o) d) /\ rcode r <> RC_INVALID).
  { intros pc Q S'. destruct (CASE pc Q S') as [A1 A2]. split; auto. intros X. congruence. }
  assert (FULL : solo c m n t o (PDone (ret_end RC_FULL)) = (t', PDone r) ->
     (negb (cprob mc) && (addressable_slots mc m + 300 <? p)) = true ->
     (rcode r = RC_FULL -> cprob mc = false /\
        forall p, i <= p <= addressable_slots mc m + 300 ->
       ct p <> CEmpty /\ forall d, ct p <> CLive (op_key o) d) /\ rcode r <> RC_INVALID).
  { intros S' G. apply ND in S'. subst r. apply andb_true_iff in G. destruct G as [G1 G2].
    apply negb_true_iff in G1. apply N.ltb_lt in G2. split; [|cbn; discriminate]. intros _. split; auto.
    intros q Hq. exfalso. unfold p in G2. rewrite (remap_val _ _ _ Hm), G1 in G2. lia. }
  assert (OTHER : forall r0, solo c m n t o (PDone r0) = (t', PDone r) ->
     rcode r0 <> RC_FULL -> rcode r0 <> RC_INVALID ->
     (rcode r = RC_FULL -> cprob mc = false /\
        forall p, i <= p <= addressable_slots mc m + 300 ->
       ct p <> CEmpty /\ forall d, ct p <> CLive (op_key o) d) /\ rcode r <> RC_INVALID).
  { intros r0 S' N1 N2. apply ND in S'. subst r0. split; auto. intros; congruence. }
  destruct o; try discriminate F; cbn [after_load] in S; rewrite NM in S;
    repeat match type of S with
           | context [if ?b then _ else _] => destruct b eqn:?
           end;
    first [ eapply NEXT; [first [assumption|reflexivity]|cbn [op_key]; assumption|exact S]
          | eapply CASE'; [|exact S]; auto; fail
          | eapply FULL; [exact S|first [assumption|reflexivity]]
          | eapply OTHER; [exact S| |]; cbn; discriminate ].
Qed.

End S.

(** From solo runs to executions of the whole system. *)

Lemma solo_gsteps c B client tid o u v mp : forall n me th pc t' r,
  th tid = Some (o, GRun u pc) -> (forall r, pc <> PDone r) ->
  solo c (mp u) n (me u) o pc = (t', PDone r) ->
  exists me' th', lts_steps (sync_step c B client) (GSys v mp me None th) [] (GSys v mp me' None th') /\
     th' tid = Some (o, GRun u (PDone r)).
Proof.
  induction n as [|n IH]; intros me th pc t' r Et ND S; cbn [solo] in S.
  - injection S as _ ->. now elim (ND r).
  - destruct (bstep c (mp u) (me u) true o pc) as [t1 pc1] eqn:ST.
    assert (STEP : sync_step c B client (GSys v mp me None th) None
       (GSys v mp (fupd me u t1) None (fupd th tid (Some (o, GRun u pc1))))).
    { split; [eapply g_run; eauto|]. split; [intros X; now elim X|].
      intros _ X. now elim X. }
    destruct (running pc1) eqn:RU.
    + pose proof (proj1 (running_nd pc1) RU) as RU2.
      destruct (IH (fupd me u t1) (fupd th tid (Some (o, GRun u pc1))) pc1 t' r) as (me' & th' & S' & E').
      * apply fupd_eq.
      * exact RU2.
      * rewrite fupd_eq. exact S.
      * exists me', th'. split; auto. eapply ls_tau; [exact STEP|exact S'].
    + destruct pc1 as [| | | |r1|]; try discriminate.
      assert (r1 = r). { clear -S. revert S. generalize n t1. clear. induction n; cbn; intros t1; [intros [= _ <-]; auto|apply IHn]. }
      subst r1. eexists _, _. split; [eapply ls_tau; [exact STEP|constructor]|]. cbn. apply fupd_eq.
Qed.

Lemma alone_completes_gen c B client lg tr s tid o :
  cell_type (tsc c) -> client_ok (tsc c) client -> cmap (tmc c) = false -> cprob (tmc c) = false ->
  0 < B <= 2 ^ 31 -> 1 <= lg <= 63 ->
  lts_steps (sync_step c B client) (gsys_init c lg) tr s ->
  gmig s = None -> gthr s tid = None -> client o ->
  (forall lg' ct, wf_mapper (tmc c) (gmap s (gver s)) lg' ->
    tinv c (gmap s (gver s)) (gmem s (gver s)) ct (fun _ => false) ->
    exists p, home c (gmap s (gver s)) (op_key o) <= p <= addressable_slots (tmc c) (gmap s (gver s)) + 300 /\
      (ct p = CEmpty \/ exists d, ct p = CLive (op_key o) d)) ->
  exists r s', lts_steps (sync_step c B client) s [EInv tid (spec_op (tsc c) o); ERet tid r] s' /\
    gver s' = gver s.
Proof.
  intros CT CO CM CP HB LG ST MG TH CL RG.
  destruct (sync_sim c B client (cell_type_wf _ CT) CO (or_introl CM) HB _ _ _ _ (init_exclusive c lg)
    (ginit_rel c B client (cell_type_wf _ CT) lg LG) ST) as (x & A & R & _). clear ST A.
  destruct R as (ct & mk & l & (lg' & W & CI) & AB & T & _).
  rewrite MG in CI. destruct CI as [-> I].
  destruct s as [v mp me mg th]. cbn [gver gmap gmem gmig gthr] in *. subst mg.
  pose proof (cell_type_wf _ CT) as Hsc. destruct CO as [CO1 CO2].
  assert (HE : has_empty c (mp v) ct) by (intros X; congruence).
  assert (TI0 : thr_inv c (mp v) ct o (start c (mp v) o)) by (exists 0; split; [lia|]; intros j Hj; lia).
  destruct (solo_terminates c (mp v) lg' Hsc W (ast x) (me v) ct _ o (start c (mp v) o) I AB HE (CO1 o CL)
    TI0 ltac:(discriminate)) as (n & t' & r & ct' & a' & S & _ & SP & _).
  assert (NR : retries o r = false).
  { destruct (finding o) eqn:F; [destruct o; try discriminate; reflexivity|].
    destruct (solo_full c (mp v) lg' Hsc W (me v) ct _ o n _ t' r I (fun _ => eq_refl) F (proj1 (CO1 o CL)) S) as [NF NI].
    assert (RF : rcode r <> RC_FULL).
    { intros X. destruct (NF X) as [_ Q]. destruct (RG lg' ct W I) as (p & Lp & [E|[d E]]).
      - now apply (proj1 (Q p Lp)).
      - now apply (proj2 (Q p Lp) d). }
    destruct o; cbn [retries]; try discriminate;
      rewrite ?orb_false_iff; rewrite ?N.eqb_neq; auto. }
  set (th1 := fupd th tid (Some (o, GGet))).
  set (th2 := fupd th1 tid (Some (o, GRun v (start c (mp v) o)))).
  assert (Q1 : sync_step c B client (GSys v mp me None th) (Some (EInv tid (spec_op (tsc c) o))) (GSys v mp me None th1)).
  { split; [apply g_inv; auto|]. split; [intros X; now elim X|intros _ X; now elim X]. }
  assert (Q2 : sync_step c B client (GSys v mp me None th1) None (GSys v mp me None th2)).
  { split; [apply g_get; apply fupd_eq|]. split; [intros X; now elim X|intros _ X; now elim X]. }
  destruct (solo_gsteps c B client tid o v v mp n me th2 (start c (mp v) o) t' r) as (me' & th' & S3 & E3); auto.
  { apply fupd_eq. } { discriminate. }
  eexists (gobs o r), _. split.
  - eapply ls_vis; [exact Q1|]. eapply ls_tau; [exact Q2|].
    change [ERet tid (gobs o r)] with ([] ++ [@ERet mop mres tid (gobs o r)]).
    eapply steps_app; [exact S3|]. eapply ls_vis; [|constructor].
    split; [eapply g_ret; eauto|]. split; [intros X; now elim X|intros _ X; now elim X].
  - reflexivity.
Qed.

Lemma alone_completes c B client lg tr s tid o p :
  cell_type (tsc c) -> client_ok (tsc c) client -> cmap (tmc c) = false -> cprob (tmc c) = false ->
  0 < B <= 2 ^ 31 -> 1 <= lg <= 63 ->
  lts_steps (sync_step c B client) (gsys_init c lg) tr s ->
  gmig s = None -> gthr s tid = None -> client o ->
  vacant (tsc c) (total_slots (tmc c) (gmap s (gver s))) (gmem s (gver s)) p ->
  home c (gmap s (gver s)) (op_key o) <= p <= addressable_slots (tmc c) (gmap s (gver s)) + 300 ->
  exists r s', lts_steps (sync_step c B client) s [EInv tid (spec_op (tsc c) o); ERet tid r] s' /\
    gver s' = gver s.
Proof.
  intros CT CO CM CP HB LG ST MG TH CL VA RG.
  eapply alone_completes_gen; eauto. intros lg' ct W I. exists p. split; auto. left.
  destruct c as [sc0 mc0 hs0]. cbn [tmc tsc] in *.
  rewrite (total_val _ _ _ W) in VA.
  change (vacant sc0 (cells_of mc0 lg') (gmem s (gver s)) p) in VA.
  apply (proj1 (vacant_iff' sc0 mc0 hs0 lg' _ CT W _ ct _ p I)) in VA. apply VA.
Qed.
