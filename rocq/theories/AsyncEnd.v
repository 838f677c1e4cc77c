(** Progress of the asynchronous growing strategy. *)
From Coq Require Import NArith Bool List Lia.
From Verif Require Import Words BaseInv SyncEnd Async AsyncInv AsyncFacts AsyncEndSpec.
Import ListNotations.
Open Scope N_scope.

Section End_.
Context (nblocks : N -> N).
Notation run1 := (async_run1 nblocks).
Notation reach := (async_reachable nblocks).

Definition awaits (s : ast_) (i : N) : bool :=
  match y_pc s i with
  | AWait _ => negb (y_loc s i =? y_epoch s)
  | AEnd1 => negb (y_help s =? 0)
  | _ => false
  end.

Lemma awaits_same s i : awaits s i = true -> run1 s (YGo i) = Some s.
Proof.
  unfold awaits. destruct s as [tb ep hp nx bl mv pc lo le]. cbn. destruct (pc i); try discriminate;
    match goal with |- context [if ?b then _ else _] => destruct b end; cbn; auto; discriminate.
Qed.

(** What a step leaves alone. *)
Lemma astep_frame s l s' : run1 s l = Some s' ->
  (forall j, j <> aactor l -> y_pc s' j = y_pc s j /\ y_loc s' j = y_loc s j).
Proof.
  intros R j NE. destruct s as [tb ep hp nx bl mv pc lo le]. destruct l as [i|i|i|i]; cbn in R, NE.
  - destruct (pc i) eqn:P; repeat match type of R with context [if ?b then _ else _] => destruct b end;
      try discriminate; injection R as <-; cbn; rewrite ?fupd_neq by auto; auto.
  - destruct (pc i) eqn:P; try discriminate; injection R as <-; cbn; rewrite ?fupd_neq by auto; auto.
  - destruct (pc i) eqn:P; try discriminate. destruct (nx (lo i)); [|discriminate]. injection R as <-; cbn; rewrite ?fupd_neq by auto; auto.
  - destruct (pc i) eqn:P; try discriminate; injection R as <-; cbn; rewrite ?fupd_neq by auto; auto.
Qed.

(** It may still publish a table. *)
Definition publishes (p : apc) : N :=
  match p with
  | ALoad true | AWait true | AOp | AGrow | AMig1 | AMig2 | AMig3 _ | AMigNo _ | AMig4 _ | AMig5 _ _ | AMig6 _
  | AEnd1 | AEnd2 | AEnd3 => 1
  | _ => 0
  end.

Context (ts : list N) (NB V : N).

(** Steps left until the thread rests, but for waiting. *)
Definition aleft (bl : N -> N) (p : apc) : N :=
  match p with
  | AUnreg | AIdle => 0
  | AInit | ALoad false => 2
  | AWait false => 1
  | AEnd4 => 3
  | AEnd3 => 4
  | AEnd2 => 5
  | AEnd1 => 6
  | AMig6 _ | AMigNo _ => 7
  | AMig4 v => 8 + 2 * (nblocks v - bl v)
  | AMig5 v _ => 9 + 2 * (nblocks v - bl v)
  | AMig3 _ => 9 + 2 * NB
  | AMig2 => 10 + 2 * NB
  | AMig1 => 11 + 2 * NB
  | AGrow => 12 + 2 * NB
  | AOp => 13 + 2 * NB
  | AWait true => 14 + 2 * NB
  | ALoad true => 15 + 2 * NB
  end.

Definition atotal (s : ast_) : N := tot (fun i => aleft (y_block s) (y_pc s i)) ts.

Record abnd (s : ast_) : Prop := {
  ab_ts : forall i, ~ In i ts -> aresting s i;
  ab_ver : y_tab s + tot (fun i => publishes (y_pc s i)) ts <= V;
  ab_blk : forall v, v <= V -> nblocks v <= NB }.

Lemma aactor_step s l s' (i := aactor l) : ainv nblocks s -> abnd s -> abusy s l = true -> run1 s l = Some s' ->
  (forall k, l = YGo k -> awaits s k = false) ->
  (forall v, y_block s v <= y_block s' v) /\
  publishes (y_pc s' i) <= publishes (y_pc s i) /\
  y_tab s' + publishes (y_pc s' i) <= y_tab s + publishes (y_pc s i) /\
  aleft (y_block s') (y_pc s' i) + 1 <= aleft (y_block s) (y_pc s i).
Proof.
  intros G B BU R NW. subst i. pose proof (ai_th _ _ G (aactor l)) as T.
  pose proof (ab_ver _ B) as BV.
  assert (KB : forall v, v <= y_tab s -> nblocks v <= NB) by (intros v H; apply (ab_blk _ B); lia).
  destruct s as [tb ep hp nx bl mv pc lo le]. destruct l as [i|i|i|i]; cbn in R, BU, T, KB |- *; try discriminate BU.
  - specialize (NW i eq_refl). unfold awaits in NW. cbn in NW.
    destruct (pc i) as [| |  |o|o| | | | |v|v|v|v b|v| | | |] eqn:P; try discriminate BU;
      repeat match type of R with context [if ?b then _ else _] => destruct b eqn:? end;
      try discriminate; injection R as <-; cbn; rewrite ?fupd_eq;
      (split; [intros u; unfold fupd; try lia; destruct (N.eqb_spec u v); subst; lia|]).
    all: try (destruct o; cbn in *).
    all: try (split; [cbn; lia|split; [cbn; try lia|cbn; try lia]]).
    + destruct T as (_ & _ & _ & T). pose proof (KB v ltac:(apply T)). lia.
    + rewrite fupd_eq. apply N.ltb_lt in Heqb. lia.
    + apply N.eqb_eq in Heqb. lia.
  - destruct (pc i) eqn:P; try discriminate. injection R as <-. cbn. rewrite fupd_eq. cbn. repeat split; intros; lia.
  - destruct (pc i) eqn:P; try discriminate. destruct (nx (lo i)); [|discriminate]. injection R as <-. cbn. rewrite fupd_eq. cbn. repeat split; intros; lia.
Qed.

Lemma abusy_in s l s' : abnd s -> abusy s l = true -> run1 s l = Some s' -> In (aactor l) ts.
Proof.
  intros B BU R. destruct (in_dec N.eq_dec (aactor l) ts) as [|NI]; auto. exfalso.
  destruct (ab_ts _ B _ NI) as [Q|Q]; destruct l as [i|i|i|i]; cbn in *; rewrite Q in *; discriminate.
Qed.

Lemma astep_bnd s l s' : ainv nblocks s -> abnd s -> abusy s l = true -> run1 s l = Some s' ->
  (forall k, l = YGo k -> awaits s k = false) -> abnd s' /\ atotal s' + 1 <= atotal s.
Proof.
  intros G B BU R NW. pose proof (abusy_in s l s' B BU R) as IN. pose proof (astep_frame s l s' R) as FR.
  destruct (aactor_step s l s' G B BU R NW) as (A1 & A2 & A3 & A4). split.
  - split; [| |apply (ab_blk _ B)].
    + intros j NI. assert (NE : j <> aactor l) by (intros ->; auto). unfold aresting. rewrite (proj1 (FR j NE)). now apply (ab_ts _ B).
    + pose proof (ab_ver _ B) as BV.
      pose proof (tot_one (fun i => publishes (y_pc s' i)) (fun i => publishes (y_pc s i)) ts (aactor l)
        (publishes (y_pc s (aactor l)) - publishes (y_pc s' (aactor l))) IN) as X. cbv beta in X.
      assert (Y : forall i, In i ts -> publishes (y_pc s' i) <= publishes (y_pc s i)).
      { intros i _. destruct (N.eq_dec i (aactor l)) as [->|NE]; auto. rewrite (proj1 (FR i NE)). lia. }
      specialize (X Y ltac:(lia)). lia.
  - unfold atotal. apply (tot_one _ _ ts (aactor l)); auto. intros i _. destruct (N.eq_dec i (aactor l)) as [->|NE]; [lia|].
    rewrite (proj1 (FR i NE)). destruct (y_pc s i) as [| | |[]|[]| | | | |v|v|v|v b|v| | | |]; cbn; try lia; specialize (A1 v); lia.
Qed.

Lemma ago_moves s i s' : awaits s i = false -> run1 s (YGo i) = Some s' -> y_pc s' i <> y_pc s i.
Proof.
  intros W R. unfold awaits in W. destruct s as [tb ep hp nx bl mv pc lo le]. cbn in R, W |- *.
  destruct (pc i) as [| | |o|o| | | | |v|v|v|v b|v| | | |] eqn:P;
    repeat match type of R with context [if ?b then _ else _] => destruct b eqn:? end; try discriminate; injection R as <-; cbn; rewrite ?fupd_eq;
    try discriminate.
Qed.

Lemma amoves s l s' : abusy s l = true -> run1 s l = Some s' ->
  s' = s \/ ((forall i, l = YGo i -> awaits s i = false) /\ s' <> s).
Proof.
  intros B R. destruct l as [i|i|i|i]; try discriminate B.
  - destruct (awaits s i) eqn:W.
    + left. rewrite (awaits_same s i W) in R. congruence.
    + right. split; [intros j [= <-]; auto|]. intros ->. now apply (ago_moves s i s W R).
  - right. split; [discriminate|]. cbn in R. destruct (y_pc s i) eqn:P; try discriminate. injection R as <-.
    intros E. apply (f_equal (fun s => y_pc s i)) in E. cbn in E. rewrite fupd_eq in E. congruence.
  - right. split; [discriminate|]. cbn in R. destruct (y_pc s i) eqn:P; try discriminate. destruct (y_next s (y_loc s i)); [|discriminate]. injection R as <-.
    intros E. apply (f_equal (fun s => y_pc s i)) in E. cbn in E. rewrite fupd_eq in E. congruence.
Qed.

Lemma astep_less s l s' : ainv nblocks s -> abnd s -> abusy s l = true -> run1 s l = Some s' ->
  s' = s \/ ainv nblocks s' /\ abnd s' /\ atotal s' + 1 <= atotal s.
Proof.
  intros G B BU R. destruct (amoves s l s' BU R) as [->|[NW NE]]; [now left|right].
  split; [eapply run1_inv; eauto|]. exact (astep_bnd s l s' G B BU R NW).
Qed.

Lemma aworks_less s n s' : ainv nblocks s -> abnd s -> aworks nblocks s n s' -> ainv nblocks s' /\ abnd s' /\ atotal s' + n <= atotal s.
Proof.
  intros G B W. induction W as [|n s1 l s2 W (G1 & B1 & T1) BU R NE]; [split; auto; split; auto; lia|].
  destruct (astep_less s1 l s2 G1 B1 BU R) as [->|(G2 & B2 & T2)]; [congruence|]. split; auto. split; auto. lia.
Qed.

Notation attempt := (aattempt nblocks).
Notation attempts := (aattempts nblocks).

Lemma aattempts_less ls : forall s, ainv nblocks s -> abnd s ->
  attempts ls s = s \/ ainv nblocks (attempts ls s) /\ abnd (attempts ls s) /\ atotal (attempts ls s) + 1 <= atotal s.
Proof.
  induction ls as [|l ls IH]; intros s G B; [now left|].
  change (attempts (l :: ls) s) with (attempts ls (attempt s l)).
  assert (A : attempt s l = s \/ ainv nblocks (attempt s l) /\ abnd (attempt s l) /\ atotal (attempt s l) + 1 <= atotal s).
  { unfold aattempt. destruct (abusy s l) eqn:BU; [|now left]. destruct (run1 s l) as [s'|] eqn:R; [|now left]. exact (astep_less s l s' G B BU R). }
  destruct A as [->|(G1 & B1 & T1)]; [now apply IH|]. right.
  destruct (IH _ G1 B1) as [->|(G2 & B2 & T2)]; [auto|]. split; auto. split; auto. lia.
Qed.
Lemma aattempts_ok ls s : ainv nblocks s -> abnd s -> ainv nblocks (attempts ls s) /\ abnd (attempts ls s) /\ atotal (attempts ls s) <= atotal s.
Proof. intros G B. destruct (aattempts_less ls s G B) as [->|(G2 & B2 & T2)]; split; auto; split; auto; lia. Qed.
Lemma aattempts_app l1 l2 s : attempts (l1 ++ l2) s = attempts l2 (attempts l1 s).
Proof. apply fold_left_app. Qed.

Lemma aattempt_rest s l i : aresting s i -> aresting (attempt s l) i.
Proof.
  intros RS. unfold aattempt. destruct (abusy s l) eqn:BU; auto. destruct (run1 s l) as [s'|] eqn:R; auto.
  destruct (N.eq_dec i (aactor l)) as [->|NE].
  - exfalso. destruct RS as [Q|Q]; destruct l as [k|k|k|k]; cbn in *; rewrite Q in *; discriminate.
  - unfold aresting. rewrite (proj1 (astep_frame s l s' R i NE)). exact RS.
Qed.
Lemma aattempts_rest ls : forall s i, aresting s i -> aresting (attempts ls s) i.
Proof. induction ls as [|l ls IH]; intros s i H; auto. apply (IH (attempt s l)), aattempt_rest, H. Qed.

(** Somebody can go on, unless everybody rests or waits for a version that is gone. *)
Lemma acan_go s i0 : ainv nblocks s -> ~ aresting s i0 -> ~ missed s i0 ->
  exists i s', ~ aresting s i /\ run1 s (YGo i) = Some s' /\ s' <> s /\ abusy s (YGo i) = true.
Proof.
  intros G NR NM.
  assert (K : forall i, ~ aresting s i -> awaits s i = false ->
    exists i s', ~ aresting s i /\ run1 s (YGo i) = Some s' /\ s' <> s /\ abusy s (YGo i) = true).
  { intros i R W. assert (X : exists s', run1 s (YGo i) = Some s').
    { pose proof (ai_th _ _ G i) as [_ T]. destruct s as [tb ep hp nx bl mv pc lo le]. cbn in *.
      destruct (pc i); repeat match goal with |- context [if ?b then _ else _] => destruct b eqn:? end; eauto.
      exfalso. destruct T as (_ & T & _). congruence. }
    destruct X as [s' E]. exists i, s'. split; auto. split; auto. split; [intros ->; now apply (ago_moves s i s W E)|].
    cbn. unfold aresting in R. destruct (y_pc s i); auto; exfalso; auto. }
  destruct (awaits s i0) eqn:W; [|now apply (K i0)].
  unfold awaits in W. destruct (y_pc s i0) eqn:P; try discriminate.
  - apply negb_true_iff, N.eqb_neq in W. pose proof (ai_th _ _ G i0) as [T _]. pose proof (ai_ep _ _ G).
    destruct (ai_pub _ _ G) as [j Q].
    { destruct (N.lt_ge_cases (y_loc s i0) (y_epoch s)); [|lia]. exfalso. apply NM. split; eauto. }
    apply (K j); [unfold aresting; rewrite Q; intros [|]; discriminate|]. unfold awaits. now rewrite Q.
  - apply negb_true_iff, N.eqb_neq in W. destruct (ai_help _ _ G) as (l & _ & L & H).
    destruct l as [|j l]; [cbn in L; lia|]. assert (Q : helping (y_pc s j) = true) by (apply H; now left).
    apply (K j); [unfold aresting; intros [E|E]; rewrite E in Q; discriminate|]. unfold awaits. destruct (y_pc s j); auto; discriminate.
Qed.

Definition asettled (s : ast_) (i : N) : Prop := aresting s i \/ missed s i.

Lemma settled_dec s i : asettled s i \/ ~ aresting s i /\ ~ missed s i.
Proof.
  unfold asettled, aresting, missed. destruct (y_pc s i) eqn:P; auto;
    try (right; split; [intros [|]; discriminate|intros [[? ?] _]; discriminate]).
  destruct (N.lt_ge_cases (y_loc s i) (y_epoch s)); [left; right; split; eauto|right]. split; [intros [|]; discriminate|intros [_ ?]; lia].
Qed.

Lemma asettled_dec s : abnd s -> (forall i, asettled s i) \/ exists i, ~ aresting s i /\ ~ missed s i.
Proof.
  intros B.
  assert (X : forall l, (exists i, ~ aresting s i /\ ~ missed s i) \/ (forall i, In i l -> asettled s i)).
  { induction l as [|a l [E|E]]; [right; intros i []|now left|]. destruct (settled_dec s a) as [Y|Y]; [|left; eauto].
    right. intros i [<-|I]; auto. }
  destruct (X ts) as [Y|Y]; auto. left. intros i. destruct (in_dec N.eq_dec i ts) as [I|I]; auto. left. now apply (ab_ts _ B).
Qed.

(** Whoever has missed a version goes on waiting. *)
Lemma missed_step s l s' i : ainv nblocks s -> missed s i -> run1 s l = Some s' -> missed s' i.
Proof.
  intros G [[o P] L] R. destruct (step_effect nblocks s l s' G R) as (_ & E & A).
  destruct (A i (y_loc s i)) as [A1 A2]; [split; eauto|auto|]. split; auto. rewrite A2. lia.
Qed.
Lemma aattempts_settled ls : forall s i, ainv nblocks s -> asettled s i -> asettled (attempts ls s) i.
Proof.
  induction ls as [|l ls IH]; intros s i G H; auto. apply (IH (attempt s l)).
  - unfold aattempt. destruct (abusy s l); auto. destruct (run1 s l) as [s'|] eqn:R; auto. eapply run1_inv; eauto.
  - destruct H as [H|H]; [left; now apply aattempt_rest|]. right. unfold aattempt. destruct (abusy s l); auto.
    destruct (run1 s l) as [s'|] eqn:R; auto. eapply missed_step; eauto.
Qed.

Lemma around_less s r : ainv nblocks s -> abnd s -> afair_round s r ->
  (forall i, asettled s i) \/ atotal (attempts r s) + 1 <= atotal s.
Proof.
  intros G B FR. destruct (asettled_dec s B) as [E|(i0 & NR & NM)]; [now left|right].
  destruct (acan_go s i0 G NR NM) as (i & s' & NR' & R & NE & BU).
  pose proof (FR i NR') as IN. apply in_split in IN as (r1 & r2 & ->). rewrite aattempts_app.
  destruct (aattempts_less r1 s G B) as [->|(G1 & B1 & T1)].
  - change (attempts (YGo i :: r2) s) with (attempts r2 (attempt s (YGo i))).
    assert (A : attempt s (YGo i) = s') by (unfold aattempt; now rewrite BU, R). rewrite A.
    destruct (astep_less s (YGo i) s' G B BU R) as [|(G1 & B1 & T1)]; [congruence|].
    pose proof (aattempts_ok r2 s' G1 B1). lia.
  - pose proof (aattempts_ok (YGo i :: r2) _ G1 B1). lia.
Qed.

Lemma arounds_end s0 rs : forall s, ainv nblocks s -> abnd s -> (forall i, ~ aresting s i -> ~ aresting s0 i) -> Forall (afair_round s0) rs ->
  (forall i, asettled (attempts (concat rs) s) i) \/ atotal (attempts (concat rs) s) + N.of_nat (length rs) <= atotal s.
Proof.
  induction rs as [|r rs IH]; intros s G B SUB F; [right; cbn; lia|]. inversion F as [|x y F1 F2]. subst.
  cbn [concat]. rewrite aattempts_app.
  assert (FR : afair_round s r) by (intros i H; apply F1; auto).
  destruct (aattempts_ok r s G B) as (G1 & B1 & _).
  destruct (around_less s r G B FR) as [C|T].
  - left. intros i. apply aattempts_settled; auto. now apply aattempts_settled.
  - destruct (IH (attempts r s)) as [E|T1]; auto.
    + intros i H. apply SUB. intros X. apply H. now apply aattempts_rest.
    + right. cbn [length]. rewrite Nnat.Nat2N.inj_succ. lia.
Qed.
End End_.

Section Bounds.
Context (nblocks : N -> N).
Notation reach := (async_reachable nblocks).

Lemma areach_finite s : reach s -> exists ts, forall i, ~ In i ts -> aresting s i.
Proof.
  induction 1 as [|s s' R (ts & H) [l ST]]; [exists []; intros i _; right; reflexivity|].
  exists (aactor l :: ts). intros i NI.
  assert (NE : i <> aactor l) by (intros ->; apply NI; now left).
  unfold aresting. rewrite (proj1 (astep_frame _ s l s' ST i NE)). apply H. intros X. apply NI. now right.
Qed.

Lemma ablocks_bound V : exists NB, forall v, v <= V -> nblocks v <= NB.
Proof.
  induction V as [|V [NB H]] using N.peano_ind.
  - exists (nblocks 0). intros v ?. assert (v = 0) as -> by lia. lia.
  - exists (N.max NB (nblocks (N.succ V))). intros v ?. destruct (N.eq_dec v (N.succ V)) as [->|]; [lia|].
    specialize (H v ltac:(lia)). lia.
Qed.

Lemma aexists_bnd s : reach s -> exists ts NB V, abnd nblocks ts NB V s.
Proof.
  intros R. destruct (areach_finite s R) as [ts H].
  destruct (ablocks_bound (y_tab s + tot (fun i => publishes (y_pc s i)) ts)) as [NB HB].
  exists ts, NB, (y_tab s + tot (fun i => publishes (y_pc s i)) ts). split; auto. lia.
Qed.

Theorem asomebody_can_go s : reach s -> (exists i, ~ aresting s i /\ ~ missed s i) ->
  exists l s', abusy s l = true /\ async_run1 nblocks s l = Some s' /\ s' <> s.
Proof.
  intros R (i & NR & NM). destruct (acan_go nblocks s i (areach_inv nblocks s R) NR NM) as (j & s' & _ & E & NE & BU). eauto 6.
Qed.

Theorem awork_bounded s : reach s -> exists M, forall n s', aworks nblocks s n s' -> n <= M.
Proof.
  intros R. destruct (aexists_bnd s R) as (ts & NB & V & B). exists (atotal nblocks ts NB s).
  intros n s' W. destruct (aworks_less nblocks ts NB V s n s' (areach_inv nblocks s R) B W) as (_ & _ & T). lia.
Qed.

Theorem arounds_finish s : reach s -> exists M, forall rs, (M <= length rs)%nat -> Forall (afair_round s) rs ->
  forall i, aresting (aattempts nblocks (concat rs) s) i \/ missed (aattempts nblocks (concat rs) s) i.
Proof.
  intros R. destruct (aexists_bnd s R) as (ts & NB & V & B). exists (N.to_nat (atotal nblocks ts NB s) + 1)%nat.
  intros rs HM F. destruct (arounds_end nblocks ts NB V s rs s (areach_inv nblocks s R) B (fun i H => H) F) as [E|T]; [exact E|]. lia.
Qed.
End Bounds.
