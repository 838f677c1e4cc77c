(** Growing tables of pointer cells: relation to growing tables of in-place cells
    (whose data are the pointers) and, through them, to the atomic map. *)
From Coq Require Import NArith Bool List Lia.
From Verif Require Import Words Slot SlotFacts Mapper MapperFacts ReturnCode MapSpec LinSpec Base
  BaseInv BaseLin TableSpec Migrate Growing GrowingSpec GrowingInv Ptr PtrSpec PtrWords
  PtrGrowing PtrGrowingSpec PtrGrowingImg.
Import ListNotations.
Open Scope N_scope.

Section Sim.
Context (c : pcfg) (K : N).
Notation mk := (pmk c).
Notation mc := (pmc c).
Notation ac := (acfg c K).
Notation sc := (asc c K).
Notation spec := (mspec false false).
Notation aobj' := (aobj amap mop mres).

Definition idf : functor := Functor (fun x => x) None.

(** The call on the table of in-place cells; [p] is the address of its element. *)
Definition aop (o : pop) (p : N) : op :=
  match o with
  | QFind k => OFind (k + 1)
  | QUpdate k _ => OUpdate (k + 1) idf
  | QInsert k _ | QEmplace k _ | QIou k _ _ => OInsert (k + 1) p
  end.
Definition acl (o : op) : Prop := exists q p, pop_key q < K /\ o = aop q p.

Lemma acl_ok : client_ok sc acl.
Proof.
  split.
  - intros o (q & p & L & ->). split.
    + destruct q; cbn in *; now apply asc_key.
    + intros g x E. destruct q; discriminate.
  - right. left. intros o (q & p & L & ->). destruct q; cbn; intros [].
Qed.

(** *** Following the atomic map of addresses *)

Definition xstat (o : pop) (p : N) (m : amap) (st sy : astat mop mres) : Prop :=
  match st with
  | AIdle => False
  | APend mo => mo = spec_op sc (aop o p) /\ sy = APend (pspec_op o)
  | ADone RAbsent => pop_adds o = false /\ sy = ADone RAbsent
  | ADone RInserted => pop_adds o = true /\ m (pop_key o + 1) = Some p /\ sy = ADone RInserted
  | ADone (RPresent a) | ADone (RFound a) | ADone (RUpdated a) =>
      m (pop_key o + 1) = Some a /\ sy = APend (pspec_op o)
  | _ => False
  end.

Record follow (act : N -> option (pop * N)) (hp : heap) (x y : aobj') : Prop := {
  f_map : forall k, ast y k = match ast x (k + 1) with Some a => option_map snd (hp a) | None => None end;
  f_act : forall tid o p, act tid = Some (o, p) -> xstat o p (ast x) (ath x tid) (ath y tid);
  f_idle : forall tid, act tid = None -> ath x tid = AIdle;
  f_own : forall tid o p, act tid = Some (o, p) -> pop_adds o = true -> hp p = Some (pop_key o, pop_data o)
}.

Lemma xstat_mono o p m m' st sy :
  (forall k a, m k = Some a -> m' k = Some a) -> xstat o p m st sy -> xstat o p m' st sy.
Proof. intros M. destruct st as [| |r]; cbn; auto. destruct r; auto; intuition. Qed.

(** What happens to the map of addresses in silent steps. *)
Record moved (act : N -> option (pop * N)) (x x' : aobj') (y y' : aobj') : Prop := {
  m_keep : forall k a, ast x k = Some a -> ast x' k = Some a;
  m_done : forall tid r, ath x tid = ADone r -> ath x' tid = ADone r;
  m_new : forall k a, ast x' k = Some a -> ast x k = Some a \/
    exists tid o, act tid = Some (o, a) /\ pop_adds o = true /\ k = pop_key o + 1 /\ ath x' tid = ADone RInserted;
  m_rest : forall tid, act tid = None -> ath y' tid = ath y tid
}.

Lemma follow_one act hp x x' y :
  astep spec x None x' -> follow act hp x y ->
  exists y', asteps spec y [] y' /\ follow act hp x' y' /\ moved act x x' y y'.
Proof.
  intros S [FM FA FI FO]. inversion S as [|m th t mo m' r E SP|]; subst. cbn [ast ath] in *.
  destruct y as [n yh]. cbn [ast ath] in *.
  destruct (act t) as [[o p]|] eqn:At; [|rewrite (FI t At) in E; discriminate].
  pose proof (FA t o p At) as X. rewrite E in X. destruct X as [-> YP].
  assert (MONO : (forall k a, m k = Some a -> m' k = Some a) -> forall yh', (forall u, u <> t -> yh' u = yh u) ->
    xstat o p m' (ADone r) (yh' t) ->
    forall u o' p', act u = Some (o', p') -> xstat o' p' m' (fupd th t (ADone r) u) (yh' u)).
  { intros MM yh' Q XT u o' p' Au. destruct (N.eq_dec u t) as [->|NE].
    - rewrite fupd_eq. rewrite At in Au. injection Au as <- <-. exact XT.
    - rewrite fupd_neq, Q by exact NE. eapply xstat_mono; eauto. }
  assert (IDLE : forall u, act u = None -> fupd th t (ADone r) u = AIdle).
  { intros u Au. rewrite fupd_neq; auto. intros ->. congruence. }
  assert (KEEPD : forall u r', th u = ADone r' -> fupd th t (ADone r) u = ADone r').
  { intros u r' Eu. rewrite fupd_neq; auto. intros ->. congruence. }
  assert (REST : forall sy u, act u = None -> fupd yh t sy u = yh u).
  { intros sy u Au. rewrite fupd_neq; auto. intros ->. congruence. }
  (* nothing new, the other object does nothing *)
  assert (STAY : (forall k, m' k = m k) -> xstat o p m' (ADone r) (APend (pspec_op o)) ->
    exists y', asteps spec (AObj n yh) [] y' /\ follow act hp (AObj m' (fupd th t (ADone r))) y' /\
      moved act (AObj m th) (AObj m' (fupd th t (ADone r))) (AObj n yh) y').
  { intros EQ XT. exists (AObj n yh). split; [apply as_nil|]. split; split; cbn [ast ath]; auto.
    - intros k. now rewrite EQ.
    - apply MONO; auto; [intros k a; now rewrite EQ|now rewrite YP].
    - intros k a. now rewrite EQ.
    - intros k a. rewrite EQ. auto. }
  (* the other object answers as well *)
  assert (GO : forall n' r', spec n (pspec_op o) n' r' ->
    (forall k a, m k = Some a -> m' k = Some a) ->
    (forall k, n' k = match m' (k + 1) with Some a => option_map snd (hp a) | None => None end) ->
    (forall k a, m' k = Some a -> m k = Some a \/
      (a = p /\ pop_adds o = true /\ k = pop_key o + 1 /\ r = RInserted)) ->
    xstat o p m' (ADone r) (ADone r') ->
    exists y', asteps spec (AObj n yh) [] y' /\ follow act hp (AObj m' (fupd th t (ADone r))) y' /\
      moved act (AObj m th) (AObj m' (fupd th t (ADone r))) (AObj n yh) y').
  { intros n' r' SN MM FN NEW XT. exists (AObj n' (fupd yh t (ADone r'))). split.
    { eapply as_tau; [|apply as_nil]. eapply a_lin; eauto. }
    split; split; cbn [ast ath]; auto.
    - apply MONO; auto; [intros u NE; now rewrite fupd_neq|now rewrite fupd_eq].
    - intros k a H. destruct (NEW k a H) as [H'|(-> & AD & -> & ->)]; auto.
      right. exists t, o. sp; auto. now rewrite fupd_eq. }
  assert (NX : forall k, k = pop_key o -> m (k + 1) = None -> n k = None).
  { intros k -> H. now rewrite FM, H. }
  assert (INS : pop_adds o = true -> m (pop_key o + 1) = None ->
     m' = fupd m (pop_key o + 1) (Some p) -> r = RInserted ->
     spec n (pspec_op o) (fupd n (pop_key o) (Some (pop_data o))) RInserted ->
     exists y', asteps spec (AObj n yh) [] y' /\ follow act hp (AObj m' (fupd th t (ADone r))) y' /\
      moved act (AObj m th) (AObj m' (fupd th t (ADone r))) (AObj n yh) y').
  { intros AD E0 -> -> SN. eapply GO; [exact SN| | | |].
    - intros k a H. rewrite fupd_neq; auto. intros ->. congruence.
    - intros k. unfold fupd. destruct (N.eqb_spec k (pop_key o)) as [->|NE].
      + rewrite N.eqb_refl. now rewrite (FO t o p At AD).
      + destruct (N.eqb_spec (k + 1) (pop_key o + 1)); [lia|]. apply FM.
    - intros k a. unfold fupd. destruct (N.eqb_spec k (pop_key o + 1)) as [->|NE]; auto.
      intros [= <-]. right. auto.
    - cbn. rewrite fupd_eq. auto. }
  assert (MISS : pop_adds o = false -> m' = m -> r = RAbsent -> spec n (pspec_op o) n RAbsent ->
     exists y', asteps spec (AObj n yh) [] y' /\ follow act hp (AObj m' (fupd th t (ADone r))) y' /\
      moved act (AObj m th) (AObj m' (fupd th t (ADone r))) (AObj n yh) y').
  { intros AD -> -> SN. eapply GO; [exact SN| | | |]; cbn; auto. }
  destruct o as [k d|k d|k d f|k|k f]; cbn [aop spec_op pop_key pop_adds pop_data pspec_op] in *.
  1-3: inversion SP; subst; try discriminate;
    [apply INS; auto; constructor; now apply NX|apply STAY; cbn; auto].
  - inversion SP; subst; try discriminate.
    + apply STAY; cbn; auto.
    + apply MISS; auto. constructor. now apply NX.
  - inversion SP; subst; try discriminate.
    + apply STAY.
      * intros q. unfold fupd. destruct (N.eqb_spec q (k + 1)) as [->|]; auto.
      * cbn. rewrite fupd_eq. unfold fun_ret. cbn. destruct (pmk c); auto.
    + apply MISS; auto. constructor. now apply NX.
Qed.

Lemma follow_tau act hp x x' y :
  asteps spec x [] x' -> follow act hp x y ->
  exists y', asteps spec y [] y' /\ follow act hp x' y' /\ moved act x x' y y'.
Proof.
  intros A. remember [] as tr eqn:ET. revert y ET. induction A as [x|x x1 x2 tr S A IH|]; intros y ET F; [| |discriminate].
  - exists y. split; [apply as_nil|]. split; auto. split; auto.
  - subst tr. destruct (follow_one _ _ _ _ _ S F) as (y1 & A1 & F1 & [K1 D1 N1 R1]).
    destruct (IH y1 eq_refl F1) as (y2 & A2 & F2 & [K2 D2 N2 R2]).
    exists y2. split; [change (@nil (event mop mres)) with (@nil (event mop mres) ++ []); eapply asteps_trans; eauto|].
    split; auto. split; auto.
    + intros k a H. destruct (N2 k a H) as [H'|H']; auto.
      destruct (N1 k a H') as [|(t & o & X1 & X2 & X3 & X4)]; auto. right. exists t, o. auto.
    + intros t At. rewrite R2, R1 by exact At. reflexivity.
Qed.

End Sim.
