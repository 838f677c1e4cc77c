(** Growing tables of pointer cells: every step preserves the relation. *)
From Coq Require Import NArith Bool List Lia.
From Verif Require Import Words Slot SlotFacts Mapper MapperFacts ReturnCode MapSpec LinSpec Base
  BaseInv BaseLin TableSpec Migrate Frozen Growing GrowingSpec GrowingInv Ptr PtrSpec PtrWords
  PtrGrowing PtrGrowingSpec PtrGrowingImg PtrGrowingInv PtrGrowingRel.
Import ListNotations.
Open Scope N_scope.

Section Step.
Context (c : pcfg) (K B : N) (alloc : N -> Prop).
Context (PG : pgrow c = true) (HA : forall a, alloc a -> 0 < a < 2 ^ 48 /\ a <> 2 ^ 32).
Context (CF : cmap (pmc c) = false \/ cprob (pmc c) = true) (HB : 0 < B <= 2 ^ 31).
Notation mk := (pmk c).
Notation mc := (pmc c).
Notation ac := (acfg c K).
Notation sc := (asc c K).
Notation spec := (mspec false false).
Notation aobj' := (aobj amap mop mres).
Notation wgood := (wgood c K).
Notation aimg := (aimg c K).
Notation amr := (amr c K).
Notation rel := (rel c K B).
Notation grel' := (grel ac B (acl K)).
Notation athr := (athr c K).
Notation tok := (tok c K).
Notation acts s := (fun t => active (pgthr s t)).

Definition pmode (s s' : pgsys) : Prop := (mk = true /\ pg_undisturbed c s s') \/ pg_exclusive s.

Lemma act_thr kp X o p : active X = Some (o, p) ->
  exists pc, athr kp X = Some (aop o p, pc) /\
    (pc = GGet \/ exists u q, pc = GRun u q /\ running q = true).
Proof.
  destruct X as [[[o' u] pc]|]; [|discriminate]. destruct pc; try discriminate; intros [= <- <-];
    eexists; (split; [reflexivity|]); eauto.
Qed.

Lemma adds_finding o p : pop_adds o = true -> finding (aop o p) = false.
Proof. destruct o; cbn; congruence. Qed.

(** Threads that try to add a key and go on have not added it. *)
Lemma still_pending kp s g x y g' x' t o p :
  rel kp s g x y -> grel' g' x' -> gthr g' t = gthr g t ->
  active (pgthr s t) = Some (o, p) -> pop_adds o = true -> ath x' t = APend (spec_op sc (aop o p)).
Proof.
  intros R G E A AD. destruct (act_thr kp _ _ _ A) as (pc & H & RN).
  eapply grel_pend; eauto; [|now apply adds_finding].
  rewrite E, (r_thr _ _ _ _ _ _ _ _ R). exact H.
Qed.

Lemma same_kp kp x x' y y' act :
  kprel kp x -> moved act x x' y y' ->
  (forall t o p, act t = Some (o, p) -> pop_adds o = true -> ath x' t <> ADone RInserted) -> kprel kp x'.
Proof.
  intros KP MV NI a k. split; intros H.
  - apply (m_keep _ _ _ _ _ MV). now apply KP.
  - destruct (m_new _ _ _ _ _ MV _ _ H) as [H'|(t & o & A & AD & _ & D)]; [now apply KP|].
    now elim (NI t o a A AD).
Qed.

Lemma new_kp kp x x' y y' act tid o p :
  kprel kp x -> moved act x x' y y' -> kp p = None -> act tid = Some (o, p) ->
  ast x' (pop_key o + 1) = Some p ->
  (forall t o p, t <> tid -> act t = Some (o, p) -> pop_adds o = true -> ath x' t <> ADone RInserted) ->
  kprel (fupd kp p (Some (pop_key o))) x'.
Proof.
  intros KP MV N0 At AX NI a k. unfold fupd. destruct (N.eqb_spec a p) as [->|NE].
  - split.
    + intros [= <-]. exact AX.
    + intros H. destruct (m_new _ _ _ _ _ MV _ _ H) as [H'|(t & o' & A & AD & E & D)].
      * apply KP in H'. congruence.
      * destruct (N.eq_dec t tid) as [->|NT]; [|now elim (NI t o' p NT A AD)].
        rewrite At in A. injection A as <-. f_equal. symmetry. now apply N.add_cancel_r in E.
  - split; intros H.
    + apply (m_keep _ _ _ _ _ MV). now apply KP.
    + destruct (m_new _ _ _ _ _ MV _ _ H) as [H'|(t & o' & A & AD & E & D)]; [now apply KP|].
      destruct (N.eq_dec t tid) as [->|NT]; [congruence|now elim (NI t o' a NT A AD)].
Qed.

Lemma leave_follow act hp x y tid :
  follow c K act hp x y ->
  follow c K (fun t => if t =? tid then None else act t) hp (AObj (ast x) (fupd (ath x) tid AIdle)) y.
Proof.
  intros [F1 F2 F3 F4]. split; cbn [ast ath]; auto.
  - intros t o p. unfold fupd. destruct (t =? tid); [discriminate|apply F2].
  - intros t. unfold fupd. destruct (t =? tid); auto.
  - intros t o p. destruct (t =? tid); [discriminate|apply F4].
Qed.

Lemma follow_act act act' hp x y : (forall t, act' t = act t) -> follow c K act hp x y -> follow c K act' hp x y.
Proof.
  intros E [F1 F2 F3 F4]. split; auto.
  - intros t o p. rewrite E. apply F2.
  - intros t. rewrite E. apply F3.
  - intros t o p. rewrite E. apply F4.
Qed.

(** *** Modes *)

Lemma mode_same g g' :
  (forall u p, gmem g' u p = gmem g u p) -> mk = true \/ gmig g = None -> mode ac g g'.
Proof.
  intros E [M|M].
  - left. split; [exact M|]. intros k h tid i curr _ _. left. apply E.
  - right. intros H. congruence.
Qed.

Lemma excl kp s g x y : rel kp s g x y -> pg_exclusive s -> exclusive g.
Proof.
  intros R EX NM tid o v pc E. rewrite (r_thr _ _ _ _ _ _ _ _ R) in E.
  assert (NM' : pgmig s <> None).
  { pose proof (r_mig _ _ _ _ _ _ _ _ R) as M. destruct (pgmig s), (gmig g); try discriminate; try contradiction. }
  destruct (pgthr s tid) as [[[o' u] pc']|] eqn:Et; [|discriminate].
  pose proof (EX NM' _ _ _ _ Et) as OT. destruct pc'; try discriminate; destruct OT.
Qed.

Lemma on_table_mode kp s s' g x y tid o u pc :
  rel kp s g x y -> pmode s s' -> pgthr s tid = Some (o, u, pc) -> ~ off_table pc ->
  mk = true \/ gmig g = None.
Proof.
  intros R [[M _]|EX] E NO; auto. right.
  destruct (gmig g) eqn:G; auto. elim NO. eapply EX; eauto.
  pose proof (r_mig _ _ _ _ _ _ _ _ R) as MR. rewrite G in MR. destruct (pgmig s); [discriminate|contradiction].
Qed.

(** Undisturbed cells stay undisturbed. *)
Lemma und kp kp' s g x y s' g' :
  rel kp s g x y -> kle kp kp' -> pmode s s' ->
  amr kp' (pgmem s' (pgver s)) (gmem g' (pgver s)) -> mode ac g g'.
Proof.
  intros R LE [[M U]|EX] AM; [left|right; eapply excl; eauto].
  split; [exact M|]. intros k h tid i curr EG Eh. cbn [tmc tsc acfg].
  pose proof (r_mig _ _ _ _ _ _ _ _ R) as MR. rewrite EG in MR.
  destruct (pgmig s) as [[k0 h0]|] eqn:EM; [|contradiction]. destruct MR as [-> MR].
  destruct (MR tid) as [EH _]. rewrite Eh in EH. destruct (h0 tid) as [pc0|] eqn:E0; [|discriminate].
  destruct pc0; try discriminate. cbn in EH. injection EH as -> ->.
  specialize (U _ _ _ _ _ EM E0). rewrite (r_ver _ _ _ _ _ _ _ _ R), (r_map _ _ _ _ _ _ _ _ R).
  cbv zeta in U. set (p := remap mc (pgmap s (pgver s)) _) in *.
  pose proof (r_mem _ _ _ _ _ _ _ _ R (pgver s) p) as A0. specialize (AM p).
  destruct U as [U|U]; rewrite U in AM.
  - left. destruct (pgmem s (pgver s) p) as [w|]; [|congruence]. destruct A0 as [-> G0], AM as [-> G1].
    f_equal. now apply wgood_le.
  - right. destruct (pgmem s (pgver s) p) as [w|]; cbn in *; [|rewrite A0; exact AM].
    destruct A0 as [-> G0], AM as [-> G1]. cbn. f_equal.
    destruct (set_mark_good c K kp w M G0) as [G2 <-]. now apply wgood_le.
Qed.

(** *** Loads *)

(** What the two tables decide on a loaded cell. *)
Inductive loaded (kp : N -> option N) (o : pop) (w i curr : N) : ppc -> bpc -> Prop :=
| l_next : loaded kp o w i curr (QLoad (i + 1) w) (PLoad (i + 1))
| l_cas : pop_adds o = true -> loaded kp o w i curr (QCas i w curr) (PCas i (aimg kp curr))
| l_again w' r : retries (aop o (ptr_of o w)) r = true ->
    (pop_adds o = true -> w' = w) ->
    loaded kp o w i curr (QTry w') (PDone r)
| l_present q r : (exists k d, o = QInsert k d \/ o = QEmplace k d) \/ (exists k d f, o = QIou k d f) ->
    q = match o with QIou _ _ _ => QUpd w curr | _ => QFree w (OutPresent curr) end ->
    kp (w_ptr curr) = Some (pop_key o) -> retries (aop o (ptr_of o w)) r = false ->
    (exists a, gobs (aop o (ptr_of o w)) r = RPresent a) ->
    loaded kp o w i curr q (PDone r)
| l_found r k : o = QFind k -> kp (w_ptr curr) = Some (pop_key o) ->
    (exists a, gobs (aop o (ptr_of o w)) r = RFound a) ->
    loaded kp o w i curr (QRead (OutFound curr)) (PDone r)
| l_absent r : retries (aop o (ptr_of o w)) r = false -> gobs (aop o (ptr_of o w)) r = RAbsent ->
    loaded kp o w i curr (QDone RAbsent) (PDone r)
| l_update k f : o = QUpdate k f -> kp (w_ptr curr) = Some (pop_key o) ->
    loaded kp o w i curr (QUpd w curr) (PUpd i (aimg kp curr)).

Lemma load_sim kp hp m o i p w curr : hpok kp hp -> wgood kp curr -> pop_key o < K ->
  loaded kp o w i curr (p_after_load c m hp o i p w curr)
    (after_load ac m (aop o (ptr_of o w)) i p (aimg kp curr)).
Proof.
  intros HP G LK.
  assert (CMP : w_empty mk curr = false ->
    exists b, w_compare mk hp curr (pop_key o) (phk c (pop_key o)) = Some b /\
      compare_key sc (aimg kp curr) (pop_key o + 1) = b /\ (b = true -> kp (w_ptr curr) = Some (pop_key o))).
  { intros EM. destruct (aimg_compare c K kp hp curr _ HP G LK EM) as (b & X1 & X2 & X3).
    exists b. sp; auto. intros X. apply X3, X. }
  destruct o as [k d|k d|k d f|k|k f]; cbn [p_after_load after_load aop ptr_of pop_adds pop_key tsc tmc acfg] in *;
    rewrite ?(aimg_marked c K kp curr G), (aimg_empty c K kp curr G).
  1-3: destruct (w_mark mk curr);
    [unfold wrap_add; rewrite PG; cbn [andb orb]; apply l_again; auto|];
    destruct (w_empty mk curr) eqn:EM;
    [destruct (negb (cprob mc) && (addressable_slots mc m + 300 <? p));
      [unfold wrap_add; rewrite PG; cbn [andb orb]; apply l_again; auto|apply l_cas; reflexivity]|];
    destruct (CMP eq_refl) as (b & -> & -> & X); destruct b; [|apply l_next];
    (eapply l_present; [|first [reflexivity|unfold wrap_add; rewrite PG; reflexivity]|now apply X|reflexivity|eexists; reflexivity]).
  - left; eauto.
  - left; eauto.
  - right; eauto.
  - destruct (w_empty mk curr) eqn:EM; [apply l_absent; reflexivity|].
    destruct (CMP eq_refl) as (b & -> & -> & X); destruct b; [|apply l_next].
    eapply l_found; [reflexivity|now apply X|eexists; reflexivity].
  - unfold wrap_update. rewrite PG. cbn [andb]. destruct (w_mark mk curr).
    + apply l_again; [reflexivity|discriminate].
    + destruct (w_empty mk curr) eqn:EM; [apply l_absent; reflexivity|].
      destruct (CMP eq_refl) as (b & -> & -> & X); destruct b; [|apply l_next].
      eapply l_update; [reflexivity|now apply X].
Qed.

(** *** The thread's own step *)

Lemma run_tau kp s g x y tid o u pc p bp b t' bp' :
  let g1 := GSys (gver g) (gmap g) (fupd (gmem g) u t') (gmig g)
              (fupd (gthr g) tid (Some (aop o p, GRun u bp'))) in
  rel kp s g x y -> pgthr s tid = Some (o, u, pc) ->
  athr kp (Some (o, u, pc)) = Some (aop o p, GRun u bp) -> running bp = true ->
  bstep ac (gmap g u) (gmem g u) b (aop o p) bp = (t', bp') -> mode ac g g1 ->
  exists x1 y1, grel' g1 x1 /\ asteps spec y [] y1 /\ follow c K (acts s) (pgheap s) x1 y1 /\
    moved (acts s) x x1 y y1 /\
    (forall t o' p', t <> tid -> active (pgthr s t) = Some (o', p') -> pop_adds o' = true ->
       ath x1 t <> ADone RInserted).
Proof.
  intros g1 R E A RN BS M.
  assert (S : gsys_step ac B (acl K) g None g1).
  { pose proof (r_thr _ _ _ _ _ _ _ _ R tid) as T. rewrite E, A in T.
    destruct g as [v mp me mg th]. unfold g1. cbn [gver gmap gmem gmig gthr] in *.
    eapply g_run; eauto. now apply running_nd. }
  destruct (tau_step c K B CF HB g g1 x (acts s) (pgheap s) y) as (x1 & y1 & G1 & A1 & F1 & M1).
  - apply R.
  - exact S.
  - exact M.
  - intros _ H. now elim H.
  - apply R.
  - exists x1, y1. sp; auto. intros t o' p' NE At AD.
    rewrite (still_pending kp s g x y g1 x1 t o' p' R G1); auto; [discriminate|].
    unfold g1. cbn [gthr]. now rewrite fupd_neq.
Qed.

(** A step that keeps elements and their owners. *)
Lemma rebuild_same kp s g x y me' tid X g' x' y' :
  rel kp s g x y ->
  gver g' = pgver s -> gmap g' = pgmap s -> gmig g' = gmig g ->
  (forall v, amr kp (me' v) (gmem g' v)) ->
  (forall t, gthr g' t = if t =? tid then athr kp X else gthr g t) ->
  (forall o' u' pc', X = Some (o', u', pc') -> pop_key o' < K /\ tok kp (pgheap s) o' pc') ->
  own X = own (pgthr s tid) ->
  kprel kp x' ->
  follow c K (fun t => if t =? tid then active X else active (pgthr s t)) (pgheap s) x' y' ->
  ystat X (ath y' tid) ->
  (forall t, t <> tid -> active (pgthr s t) = None -> ath y' t = ath y t) ->
  asteps spec y [] y' ->
  grel' g' x' ->
  exists kp1 g1 x1 y1, asteps spec y [] y1 /\
    rel kp1 (PGSys (pgver s) (pgmap s) me' (pgmig s) (pgheap s) (fupd (pgthr s) tid X)) g1 x1 y1.
Proof.
  intros R EV EM EG AM ET TK OW KP FO YS YR AS GR.
  eapply (rebuild c K B kp s g x y kp); eauto.
  - intros a k H. exact H.
  - apply R.
  - intros t a NE Oa. sp; auto. rewrite OW. intros Ob. apply NE. eapply (r_own _ _ _ _ _ _ _ _ R); eauto.
  - intros a H. destruct (r_acc _ _ _ _ _ _ _ _ R a H) as [?|(t & Ot)]; auto.
    destruct (N.eq_dec t tid) as [->|NE]; [right; left; congruence|right; right; eauto].
Qed.

Lemma load_case kp s s' g x y tid o u i w curr :
  rel kp s g x y -> pmode s s' -> pgthr s tid = Some (o, u, QLoad i w) ->
  prd c (pgmap s u) (pgmem s u) (remap mc (pgmap s u) i) = Some curr ->
  exists kp1 g1 x1 y1, asteps spec y [] y1 /\
    rel kp1 (PGSys (pgver s) (pgmap s) (fupd (pgmem s) u (pgmem s u)) (pgmig s) (pgheap s)
      (fupd (pgthr s) tid (Some (o, u, p_after_load c (pgmap s u) (pgheap s) o i (remap mc (pgmap s u) i) w curr))))
      g1 x1 y1.
Proof.
  intros R PM E RD. pose proof (r_tok _ _ _ _ _ _ _ _ R _ _ _ _ E) as [LK TK].
  pose proof (r_thr _ _ _ _ _ _ _ _ R tid) as T. rewrite E in T. cbn [PtrGrowingRel.athr] in T.
  pose proof (amr_rd c K kp (pgmap s u) _ _ (remap mc (pgmap s u) i) (r_mem _ _ _ _ _ _ _ _ R u)) as RD'.
  rewrite RD in RD'. destruct RD' as [RD' G].
  pose proof (on_table_mode _ _ _ _ _ _ _ _ _ _ R PM E (fun H => H)) as MM.
  pose proof (load_sim kp (pgheap s) (pgmap s u) o i (remap mc (pgmap s u) i) w curr (r_hp _ _ _ _ _ _ _ _ R) G LK) as LD.
  set (pcn := p_after_load _ _ _ _ _ _ _ _) in *. clearbody pcn.
  set (p := ptr_of o w) in *. set (bp' := after_load _ _ _ _ _ _) in LD.
  assert (BS : bstep ac (gmap g u) (gmem g u) true (aop o p) (PLoad i) = (gmem g u, bp')).
  { cbn [bstep tmc acfg]. rewrite (r_map _ _ _ _ _ _ _ _ R). rewrite RD'. reflexivity. }
  assert (MS : forall u' q, fupd (gmem g) u (gmem g u) u' q = gmem g u' q).
  { intros u' q. unfold fupd. now destruct (N.eqb_spec u' u) as [->|]. }
  assert (AMM : forall v, amr kp (fupd (pgmem s) u (pgmem s u) v) (gmem g v)).
  { intros v. unfold fupd. destruct (N.eqb_spec v u) as [->|]; apply R. }
  assert (M1 : mode ac g (GSys (gver g) (gmap g) (fupd (gmem g) u (gmem g u)) (gmig g)
              (fupd (gthr g) tid (Some (aop o p, GRun u bp'))))) by now apply mode_same.
  destruct (run_tau kp s g x y tid o u _ p (PLoad i) true _ bp' R E eq_refl eq_refl BS M1)
    as (x1 & y1 & G1 & A1 & F1 & MV & OT).
  assert (AT : active (pgthr s tid) = Some (o, p)) by now rewrite E.
  assert (KP : (pop_adds o = true -> ath x1 tid <> ADone RInserted) -> kprel kp x1).
  { intros NT. eapply same_kp; eauto; [apply R|]. intros t o' p' At AD.
    destruct (N.eq_dec t tid) as [->|NE]; [|eapply OT; eauto].
    rewrite AT in At. injection At as <- <-. auto. }
  assert (YR : forall t, t <> tid -> active (pgthr s t) = None -> ath y1 t = ath y t).
  { intros t _ H. apply (m_rest _ _ _ _ _ MV t H). }
  set (g1 := GSys (gver g) (gmap g) (fupd (gmem g) u (gmem g u)) (gmig g)
               (fupd (gthr g) tid (Some (aop o p, GRun u bp')))) in *.
  (* the call goes on *)
  assert (CONT : forall pc', athr kp (Some (o, u, pc')) = Some (aop o p, GRun u bp') ->
     running bp' = true -> active (Some (o, u, pc')) = Some (o, p) ->
     own (Some (o, u, pc')) = own (pgthr s tid) -> tok kp (pgheap s) o pc' ->
     exists kp1 g1 x1 y1, asteps spec y [] y1 /\
      rel kp1 (PGSys (pgver s) (pgmap s) (fupd (pgmem s) u (pgmem s u)) (pgmig s) (pgheap s)
       (fupd (pgthr s) tid (Some (o, u, pc')))) g1 x1 y1).
  { intros pc' AE RN AC OW TK'.
    assert (GT : gthr g1 tid = Some (aop o p, GRun u bp')) by (unfold g1; cbn [gthr]; now rewrite fupd_eq).
    eapply (rebuild_same kp s g x y _ tid _ g1 x1 y1 R).
    - apply R.
    - apply R.
    - reflexivity.
    - intros v. eapply amr_ext; [|apply AMM]. intros q. apply MS.
    - intros t. rewrite AE. unfold g1. cbn [gthr]. unfold fupd. now destruct (t =? tid).
    - intros o' u' pc'' [= <- <- <-]. auto.
    - exact OW.
    - apply KP. intros AD.
      rewrite (grel_pend c K B g1 x1 tid _ _ G1 GT); [discriminate| |now apply adds_finding]. eauto.
    - eapply follow_act; [|exact F1]. intros t. cbn beta. rewrite AC.
      destruct (N.eqb_spec t tid) as [->|]; auto.
    - destruct pc'; try discriminate; exact Logic.I.
    - exact YR.
    - exact A1.
    - exact G1. }
  (* the attempt is over, the call is not *)
  assert (LEAVE : forall r pc' g2 x2 y2, 
     (forall t, gthr g2 t = if t =? tid then Some (aop o p, GRun u (PDone r)) else gthr g t) ->
     gver g2 = gver g -> gmap g2 = gmap g -> gmig g2 = gmig g -> (forall u q, gmem g2 u q = gmem g u q) ->
     grel' g2 x2 -> asteps spec y [] y2 -> follow c K (acts s) (pgheap s) x2 y2 ->
     kprel kp x2 -> (forall t, active (pgthr s t) = None -> ath y2 t = ath y t) ->
     athr kp (Some (o, u, pc')) = None ->
     own (Some (o, u, pc')) = own (pgthr s tid) -> tok kp (pgheap s) o pc' -> ystat (Some (o, u, pc')) (ath y2 tid) ->
     exists kp1 g1 x1 y1, asteps spec y [] y1 /\
      rel kp1 (PGSys (pgver s) (pgmap s) (fupd (pgmem s) u (pgmem s u)) (pgmig s) (pgheap s)
       (fupd (pgthr s) tid (Some (o, u, pc')))) g1 x1 y1).
  { intros r pc' g2 x2 y2 GT GV GM GG GE G2 A2 F2 KP2 YR2 AE OW TK' YS.
    assert (G3 := leave c K B g2 x2 tid (aop o p) u r G2).
    rewrite GT, N.eqb_refl in G3. specialize (G3 eq_refl).
    eapply (rebuild_same kp s g x y _ tid _ (GSys (gver g2) (gmap g2) (gmem g2) (gmig g2) (fupd (gthr g2) tid None))
      (AObj (ast x2) (fupd (ath x2) tid AIdle)) y2 R).
    - cbn [gver]. rewrite GV. apply R.
    - cbn [gmap]. rewrite GM. apply R.
    - exact GG.
    - intros v. cbn [gmem]. eapply amr_ext; [|apply AMM]. intros q. apply GE.
    - intros t. rewrite AE. cbn [gthr]. unfold fupd. rewrite GT. now destruct (t =? tid).
    - intros o' u' pc'' [= <- <- <-]. auto.
    - exact OW.
    - exact KP2.
    - apply active_athr in AE. rewrite AE. now apply leave_follow.
    - exact YS.
    - auto.
    - exact A2.
    - exact G3. }
  assert (GT1 : forall t, gthr g1 t = if t =? tid then Some (aop o p, GRun u bp') else gthr g t).
  { intros t. unfold g1. cbn [gthr]. unfold fupd. reflexivity. }
  assert (GTT : gthr g1 tid = Some (aop o p, GRun u bp')) by (rewrite GT1; now rewrite N.eqb_refl).
  pose proof (f_act _ _ _ _ _ _ F1 tid o p AT) as XS.
  assert (OWN : own (pgthr s tid) = if pop_adds o then Some (w_ptr w) else None) by now rewrite E.
  assert (GV1 : gver g1 = gver g) by reflexivity.
  assert (GM1 : gmap g1 = gmap g) by reflexivity.
  assert (GG1 : gmig g1 = gmig g) by reflexivity.
  assert (GE1 : forall v q, gmem g1 v q = gmem g v q) by (intros v q; apply MS).
  clearbody g1. clear M1 MS BS. inversion LD as [HX HY|AD HX HY|w' r RT WE HX HY|q r WH EQ KC RT [a GO] HX HY|r k EO KC [a GO] HX HY
     |r RT GO HX HY|k f EO KC HX HY]; rewrite <- HY in *; subst pcn; try (fold p in RT); try (fold p in GO).
  - apply CONT; auto.
  - apply CONT; auto. cbn [PtrGrowingRel.tok] in *. destruct (TK AD). auto.
  - (* again *)
    assert (EP : ptr_of o w' = p).
    { unfold p, ptr_of. destruct (pop_adds o) eqn:AD; [now rewrite WE|reflexivity]. }
    pose proof (grel_done c K B _ _ _ _ _ _ G1 GTT) as D. unfold fin_stat in D. rewrite RT in D.
    eapply (rebuild_same kp s g x y _ tid _ (GSys (gver g1) (gmap g1) (gmem g1) (gmig g1)
        (fupd (gthr g1) tid (Some (aop o p, GGet)))) x1 y1 R).
    + cbn [gver]. rewrite GV1. apply R.
    + cbn [gmap]. rewrite GM1. apply R.
    + exact GG1.
    + intros v. cbn [gmem]. eapply amr_ext; [|apply AMM]. intros q. apply GE1.
    + intros t. cbn [PtrGrowingRel.athr gthr]. rewrite EP. unfold fupd. rewrite GT1. now destruct (t =? tid).
    + intros o' u' pc'' [= <- <- <-]. split; auto. cbn [PtrGrowingRel.tok] in *. intros AD. rewrite WE by exact AD. now apply TK.
    + rewrite OWN. cbn [own]. destruct (pop_adds o) eqn:AD; [now rewrite WE|reflexivity].
    + apply KP. rewrite D. discriminate.
    + eapply follow_act; [|exact F1]. intros t. cbn [active]. rewrite EP.
      destruct (N.eqb_spec t tid) as [->|]; auto.
    + exact Logic.I.
    + exact YR.
    + exact A1.
    + eapply again; eauto.
  - (* present *)
    pose proof (grel_done c K B _ _ _ _ _ _ G1 GTT) as D. unfold fin_stat in D. rewrite RT, GO in D.
    rewrite D in XS. cbn in XS. destruct XS as [XS YS].
    assert (AD : pop_adds o = true).
    { destruct WH as [(k & d & [->| ->])|(k & d & f & ->)]; reflexivity. }
    destruct (TK AD) as [SL _]. rewrite AD in OWN.
    eapply (LEAVE r _ g1 x1 y1); eauto.
    + apply KP. rewrite D. discriminate.
    + apply MV.
    + subst q. now destruct o.
    + rewrite OWN. subst q. destruct o; try discriminate; reflexivity.
    + subst q. destruct WH as [(k & d & [->| ->])|(k & d & f & ->)]; cbn [PtrGrowingRel.tok outok]; sp; eauto.
    + subst q. destruct o; exact YS.
  - (* found *)
    subst o.
    pose proof (grel_done c K B _ _ _ _ _ _ G1 GTT) as D. unfold fin_stat in D. cbn [aop retries] in D.
    cbn [aop] in GO. rewrite GO in D. rewrite D in XS. cbn in XS. destruct XS as [XS YS].
    eapply (LEAVE r _ g1 x1 y1); eauto.
    + apply KP. discriminate.
    + apply MV.
    + cbn [PtrGrowingRel.tok outok]. eauto.
  - (* absent *)
    pose proof (grel_done c K B _ _ _ _ _ _ G1 GTT) as D. unfold fin_stat in D. rewrite RT, GO in D.
    rewrite D in XS. cbn in XS. destruct XS as [AD YS]. rewrite AD in OWN.
    eapply (LEAVE r _ g1 x1 y1); eauto.
    + apply KP. rewrite D. discriminate.
    + apply MV.
    + exact Logic.I.
  - (* update *)
    subst o. cbn [aop ptr_of pop_adds] in *. subst p.
    assert (RD1 : rd ac (gmap g1 u) (gmem g1 u) (remap mc (gmap g1 u) i) = Some (aimg kp curr)).
    { rewrite GM1, (r_map _ _ _ _ _ _ _ _ R). rewrite <- RD'. unfold rd. now rewrite GE1. }
    destruct (atomic_update sc (aimg kp curr) (aimg kp curr) idf) as [[res ok] cell'] eqn:AU.
    assert (X : ok = true /\ cell' = aimg kp curr).
    { unfold atomic_update, cas in AU. cbn [fat idf fn] in AU. rewrite slot_eqb_refl, N.eqb_refl in AU.
      destruct (sc_mark sc); injection AU as <- <- <-; split; auto; now destruct (aimg kp curr). }
    destruct X as [-> ->].
    set (r := BRet RC_SUCCESS_UP res (Some (remap mc (gmap g1 u) i))).
    set (t2 := fupd (gmem g1 u) (remap mc (gmap g1 u) i) (Some (aimg kp curr))).
    assert (E2 : forall v q, fupd (gmem g1) u t2 v q = gmem g v q).
    { intros v q. unfold fupd at 1. destruct (N.eqb_spec v u) as [->|]; [|apply GE1]. unfold t2, fupd.
      destruct (N.eqb_spec q (remap mc (gmap g1 u) i)) as [->|]; [|apply GE1].
      unfold rd in RD1. destruct (_ <? _); [|discriminate]. now rewrite <- RD1, GE1. }
    set (g2 := GSys (gver g1) (gmap g1) (fupd (gmem g1) u t2) (gmig g1)
                 (fupd (gthr g1) tid (Some (OUpdate (k + 1) idf, GRun u (PDone r))))).
    assert (S2 : gsys_step ac B (acl K) g1 None g2).
    { unfold g2. clear - GTT RD1 AU. destruct g1 as [v mp me mg th]. cbn [gver gmap gmem gmig gthr] in *.
      eapply (g_run ac B (acl K) v mp me mg th tid _ u _ true); [exact GTT|discriminate|].
      cbn [bstep tmc tsc acfg op_fun]. rewrite RD1, AU. reflexivity. }
    destruct (tau_step c K B CF HB g1 g2 x1 (acts s) (pgheap s) y1) as (x2 & y2 & G2 & A2 & F2 & M2); auto.
    { apply mode_same; [|now rewrite GG1]. intros v q. rewrite GE1. apply E2. }
    { intros _ H. now elim H. }
    assert (GT2 : gthr g2 tid = Some (OUpdate (k + 1) idf, GRun u (PDone r))).
    { unfold g2. cbn [gthr]. apply fupd_eq. }
    pose proof (grel_done c K B _ _ _ _ _ _ G2 GT2) as D. change (ath x2 tid = ADone (RUpdated (sdata res))) in D.
    pose proof (f_act _ _ _ _ _ _ F2 tid _ _ AT) as XS2. rewrite D in XS2. cbn in XS2. destruct XS2 as [XS2 YS].
    eapply (LEAVE r _ g2 x2 y2); eauto.
    + intros t. unfold g2. cbn [gthr]. unfold fupd. rewrite GT1. now destruct (t =? tid).
    + change (@nil (event mop mres)) with (@nil (event mop mres) ++ []). eapply asteps_trans; eauto.
    + eapply same_kp; [|exact M2|].
      * apply KP. discriminate.
      * intros t o' p' At AD. destruct (N.eq_dec t tid) as [->|NE]; [congruence|].
        rewrite (still_pending kp s g x y g2 x2 t o' p' R G2); auto; [discriminate|].
        unfold g2. cbn [gthr]. rewrite fupd_neq, GT1 by exact NE. destruct (N.eqb_spec t tid); congruence.
    + intros t H. rewrite (m_rest _ _ _ _ _ M2 t H). apply (m_rest _ _ _ _ _ MV t H).
    + cbn [PtrGrowingRel.tok]. sp; eauto. discriminate.
Qed.

End Step.
