(** An executable scheduler for unsafe updates on growing tables of pointer cells, used to
    exhibit concrete executions. *)
From Coq Require Import NArith Bool List Lia.
From Verif Require Import Words Slot Mapper ReturnCode MapSpec LinSpec Base BaseInv BaseExec
  TableSpec Migrate GrowSpec MigrateExec Ptr PtrSpec PtrGrowing PtrGrowingSpec GrowingExec PtrGrowingExec PtrUnsafe PtrUnsafeFacts.
Import ListNotations.
Open Scope N_scope.

(** Scheduling decisions; [ZDo]: one step of PtrGrowing.v; [ZFind]: the step with which an
    unsafe call finds its key. *)
Inductive zlabel :=
| ZInv (tid : N) (q : ucall)
| ZDo (l : xlabel)
| ZHelps (tid : N) (n : nat)
| ZFind (tid : N)
| ZRead (tid : N)
| ZApply (tid : N).

Definition zx := (px * (N -> qmode))%type.

Section Exec.
Context (c : pcfg) (B : N) (md : gmode) (alloc : N -> Prop) (CP : cprob (pmc c) = false).

Definition zstep_of (client : ucall -> Prop) :
  pgsys * (N -> qmode) -> option (event mop mres) -> pgsys * (N -> qmode) -> Prop :=
  match md with
  | MAny => pug_step c B alloc client
  | MSync => pug_sync_step c B alloc client
  | MAsync => pug_async_step c B alloc client
  end.

Definition z_on (m : qmode) : bool := match m with VOff => false | _ => true end.
Definition z_upd (x : option (pop * N * ppc)) : bool := match x with Some (_, _, pc) => is_upd pc | None => false end.

(** One step of PtrGrowing.v. *)
Definition zdo1 (x : px) (l : xlabel) : option (option (event mop mres) * px) :=
  match l with
  | XRuns tid _ a => option_map (fun y => (None, y)) (prun1 c md tid a (Some x))
  | XHelps tid _ => option_map (fun y => (None, y)) (phelp1 c B tid (Some x))
  | XInv _ _ => None
  | _ => xexec1 c B md x l
  end.

Definition zguard (kd : N -> qmode) (s s' : pgsys) (us : list N) : bool :=
  forallb (fun u => negb (z_on (kd u)) || eqb (z_upd (pgthr s u)) (z_upd (pgthr s' u))) us.

Definition zdo (x : zx) (l : xlabel) : option (option (event mop mres) * zx) :=
  match zdo1 (fst x) l with
  | Some (e, y) => if zguard (snd x) (ps (fst x)) (ps y) (pu (fst x)) then Some (e, (y, snd x)) else None
  | None => None
  end.

Definition zhelp (tid : N) (ox : option zx) : option zx :=
  match ox with Some x => option_map snd (zdo x (XHelps tid 1)) | None => None end.

Definition zexec1 (x : zx) (l : zlabel) : option (option (event mop mres) * zx) :=
  let '(PX (PGSys v mp me mg hp th) us hs, kd) := x in
  match l with
  | ZInv tid q =>
      match th tid with
      | None => 
          if pexcl_ok md (PX (PGSys v mp me mg hp (fupd th tid (Some (ucall_pop q, v, pstart c (mp v) (ucall_pop q))))) (tid :: us) hs)
          then Some (Some (EInv tid (pspec_op (ucall_pop q))),
                (PX (PGSys v mp me mg hp (fupd th tid (Some (ucall_pop q, v, pstart c (mp v) (ucall_pop q))))) (tid :: us) hs,
                 fupd kd tid (mode_of_call q))) else None
      | Some _ => None
      end
  | ZDo l => zdo x l
  | ZHelps tid n => option_map (fun y => (None, y)) (Nat.iter n (zhelp tid) (Some x))
  | ZFind tid =>
      match th tid, kd tid with
      | Some (o, z, QLoad i w), VOn =>
          match qstep c (mp z) hp (me z) 0 o (QLoad i w) with
          | (_, _, QUpd w' curr) =>
              let s' := PGSys v mp (fupd me z (me z)) mg hp (fupd th tid (Some (o, z, QUpd w' curr))) in
              if pexcl_ok md (PX s' us hs)
              then Some (None, (PX s' us hs, fupd kd tid (VAt (remap (pmc c) (mp z) i)))) else None
          | _ => None
          end
      | _, _ => None
      end
  | ZRead tid =>
      match th tid, kd tid with
      | Some (o, z, QUpd w curr), VAt p =>
          match prd c (mp z) (me z) p with
          | Some w2 => Some (None, (PX (PGSys v mp me mg hp th) us hs, fupd kd tid (VGot w2)))
          | None => None
          end
      | _, _ => None
      end
  | ZApply tid =>
      match th tid, kd tid with
      | Some (o, z, QUpd w curr), VGot w2 =>
          let '(hp', t', pc') := qstep c (mp z) hp (me z) 0 o (QUpd w w2) in
          let s' := PGSys v mp (fupd me z (me z)) mg hp' (fupd th tid (Some (o, z, pc'))) in
          if pexcl_ok md (PX s' us hs) then Some (None, (PX s' us hs, fupd kd tid VOn)) else None
      | _, _ => None
      end
  end.

Fixpoint zexec (x : zx) (ls : list zlabel) : option (list (event mop mres) * zx) :=
  match ls with
  | [] => Some ([], x)
  | l :: ls =>
      match zexec1 x l with
      | None => None
      | Some (e, x') =>
          match zexec x' ls with
          | None => None
          | Some (tr, x'') => Some (evs e ++ tr, x'')
          end
      end
  end.

Definition zlab (client : ucall -> Prop) (l : zlabel) : Prop :=
  match l with ZInv _ q => client q | ZDo (XRuns _ _ a) => alloc a | _ => True end.

Definition zsys (x : zx) : pgsys * (N -> qmode) := (ps (fst x), snd x).
Definition zinv (x : zx) : Prop := pxinv md (fst x) /\ ginv c (zsys x).
Definition xlab (l : xlabel) : Prop := match l with XRuns _ _ a => alloc a | _ => True end.

Lemma z_mk (client : ucall -> Prop) s e s' :
  pug_step c B alloc client s e s' ->
  (md = MAsync -> pg_undisturbed c (fst s) (fst s')) -> (md = MSync -> pg_exclusive (fst s')) ->
  zstep_of client s e s'.
Proof. unfold zstep_of. intros S U X. destruct md; [exact S| |]; (split; [exact S|split; auto using pno_room]). Qed.

Lemma zdo1_sound x l e y : xlab l ->
  pxinv md x -> zdo1 x l = Some (e, y) -> pstep_of c B md alloc (fun _ => False) (ps x) e (ps y) /\ pxinv md y.
Proof.
  intros AL XI E.
  assert (RET : forall e0 z, option_map (fun y => (e0, y)) (pguard md z) = Some (e, y) ->
    (forall t, pgthr (ps z) t <> None -> In t (pu z)) ->
    (forall k h t, pgmig (ps z) = Some (k, h) -> h t <> None -> In t (ph z)) ->
    pgstep c B alloc (fun _ => False) (ps x) e0 (ps z) ->
    (pgmem (ps z) (pgver (ps x)) = pgmem (ps x) (pgver (ps x))) ->
    pstep_of c B md alloc (fun _ => False) (ps x) e (ps y) /\ pxinv md y).
  { intros e0 z G U H S M. destruct (pguard md z) as [z'|] eqn:Gz; [|discriminate].
    injection G as <- <-. destruct (pguard_inv md _ _ Gz U) as [-> EX]. split.
    - apply pmk_step; auto. intros _. now apply psame_undisturbed.
    - split; auto. }
  destruct x as [[v mp me mg hp th] us hs]. pose proof XI as [XU XH XE]. cbn [ps pu ph pgthr pgmig pgmem pgver] in *.
  assert (UPD : forall tid w, th tid <> None -> forall t, fupd th tid w t <> None -> In t us).
  { intros tid w N t. unfold fupd. destruct (N.eqb_spec t tid) as [->|]; auto. }
  destruct l as [tid o|tid n a|tid|ins del|tid|tid n|]; cbn [zdo1 xexec1] in E.
  - discriminate.
  - destruct (prun1 c md tid a (Some _)) as [z|] eqn:E1; [|discriminate]. injection E as <- <-.
    exact (prun1_sound c B md alloc CP _ tid a _ z AL XI E1).
  - destruct (th tid) as [[[o u] pc]|] eqn:Et; try discriminate. destruct pc as [| | | | | | |r|]; try discriminate.
    eapply RET; [exact E|..]; cbn [ps pu ph pgthr pgmig pgmem pgver]; auto.
    + apply UPD. congruence.
    + eapply pg_ret; eauto.
  - destruct mg; [discriminate|]. destruct (N.ltb_spec (addressable_slots (pmc c) (mp v)) (2 ^ 32)); [|discriminate].
    eapply RET; [exact E|..]; cbn [ps pu ph pgthr pgmig pgmem pgver]; auto.
    + intros k h t [= <- <-] X. now elim X.
    + apply pg_grow; auto.
    + rewrite fupd_neq by lia. reflexivity.
  - destruct mg as [[k h]|]; [|discriminate]. destruct (h tid) eqn:Eh; [discriminate|].
    eapply RET; [exact E|..]; cbn [ps pu ph pgthr pgmig pgmem pgver]; auto.
    + intros k0 h0 t [= <- <-]. unfold fupd. destruct (N.eqb_spec t tid) as [->|]; [left; auto|].
      intros X. right. eapply XH; eauto.
    + apply pg_join; auto.
  - destruct (phelp1 c B tid (Some _)) as [z|] eqn:E1; [|discriminate]. injection E as <- <-.
    exact (phelp1_sound c B md alloc CP _ tid _ z XI E1).
  - destruct mg as [[k h]|]; [|discriminate]. destruct hs as [|t0 hs]; [discriminate|].
    destruct (forallb _ _) eqn:F; [|discriminate]. rewrite forallb_forall in F.
    eapply RET; [exact E|..]; cbn [ps pu ph pgthr pgmig pgmem pgver]; auto.
    + intros k0 h0 t X. discriminate.
    + apply pg_publish with (k := k) (h := h).
      * exists t0. specialize (F t0 (or_introl eq_refl)). destruct (h t0) as [[]|]; try discriminate. reflexivity.
      * intros t pc Et. specialize (F t (XH _ _ t eq_refl ltac:(congruence))). rewrite Et in F.
        destruct pc; try discriminate. now left.
Qed.

(** A call that is applying its functor before and after a step did not move. *)
Lemma upd_stays s kd l s' u o x pc o' x' pc' :
  pgstep c B alloc (fun _ => False) s l s' -> ginv c (s, kd) ->
  pgthr s u = Some (o, x, pc) -> pgthr s' u = Some (o', x', pc') -> is_upd pc = true -> is_upd pc' = true -> pc' = pc.
Proof.
  intros S I E E' U U'.
  destruct S as [v mp me mg hp th tid o1 E0 []|v mp me mg hp th tid o1 w pc0 a hp' t' pc1 E0 ND AL ST|v mp me mg hp th tid o1 w r E0
        |v mp me hp th ins del LT|v mp me k h hp th tid E0|v mp me k h hp th tid pc0 s' t' k' pc1 E0 ST|v mp me k h hp th EX FIN];
    cbn [pgthr] in *; try congruence.
  - unfold fupd in E'. destruct (N.eqb_spec u tid) as [->|]; [|congruence]. injection E' as <- <- <-.
    rewrite E in E0. injection E0 as <- <- <-. destruct (I tid o x pc E) as (_ & CK & _).
    destruct (qstep_keeps c _ _ _ _ _ _ _ _ _ ST CK) as (_ & _ & NUP & _). rewrite (NUP U) in U'. discriminate.
  - unfold fupd in E'. destruct (N.eqb_spec u tid) as [->|]; [discriminate|congruence].
Qed.

Lemma zdo_sound (client : ucall -> Prop) x l e y : xlab l ->
  zinv x -> zdo x l = Some (e, y) -> zstep_of client (zsys x) e (zsys y) /\ zinv y.
Proof.
  intros AL [XI GI] E. unfold zdo in E. destruct (zdo1 (fst x) l) as [[e1 y1]|] eqn:E1; [|discriminate].
  destruct (zguard _ _ _ _) eqn:G; [|discriminate]. injection E as <- <-.
  destruct (zdo1_sound _ _ _ _ AL XI E1) as [S XI'].
  assert (S0 : pgstep c B alloc (fun _ => False) (ps (fst x)) e1 (ps y1)).
  { unfold pstep_of in S. destruct md; [exact S|apply S|apply S]. }
  assert (US : pug_step c B alloc client (zsys x) e1 (zsys (y1, snd x))).
  { unfold zsys. cbn [fst snd]. apply pug_base; auto. intros u o z pc o' z' pc' MD Eu Eu' UP.
    unfold zguard in G. rewrite forallb_forall in G.
    specialize (G u ltac:(apply XI; congruence)). rewrite Eu, Eu' in G. cbn [z_upd] in G.
    assert (ON : z_on (snd x u) = true) by (destruct (snd x u); [now elim MD|reflexivity..]). rewrite ON in G. cbn in G.
    apply eqb_prop in G. eapply upd_stays; eauto; [|rewrite <- G]; destruct (is_upd pc); auto; rewrite <- G in UP; discriminate. }
  split; [|split; auto].
  - apply z_mk; auto; unfold pstep_of in S; intros M; rewrite M in S; apply S.
  - exact (proj2 (grow_step c alloc client B _ _ _ GI US)).
Qed.

Lemma excl_sound s us hs : pexcl_ok md (PX s us hs) = true -> (forall t, pgthr s t <> None -> In t us) ->
  md = MSync -> pg_exclusive s.
Proof.
  intros H U. assert (G : pguard md (PX s us hs) = Some (PX s us hs)) by (unfold pguard; now rewrite H).
  exact (proj2 (pguard_inv md _ _ G U)).
Qed.

Lemma qload_same m hp t a o i w hp' t' pc' : qstep c m hp t a o (QLoad i w) = (hp', t', pc') -> hp' = hp /\ t' = t.
Proof. cbn [qstep]. destruct (prd _ _ _ _); intros [= <- <- <-]; auto. Qed.
Lemma qupd_same m hp t a o w x hp' t' pc' : qstep c m hp t a o (QUpd w x) = (hp', t', pc') -> t' = t.
Proof. cbn [qstep]. destruct (hp _) as [[]|]; intros [= <- <- <-]; auto. Qed.

Lemma zexec1_sound (client : ucall -> Prop) x l e y :
  zinv x -> zlab client l -> zexec1 x l = Some (e, y) ->
  lts_steps (zstep_of client) (zsys x) (evs e) (zsys y) /\ zinv y.
Proof.
  intros ZI ZL E.
  assert (ONE : zstep_of client (zsys x) e (zsys y) -> pxinv md (fst y) ->
    lts_steps (zstep_of client) (zsys x) (evs e) (zsys y) /\ zinv y).
  { intros S P. split; [destruct e; [eapply ls_vis|eapply ls_tau]; eauto; constructor|]. split; auto.
    destruct ZI as [_ GI].
    assert (S0 : pug_step c B alloc client (zsys x) e (zsys y)).
    { unfold zstep_of in S. destruct md; [exact S|apply S|apply S]. }
    exact (proj2 (grow_step c alloc client B _ _ _ GI S0)). }
  destruct x as [[[v mp me mg hp th] us hs] kd]. pose proof ZI as [XI GI].
  pose proof XI as [XU XH XE]. cbn [fst snd ps pu ph pgthr pgmig] in *.
  assert (UPD : forall tid w, th tid <> None -> forall t, fupd th tid w t <> None -> In t us).
  { intros tid w N t. unfold fupd. destruct (N.eqb_spec t tid) as [->|]; auto. }
  destruct l as [tid q|l|tid n|tid|tid|tid]; cbn [zexec1] in E.
  - destruct (th tid) eqn:Et; [discriminate|]. destruct (pexcl_ok _ _) eqn:X; [|discriminate]. injection E as <- <-.
    assert (U : forall t, fupd th tid (Some (ucall_pop q, v, pstart c (mp v) (ucall_pop q))) t <> None -> In t (tid :: us)).
    { intros t. unfold fupd. destruct (N.eqb_spec t tid) as [->|]; [left; auto|right; auto]. }
    apply ONE; cbn [fst].
    + apply z_mk; [apply pug_inv; auto|intros _; now apply psame_undisturbed|]. cbn [fst ps]. now apply (excl_sound _ _ _ X).
    + split; cbn [ps pu ph pgthr pgmig]; auto. now apply (excl_sound _ _ _ X).
  - destruct (zdo_sound client _ l _ _ ltac:(destruct l; exact ZL || exact Logic.I) ZI E) as [S Y]. apply ONE; auto. apply Y.
  - clear ONE.
    destruct (Nat.iter n (zhelp tid) _) as [z|] eqn:E1; [|discriminate]. injection E as <- <-. cbn [evs].
    clear XI GI XU XH XE UPD ZL. revert z E1. induction n as [|n IH]; intros z E1; simpl in E1.
    + injection E1 as <-. split; [constructor|auto].
    + destruct (Nat.iter n (zhelp tid) _) as [z1|]; [|cbn in E1; discriminate]. destruct (IH z1 eq_refl) as [S1 Y1]. cbn [zhelp] in E1.
      destruct (zdo z1 (XHelps tid 1)) as [[e2 z2]|] eqn:E2; [|discriminate]. injection E1 as <-. cbn [snd].
      destruct (zdo_sound client _ (XHelps tid 1) _ _ Logic.I Y1 E2) as [S2 Y2]. split; auto.
      change (@nil (event mop mres)) with (@nil (event mop mres) ++ []). eapply steps_app; [exact S1|].
      assert (e2 = None).
      { unfold zdo in E2. destruct (zdo1 (fst z1) (XHelps tid 1)) as [[e3 y3]|] eqn:E3; [|discriminate].
        destruct (zguard _ _ _ _); [|discriminate]. injection E2 as <- <-. cbn [zdo1] in E3.
        destruct (phelp1 _ _ _ _); [|discriminate]. now injection E3 as <- <-. }
      subst e2. eapply ls_tau; [exact S2|constructor].
  - destruct (th tid) as [[[o z] pc]|] eqn:Et; try discriminate. destruct pc as [|w|i w|i w cu|w cu|w ou|ou|r|]; try discriminate.
    destruct (kd tid) eqn:K; try discriminate. destruct (qstep _ _ _ _ _ _ _) as [[hp' t'] pc'] eqn:Q.
    destruct pc' as [| | | |w' curr| | | |]; try discriminate. destruct (qload_same _ _ _ _ _ _ _ _ _ _ Q) as [-> ->].
    destruct (pexcl_ok _ _) eqn:X; [|discriminate]. injection E as <- <-.
    apply ONE; cbn [fst].
    + apply z_mk; [eapply pug_find; eauto|intros _; apply psame_undisturbed; cbn; unfold fupd; now destruct (N.eqb_spec v z) as [->|]|].
      cbn [fst ps]. apply (excl_sound _ _ _ X). apply UPD. congruence.
    + split; cbn [ps pu ph pgthr pgmig]; auto; [apply UPD; congruence|]. apply (excl_sound _ _ _ X). apply UPD. congruence.
  - destruct (th tid) as [[[o z] pc]|] eqn:Et; try discriminate. destruct pc as [|w|i w|i w cu|w cu|w ou|ou|r|]; try discriminate.
    destruct (kd tid) eqn:K; try discriminate. destruct (prd _ _ _ _) as [w2|] eqn:R; [|discriminate]. injection E as <- <-.
    apply ONE; cbn [fst]; auto.
    apply z_mk; [eapply pug_read; eauto|intros _; now apply psame_undisturbed|]. exact XE.
  - destruct (th tid) as [[[o z] pc]|] eqn:Et; try discriminate. destruct pc as [|w|i w|i w cu|w cu|w ou|ou|r|]; try discriminate.
    destruct (kd tid) eqn:K; try discriminate. destruct (qstep _ _ _ _ _ _ _) as [[hp' t'] pc'] eqn:Q.
    rewrite (qupd_same _ _ _ _ _ _ _ _ _ _ Q) in Q.
    destruct (pexcl_ok _ _) eqn:X; [|discriminate]. injection E as <- <-.
    apply ONE; cbn [fst].
    + apply z_mk; [eapply pug_apply; eauto|intros _; apply psame_undisturbed; cbn; unfold fupd; now destruct (N.eqb_spec v z) as [->|]|].
      cbn [fst ps]. apply (excl_sound _ _ _ X). apply UPD. congruence.
    + split; cbn [ps pu ph pgthr pgmig]; auto; [apply UPD; congruence|]. apply (excl_sound _ _ _ X). apply UPD. congruence.
Qed.

Lemma zexec_sound (client : ucall -> Prop) x ls tr y :
  zinv x -> Forall (zlab client) ls -> zexec x ls = Some (tr, y) ->
  lts_steps (zstep_of client) (zsys x) tr (zsys y).
Proof.
  revert x tr. induction ls as [|l ls IH]; intros x tr ZI CL E; cbn [zexec] in E.
  - injection E as <- <-. constructor.
  - destruct (zexec1 x l) as [[e x1]|] eqn:E1; [|discriminate].
    destruct (zexec x1 ls) as [[tr1 x2]|] eqn:E2; [|discriminate]. injection E as <- <-. inversion CL; subst.
    destruct (zexec1_sound client x l e x1 ZI) as [S1 Y1]; auto.
    eapply steps_app; [exact S1|]. apply IH; auto.
Qed.

Definition zinit (lg : N) : zx := (PX (pg_init c lg) [] [], fun _ => VOff).

Lemma zexec_init (client : ucall -> Prop) lg ls tr y :
  Forall (zlab client) ls -> zexec (zinit lg) ls = Some (tr, y) ->
  lts_steps (zstep_of client) (pug_init c lg) tr (zsys y).
Proof.
  intros CL E. refine (zexec_sound client (zinit lg) ls tr y _ CL E). split.
  - split; cbn; [intros t X; now elim X|discriminate|intros _ X; now elim X].
  - apply grow_init.
Qed.

End Exec.

(** *** Tables of fixed size *)

Inductive flabel :=
| FInv (tid : N) (q : ucall)
| FRun (tid a : N)
| FRet (tid : N)
| FFind (tid : N)
| FRead (tid : N)
| FApply (tid : N).

Section Fixed.
Context (c : pcfg) (alloc : N -> Prop).

Definition fx := (psys * (N -> qmode))%type.

Definition fexec1 (x : fx) (l : flabel) : option (option (event mop mres) * fx) :=
  let '(PSys hp m t th, kd) := x in
  match l with
  | FInv tid q =>
      match th tid with
      | None => Some (Some (EInv tid (pspec_op (ucall_pop q))),
                  (PSys hp m t (fupd th tid (Some (ucall_pop q, pstart c m (ucall_pop q)))), fupd kd tid (mode_of_call q)))
      | Some _ => None
      end
  | FRun tid a =>
      match th tid, hp a with
      | Some (o, pc), ha =>
          match pc, ha with
          | QDone _, _ | QAlloc, Some _ => None
          | _, _ =>
              let '(hp', t', pc') := qstep c m hp t a o pc in
              if z_on (kd tid) && (is_upd pc || is_upd pc') then None
              else Some (None, (PSys hp' m t' (fupd th tid (Some (o, pc'))), kd))
          end
      | None, _ => None
      end
  | FRet tid =>
      match th tid with
      | Some (o, QDone r) => Some (Some (ERet tid r), (PSys hp m t (fupd th tid None), kd))
      | _ => None
      end
  | FFind tid =>
      match th tid, kd tid with
      | Some (o, QLoad i w), VOn =>
          match qstep c m hp t 0 o (QLoad i w) with
          | (_, _, QUpd w' curr) =>
              Some (None, (PSys hp m t (fupd th tid (Some (o, QUpd w' curr))), fupd kd tid (VAt (remap (pmc c) m i))))
          | _ => None
          end
      | _, _ => None
      end
  | FRead tid =>
      match th tid, kd tid with
      | Some (o, QUpd w curr), VAt p =>
          match prd c m t p with
          | Some w2 => Some (None, (PSys hp m t th, fupd kd tid (VGot w2)))
          | None => None
          end
      | _, _ => None
      end
  | FApply tid =>
      match th tid, kd tid with
      | Some (o, QUpd w curr), VGot w2 =>
          let '(hp', t', pc') := qstep c m hp t 0 o (QUpd w w2) in
          Some (None, (PSys hp' m t' (fupd th tid (Some (o, pc'))), fupd kd tid VOn))
      | _, _ => None
      end
  end.

Fixpoint fexec (x : fx) (ls : list flabel) : option (list (event mop mres) * fx) :=
  match ls with
  | [] => Some ([], x)
  | l :: ls =>
      match fexec1 x l with
      | None => None
      | Some (e, x') =>
          match fexec x' ls with
          | None => None
          | Some (tr, x'') => Some (evs e ++ tr, x'')
          end
      end
  end.

Definition flab (client : ucall -> Prop) (l : flabel) : Prop :=
  match l with FInv _ q => client q | FRun _ a => alloc a | _ => True end.

Lemma fexec1_sound (client : ucall -> Prop) x l e y :
  flab client l -> fexec1 x l = Some (e, y) -> pu_step c alloc client x e y.
Proof.
  intros L E. destruct x as [[hp m t th] kd]. destruct l as [tid q|tid a|tid|tid|tid|tid]; cbn [fexec1] in *.
  - destruct (th tid) eqn:Et; [discriminate|]. injection E as <- <-. now apply pu_inv.
  - destruct (th tid) as [[o pc]|] eqn:Et; [|discriminate].
    assert (E' : (forall r, pc <> QDone r) /\ (pc = QAlloc -> hp a = None) /\
      (let '(hp', t', pc') := qstep c m hp t a o pc in
       if z_on (kd tid) && (is_upd pc || is_upd pc') then None
       else Some (@None (event mop mres), (PSys hp' m t' (fupd th tid (Some (o, pc'))), kd))) = Some (e, y)).
    { destruct pc; try discriminate; destruct (hp a); try discriminate; repeat split; try discriminate; exact E. }
    clear E. destruct E' as (ND & AL & E). destruct (qstep c m hp t a o pc) as [[hp' t'] pc'] eqn:Q.
    destruct (_ && _) eqn:Z; [discriminate|]. injection E as <- <-. apply pu_base.
    + eapply q_run; eauto.
    + intros u o0 pc0 o1 pc1 MD E0 E1 UP. cbn [pthr] in *. unfold fupd in E1. destruct (N.eqb_spec u tid) as [->|]; [|congruence].
      rewrite Et in E0. injection E0 as <- <-. injection E1 as <- <-. rewrite UP in Z. destruct (kd tid); [now elim MD|discriminate..].
  - destruct (th tid) as [[o pc]|] eqn:Et; [|discriminate]. destruct pc; try discriminate. injection E as <- <-. apply pu_base.
    + eapply q_ret; eauto.
    + intros u o0 pc0 o1 pc1 MD E0 E1 UP. cbn [pthr] in *. unfold fupd in E1. destruct (N.eqb_spec u tid) as [->|]; congruence.
  - destruct (th tid) as [[o pc]|] eqn:Et; [|discriminate]. destruct pc as [|w|i w|i w cu|w cu|w ou|ou|r|]; try discriminate.
    destruct (kd tid) eqn:K; try discriminate. destruct (qstep _ _ _ _ _ _ _) as [[hp' t'] pc'] eqn:Q.
    destruct pc' as [| | | |w' curr| | | |]; try discriminate. destruct (qload_same c _ _ _ _ _ _ _ _ _ _ Q) as [-> ->].
    injection E as <- <-. eapply pu_find; eauto.
  - destruct (th tid) as [[o pc]|] eqn:Et; [|discriminate]. destruct pc as [|w|i w|i w cu|w cu|w ou|ou|r|]; try discriminate.
    destruct (kd tid) eqn:K; try discriminate. destruct (prd _ _ _ _) as [w2|] eqn:R; [|discriminate]. injection E as <- <-.
    eapply pu_read; eauto.
  - destruct (th tid) as [[o pc]|] eqn:Et; [|discriminate]. destruct pc as [|w|i w|i w cu|w cu|w ou|ou|r|]; try discriminate.
    destruct (kd tid) eqn:K; try discriminate. destruct (qstep _ _ _ _ _ _ _) as [[hp' t'] pc'] eqn:Q. injection E as <- <-.
    eapply pu_apply; eauto.
Qed.

Lemma fexec_init (client : ucall -> Prop) lg ls tr y :
  Forall (flab client) ls -> fexec (pu_init c lg) ls = Some (tr, y) ->
  lts_steps (pu_step c alloc client) (pu_init c lg) tr y.
Proof.
  generalize (pu_init c lg). intros x. revert x tr.
  induction ls as [|l ls IH]; intros x tr CL E; cbn [fexec] in E.
  - injection E as <- <-. constructor.
  - destruct (fexec1 x l) as [[e x1]|] eqn:E1; [|discriminate].
    destruct (fexec x1 ls) as [[tr1 x2]|] eqn:E2; [|discriminate]. injection E as <- <-. inversion CL; subst.
    pose proof (fexec1_sound client x l e x1 ltac:(assumption) E1) as S.
    destruct e; [eapply ls_vis|eapply ls_tau]; eauto.
Qed.

End Fixed.
