(** An executable scheduler for growing tables of pointer cells, used to exhibit
    concrete executions. *)
From Coq Require Import NArith Bool List Lia.
From Verif Require Import Words Slot SlotFacts Mapper ReturnCode MapSpec LinSpec Base BaseInv BaseExec
  TableSpec Migrate GrowSpec MigrateExec Ptr PtrSpec PtrGrowing PtrGrowingSpec GrowingExec.
Import ListNotations.
Open Scope N_scope.

(** Scheduling decisions; [XRuns tid n a]: [n] steps of a running call, allocations
    return [a]; [XHelps tid n]: [n] steps of a helper. *)
Inductive xlabel :=
| XInv (tid : N) (o : pop)
| XRuns (tid : N) (n a : N)
| XRet (tid : N)
| XGrow (ins del : N)
| XJoin (tid : N)
| XHelps (tid : N) (n : N)
| XPublish.

(** The state, everybody who ever called, everybody who helped. *)
Record px := PX { ps : pgsys; pu : list N; ph : list N }.

Section Exec.
Context (c : pcfg) (B : N) (md : gmode) (alloc : N -> Prop).

Definition pstep_of (client : pop -> Prop) : pgsys -> option (event mop mres) -> pgsys -> Prop :=
  match md with
  | MAny => pgstep c B alloc client
  | MSync => pg_sync_step c B alloc client
  | MAsync => pg_async_step c B alloc client
  end.

Definition off_thr (s : pgsys) (tid : N) : bool :=
  match pgthr s tid with
  | Some (_, _, QLoad _ _) | Some (_, _, QCas _ _ _) => false
  | _ => true
  end.
Definition pexcl_ok (x : px) : bool :=
  match md with
  | MSync => match pgmig (ps x) with None => true | Some _ => forallb (off_thr (ps x)) (pu x) end
  | _ => true
  end.
Definition pcalm_ok (x : px) : bool :=
  match md with
  | MAsync => match pgmig (ps x) with
              | None => true
              | Some (_, h) =>
                  forallb (fun t => match h t with Some (H2Mark _ _) => false | _ => true end) (ph x)
              end
  | _ => true
  end.

Definition pguard (x : px) : option px := if pexcl_ok x then Some x else None.

Definition prun1 (tid a : N) (ox : option px) : option px :=
  match ox with
  | Some (PX (PGSys v mp me mg hp th) us hs) =>
      match th tid with
      | Some (o, u, pc) =>
          match pc with
          | QDone _ => None
          | _ => if match pc with QAlloc => match hp a with None => true | _ => false end | _ => true end
                   && pcalm_ok (PX (PGSys v mp me mg hp th) us hs) then
                   let w := on_version v u pc in
                   let '(hp', t', pc') := qstep c (mp w) hp (me w) a o pc in
                   pguard (PX (PGSys v mp (fupd me w t') mg hp' (fupd th tid (Some (o, w, pc')))) us hs)
                 else None
          end
      | _ => None
      end
  | None => None
  end.

Definition phelp1 (tid : N) (ox : option px) : option px :=
  match ox with
  | Some (PX (PGSys v mp me (Some (k, h)) hp th) us hs) =>
      match h tid with
      | Some pc =>
          let '(s', t', k', pc') := phstep c (mp v) (mp (v + 1)) B hp (me v) (me (v + 1)) k pc in
          Some (PX (PGSys v mp (fupd (fupd me v s') (v + 1) t') (Some (k', fupd h tid (Some pc'))) hp th) us hs)
      | None => None
      end
  | _ => None
  end.

Definition xexec1 (x : px) (l : xlabel) : option (option (event mop mres) * px) :=
  let 'PX (PGSys v mp me mg hp th) us hs := x in
  let ret e x := option_map (fun y => (e, y)) (pguard x) in
  match l with
  | XInv tid o =>
      match th tid with
      | None => ret (Some (EInv tid (pspec_op o)))
                  (PX (PGSys v mp me mg hp (fupd th tid (Some (o, v, pstart c (mp v) o)))) (tid :: us) hs)
      | Some _ => None
      end
  | XRuns tid n a => option_map (fun y => (None, y)) (N.iter n (prun1 tid a) (Some x))
  | XRet tid =>
      match th tid with
      | Some (o, u, QDone r) =>
          ret (Some (ERet tid r)) (PX (PGSys v mp me mg hp (fupd th tid None)) us hs)
      | _ => None
      end
  | XGrow ins del =>
      match mg with
      | None =>
          if addressable_slots (pmc c) (mp v) <? 2 ^ 32 then
            ret None
              (PX (PGSys v (fupd mp (v + 1) (resize (pmc c) (mp v) ins del))
                 (fupd me (v + 1) (ptarget (pmc c) (resize (pmc c) (mp v) ins del)))
                 (Some (0, fun _ => None)) hp th) us [])
          else None
      | Some _ => None
      end
  | XJoin tid =>
      match mg with
      | Some (k, h) =>
          match h tid with
          | None => ret None (PX (PGSys v mp me (Some (k, fupd h tid (Some HClaim))) hp th) us (tid :: hs))
          | Some _ => None
          end
      | None => None
      end
  | XHelps tid n => option_map (fun y => (None, y)) (N.iter n (phelp1 tid) (Some x))
  | XPublish =>
      match mg, hs with
      | Some (k, h), _ :: _ =>
          if forallb (fun t => match h t with Some HEnd => true | _ => false end) hs
          then ret None (PX (PGSys (v + 1) mp me None hp th) us hs) else None
      | _, _ => None
      end
  end.

Fixpoint xexec (x : px) (ls : list xlabel) : option (list (event mop mres) * px) :=
  match ls with
  | [] => Some ([], x)
  | l :: ls =>
      match xexec1 x l with
      | None => None
      | Some (e, x') =>
          match xexec x' ls with
          | None => None
          | Some (tr, x'') => Some (match e with Some e => e :: tr | None => tr end, x'')
          end
      end
  end.

Definition xops_of (ls : list xlabel) : list pop :=
  flat_map (fun l => match l with XInv _ o => [o] | _ => [] end) ls.
Definition xaddrs (ls : list xlabel) : list N :=
  flat_map (fun l => match l with XRuns _ _ a => [a] | _ => [] end) ls.

Record pxinv (x : px) : Prop := {
  pxi_u : forall t, pgthr (ps x) t <> None -> In t (pu x);
  pxi_h : forall k h t, pgmig (ps x) = Some (k, h) -> h t <> None -> In t (ph x);
  pxi_e : md = MSync -> pg_exclusive (ps x) }.

Context (CP : cprob (pmc c) = false).

Lemma pguard_inv x y : pguard x = Some y ->
  (forall t, pgthr (ps x) t <> None -> In t (pu x)) -> y = x /\ (md = MSync -> pg_exclusive (ps x)).
Proof.
  unfold pguard, pexcl_ok. intros H U. destruct md; try (injection H as <-; split; [auto|discriminate]).
  destruct (pgmig (ps x)) as [kh|] eqn:G.
  - destruct (forallb _ _) eqn:F; [|discriminate]. injection H as <-. split; auto.
    intros _ _ tid o v pc E. rewrite forallb_forall in F.
    specialize (F tid (U tid ltac:(congruence))). unfold off_thr in F. rewrite E in F.
    destruct pc; try discriminate; exact Logic.I.
  - injection H as <-. split; auto. intros _ X. congruence.
Qed.

Lemma pno_room s s' : pg_room c s s'.
Proof. intros X. congruence. Qed.

Lemma pmk_step client s e s' :
  pgstep c B alloc client s e s' ->
  (md = MAsync -> pg_undisturbed c s s') -> (md = MSync -> pg_exclusive s') ->
  pstep_of client s e s'.
Proof. unfold pstep_of. intros S U X. destruct md; [exact S| |]; (split; [exact S|split; auto using pno_room]). Qed.

Lemma psame_undisturbed s s' : pgmem s' (pgver s) = pgmem s (pgver s) -> pg_undisturbed c s s'.
Proof. intros E k h tid i curr _ _. left. now rewrite E. Qed.

(** A helper only marks cells of the old table. *)
Lemma phstep_marks ms mt hp src tgt ctr pc src' tgt' ctr' pc' p :
  phstep c ms mt B hp src tgt ctr pc = (src', tgt', ctr', pc') ->
  src' p = src p \/ src' p = option_map w_set_mark (src p).
Proof.
  intros ST.
  assert (K : forall i cell curr ok cell' curr',
     prd c ms src i = Some cell -> w_atomic_mark (pmk c) cell curr = (ok, cell', curr') ->
     fupd src i (Some cell') p = src p \/
     fupd src i (Some cell') p = option_map w_set_mark (src p)).
  { intros i cell curr ok cell' curr' R AM. unfold fupd. destruct (N.eqb_spec p i) as [->|]; auto.
    unfold prd in R. destruct (i <? _); [|discriminate]. rewrite R. cbn.
    unfold w_atomic_mark, w_cas in AM. destruct (pmk c); [|injection AM as _ <- _; auto].
    destruct (N.eqb_spec cell curr) as [->|]; injection AM as _ <- _; auto. }
  destruct pc; cbn [phstep] in ST;
    repeat match type of ST with
    | context [match prd ?a ?b ?d ?e with Some _ => _ | None => _ end] => destruct (prd a b d e) eqn:?
    | context [let '(_, _) := w_atomic_mark ?a ?b ?e in _] =>
        destruct (w_atomic_mark a b e) as [[? ?] ?] eqn:?
    | context [match ?l with [] => _ | _ :: _ => _ end] => destruct l
    | context [if ?b then _ else _] => destruct b
    end; try (injection ST as <- _ _ _; solve [auto|eapply K; eauto]).
Qed.

Lemma prun1_sound client tid a x y : alloc a ->
  pxinv x -> prun1 tid a (Some x) = Some y -> pstep_of client (ps x) None (ps y) /\ pxinv y.
Proof.
  intros AA XI E. destruct x as [[v mp me mg hp th] us hs]. cbn [prun1] in E.
  destruct (th tid) as [[[o u] pc]|] eqn:Et; try discriminate.
  assert (ND : forall r, pc <> QDone r) by (intros r ->; discriminate).
  assert (E' : (if match pc with QAlloc => match hp a with None => true | _ => false end | _ => true end
                   && pcalm_ok (PX (PGSys v mp me mg hp th) us hs) then
                   let w := on_version v u pc in
                   let '(hp', t', pc') := qstep c (mp w) hp (me w) a o pc in
                   pguard (PX (PGSys v mp (fupd me w t') mg hp' (fupd th tid (Some (o, w, pc')))) us hs)
                 else None) = Some y) by (destruct pc; try discriminate; exact E).
  clear E. destruct (_ && _) eqn:CA; [|discriminate]. apply andb_prop in CA. destruct CA as [AL CA]. cbv zeta in E'.
  destruct (qstep c (mp (on_version v u pc)) hp (me (on_version v u pc)) a o pc) as [[hp' t'] pc'] eqn:ST.
  destruct XI as [XU XH XE]. cbn [ps pu ph pgthr pgmig] in *.
  apply pguard_inv in E'.
  2: { cbn. intros t. unfold fupd. destruct (N.eqb_spec t tid) as [->|]; auto. intros _. apply XU. congruence. }
  destruct E' as [-> EX]. cbn [ps] in EX. split.
  - cbn [ps]. apply pmk_step; auto.
    + cbn [ps]. eapply pg_run; eauto. intros ->. split; auto. now destruct (hp a).
    + cbn [ps]. intros MA k h t i curr G Ht. cbn [pgmig] in G. exfalso.
      unfold pcalm_ok in CA. rewrite MA in CA. cbn [ps pgmig] in CA. rewrite G in CA.
      rewrite forallb_forall in CA. specialize (CA t). cbn [ph] in CA. rewrite Ht in CA.
      enough (false = true) by discriminate. apply CA. eapply XH; eauto. congruence.
  - split; cbn [ps pu ph pgthr pgmig]; auto.
    intros t. unfold fupd. destruct (N.eqb_spec t tid) as [->|]; auto. intros _. apply XU. congruence.
Qed.

Lemma phelp1_sound client tid x y :
  pxinv x -> phelp1 tid (Some x) = Some y -> pstep_of client (ps x) None (ps y) /\ pxinv y.
Proof.
  intros XI E. destruct x as [[v mp me mg hp th] us hs]. cbn [phelp1] in E.
  destruct mg as [[k h]|]; [|discriminate]. destruct (h tid) as [pc|] eqn:Et; [|discriminate].
  destruct (phstep c (mp v) (mp (v + 1)) B hp (me v) (me (v + 1)) k pc) as [[[s' t'] k'] pc'] eqn:ST.
  injection E as <-. destruct XI as [XU XH XE]. cbn [ps pu ph pgthr pgmig] in *.
  assert (EX : md = MSync -> pg_exclusive
     (PGSys v mp (fupd (fupd me v s') (v + 1) t') (Some (k', fupd h tid (Some pc'))) hp th)).
  { intros M _. apply (XE M). discriminate. }
  split.
  - cbn [ps]. apply pmk_step; auto.
    + cbn [ps]. eapply pg_help; eauto.
    + cbn [ps]. intros _ k0 h0 t i curr G Ht. cbn [pgver pgmap pgmem pgmig] in *.
      rewrite (fupd_neq (fupd me v s') (v + 1)) by lia. rewrite fupd_eq.
      eapply (phstep_marks (mp v) (mp (v + 1)) hp); eauto.
  - split; cbn [ps pu ph pgthr pgmig]; auto.
    intros k0 h0 t [= <- <-]. unfold fupd. destruct (N.eqb_spec t tid) as [->|]; intros X.
    + eapply XH; eauto. congruence.
    + eapply XH; eauto.
Qed.

Lemma piter_sound (f : option px -> option px) client n x y :
  (forall x y, pxinv x -> f (Some x) = Some y -> pstep_of client (ps x) None (ps y) /\ pxinv y) ->
  f None = None -> pxinv x -> N.iter n f (Some x) = Some y ->
  lts_steps (pstep_of client) (ps x) [] (ps y) /\ pxinv y.
Proof.
  intros FS FN. rewrite N2Nat.inj_iter. generalize (N.to_nat n). clear n. intros n. revert y.
  induction n as [|n IH]; intros y XI E; cbn in E.
  - injection E as <-. split; [constructor|auto].
  - change (f (Nat.iter n f (Some x)) = Some y) in E.
    destruct (Nat.iter n f (Some x)) as [x1|] eqn:E1; [|congruence].
    destruct (IH x1 XI eq_refl) as [S1 X1]. destruct (FS _ _ X1 E) as [S2 X2]. split; auto.
    change (@nil (event mop mres)) with (@nil (event mop mres) ++ []).
    eapply steps_app; [exact S1|]. eapply ls_tau; [exact S2|constructor].
Qed.

Lemma pone_step client x e y :
  pstep_of client (ps x) e (ps y) -> lts_steps (pstep_of client) (ps x) (evs e) (ps y).
Proof. intros S. destruct e; [eapply ls_vis|eapply ls_tau]; eauto; constructor. Qed.

Lemma xexec1_sound (client : pop -> Prop) x l e y :
  pxinv x -> (forall o, In o (xops_of [l]) -> client o) -> (forall a, In a (xaddrs [l]) -> alloc a) ->
  xexec1 x l = Some (e, y) ->
  lts_steps (pstep_of client) (ps x) (evs e) (ps y) /\ pxinv y.
Proof.
  intros XI CL AA E.
  assert (RET : forall e0 z, option_map (fun y => (e0, y)) (pguard z) = Some (e, y) ->
    (forall t, pgthr (ps z) t <> None -> In t (pu z)) ->
    (forall k h t, pgmig (ps z) = Some (k, h) -> h t <> None -> In t (ph z)) ->
    pgstep c B alloc client (ps x) e0 (ps z) ->
    (pgmem (ps z) (pgver (ps x)) = pgmem (ps x) (pgver (ps x))) ->
    lts_steps (pstep_of client) (ps x) (evs e) (ps y) /\ pxinv y).
  { intros e0 z G U H S M. destruct (pguard z) as [z'|] eqn:Gz; [|discriminate].
    injection G as <- <-. destruct (pguard_inv _ _ Gz U) as [-> EX]. split.
    - apply pone_step. apply pmk_step; auto. intros _. now apply psame_undisturbed.
    - split; auto. }
  destruct x as [[v mp me mg hp th] us hs]. pose proof XI as [XU XH XE]. cbn [ps pu ph pgthr pgmig pgmem pgver] in *.
  assert (UPD : forall tid w, th tid <> None -> forall t, fupd th tid w t <> None -> In t us).
  { intros tid w N t. unfold fupd. destruct (N.eqb_spec t tid) as [->|]; auto. }
  destruct l as [tid o|tid n a|tid|ins del|tid|tid n|]; cbn [xexec1] in E.
  - destruct (th tid) eqn:Et; [discriminate|]. eapply RET; [exact E|..]; cbn [ps pu ph pgthr pgmig pgmem pgver]; auto.
    + intros t. unfold fupd. destruct (N.eqb_spec t tid) as [->|]; [left; auto|right; auto].
    + apply pg_inv; auto. apply CL. now left.
  - destruct (N.iter n (prun1 tid a) _) as [z|] eqn:E1; [|discriminate]. injection E as <- <-.
    refine (piter_sound (prun1 tid a) client n _ z _ _ XI E1); [|reflexivity].
    intros x1 x2. apply prun1_sound. apply AA. now left.
  - destruct (th tid) as [[[o u] pc]|] eqn:Et; try discriminate. destruct pc as [| | | | | | |r|]; try discriminate.
    eapply RET; [exact E|..]; cbn [ps pu ph pgthr pgmig pgmem pgver]; auto.
    + apply UPD. congruence.
    + eapply pg_ret; eauto.
  - destruct mg; [discriminate|]. destruct (N.ltb_spec (addressable_slots (pmc c) (mp v)) (2 ^ 32)); [|discriminate].
    eapply RET; [exact E|..]; cbn [ps pu ph pgthr pgmig pgmem pgver]; auto.
    + intros k h t [= <- <-] X. now elim X.
    + apply pg_grow; auto.
    + rewrite fupd_neq by lia. reflexivity.
  - destruct mg as [[k h]|]; [|discriminate]. destruct (h tid) eqn:Eh; [discriminate|].
    eapply RET; [exact E|..]; cbn [ps pu ph pgthr pgmig pgmem pgver]; auto.
    + intros k0 h0 t [= <- <-]. unfold fupd. destruct (N.eqb_spec t tid) as [->|]; [left; auto|].
      intros X. right. eapply XH; eauto.
    + apply pg_join; auto.
  - destruct (N.iter n (phelp1 tid) _) as [z|] eqn:E1; [|discriminate]. injection E as <- <-.
    refine (piter_sound (phelp1 tid) client n _ z _ _ XI E1); [intros x1 x2; apply phelp1_sound|reflexivity].
  - destruct mg as [[k h]|]; [|discriminate]. destruct hs as [|t0 hs]; [discriminate|].
    destruct (forallb _ _) eqn:F; [|discriminate]. rewrite forallb_forall in F.
    eapply RET; [exact E|..]; cbn [ps pu ph pgthr pgmig pgmem pgver]; auto.
    + intros k0 h0 t X. discriminate.
    + apply pg_publish with (k := k) (h := h).
      * exists t0. specialize (F t0 (or_introl eq_refl)). destruct (h t0) as [[]|]; try discriminate. reflexivity.
      * intros t pc Et. specialize (F t (XH _ _ t eq_refl ltac:(congruence))). rewrite Et in F.
        destruct pc; try discriminate. now left.
Qed.

Lemma xexec_sound_from (client : pop -> Prop) x ls tr y :
  pxinv x -> (forall o, In o (xops_of ls) -> client o) -> (forall a, In a (xaddrs ls) -> alloc a) ->
  xexec x ls = Some (tr, y) ->
  lts_steps (pstep_of client) (ps x) tr (ps y) /\ pxinv y.
Proof.
  revert x tr. induction ls as [|l ls IH]; intros x tr XI CL AA E; cbn [xexec] in E.
  - injection E as <- <-. split; [constructor|auto].
  - destruct (xexec1 x l) as [[e x1]|] eqn:E1; [|discriminate].
    destruct (xexec x1 ls) as [[tr1 x2]|] eqn:E2; [|discriminate].
    injection E as <- <-.
    destruct (xexec1_sound client x l e x1 XI) as [S1 X1]; auto.
    { intros o I. apply CL. unfold xops_of in *. cbn [flat_map] in *. apply in_app_iff. left.
      rewrite app_nil_r in I. exact I. }
    { intros o I. apply AA. unfold xaddrs in *. cbn [flat_map] in *. apply in_app_iff. left.
      rewrite app_nil_r in I. exact I. }
    destruct (IH x1 tr1 X1) as [S2 X2]; auto.
    { intros o I. apply CL. unfold xops_of. cbn [flat_map]. apply in_app_iff. now right. }
    { intros o I. apply AA. unfold xaddrs. cbn [flat_map]. apply in_app_iff. now right. }
    split; auto.
    replace (match e with Some e => e :: tr1 | None => tr1 end) with (evs e ++ tr1) by (destruct e; reflexivity).
    eapply steps_app; eauto.
Qed.

Definition xinit (lg : N) : px := PX (pg_init c lg) [] [].

Lemma xexec_sound (client : pop -> Prop) lg ls tr y :
  (forall o, In o (xops_of ls) -> client o) -> (forall a, In a (xaddrs ls) -> alloc a) ->
  xexec (xinit lg) ls = Some (tr, y) ->
  lts_steps (pstep_of client) (pg_init c lg) tr (ps y).
Proof.
  intros CL AA E. refine (proj1 (xexec_sound_from client (xinit lg) ls tr y _ CL AA E)).
  split; cbn.
  - intros t X. now elim X.
  - intros k h t X. discriminate.
  - intros _ X. now elim X.
Qed.

End Exec.

(** A complete call with [n] accesses; a migration by helper [t] making [n] steps. *)
Definition xcall (tid : N) (o : pop) (n a : N) : list xlabel := [XInv tid o; XRuns tid n a; XRet tid].
Definition xmigrate_by (t ins del n : N) : list xlabel := [XGrow ins del; XJoin t; XHelps t n; XPublish].

(** Events and final state of a schedule. *)
Definition xtrace (c : pcfg) (B : N) (md : gmode) (lg : N) (ls : list xlabel) : list (event mop mres) :=
  match xexec c B md (xinit c lg) ls with Some (tr, _) => tr | None => [] end.
Definition xfinal (c : pcfg) (B : N) (md : gmode) (lg : N) (ls : list xlabel) : pgsys :=
  match xexec c B md (xinit c lg) ls with Some (_, x) => ps x | None => pg_init c lg end.
Definition xruns (c : pcfg) (B : N) (md : gmode) (lg : N) (ls : list xlabel) : bool :=
  match xexec c B md (xinit c lg) ls with Some _ => true | None => false end.

Lemma xruns_sound c B md (alloc : N -> Prop) (client : pop -> Prop) lg ls :
  cprob (pmc c) = false -> (forall o, In o (xops_of ls) -> client o) -> (forall a, In a (xaddrs ls) -> alloc a) ->
  xruns c B md lg ls = true ->
  lts_steps (pstep_of c B md alloc client) (pg_init c lg)
    (xtrace c B md lg ls) (xfinal c B md lg ls).
Proof.
  unfold xruns, xtrace, xfinal. intros CP CL AA H.
  destruct (xexec c B md (xinit c lg) ls) as [[tr x]|] eqn:E; [|discriminate].
  eapply xexec_sound; eauto.
Qed.
