(** An executable scheduler for growing tables, used to exhibit concrete
    executions. *)
From Coq Require Import NArith Bool List Lia.
From Verif Require Import Words Slot SlotFacts Mapper ReturnCode MapSpec LinSpec Base BaseInv BaseExec
  TableSpec Migrate GrowSpec MigrateExec Growing GrowingSpec.
Import ListNotations.
Open Scope N_scope.

(** Scheduling decisions; [GRuns tid n]: [n] accesses of a running call,
    [GHelps tid n]: [n] steps of a helper. *)
Inductive glabel :=
| GInv (tid : N) (o : op)
| GGets (tid : N)
| GRuns (tid : N) (n : N)
| GRetry (tid : N)
| GRet (tid : N)
| GGrow (ins del : N)
| GJoin (tid : N)
| GHelps (tid : N) (n : N)
| GPublish.

(** The state, everybody who ever called, everybody who helped. *)
Record gx := GX { xs : gsys; xu : list N; xh : list N }.

(** Which restriction is checked. *)
Inductive gmode := MAny | MSync | MAsync.

Section Exec.
Context (c : tcfg) (B : N) (md : gmode).

Definition step_of (client : op -> Prop) : gsys -> option (event mop mres) -> gsys -> Prop :=
  match md with
  | MAny => gsys_step c B client
  | MSync => sync_step c B client
  | MAsync => async_step c B client
  end.

Definition idle_thr (s : gsys) (tid : N) : bool :=
  match gthr s tid with
  | Some (_, GRun _ (PDone _)) => true
  | Some (_, GRun _ _) => false
  | _ => true
  end.
Definition excl_ok (x : gx) : bool :=
  match md with
  | MSync => match gmig (xs x) with None => true | Some _ => forallb (idle_thr (xs x)) (xu x) end
  | _ => true
  end.
Definition calm_ok (x : gx) : bool :=
  match md with
  | MAsync => match gmig (xs x) with
              | None => true
              | Some (_, h) =>
                  forallb (fun t => match h t with Some (H2Mark _ _) => false | _ => true end) (xh x)
              end
  | _ => true
  end.

Definition guard (x : gx) : option gx := if excl_ok x then Some x else None.

Definition run1 (tid : N) (ox : option gx) : option gx :=
  match ox with
  | Some (GX (GSys v mp me mg th) us hs) =>
      match th tid with
      | Some (o, GRun u pc) =>
          match pc with
          | PDone _ => None
          | _ => if calm_ok (GX (GSys v mp me mg th) us hs) then
                   let '(t', pc') := bstep c (mp u) (me u) true o pc in
                   guard (GX (GSys v mp (fupd me u t') mg (fupd th tid (Some (o, GRun u pc')))) us hs)
                 else None
          end
      | _ => None
      end
  | None => None
  end.

Definition help1 (tid : N) (ox : option gx) : option gx :=
  match ox with
  | Some (GX (GSys v mp me (Some (k, h)) th) us hs) =>
      match h tid with
      | Some pc =>
          let '(s', t', k', pc') := hstep c (mp v) (mp (v + 1)) B (me v) (me (v + 1)) k pc in
          Some (GX (GSys v mp (fupd (fupd me v s') (v + 1) t') (Some (k', fupd h tid (Some pc'))) th) us hs)
      | None => None
      end
  | _ => None
  end.

Definition gexec1 (x : gx) (l : glabel) : option (option (event mop mres) * gx) :=
  let 'GX (GSys v mp me mg th) us hs := x in
  let ret e x := option_map (fun y => (e, y)) (guard x) in
  match l with
  | GInv tid o =>
      match th tid with
      | None => ret (Some (EInv tid (spec_op (tsc c) o)))
                  (GX (GSys v mp me mg (fupd th tid (Some (o, GGet)))) (tid :: us) hs)
      | Some _ => None
      end
  | GGets tid =>
      match th tid with
      | Some (o, GGet) =>
          ret None (GX (GSys v mp me mg (fupd th tid (Some (o, GRun v (start c (mp v) o))))) us hs)
      | _ => None
      end
  | GRuns tid n => option_map (fun y => (None, y)) (N.iter n (run1 tid) (Some x))
  | GRetry tid =>
      match th tid with
      | Some (o, GRun u (PDone r)) =>
          if retries o r then ret None (GX (GSys v mp me mg (fupd th tid (Some (o, GGet)))) us hs) else None
      | _ => None
      end
  | GRet tid =>
      match th tid with
      | Some (o, GRun u (PDone r)) =>
          if retries o r then None
          else ret (Some (ERet tid (gobs o r))) (GX (GSys v mp me mg (fupd th tid None)) us hs)
      | _ => None
      end
  | GGrow ins del =>
      match mg with
      | None =>
          if addressable_slots (tmc c) (mp v) <? 2 ^ 32 then
            ret None
              (GX (GSys v (fupd mp (v + 1) (resize (tmc c) (mp v) ins del))
                 (fupd me (v + 1) (target_mem (tmc c) (resize (tmc c) (mp v) ins del)))
                 (Some (0, fun _ => None)) th) us [])
          else None
      | Some _ => None
      end
  | GJoin tid =>
      match mg with
      | Some (k, h) =>
          match h tid with
          | None => ret None (GX (GSys v mp me (Some (k, fupd h tid (Some HClaim))) th) us (tid :: hs))
          | Some _ => None
          end
      | None => None
      end
  | GHelps tid n => option_map (fun y => (None, y)) (N.iter n (help1 tid) (Some x))
  | GPublish =>
      match mg, hs with
      | Some (k, h), _ :: _ =>
          if forallb (fun t => match h t with Some HEnd => true | _ => false end) hs
          then ret None (GX (GSys (v + 1) mp me None th) us hs) else None
      | _, _ => None
      end
  end.

Fixpoint gexec (x : gx) (ls : list glabel) : option (list (event mop mres) * gx) :=
  match ls with
  | [] => Some ([], x)
  | l :: ls =>
      match gexec1 x l with
      | None => None
      | Some (e, x') =>
          match gexec x' ls with
          | None => None
          | Some (tr, x'') => Some (match e with Some e => e :: tr | None => tr end, x'')
          end
      end
  end.

Definition gops_of (ls : list glabel) : list op :=
  flat_map (fun l => match l with GInv _ o => [o] | _ => [] end) ls.

Record xinv (x : gx) : Prop := {
  xi_u : forall t, gthr (xs x) t <> None -> In t (xu x);
  xi_h : forall k h t, gmig (xs x) = Some (k, h) -> h t <> None -> In t (xh x);
  xi_e : md = MSync -> exclusive (xs x) }.

Context (CP : cprob (tmc c) = false).

Lemma guard_inv x y : guard x = Some y ->
  (forall t, gthr (xs x) t <> None -> In t (xu x)) -> y = x /\ (md = MSync -> exclusive (xs x)).
Proof.
  unfold guard, excl_ok. intros H U. destruct md; try (injection H as <-; split; [auto|discriminate]).
  destruct (gmig (xs x)) as [kh|] eqn:G.
  - destruct (forallb _ _) eqn:F; [|discriminate]. injection H as <-. split; auto.
    intros _ _ tid o v pc E. rewrite forallb_forall in F.
    specialize (F tid (U tid ltac:(congruence))). unfold idle_thr in F. rewrite E in F.
    destruct pc; try discriminate. eauto.
  - injection H as <-. split; auto. intros _ X. congruence.
Qed.

Lemma no_room s s' : room c s s'.
Proof. intros X. congruence. Qed.

(** One step, given that the restriction of asynchronous growing holds. *)
Lemma mk_step client s e s' :
  gsys_step c B client s e s' ->
  (md = MAsync -> g_undisturbed c s s') -> (md = MSync -> exclusive s') ->
  step_of client s e s'.
Proof. unfold step_of. intros S U X. destruct md; [exact S| |]; (split; [exact S|split; auto using no_room]). Qed.

Lemma same_undisturbed s s' : gmem s' (gver s) = gmem s (gver s) -> g_undisturbed c s s'.
Proof. intros E k h tid i curr _ _. left. now rewrite E. Qed.

Lemma run1_sound client tid x y :
  xinv x -> run1 tid (Some x) = Some y -> step_of client (xs x) None (xs y) /\ xinv y.
Proof.
  intros XI E. destruct x as [[v mp me mg th] us hs]. cbn [run1] in E.
  destruct (th tid) as [[o [|u pc]]|] eqn:Et; try discriminate.
  assert (ND : forall r, pc <> PDone r) by (intros r ->; discriminate).
  assert (E' : (if calm_ok (GX (GSys v mp me mg th) us hs) then
                   let '(t', pc') := bstep c (mp u) (me u) true o pc in
                   guard (GX (GSys v mp (fupd me u t') mg (fupd th tid (Some (o, GRun u pc')))) us hs)
                 else None) = Some y) by (destruct pc; try discriminate; exact E).
  clear E. destruct (calm_ok _) eqn:CA; [|discriminate].
  destruct (bstep c (mp u) (me u) true o pc) as [t' pc'] eqn:ST.
  destruct XI as [XU XH XE]. cbn [xs xu xh gthr gmig] in *.
  apply guard_inv in E'.
  2: { cbn. intros t. unfold fupd. destruct (N.eqb_spec t tid) as [->|]; auto. intros _. apply XU. congruence. }
  destruct E' as [-> EX]. cbn [xs] in EX. split.
  - cbn [xs]. apply mk_step; auto.
    + cbn [xs]. eapply g_run; eauto.
    + cbn [xs]. intros MA k h t i curr G Ht. cbn [gmig] in G. exfalso.
      unfold calm_ok in CA. rewrite MA in CA. cbn [xs gmig] in CA. rewrite G in CA.
      rewrite forallb_forall in CA. specialize (CA t). cbn [xh] in CA. rewrite Ht in CA.
      enough (false = true) by discriminate. apply CA. eapply XH; eauto. congruence.
  - split; cbn [xs xu xh gthr gmig]; auto.
    intros t. unfold fupd. destruct (N.eqb_spec t tid) as [->|]; auto. intros _. apply XU. congruence.
Qed.

Lemma help1_sound client tid x y :
  xinv x -> help1 tid (Some x) = Some y -> step_of client (xs x) None (xs y) /\ xinv y.
Proof.
  intros XI E. destruct x as [[v mp me mg th] us hs]. cbn [help1] in E.
  destruct mg as [[k h]|]; [|discriminate]. destruct (h tid) as [pc|] eqn:Et; [|discriminate].
  destruct (hstep c (mp v) (mp (v + 1)) B (me v) (me (v + 1)) k pc) as [[[s' t'] k'] pc'] eqn:ST.
  injection E as <-. destruct XI as [XU XH XE]. cbn [xs xu xh gthr gmig] in *.
  assert (EX : md = MSync -> exclusive
     (GSys v mp (fupd (fupd me v s') (v + 1) t') (Some (k', fupd h tid (Some pc'))) th)).
  { intros M _. apply (XE M). discriminate. }
  split.
  - cbn [xs]. apply mk_step; auto.
    + cbn [xs]. eapply g_help; eauto.
    + cbn [xs]. intros _ k0 h0 t i curr G Ht. cbn [gver gmap gmem gmig] in *.
      rewrite (fupd_neq (fupd me v s') (v + 1)) by lia. rewrite fupd_eq.
      eapply (hstep_marks c (mp v) (mp (v + 1)) B); eauto.
  - split; cbn [xs xu xh gthr gmig]; auto.
    intros k0 h0 t [= <- <-]. unfold fupd. destruct (N.eqb_spec t tid) as [->|]; intros X.
    + eapply XH; eauto. congruence.
    + eapply XH; eauto.
Qed.

Lemma iter_sound (f : option gx -> option gx) client n x y :
  (forall x y, xinv x -> f (Some x) = Some y -> step_of client (xs x) None (xs y) /\ xinv y) ->
  f None = None -> xinv x -> N.iter n f (Some x) = Some y ->
  lts_steps (step_of client) (xs x) [] (xs y) /\ xinv y.
Proof.
  intros FS FN. rewrite N2Nat.inj_iter. generalize (N.to_nat n). clear n. intros n. revert y.
  induction n as [|n IH]; intros y XI E; cbn in E.
  - injection E as <-. split; [constructor|auto].
  - change (f (Nat.iter n f (Some x)) = Some y) in E.
    destruct (Nat.iter n f (Some x)) as [x1|] eqn:E1; [|congruence].
    destruct (IH x1 XI eq_refl) as [S1 X1]. destruct (FS _ _ X1 E) as [S2 X2]. split; auto.
    change (@nil (event mop mres)) with (@nil (event mop mres) ++ []).
    eapply steps_app; [exact S1|]. eapply ls_tau; [exact S2|constructor].
Qed.

Definition evs (e : option (event mop mres)) := match e with Some e => [e] | None => [] end.

Lemma one_step client x e y :
  step_of client (xs x) e (xs y) -> lts_steps (step_of client) (xs x) (evs e) (xs y).
Proof. intros S. destruct e; [eapply ls_vis|eapply ls_tau]; eauto; constructor. Qed.

Lemma gexec1_sound (client : op -> Prop) x l e y :
  xinv x -> (forall o, In o (gops_of [l]) -> client o) -> gexec1 x l = Some (e, y) ->
  lts_steps (step_of client) (xs x) (evs e) (xs y) /\ xinv y.
Proof.
  intros XI CL E.
  assert (RET : forall e0 z, option_map (fun y => (e0, y)) (guard z) = Some (e, y) ->
    (forall t, gthr (xs z) t <> None -> In t (xu z)) ->
    (forall k h t, gmig (xs z) = Some (k, h) -> h t <> None -> In t (xh z)) ->
    gsys_step c B client (xs x) e0 (xs z) ->
    (gmem (xs z) (gver (xs x)) = gmem (xs x) (gver (xs x))) ->
    lts_steps (step_of client) (xs x) (evs e) (xs y) /\ xinv y).
  { intros e0 z G U H S M. destruct (guard z) as [z'|] eqn:Gz; [|discriminate].
    injection G as <- <-. destruct (guard_inv _ _ Gz U) as [-> EX]. split.
    - apply one_step. apply mk_step; auto. intros _. now apply same_undisturbed.
    - split; auto. }
  destruct x as [[v mp me mg th] us hs]. pose proof XI as [XU XH XE]. cbn [xs xu xh gthr gmig gmem gver] in *.
  assert (UPD : forall tid w, th tid <> None -> forall t, fupd th tid w t <> None -> In t us).
  { intros tid w N t. unfold fupd. destruct (N.eqb_spec t tid) as [->|]; auto. }
  destruct l as [tid o|tid|tid n|tid|tid|ins del|tid|tid n|]; cbn [gexec1] in E.
  - destruct (th tid) eqn:Et; [discriminate|]. eapply RET; [exact E|..]; cbn [xs xu xh gthr gmig gmem gver]; auto.
    + intros t. unfold fupd. destruct (N.eqb_spec t tid) as [->|]; [left; auto|right; auto].
    + apply g_inv; auto. apply CL. now left.
  - destruct (th tid) as [[o [|u pc]]|] eqn:Et; try discriminate.
    eapply RET; [exact E|..]; cbn [xs xu xh gthr gmig gmem gver]; auto.
    + apply UPD. congruence.
    + apply g_get; auto.
  - destruct (N.iter n (run1 tid) _) as [z|] eqn:E1; [|discriminate]. injection E as <- <-.
    refine (iter_sound (run1 tid) client n _ z _ _ XI E1); [intros a b; apply run1_sound|reflexivity].
  - destruct (th tid) as [[o [|u [| | | |r|]]]|] eqn:Et; try discriminate.
    destruct (retries o r) eqn:R; [|discriminate].
    eapply RET; [exact E|..]; cbn [xs xu xh gthr gmig gmem gver]; auto.
    + apply UPD. congruence.
    + eapply g_retry; eauto.
  - destruct (th tid) as [[o [|u [| | | |r|]]]|] eqn:Et; try discriminate.
    destruct (retries o r) eqn:R; [discriminate|].
    eapply RET; [exact E|..]; cbn [xs xu xh gthr gmig gmem gver]; auto.
    + apply UPD. congruence.
    + eapply g_ret; eauto.
  - destruct mg; [discriminate|]. destruct (N.ltb_spec (addressable_slots (tmc c) (mp v)) (2 ^ 32)); [|discriminate].
    eapply RET; [exact E|..]; cbn [xs xu xh gthr gmig gmem gver]; auto.
    + intros k h t [= <- <-] X. now elim X.
    + apply g_grow; auto.
    + rewrite fupd_neq by lia. reflexivity.
  - destruct mg as [[k h]|]; [|discriminate]. destruct (h tid) eqn:Eh; [discriminate|].
    eapply RET; [exact E|..]; cbn [xs xu xh gthr gmig gmem gver]; auto.
    + intros k0 h0 t [= <- <-]. unfold fupd. destruct (N.eqb_spec t tid) as [->|]; [left; auto|].
      intros X. right. eapply XH; eauto.
    + apply g_join; auto.
  - destruct (N.iter n (help1 tid) _) as [z|] eqn:E1; [|discriminate]. injection E as <- <-.
    refine (iter_sound (help1 tid) client n _ z _ _ XI E1); [intros a b; apply help1_sound|reflexivity].
  - destruct mg as [[k h]|]; [|discriminate]. destruct hs as [|t0 hs]; [discriminate|].
    destruct (forallb _ _) eqn:F; [|discriminate]. rewrite forallb_forall in F.
    eapply RET; [exact E|..]; cbn [xs xu xh gthr gmig gmem gver]; auto.
    + intros k0 h0 t X. discriminate.
    + apply g_publish.
      * exists t0. specialize (F t0 (or_introl eq_refl)). destruct (h t0) as [[]|]; try discriminate. reflexivity.
      * intros t pc Et. specialize (F t (XH _ _ t eq_refl ltac:(congruence))). rewrite Et in F.
        destruct pc; try discriminate. now left.
Qed.

Lemma gexec_sound_from (client : op -> Prop) x ls tr y :
  xinv x -> (forall o, In o (gops_of ls) -> client o) -> gexec x ls = Some (tr, y) ->
  lts_steps (step_of client) (xs x) tr (xs y) /\ xinv y.
Proof.
  revert x tr. induction ls as [|l ls IH]; intros x tr XI CL E; cbn [gexec] in E.
  - injection E as <- <-. split; [constructor|auto].
  - destruct (gexec1 x l) as [[e x1]|] eqn:E1; [|discriminate].
    destruct (gexec x1 ls) as [[tr1 x2]|] eqn:E2; [|discriminate].
    injection E as <- <-.
    destruct (gexec1_sound client x l e x1 XI) as [S1 X1]; auto.
    { intros o I. apply CL. unfold gops_of in *. cbn [flat_map] in *. apply in_app_iff. left.
      rewrite app_nil_r in I. exact I. }
    destruct (IH x1 tr1 X1) as [S2 X2]; auto.
    { intros o I. apply CL. unfold gops_of. cbn [flat_map]. apply in_app_iff. now right. }
    split; auto.
    replace (match e with Some e => e :: tr1 | None => tr1 end) with (evs e ++ tr1) by (destruct e; reflexivity).
    eapply steps_app; eauto.
Qed.

Definition ginit (lg : N) : gx := GX (gsys_init c lg) [] [].

Lemma gexec_sound (client : op -> Prop) lg ls tr y :
  (forall o, In o (gops_of ls) -> client o) -> gexec (ginit lg) ls = Some (tr, y) ->
  lts_steps (step_of client) (gsys_init c lg) tr (xs y).
Proof.
  intros CL E. refine (proj1 (gexec_sound_from client (ginit lg) ls tr y _ CL E)).
  split; cbn.
  - intros t X. now elim X.
  - intros k h t X. discriminate.
  - intros _ X. now elim X.
Qed.

End Exec.

(** A complete call with [n] accesses; a migration by helper [t] making [n] steps. *)
Definition gcall (tid : N) (o : op) (n : N) : list glabel := [GInv tid o; GGets tid; GRuns tid n; GRet tid].
Definition migrate_by (t ins del n : N) : list glabel := [GGrow ins del; GJoin t; GHelps t n; GPublish].

(** Events and final state of a schedule. *)
Definition gtrace (c : tcfg) (B : N) (md : gmode) (lg : N) (ls : list glabel) : list (event mop mres) :=
  match gexec c B md (ginit c lg) ls with Some (tr, _) => tr | None => [] end.
Definition gfinal (c : tcfg) (B : N) (md : gmode) (lg : N) (ls : list glabel) : gsys :=
  match gexec c B md (ginit c lg) ls with Some (_, x) => xs x | None => gsys_init c lg end.
Definition gruns (c : tcfg) (B : N) (md : gmode) (lg : N) (ls : list glabel) : bool :=
  match gexec c B md (ginit c lg) ls with Some _ => true | None => false end.

Lemma gruns_sound c B md lg ls :
  cprob (tmc c) = false -> gruns c B md lg ls = true ->
  lts_steps (step_of c B md (fun o => In o (gops_of ls))) (gsys_init c lg)
    (gtrace c B md lg ls) (gfinal c B md lg ls).
Proof.
  unfold gruns, gtrace, gfinal. intros CP H.
  destruct (gexec c B md (ginit c lg) ls) as [[tr x]|] eqn:E; [|discriminate].
  eapply gexec_sound; eauto.
Qed.

Lemma gexec_steps c B md lg ls tr x :
  cprob (tmc c) = false -> gexec c B md (ginit c lg) ls = Some (tr, x) ->
  lts_steps (step_of c B md (fun o => In o (gops_of ls))) (gsys_init c lg) tr (xs x).
Proof.
  intros CP E. pose proof (gruns_sound c B md lg ls CP) as S. unfold gruns, gtrace, gfinal in S. rewrite E in S. auto.
Qed.
