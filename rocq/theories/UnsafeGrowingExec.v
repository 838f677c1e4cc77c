(** An executable scheduler for unsafe updates on growing tables, used to exhibit concrete
    executions. *)
From Coq Require Import NArith Bool List Lia.
From Verif Require Import Words Slot Mapper ReturnCode MapSpec LinSpec Base BaseInv BaseExec
  TableSpec Migrate GrowSpec MigrateExec Growing GrowingSpec GrowingExec Tso Unsafe UnsafeGrowing UnsafeGrowingSpec.
Import ListNotations.
Open Scope N_scope.

(** Scheduling decisions; [YHelps tid n]: [n] steps of a helper; [YDo]: one step of
    Growing.v. *)
Inductive ylabel :=
| YInv (tid : N) (q : call)
| YDo (l : glabel)
| YHelps (tid : N) (n : nat)
| YRead (tid : N)
| YStore (tid : N).

Definition yx := (gx * (N -> umode))%type.

Section Exec.
Context (c : tcfg) (B : N) (CP : cprob (tmc c) = false).

Definition is_on (m : umode) : bool := match m with UOff => false | _ => true end.
Definition at_upd (x : option (op * gpc)) : bool :=
  match x with Some (_, GRun _ (PUpd _ _)) => true | _ => false end.
Definition changes (o : op) : bool :=
  match o with OUpdate _ _ | OUpdateB _ _ | OIou _ _ _ | OErase _ | OEraseIf _ _ => true | _ => false end.

Definition apart_ok (us : list N) (s : gsys) (kd : N -> umode) : bool :=
  forallb (fun u => forallb (fun w =>
    match gthr s u, gthr s w with
    | Some (o, _), Some (o', _) => (u =? w) || negb (is_on (kd u)) || negb (changes o') || negb (op_key o =? op_key o')
    | _, _ => true
    end) us) us.

(** One step of Growing.v. *)
Definition do1 (x : gx) (l : glabel) : option (option (event mop mres) * gx) :=
  match l with
  | GRuns tid _ => option_map (fun y => (None, y)) (run1 c MSync tid (Some x))
  | GHelps tid _ => option_map (fun y => (None, y)) (help1 c B tid (Some x))
  | GInv _ _ => None
  | _ => gexec1 c B MSync x l
  end.

Definition yguard (kd : N -> umode) (s : gsys) (y : gx) : bool :=
  forallb (fun u => negb (is_on (kd u) && at_upd (gthr s u)) || at_upd (gthr (xs y) u)) (xu y)
  && apart_ok (xu y) (xs y) kd.

Definition ydo (x : yx) (l : glabel) : option (option (event mop mres) * yx) :=
  match do1 (fst x) l with
  | Some (e, y) => if yguard (snd x) (xs (fst x)) y then Some (e, (y, snd x)) else None
  | None => None
  end.

Definition yhelp (tid : N) (ox : option yx) : option yx :=
  match ox with Some x => option_map snd (ydo x (GHelps tid 1)) | None => None end.

Definition yexec1 (x : yx) (l : ylabel) : option (option (event mop mres) * yx) :=
  let '(GX (GSys v mp me mg th) us hs, kd) := x in
  match l with
  | YInv tid q =>
      match th tid with
      | None =>
          let s' := GSys v mp me mg (fupd th tid (Some (as_safe q, GGet))) in
          let kd' := fupd kd tid (mode_of q) in
          if apart_ok (tid :: us) s' kd'
          then Some (Some (EInv tid (spec_op (tsc c) (as_safe q))), (GX s' (tid :: us) hs, kd')) else None
      | Some _ => None
      end
  | YDo l => ydo x l
  | YHelps tid n => 
      option_map (fun y => (None, y))
        (Nat.iter n (yhelp tid) (Some x))
  | YRead tid =>
      match th tid, kd tid with
      | Some (o, GRun w (PUpd i y)), UOn =>
          match rd c (mp w) (me w) (remap (tmc c) (mp w) i) with
          | Some curr => 
              let kd' := fupd kd tid (URead curr) in
              if apart_ok us (GSys v mp me mg th) kd' then Some (None, (GX (GSys v mp me mg th) us hs, kd')) else None
          | None => None
          end
      | _, _ => None
      end
  | YStore tid =>
      match th tid, kd tid, mg with
      | Some (o, GRun w (PUpd i y)), URead curr, None =>
          let s' := GSys v mp (fupd me w (store_word (me w) (remap (tmc c) (mp w) i, fn (op_fun o) (sdata curr)))) None
            (fupd th tid (Some (o, GRun w (PDone (BRet RC_SUCCESS_UP
              (fst (non_atomic_update (tsc c) curr (op_fun o))) (Some (remap (tmc c) (mp w) i))))))) in
          if apart_ok us s' (fupd kd tid UOn) then Some (None, (GX s' us hs, fupd kd tid UOn)) else None
      | _, _, _ => None
      end
  end.

Fixpoint yexec (x : yx) (ls : list ylabel) : option (list (event mop mres) * yx) :=
  match ls with
  | [] => Some ([], x)
  | l :: ls =>
      match yexec1 x l with
      | None => None
      | Some (e, x') =>
          match yexec x' ls with
          | None => None
          | Some (tr, x'') => Some (evs e ++ tr, x'')
          end
      end
  end.

Definition ycalls (ls : list ylabel) : list call :=
  flat_map (fun l => match l with YInv _ q => [q] | _ => [] end) ls.

Lemma is_on_iff m : m <> UOff <-> is_on m = true.
Proof. destruct m; cbn; split; congruence. Qed.

Lemma changes_iff o : updating o \/ erasing o -> changes o = true.
Proof. destruct o; cbn; tauto. Qed.

Lemma apart_ok_sound us s kd :
  (forall t, gthr s t <> None -> In t us) -> apart_ok us s kd = true -> ug_apart (s, kd).
Proof.
  intros U H u w o o' p p' NE Eu Ew MD CH EK. cbn [fst snd] in *. unfold apart_ok in H.
  rewrite forallb_forall in H. specialize (H u (U u ltac:(congruence))).
  rewrite forallb_forall in H. specialize (H w (U w ltac:(congruence))). rewrite Eu, Ew in H.
  apply is_on_iff in MD. rewrite MD, (changes_iff _ CH), EK, N.eqb_refl in H.
  destruct (N.eqb_spec u w); [congruence|discriminate].
Qed.

(** A step either leaves a call that has found its key alone or completes it. *)
Lemma upd_moves s l s' u o v i y :
  gsys_step c B nobody s l s' -> gthr s u = Some (o, GRun v (PUpd i y)) -> at_upd (gthr s' u) = true ->
  gthr s' u = gthr s u.
Proof.
  intros S E A. destruct S as [z mp me mg th tid o' E0 CL|z mp me mg th tid o' E0|z mp me mg th tid o' w pc b t' pc' E0 ND ST
    |z mp me mg th tid o' w r E0 RT|z mp me mg th tid o' w r E0 RT|z mp me th ins del LT
    |z mp me k h th tid E0|z mp me k h th tid pc s' t' k' pc' E0 ST|z mp me k h th EX FIN]; cbn [gthr] in *; auto;
    unfold fupd in *; destruct (N.eqb_spec u tid) as [->|]; auto; rewrite E in E0; try discriminate.
  injection E0 as <- <- <-. exfalso. cbn [bstep] in ST. destruct (rd _ _ _ _); [|injection ST as <- <-; discriminate].
  destruct (atomic_update _ _ _ _) as [[? []] ?]; [injection ST as <- <-; discriminate|].
  destruct o; try destruct b; injection ST as <- <-; discriminate.
Qed.

Definition yinv (x : yx) : Prop := xinv MSync (fst x) /\ ug_apart (xs (fst x), snd x).
Definition ysys (x : yx) : ugsys := (xs (fst x), snd x).

Lemma do1_sound x l e y :
  xinv MSync x -> do1 x l = Some (e, y) -> step_of c B MSync nobody (xs x) e (xs y) /\ xinv MSync y.
Proof.
  intros XI E.
  assert (RET : forall e0 z, option_map (fun y => (e0, y)) (guard MSync z) = Some (e, y) ->
    (forall t, gthr (xs z) t <> None -> In t (xu z)) ->
    (forall k h t, gmig (xs z) = Some (k, h) -> h t <> None -> In t (xh z)) ->
    gsys_step c B nobody (xs x) e0 (xs z) ->
    step_of c B MSync nobody (xs x) e (xs y) /\ xinv MSync y).
  { intros e0 z G U H S. destruct (guard MSync z) as [z'|] eqn:Gz; [|discriminate].
    injection G as <- <-. destruct (guard_inv MSync _ _ Gz U) as [-> EX]. split.
    - apply mk_step; auto. discriminate.
    - split; auto. }
  destruct x as [[v mp me mg th] us hs]. pose proof XI as [XU XH XE]. cbn [xs xu xh gthr gmig gmem gver] in *.
  assert (UPD : forall tid w, th tid <> None -> forall t, fupd th tid w t <> None -> In t us).
  { intros tid w N t. unfold fupd. destruct (N.eqb_spec t tid) as [->|]; auto. }
  destruct l as [tid o|tid|tid n|tid|tid|ins del|tid|tid n|]; cbn [do1 gexec1] in E.
  - discriminate.
  - destruct (th tid) as [[o [|u pc]]|] eqn:Et; try discriminate.
    eapply RET; [exact E|..]; cbn [xs xu xh gthr gmig gmem gver]; auto.
    + apply UPD. congruence.
    + apply g_get; auto.
  - destruct (run1 c MSync tid (Some _)) as [z|] eqn:E1; [|discriminate]. injection E as <- <-.
    exact (run1_sound c B MSync CP nobody tid _ z XI E1).
  - destruct (th tid) as [[o [|u [| | | |r|]]]|] eqn:Et; try discriminate.
    destruct (retries o r) eqn:R; [|discriminate].
    eapply RET; [exact E|..]; cbn [xs xu xh gthr gmig gmem gver]; auto.
    + apply UPD. congruence.
    + eapply g_retry; eauto.
  - destruct (th tid) as [[o [|u [| | | |r|]]]|] eqn:Et; try discriminate.
    destruct (retries o r) eqn:R; [discriminate|].
    eapply RET; [exact E|..]; cbn [xs xu xh gthr gmig gmem gver]; auto.
    + apply UPD. congruence.
    + eapply g_ret; eauto.
  - destruct mg; [discriminate|]. destruct (N.ltb_spec (addressable_slots (tmc c) (mp v)) (2 ^ 32)); [|discriminate].
    eapply RET; [exact E|..]; cbn [xs xu xh gthr gmig gmem gver]; auto.
    + intros k h t [= <- <-] X. now elim X.
    + apply g_grow; auto.
  - destruct mg as [[k h]|]; [|discriminate]. destruct (h tid) eqn:Eh; [discriminate|].
    eapply RET; [exact E|..]; cbn [xs xu xh gthr gmig gmem gver]; auto.
    + intros k0 h0 t [= <- <-]. unfold fupd. destruct (N.eqb_spec t tid) as [->|]; [left; auto|].
      intros X. right. eapply XH; eauto.
    + apply g_join; auto.
  - destruct (help1 c B tid (Some _)) as [z|] eqn:E1; [|discriminate]. injection E as <- <-.
    exact (help1_sound c B MSync CP nobody tid _ z XI E1).
  - destruct mg as [[k h]|]; [|discriminate]. destruct hs as [|t0 hs]; [discriminate|].
    destruct (forallb _ _) eqn:F; [|discriminate]. rewrite forallb_forall in F.
    eapply RET; [exact E|..]; cbn [xs xu xh gthr gmig gmem gver]; auto.
    + intros k0 h0 t X. discriminate.
    + apply g_publish.
      * exists t0. specialize (F t0 (or_introl eq_refl)). destruct (h t0) as [[]|]; try discriminate. reflexivity.
      * intros t pc Et. specialize (F t (XH _ _ t eq_refl ltac:(congruence))). rewrite Et in F.
        destruct pc; try discriminate. now left.
Qed.

Lemma xinv_threads x y l e : xinv MSync x -> do1 x l = Some (e, y) -> forall t, gthr (xs x) t <> None -> In t (xu y).
Proof.
  intros XI E t T. assert (I : In t (xu x)) by now apply XI.
  assert (G : forall e0 z, option_map (fun y => (e0, y)) (guard MSync z) = Some (e, y) -> y = z).
  { intros e0 z H. unfold guard in H. destruct (excl_ok _ _); [|discriminate]. now injection H as <- <-. }
  destruct x as [[v mp me mg th] us hs]. cbn [xu] in I.
  destruct l; cbn [do1 gexec1] in E; try discriminate.
  - destruct (th tid) as [[o [|u pc]]|]; try discriminate. apply G in E. now subst.
  - destruct (run1 c MSync tid (Some _)) as [z|] eqn:E1; [|discriminate]. injection E as <- <-. cbn [run1] in E1.
    destruct (th tid) as [[o [|u pc]]|]; try discriminate. 
    destruct pc; try discriminate; cbn [calm_ok] in E1; destruct (bstep _ _ _ _ _ _); unfold guard in E1;
      destruct (excl_ok _ _); try discriminate; injection E1 as <-; exact I.
  - destruct (th tid) as [[o [|u [| | | |r|]]]|]; try discriminate. destruct (retries o r); [|discriminate]. apply G in E. now subst.
  - destruct (th tid) as [[o [|u [| | | |r|]]]|]; try discriminate. destruct (retries o r); [discriminate|]. apply G in E. now subst.
  - destruct mg; [discriminate|]. destruct (_ <? _); [|discriminate]. apply G in E. now subst.
  - destruct mg as [[k h]|]; [|discriminate]. destruct (h tid); [discriminate|]. apply G in E. now subst.
  - destruct (help1 c B tid (Some _)) as [z|] eqn:E1; [|discriminate]. injection E as <- <-. cbn [help1] in E1.
    destruct mg as [[k h]|]; [|discriminate]. destruct (h tid); [|discriminate].
    destruct (hstep _ _ _ _ _ _ _ _) as [[[? ?] ?] ?]. injection E1 as <-. exact I.
  - destruct mg as [[k h]|]; [|discriminate]. destruct hs; [discriminate|]. destruct (forallb _ _); [|discriminate].
    apply G in E. now subst.
Qed.

Lemma ydo_sound (client : call -> Prop) x l e y :
  yinv x -> ydo x l = Some (e, y) -> ug_sync_step c B client (ysys x) e (ysys y) /\ yinv y.
Proof.
  intros [XI AP] E. unfold ydo in E. destruct (do1 (fst x) l) as [[e1 y1]|] eqn:E1; [|discriminate].
  destruct (yguard _ _ _) eqn:G; [|discriminate]. injection E as <- <-.
  destruct (do1_sound _ _ _ _ XI E1) as [(S & X & R) XI']. unfold yguard in G. apply andb_prop in G.
  destruct G as [G1 G2]. 
  assert (AP' : ug_apart (xs y1, snd x)) by (eapply apart_ok_sound; [apply XI'|exact G2]).
  split; [|split; auto].
  unfold ysys. cbn [fst snd]. split; [|split; [exact X|split; [exact R|split; [exact AP|exact AP']]]].
  apply ug_base; auto. intros u o v i z Eu MD. eapply upd_moves; eauto.
  rewrite forallb_forall in G1. specialize (G1 u (xinv_threads _ _ _ _ XI E1 u ltac:(congruence))).
  apply is_on_iff in MD. rewrite MD, Eu in G1. exact G1.
Qed.

Lemma yexec1_sound (client : call -> Prop) x l e y :
  yinv x -> (forall q, In q (ycalls [l]) -> client q) -> yexec1 x l = Some (e, y) ->
  lts_steps (ug_sync_step c B client) (ysys x) (evs e) (ysys y) /\ yinv y.
Proof.
  intros YI CL E.
  assert (ONE : ug_sync_step c B client (ysys x) e (ysys y) -> lts_steps (ug_sync_step c B client) (ysys x) (evs e) (ysys y)).
  { intros S. destruct e; [eapply ls_vis|eapply ls_tau]; eauto; constructor. }
  destruct x as [[[v mp me mg th] us hs] kd]. pose proof YI as [XI AP].
  pose proof XI as [XU XH XE]. cbn [fst snd xs xu xh gthr gmig] in *.
  destruct l as [tid q|l|tid n|tid|tid]; cbn [yexec1] in E.
  - destruct (th tid) eqn:Et; [discriminate|]. destruct (apart_ok _ _ _) eqn:A; [|discriminate]. injection E as <- <-.
    assert (U : forall t, fupd th tid (Some (as_safe q, GGet)) t <> None -> In t (tid :: us)).
    { intros t. unfold fupd. destruct (N.eqb_spec t tid) as [->|]; [left; auto|right; auto]. }
    assert (X : exclusive (GSys v mp me mg (fupd th tid (Some (as_safe q, GGet))))).
    { intros M t o w pc Et'. cbn [gthr gmig] in *. unfold fupd in Et'. destruct (N.eqb_spec t tid) as [->|]; [discriminate|].
      eapply (XE eq_refl M); eauto. }
    assert (AP' := apart_ok_sound (tid :: us) (GSys v mp me mg (fupd th tid (Some (as_safe q, GGet)))) _ U A).
    split; [apply ONE|split; auto].
    + unfold ysys. cbn [fst snd xs]. split; [apply ug_inv; auto; apply CL; now left|].
      split; [exact X|]. split; [now apply no_room|]. split; auto.
    + cbn [fst xs]. split; cbn [xs xu xh gthr gmig]; auto.
  - destruct (ydo_sound client _ _ _ _ YI E) as [S Y]. split; auto.
  - clear ONE.
    destruct (Nat.iter n (yhelp tid) _) as [z|] eqn:E1; [|discriminate]. injection E as <- <-. cbn [evs].
    clear XI XU XH XE AP CL. revert z E1. induction n as [|n IH]; intros z E1; simpl in E1.
    + injection E1 as <-. split; [constructor|auto].
    + destruct (Nat.iter n (yhelp tid) _) as [z1|]; [|cbn in E1; discriminate]. destruct (IH z1 eq_refl) as [S1 Y1]. cbn [yhelp] in E1.
      destruct (ydo z1 (GHelps tid 1)) as [[e2 z2]|] eqn:E2; [|discriminate]. injection E1 as <-. cbn [snd].
      destruct (ydo_sound client _ _ _ _ Y1 E2) as [S2 Y2]. split; auto.
      change (@nil (event mop mres)) with (@nil (event mop mres) ++ []). eapply steps_app; [exact S1|].
      assert (e2 = None).
      { unfold ydo in E2. destruct (do1 (fst z1) (GHelps tid 1)) as [[e3 y3]|] eqn:E3; [|discriminate].
        destruct (yguard _ _ _); [|discriminate]. injection E2 as <- <-. cbn [do1] in E3.
        destruct (help1 _ _ _ _); [|discriminate]. now injection E3 as <- <-. }
      subst e2. eapply ls_tau; [exact S2|constructor].
  - destruct (th tid) as [[o [|w pc]]|] eqn:Et; try discriminate. destruct pc as [i|i z|i z|i z|r|]; try discriminate.
    destruct (kd tid) eqn:K; try discriminate. destruct (rd _ _ _ _) as [curr|] eqn:R; [|discriminate].
    destruct (apart_ok _ _ _) eqn:A; [|discriminate]. injection E as <- <-.
    assert (AP' := apart_ok_sound us (GSys v mp me mg th) _ XU A).
    split; [apply ONE|split; auto].
    unfold ysys. cbn [fst snd xs]. split; [eapply ug_read; eauto|]. split; [auto|]. split; [now apply no_room|]. split; auto.
  - destruct (th tid) as [[o [|w pc]]|] eqn:Et; try discriminate. destruct pc as [i|i z|i z|i z|r|]; try discriminate.
    destruct (kd tid) eqn:K; try discriminate. destruct mg; [discriminate|].
    destruct (apart_ok _ _ _) eqn:A; [|discriminate]. injection E as <- <-.
    match type of A with apart_ok us ?s ?k = _ => set (s' := s) in *; set (k' := k) in * end.
    assert (U : forall t, gthr s' t <> None -> In t us).
    { intros t. unfold s'. cbn [gthr]. unfold fupd. destruct (N.eqb_spec t tid) as [->|]; auto. intros _. apply XU. congruence. }
    assert (X : exclusive s') by (intros M; now elim M).
    assert (AP' := apart_ok_sound _ _ _ U A).
    split; [apply ONE|split; auto].
    + unfold ysys. cbn [fst snd xs]. split; [eapply ug_store; eauto|]. split; [auto|]. split; [now apply no_room|]. split; auto.
    + cbn [fst]. split; cbn [xs xu xh]; auto.
Qed.

Lemma yexec_sound (client : call -> Prop) x ls tr y :
  yinv x -> (forall q, In q (ycalls ls) -> client q) -> yexec x ls = Some (tr, y) ->
  lts_steps (ug_sync_step c B client) (ysys x) tr (ysys y).
Proof.
  revert x tr. induction ls as [|l ls IH]; intros x tr YI CL E; cbn [yexec] in E.
  - injection E as <- <-. constructor.
  - destruct (yexec1 x l) as [[e x1]|] eqn:E1; [|discriminate].
    destruct (yexec x1 ls) as [[tr1 x2]|] eqn:E2; [|discriminate]. injection E as <- <-.
    destruct (yexec1_sound client x l e x1 YI) as [S1 Y1]; auto.
    { intros q I. apply CL. unfold ycalls in *. cbn [flat_map] in *. apply in_app_iff. left. now rewrite app_nil_r in I. }
    eapply steps_app; [exact S1|]. apply IH; auto.
    intros q I. apply CL. unfold ycalls. cbn [flat_map]. apply in_app_iff. now right.
Qed.

Definition yinit (lg : N) : yx := (ginit c lg, fun _ => UOff).

Lemma yexec_init (client : call -> Prop) lg ls tr y :
  (forall q, In q (ycalls ls) -> client q) -> yexec (yinit lg) ls = Some (tr, y) ->
  lts_steps (ug_sync_step c B client) (ug_init c lg) tr (ysys y).
Proof.
  intros CL E. refine (yexec_sound client (yinit lg) ls tr y _ CL E). split.
  - split; cbn; [intros t X; now elim X|discriminate|intros _ X; now elim X].
  - intros u w o o' p p' _ X. discriminate.
Qed.

End Exec.
