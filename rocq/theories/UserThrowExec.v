(** Schedules with functions that throw, executed. *)
From Coq Require Import NArith Bool List.
From Verif Require Import Words Slot Mapper MapSpec LinSpec Base BaseExec Migrate Growing GrowingSpec GrowingExec PtrFacts
  UserThrow UserThrowFacts.
Import ListNotations.
Open Scope N_scope.

Local Ltac sp := repeat match goal with |- _ /\ _ => split end.

(** A part of a schedule, or a thread whose function throws ([late]: after its work). *)
Inductive part (L : Type) := Go (ls : list L) | Throw (t : N) (late : bool).
Arguments Go {L}. Arguments Throw {L}.

Section Fixed.
Context (c : tcfg) (m : mapper).

Definition throw1 (s : bsys) (tid : N) (late : bool) : option bsys :=
  let '(BSys t th) := s in
  match th tid with
  | Some (o, PUpd i curr) =>
      if late then
        if in_place (tsc c) o then
          match bstep c m t true o (PUpd i curr) with
          | (t', PDone _) => Some (BSys t' (fupd th tid None))
          | _ => None
          end
        else None
      else Some (BSys t (fupd th tid None))
  | _ => None
  end.

Fixpoint uexec (s : bsys) (ls : list (part blabel)) : option (list uevent * bsys) :=
  match ls with
  | [] => Some ([], s)
  | Go l :: ls =>
      match exec c m s l with
      | Some (tr, s1) => match uexec s1 ls with Some (tr', s') => Some (map UCall tr ++ tr', s') | None => None end
      | None => None
      end
  | Throw t late :: ls =>
      match throw1 s t late with
      | Some s1 => match uexec s1 ls with Some (tr', s') => Some (UThrow t :: tr', s') | None => None end
      | None => None
      end
  end.

Definition uops (ls : list (part blabel)) : list op := flat_map (fun p => match p with Go l => ops_of l | _ => [] end) ls.
Definition lates {L} (ls : list (part L)) : bool := existsb (fun p => match p with Throw _ b => b | _ => false end) ls.

Lemma throw1_sound late s t b s' : (b = true -> late = true) -> throw1 s t b = Some s' -> base_throws late c m s t s'.
Proof.
  destruct s as [tb th]. cbn [throw1]. intros LA. destruct (th t) as [[o [ | |i curr| | | ]]|] eqn:E; try discriminate. destruct b.
  - destruct (in_place (tsc c) o) eqn:IP; [|discriminate]. destruct (bstep c m tb true o (PUpd i curr)) as [t' [| | | |r| ]] eqn:ST; intros X;
      try discriminate. injection X as <-. eapply bt_late; eauto.
  - intros [= <-]. eapply bt_early; eauto.
Qed.

Lemma uexec_sound (client : op -> Prop) late ls : (forall o, In o (uops ls) -> client o) -> (lates ls = true -> late = true) ->
  forall s tr s', uexec s ls = Some (tr, s') -> lts_steps (or_throws (bsys_step c m client) (base_throws late c m)) s tr s'.
Proof.
  induction ls as [|p ls IH]; intros CL LA s tr s' E; cbn [uexec] in E.
  - injection E as <- <-. constructor.
  - unfold uops in CL. cbn [flat_map] in CL. unfold lates in LA. cbn [existsb] in LA. destruct p as [l|t b].
    + destruct (exec c m s l) as [[tr1 s1]|] eqn:E1; [|discriminate]. destruct (uexec s1 ls) as [[tr2 s2]|] eqn:E2; [|discriminate].
      injection E as <- <-. eapply lts_app.
      * apply or_steps. eapply exec_sound; [|exact E1]. intros o I. apply CL, in_app_iff. now left.
      * eapply IH; eauto. intros o I. apply CL, in_app_iff. now right.
    + destruct (throw1 s t b) as [s1|] eqn:E1; [|discriminate]. destruct (uexec s1 ls) as [[tr2 s2]|] eqn:E2; [|discriminate].
      injection E as <- <-. eapply ls_vis.
      * apply ot_throw. eapply throw1_sound; [|exact E1]. intros ->. apply LA. reflexivity.
      * eapply IH; eauto. intros H. apply LA. apply orb_true_iff. now right.
Qed.
End Fixed.

Section Growing.
Context (c : tcfg) (B : N) (md : gmode) (CP : cprob (tmc c) = false).

Definition gthrow1 (x : gx) (tid : N) (late : bool) : option gx :=
  let '(GX (GSys v mp me mg th) us hs) := x in
  match th tid with
  | Some (o, GRun u (PUpd i curr)) =>
      if late then
        if in_place (tsc c) o then
          match bstep c (mp u) (me u) true o (PUpd i curr) with
          | (t', PDone _) => Some (GX (GSys v mp (fupd me u t') mg (fupd th tid None)) us hs)
          | _ => None
          end
        else None
      else Some (GX (GSys v mp me mg (fupd th tid None)) us hs)
  | _ => None
  end.

Fixpoint ugexec (x : gx) (ls : list (part glabel)) : option (list uevent * gx) :=
  match ls with
  | [] => Some ([], x)
  | Go l :: ls =>
      match gexec c B md x l with
      | Some (tr, s1) => match ugexec s1 ls with Some (tr', s') => Some (map UCall tr ++ tr', s') | None => None end
      | None => None
      end
  | Throw t late :: ls =>
      match gthrow1 x t late with
      | Some s1 => match ugexec s1 ls with Some (tr', s') => Some (UThrow t :: tr', s') | None => None end
      | None => None
      end
  end.

Definition ugops (ls : list (part glabel)) : list op := flat_map (fun p => match p with Go l => gops_of l | _ => [] end) ls.

Lemma gthrow1_sound late x t b x' : (b = true -> late = true) -> gthrow1 x t b = Some x' -> xinv md x ->
  grow_throws late c (xs x) t (xs x') /\ xinv md x'.
Proof.
  destruct x as [[v mp me mg th] us hs]. cbn [gthrow1 xs]. intros LA E X.
  destruct (th t) as [[o [|u [ | |i curr| | | ]]]|] eqn:ET; try discriminate.
  assert (GO : forall z, xs x' = z -> xu x' = us -> xh x' = hs -> gmig z = mg -> (forall w, gthr z w = fupd th t None w) ->
     grow_throws late c (GSys v mp me mg th) t z -> grow_throws late c (GSys v mp me mg th) t (xs x') /\ xinv md x').
  { intros z <- EU EH EM EG TS. split; auto. destruct X as [XU XH XE]. cbn [xs xu xh gthr gmig] in *. split.
    - intros w. rewrite EG, EU. unfold fupd. destruct (N.eqb w t); [intros H; now elim H|apply XU].
    - intros k h w. rewrite EM, EH. apply XH.
    - intros M. eapply exclusive_throw; [exact (XE M)|exact TS]. }
  destruct b.
  - destruct (in_place (tsc c) o) eqn:IP; [|discriminate].
    destruct (bstep c (mp u) (me u) true o (PUpd i curr)) as [t' [| | | |r| ]] eqn:ST; try discriminate.
    injection E as <-. eapply GO; try reflexivity. eapply gt_late; eauto.
  - injection E as <-. eapply GO; try reflexivity. eapply gt_early; eauto.
Qed.

Lemma ugexec_sound_from (client : op -> Prop) late ls : (forall o, In o (ugops ls) -> client o) -> (lates ls = true -> late = true) ->
  forall x tr y, xinv md x -> ugexec x ls = Some (tr, y) ->
  lts_steps (or_throws (step_of c B md client) (grow_throws late c)) (xs x) tr (xs y).
Proof.
  induction ls as [|p ls IH]; intros CL LA x tr y XI E; cbn [ugexec] in E.
  - injection E as <- <-. constructor.
  - unfold ugops in CL. cbn [flat_map] in CL. unfold lates in LA. cbn [existsb] in LA. destruct p as [l|t b].
    + destruct (gexec c B md x l) as [[tr1 s1]|] eqn:E1; [|discriminate]. destruct (ugexec s1 ls) as [[tr2 s2]|] eqn:E2; [|discriminate].
      injection E as <- <-.
      destruct (gexec_sound_from c B md CP client x l tr1 s1 XI) as [S1 X1]; auto.
      { intros o I. apply CL, in_app_iff. now left. }
      eapply lts_app; [apply or_steps; exact S1|]. eapply IH; eauto. intros o I. apply CL, in_app_iff. now right.
    + destruct (gthrow1 x t b) as [s1|] eqn:E1; [|discriminate]. destruct (ugexec s1 ls) as [[tr2 s2]|] eqn:E2; [|discriminate].
      injection E as <- <-. destruct (gthrow1_sound late x t b s1) as [TS X1]; auto. { intros ->. now apply LA. }
      eapply ls_vis; [apply ot_throw; exact TS|]. eapply IH; eauto. intros H. apply LA. apply orb_true_iff. now right.
Qed.

Lemma ugexec_sound lg late ls tr y : (lates ls = true -> late = true) -> ugexec (ginit c lg) ls = Some (tr, y) ->
  lts_steps (or_throws (step_of c B md (fun o => In o (ugops ls))) (grow_throws late c)) (gsys_init c lg) tr (xs y).
Proof.
  intros LA E. eapply (ugexec_sound_from _ late ls (fun o H => H) LA (ginit c lg)); [|exact E].
  split; cbn.
  - intros t X. now elim X.
  - intros k h t X. discriminate.
  - intros _ X. now elim X.
Qed.
End Growing.
