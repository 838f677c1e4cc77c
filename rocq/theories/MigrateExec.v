(** An executable scheduler for migrations, used to exhibit concrete executions. *)
From Coq Require Import NArith Bool List Lia.
From Verif Require Import Words Slot Mapper ReturnCode MapSpec LinSpec Base BaseExec TableSpec SlotFacts Migrate GrowSpec.
Import ListNotations.
Open Scope N_scope.

(** Scheduling decisions: a helper joins, makes [n] steps, a user thread begins,
    continues or ends a call. *)
Inductive mlabel :=
| MJoin (tid : N)
| MHelp (tid : N) (n : N)
| MInv (tid : N) (o : op)
| MRun (tid : N) (b : bool)
| MRet (tid : N).

Section Exec.
Context (c : tcfg) (ms mt : mapper) (B : N).

Definition help1 (tid : N) (os : option msys) : option msys :=
  match os with
  | None => None
  | Some s =>
      match mhlp s tid with
      | None => None
      | Some pc =>
          let '(s', t', k', pc') := hstep c ms mt B (msrc s) (mtgt s) (mctr s) pc in
          Some (MSys s' t' k' (fupd (mhlp s) tid (Some pc')) (mthr s))
      end
  end.

Definition mexec1 (s : msys) (l : mlabel) : option (option (event mop mres) * msys) :=
  match l with
  | MJoin tid =>
      match mhlp s tid with
      | None => Some (None, MSys (msrc s) (mtgt s) (mctr s) (fupd (mhlp s) tid (Some HClaim)) (mthr s))
      | Some _ => None
      end
  | MHelp tid n => option_map (fun s' => (None, s')) (N.iter n (help1 tid) (Some s))
  | MInv tid o =>
      match mthr s tid with
      | None => Some (Some (EInv tid (spec_op (tsc c) o)),
                      MSys (msrc s) (mtgt s) (mctr s) (mhlp s) (fupd (mthr s) tid (Some (o, start c ms o))))
      | Some _ => None
      end
  | MRun tid b =>
      match mthr s tid with
      | None => None
      | Some (o, PDone _) => None
      | Some (o, pc) =>
          let '(t', pc') := bstep c ms (msrc s) b o pc in
          Some (None, MSys t' (mtgt s) (mctr s) (mhlp s) (fupd (mthr s) tid (Some (o, pc'))))
      end
  | MRet tid =>
      match mthr s tid with
      | Some (o, PDone r) =>
          Some (Some (ERet tid (obs o r)),
                MSys (msrc s) (mtgt s) (mctr s) (mhlp s) (fupd (mthr s) tid None))
      | _ => None
      end
  end.

Fixpoint mexec (s : msys) (ls : list mlabel) : option (list (event mop mres) * msys) :=
  match ls with
  | [] => Some ([], s)
  | l :: ls =>
      match mexec1 s l with
      | None => None
      | Some (e, s') =>
          match mexec s' ls with
          | None => None
          | Some (tr, s'') => Some (match e with Some e => e :: tr | None => tr end, s'')
          end
      end
  end.

Fixpoint mops_of (ls : list mlabel) : list op :=
  match ls with
  | [] => []
  | MInv _ o :: ls => o :: mops_of ls
  | _ :: ls => mops_of ls
  end.

Lemma steps_app {S E} (st : S -> option E -> S -> Prop) x tr y tr' z :
  lts_steps st x tr y -> lts_steps st y tr' z -> lts_steps st x (tr ++ tr') z.
Proof. induction 1; cbn; intros; auto; [eapply ls_tau|eapply ls_vis]; eauto. Qed.

Lemma help1_sound client tid s s' :
  help1 tid (Some s) = Some s' -> msys_step c ms mt B client s None s'.
Proof.
  destruct s as [s t k h th]. unfold help1. cbn [mhlp msrc mtgt mctr mthr].
  destruct (h tid) as [pc|] eqn:E; [|discriminate].
  destruct (hstep c ms mt B s t k pc) as [[[s1 t1] k1] pc1] eqn:ST.
  intros [= <-]. eapply m_help; eauto.
Qed.

Lemma help_sound client tid n s s' :
  N.iter n (help1 tid) (Some s) = Some s' -> lts_steps (msys_step c ms mt B client) s [] s'.
Proof.
  rewrite N2Nat.inj_iter. generalize (N.to_nat n). clear n. intros n. revert s s'.
  induction n as [|n IH]; intros s s' E; cbn in E.
  - injection E as <-. constructor.
  - change (help1 tid (Nat.iter n (help1 tid) (Some s)) = Some s') in E.
    destruct (Nat.iter n (help1 tid) (Some s)) as [s1|] eqn:E1; [|cbn in E; discriminate].
    change (@nil (event mop mres)) with (@nil (event mop mres) ++ []).
    eapply steps_app; [apply IH; exact E1|]. eapply ls_tau; [|constructor]. eapply help1_sound; eauto.
Qed.

Lemma mexec1_sound (client : op -> Prop) s l e s' :
  (forall o, In o (mops_of [l]) -> client o) -> mexec1 s l = Some (e, s') ->
  lts_steps (msys_step c ms mt B client) s (match e with Some e => [e] | None => [] end) s'.
Proof.
  destruct s as [s t k h th]. intros CL E. destruct l as [tid|tid n|tid o|tid b|tid]; cbn [mexec1] in E.
  - cbn in E. destruct (h tid) eqn:Et; [discriminate|]. injection E as <- <-.
    eapply ls_tau; [|constructor]. apply m_join; auto.
  - destruct (N.iter n (help1 tid) _) as [s1|] eqn:E1; [|discriminate]. injection E as <- <-.
    eapply help_sound; eauto.
  - cbn in E. destruct (th tid) eqn:Et; [discriminate|]. injection E as <- <-.
    eapply ls_vis; [|constructor]. apply m_inv; auto. apply CL. now left.
  - cbn [mthr msrc mtgt mctr mhlp] in E. destruct (th tid) as [[o pc]|] eqn:Et; [|discriminate].
    destruct pc as [i|i s0|i s0|i s0|r|] eqn:Ep; try discriminate;
      (destruct (bstep c ms s b o pc) as [t' pc'] eqn:S; rewrite Ep in S; rewrite S in E;
       injection E as <- <-; eapply ls_tau; [|constructor]; eapply m_run; eauto; discriminate).
  - cbn in E. destruct (th tid) as [[o pc]|] eqn:Et; [|discriminate].
    destruct pc as [i|i s0|i s0|i s0|r|]; try discriminate.
    injection E as <- <-. eapply ls_vis; [|constructor]. now apply m_ret.
Qed.

Lemma mexec_sound (client : op -> Prop) s ls tr s' :
  (forall o, In o (mops_of ls) -> client o) ->
  mexec s ls = Some (tr, s') -> lts_steps (msys_step c ms mt B client) s tr s'.
Proof.
  revert s tr. induction ls as [|l ls IH]; intros s tr CL E; cbn [mexec] in E.
  - injection E as <- <-. constructor.
  - destruct (mexec1 s l) as [[e s1]|] eqn:E1; [|discriminate].
    destruct (mexec s1 ls) as [[tr1 s2]|] eqn:E2; [|discriminate].
    injection E as <- <-.
    replace (match e with Some e => e :: tr1 | None => tr1 end)
      with ((match e with Some e => [e] | None => [] end) ++ tr1) by (destruct e; reflexivity).
    eapply steps_app.
    + eapply mexec1_sound; eauto. intros o I. apply CL.
      destruct l; cbn in *; try contradiction. destruct I as [->|[]]. now left.
    + apply IH; auto. intros o I. apply CL. destruct l; cbn; auto.
Qed.

(** Who joined. *)
Fixpoint joined (ls : list mlabel) : list N :=
  match ls with
  | [] => []
  | MJoin tid :: ls => tid :: joined ls
  | _ :: ls => joined ls
  end.

Lemma help_dom tid n s s' u :
  N.iter n (help1 tid) (Some s) = Some s' -> mhlp s u = None -> mhlp s' u = None.
Proof.
  rewrite N2Nat.inj_iter. generalize (N.to_nat n). clear n. intros n. revert s'.
  induction n as [|n IH]; intros s' E Hu; cbn in E.
  - now injection E as <-.
  - change (help1 tid (Nat.iter n (help1 tid) (Some s)) = Some s') in E.
    destruct (Nat.iter n (help1 tid) (Some s)) as [s1|] eqn:E1; [|cbn in E; discriminate].
    specialize (IH s1 eq_refl Hu). unfold help1 in E.
    destruct (mhlp s1 tid) as [pc|] eqn:Et; [|discriminate].
    destruct (hstep _ _ _ _ _ _ _ _) as [[[a b] d] e]. injection E as <-. cbn.
    unfold fupd. destruct (N.eqb_spec u tid); [congruence|auto].
Qed.

Lemma mexec_dom s ls tr s' u :
  mexec s ls = Some (tr, s') -> ~ In u (joined ls) -> mhlp s u = None -> mhlp s' u = None.
Proof.
  revert s tr. induction ls as [|l ls IH]; intros s tr E NI Hu; cbn [mexec] in E.
  - injection E as <- <-. auto.
  - destruct (mexec1 s l) as [[e s1]|] eqn:E1; [|discriminate].
    destruct (mexec s1 ls) as [[tr1 s2]|] eqn:E2; [|discriminate].
    injection E as <- <-. eapply IH; eauto.
    { intros X. apply NI. destruct l; cbn; auto. }
    destruct l as [tid|tid n|tid o|tid b|tid]; cbn [mexec1] in E1.
    + destruct (mhlp s tid) eqn:Et; [discriminate|]. injection E1 as <- <-. cbn.
      unfold fupd. destruct (N.eqb_spec u tid) as [->|NE]; auto. elim NI. now left.
    + destruct (N.iter n (help1 tid) _) as [s3|] eqn:E3; [|discriminate]. injection E1 as <- <-.
      eapply help_dom; eauto.
    + destruct (mthr s tid); [discriminate|]. injection E1 as <- <-. auto.
    + destruct (mthr s tid) as [[o pc]|]; [|discriminate].
      destruct pc; try discriminate;
        (destruct (bstep _ _ _ _ _ _); injection E1 as <- <-; auto).
    + destruct (mthr s tid) as [[o pc]|]; [|discriminate].
      destruct pc; try discriminate. injection E1 as <- <-. auto.
Qed.

Definition at_end (s : msys) (tid : N) : bool :=
  match mhlp s tid with Some HEnd => true | _ => false end.

Lemma mexec_finished src ls tr s' :
  mexec (msys_init c mt src (fun _ => None)) ls = Some (tr, s') ->
  joined ls <> [] -> forallb (at_end s') (joined ls) = true -> finished s'.
Proof.
  intros E NE A. rewrite forallb_forall in A. unfold at_end in A. split.
  - destruct (joined ls) as [|u l] eqn:J; [congruence|]. exists u.
    specialize (A u (or_introl eq_refl)). destruct (mhlp s' u) as [[]|]; try discriminate. reflexivity.
  - intros u pc Eu. destruct (in_dec N.eq_dec u (joined ls)) as [I|NI].
    + specialize (A u I). rewrite Eu in A. destruct pc; try discriminate. reflexivity.
    + rewrite (mexec_dom _ _ _ _ u E NI eq_refl) in Eu. discriminate.
Qed.

(** *** Undisturbed executions *)

Lemma mark_only cell curr ok cell' curr' :
  atomic_mark (tsc c) cell curr = (ok, cell', curr') -> cell' = cell \/ cell' = mark_slot (tsc c) cell.
Proof.
  unfold atomic_mark, cas. destruct (sc_mark (tsc c)); [|intros [= _ <- _]; auto].
  destruct (slot_eqb cell curr) eqn:E; intros [= _ <- _]; auto.
  apply slot_eqb_eq in E. subst. auto.
Qed.

Lemma hstep_marks src tgt ctr pc src' tgt' ctr' pc' p :
  hstep c ms mt B src tgt ctr pc = (src', tgt', ctr', pc') ->
  src' p = src p \/ src' p = option_map (mark_slot (tsc c)) (src p).
Proof.
  intros ST.
  assert (K : forall i cell curr ok cell' curr',
     rd c ms src i = Some cell -> atomic_mark (tsc c) cell curr = (ok, cell', curr') ->
     fupd src i (Some cell') p = src p \/
     fupd src i (Some cell') p = option_map (mark_slot (tsc c)) (src p)).
  { intros i cell curr ok cell' curr' R AM. unfold fupd. destruct (N.eqb_spec p i) as [->|]; auto.
    unfold rd in R. destruct (i <? _); [|discriminate]. rewrite R. cbn.
    destruct (mark_only _ _ _ _ _ AM) as [-> | ->]; auto. }
  destruct pc; cbn [hstep] in ST;
    repeat match type of ST with
    | context [match rd ?a ?b ?d ?e with Some _ => _ | None => _ end] => destruct (rd a b d e) eqn:?
    | context [let '(_, _) := atomic_mark ?a ?b ?e in _] =>
        destruct (atomic_mark a b e) as [[? ?] ?] eqn:?
    | context [match ?l with [] => _ | _ :: _ => _ end] => destruct l
    | context [if ?b then _ else _] => destruct b
    end; try (injection ST as <- _ _ _; solve [auto|eapply K; eauto]).
Qed.

Definition not2 (s : msys) (tid : N) : bool :=
  match mhlp s tid with Some (H2Mark _ _) => false | _ => true end.

(** User threads only move while none of the helpers [js] is about to mark in its
    second loop. *)
Fixpoint calm (js : list N) (s : msys) (ls : list mlabel) : bool :=
  match ls with
  | [] => true
  | l :: ls =>
      match mexec1 s l with
      | None => false
      | Some (_, s') =>
          (match l with MRun _ _ => forallb (not2 s) js | _ => true end) && calm js s' ls
      end
  end.

Lemma help_calm client tid n s s' :
  N.iter n (help1 tid) (Some s) = Some s' -> lts_steps (calm_step c ms mt B client) s [] s'.
Proof.
  rewrite N2Nat.inj_iter. generalize (N.to_nat n). clear n. intros n. revert s s'.
  induction n as [|n IH]; intros s s' E; cbn in E.
  - injection E as <-. constructor.
  - change (help1 tid (Nat.iter n (help1 tid) (Some s)) = Some s') in E.
    destruct (Nat.iter n (help1 tid) (Some s)) as [s1|] eqn:E1; [|cbn in E; discriminate].
    change (@nil (event mop mres)) with (@nil (event mop mres) ++ []).
    eapply steps_app; [apply IH; exact E1|]. eapply ls_tau; [|constructor].
    split; [eapply help1_sound; eauto|].
    intros u i curr _. unfold help1 in E. destruct (mhlp s1 tid); [|discriminate].
    destruct (hstep _ _ _ _ _ _ _ _) as [[[a b] d] e] eqn:H. injection E as <-. cbn.
    eapply hstep_marks; eauto.
Qed.

Lemma mexec_calm (client : op -> Prop) js s ls tr s' :
  (forall o, In o (mops_of ls) -> client o) ->
  (forall u, In u (joined ls) -> In u js) -> (forall u, mhlp s u <> None -> In u js) ->
  mexec s ls = Some (tr, s') -> calm js s ls = true ->
  lts_steps (calm_step c ms mt B client) s tr s'.
Proof.
  revert s tr. induction ls as [|l ls IH]; intros s tr CL J D E C; cbn [mexec calm] in E, C.
  - injection E as <- <-. constructor.
  - destruct (mexec1 s l) as [[e s1]|] eqn:E1; [|discriminate].
    destruct (mexec s1 ls) as [[tr1 s2]|] eqn:E2; [|discriminate].
    injection E as <- <-. apply andb_true_iff in C. destruct C as [C1 C2].
    replace (match e with Some e => e :: tr1 | None => tr1 end)
      with ((match e with Some e => [e] | None => [] end) ++ tr1) by (destruct e; reflexivity).
    eapply steps_app.
    + assert (CL1 : forall o, In o (mops_of [l]) -> client o).
      { intros o I. apply CL. destruct l; cbn in *; try contradiction. destruct I as [->|[]]. now left. }
      destruct l as [tid|tid n|tid o|tid b|tid].
      2: { cbn [mexec1] in E1. destruct (N.iter n (help1 tid) (Some s)) as [s3|] eqn:E3; [|discriminate].
           injection E1 as <- <-. eapply help_calm; eauto. }
      all: pose proof (mexec1_sound client s _ e s1 CL1 E1) as ST.
      all: cbn [mexec1] in E1.
      * destruct (mhlp s tid) eqn:Et; [discriminate|]. injection E1 as <- <-.
        destruct s as [a b k h th]. cbn in *.
        eapply ls_tau; [|constructor]. split; [apply m_join; auto|]. intros u i curr _. now left.
      * destruct (mthr s tid) eqn:Et; [discriminate|]. injection E1 as <- <-.
        destruct s as [a b k h th]. cbn in *.
        eapply ls_vis; [|constructor]. split; [apply m_inv; auto|]. intros u i curr _. now left.
      * destruct (mthr s tid) as [[o pc]|] eqn:Et; [|discriminate].
        assert (ND : forall r, pc <> PDone r) by (intros r ->; discriminate).
        assert (E1' : (let '(t', pc') := bstep c ms (msrc s) b o pc in
          Some (None, MSys t' (mtgt s) (mctr s) (mhlp s) (fupd (mthr s) tid (Some (o, pc'))))) = Some (e, s1)).
        { destruct pc; try exact E1. discriminate E1. }
        destruct (bstep c ms (msrc s) b o pc) as [t' pc'] eqn:S. injection E1' as <- <-.
        eapply ls_tau; [|constructor]. split.
        -- destruct s as [a1 b1 k h th]. cbn in *. eapply m_run; eauto.
        -- intros u i curr Hu. exfalso. rewrite forallb_forall in C1.
           assert (In u js) as I by (apply D; congruence). specialize (C1 u I). unfold not2 in C1.
           rewrite Hu in C1. discriminate.
      * destruct (mthr s tid) as [[o pc]|] eqn:Et; [|discriminate].
        destruct pc; try discriminate. injection E1 as <- <-.
        destruct s as [a b k h th]. cbn in *.
        eapply ls_vis; [|constructor]. split; [apply m_ret; auto|]. intros u i curr _. now left.
    + apply IH; auto.
      * intros o I. apply CL. destruct l; cbn; auto.
      * intros u I. apply J. destruct l; cbn; auto.
      * intros u NU. destruct (mhlp s u) eqn:Eu; [apply D; congruence|].
        destruct l as [tid|tid n|tid o|tid b|tid]; cbn [mexec1] in E1.
        -- destruct (mhlp s tid) eqn:Et; [discriminate|]. injection E1 as <- <-. cbn in NU.
           unfold fupd in NU. destruct (N.eqb_spec u tid) as [EQ|NE]; [|congruence]. apply J. left. congruence.
        -- destruct (N.iter n (help1 tid) _) as [s3|] eqn:E3; [|discriminate]. injection E1 as <- <-.
           elim NU. eapply help_dom; eauto.
        -- destruct (mthr s tid); [discriminate|]. injection E1 as <- <-. now elim NU.
        -- destruct (mthr s tid) as [[o pc]|]; [|discriminate].
           destruct pc; try discriminate;
             (destruct (bstep _ _ _ _ _ _); injection E1 as <- <-; now elim NU).
        -- destruct (mthr s tid) as [[o pc]|]; [|discriminate].
           destruct pc; try discriminate. injection E1 as <- <-. now elim NU.
Qed.

End Exec.

(** *** Executions as steps in the life of a table *)

Fixpoint invoked (ls : list blabel) : list N :=
  match ls with
  | [] => []
  | LInv tid _ :: ls => tid :: invoked ls
  | _ :: ls => invoked ls
  end.

Lemma exec_dom c m s ls tr s' u :
  exec c m s ls = Some (tr, s') -> ~ In u (invoked ls) -> bthr s u = None -> bthr s' u = None.
Proof.
  revert s tr. induction ls as [|l ls IH]; intros s tr E NI Hu; cbn [exec] in E.
  - injection E as <- <-. auto.
  - destruct (exec1 c m s l) as [[e s1]|] eqn:E1; [|discriminate].
    destruct (exec c m s1 ls) as [[tr1 s2]|] eqn:E2; [|discriminate].
    injection E as <- <-. eapply IH; eauto.
    { intros X. apply NI. destruct l; cbn; auto. }
    destruct l as [tid o|tid b|p|tid]; cbn [exec1] in E1.
    + destruct (bthr s tid) eqn:Et; [discriminate|]. injection E1 as <- <-. cbn.
      unfold fupd. destruct (N.eqb_spec u tid) as [->|NE]; auto. elim NI. now left.
    + destruct (bthr s tid) as [[o pc]|] eqn:Et; [|discriminate].
      destruct pc; try discriminate;
        (destruct (bstep _ _ _ _ _ _); injection E1 as <- <-; cbn;
         unfold fupd; destruct (N.eqb_spec u tid) as [->|NE]; auto; congruence).
    + destruct (_ && _); [|discriminate]. destruct (bmem s p); [|discriminate].
      injection E1 as <- <-. auto.
    + destruct (bthr s tid) as [[o pc]|] eqn:Et; [|discriminate].
      destruct pc; try discriminate. injection E1 as <- <-. cbn.
      unfold fupd. destruct (u =? tid); auto.
Qed.

(** The cells left by a schedule. *)
Definition mem_after (c : tcfg) (m : mapper) (t : mem) (ls : list blabel) : mem :=
  match exec c m (BSys t idle) ls with Some (_, s) => bmem s | None => t end.

(** The schedule can be executed, ends with no call in progress and no mark. *)
Definition settles (c : tcfg) (m : mapper) (tot : N) (t : mem) (ls : list blabel) : bool :=
  match exec c m (BSys t idle) ls with
  | Some (_, s) =>
      forallb (fun u => match bthr s u with None => true | _ => false end) (invoked ls) &&
      forallb (fun p => match bmem s p with Some x => negb (is_marked (tsc c) x) | None => true end)
        (nseq 0 (N.to_nat tot))
  | None => false
  end.

Lemma in_nseq0 p n : p < n -> In p (nseq 0 (N.to_nat n)).
Proof.
  intros L. assert (K : forall k a, a <= p < a + N.of_nat k -> In p (nseq a k)).
  { induction k as [|k IH]; intros a H; cbn [nseq In]; [lia|].
    destruct (N.eq_dec a p); [now left|right]. apply IH. lia. }
  apply K. rewrite N2Nat.id. lia.
Qed.

Lemma exec_life c (client : op -> Prop) lg m t ls :
  life c client lg m t -> (forall o, In o (ops_of ls) -> client o) ->
  settles c m (cells_of (tmc c) lg) t ls = true -> life c client lg m (mem_after c m t ls).
Proof.
  unfold settles, mem_after. intros L CL S.
  destruct (exec c m (BSys t idle) ls) as [[tr s]|] eqn:E; [|discriminate].
  apply andb_true_iff in S. destruct S as [S1 S2]. rewrite forallb_forall in S1, S2.
  eapply life_use; eauto.
  - eapply exec_sound; eauto.
  - intros u. destruct (in_dec N.eq_dec u (invoked ls)) as [I|NI].
    + specialize (S1 u I). destruct (bthr s u); [discriminate|reflexivity].
    + eapply exec_dom; eauto.
  - intros p x Lp Ep. specialize (S2 p (in_nseq0 _ _ Lp)). rewrite Ep in S2.
    now apply negb_true_iff in S2.
Qed.

(** The target left by a migration schedule. *)
Definition moved (c : tcfg) (m mt : mapper) (B : N) (t : mem) (ls : list mlabel) : msys :=
  match mexec c m mt B (msys_init c mt t idle) ls with Some (_, s) => s | None => msys_init c mt t idle end.
Definition events_of (c : tcfg) (m mt : mapper) (B : N) (t : mem) (ls : list mlabel)
  : list (event mop mres) :=
  match mexec c m mt B (msys_init c mt t idle) ls with Some (tr, _) => tr | None => [] end.
(** The schedule can be executed and all helpers return. *)
Definition completes (c : tcfg) (m mt : mapper) (B : N) (t : mem) (ls : list mlabel) : bool :=
  match mexec c m mt B (msys_init c mt t idle) ls with
  | Some (_, s) => negb (match joined ls with [] => true | _ => false end) && forallb (at_end s) (joined ls)
  | None => false
  end.

Lemma moved_steps c m mt B t ls (client : op -> Prop) :
  completes c m mt B t ls = true -> (forall o, In o (mops_of ls) -> client o) ->
  lts_steps (msys_step c m mt B client) (msys_init c mt t idle)
    (events_of c m mt B t ls) (moved c m mt B t ls) /\
  finished (moved c m mt B t ls).
Proof.
  unfold completes, moved, events_of. intros H CL.
  destruct (mexec c m mt B (msys_init c mt t idle) ls) as [[tr s]|] eqn:E; [|discriminate].
  apply andb_true_iff in H. destruct H as [H1 H2]. split; [eapply mexec_sound; eauto|].
  eapply mexec_finished; eauto. destruct (joined ls); discriminate.
Qed.

Lemma moved_calm c m mt B t ls js (client : op -> Prop) :
  completes c m mt B t ls = true -> calm c m mt B js (msys_init c mt t idle) ls = true ->
  (forall o, In o (mops_of ls) -> client o) -> (forall u, In u (joined ls) -> In u js) ->
  lts_steps (calm_step c m mt B client) (msys_init c mt t idle)
    (events_of c m mt B t ls) (moved c m mt B t ls).
Proof.
  unfold completes, moved, events_of. intros H CA CL J.
  destruct (mexec c m mt B (msys_init c mt t idle) ls) as [[tr s]|] eqn:E; [|discriminate H].
  eapply mexec_calm; eauto. intros u X. now elim X.
Qed.
