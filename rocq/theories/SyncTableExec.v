(** An executable scheduler for synchronised growing tables, used to exhibit
    concrete executions. *)
From Coq Require Import NArith Bool List Lia.
From Verif Require Import Words Slot Mapper ReturnCode MapSpec LinSpec Base TableSpec Migrate Growing Sync
  SyncTable SyncTableSpec.
Import ListNotations.
Open Scope N_scope.

(** [TRuns i n]: thread [i] makes [n] accesses.  [TWant i]: it releases its table
    and asks for a growth step.  [TOpen i ins del]: the organiser opens the
    migration, with these counters. *)
Inductive tlabel :=
| TInv (i : N) (o : op)
| TRuns (i n : N)
| TWant (i : N)
| TOpen (i ins del : N)
| TRet (i : N)
| TDestroy (i : N).

Section Exec.
Context (c : tcfg) (B : N) (maps : N -> mapper) (slot : N -> N).
Notation mc := (tmc c).
Notation go := (go c B maps slot).

Definition mapper_eqb (a b : mapper) : bool :=
  (probe_helper a =? probe_helper b) && (map_helper a =? map_helper b) && (grow_helper a =? grow_helper b).
Lemma mapper_eqb_eq a b : mapper_eqb a b = true -> a = b.
Proof.
  destruct a, b. unfold mapper_eqb. cbn. rewrite !andb_true_iff, !N.eqb_eq. intros [[-> ->] ->]. reflexivity.
Qed.

Definition leave (s : tst) (i : N) (l : slabel) : option tst :=
  match s_pc (t_p s) i with
  | POp _ =>
    match finish (t_call s i), go (t_p s) l with
    | Some x, Some p' => Some (TSt p' (t_mem s) (fupd (t_call s) i x) (t_h s))
    | _, _ => None
    end
  | _ => None
  end.

(** One access of thread [i]. *)
Definition access (s : tst) (i : N) : option tst :=
  let p := t_p s in
  match s_pc p i with
  | PGet3 v =>
      match go p (SGo i) with
      | Some p' => Some (TSt p' (t_mem s)
          (match s_pc p' i with POp _ => fupd (t_call s) i (begun c maps v (t_call s i)) | _ => t_call s end) (t_h s))
      | None => None
      end
  | POp v =>
      match t_call s i with
      | Some (o, CRun (PDone _)) => leave s i (SGo i)
      | Some (o, CRun pc) =>
          let '(t', pc') := bstep c (maps v) (t_mem s v) true o pc in
          Some (TSt p (fupd (t_mem s) v t') (fupd (t_call s) i (Some (o, CRun pc'))) (t_h s))
      | _ => leave s i (SGo i)
      end
  | PGrow7 _ => None
  | PMig4 k v g =>
      match go p (SGo i) with
      | Some p' => Some (TSt p' (t_mem s) (t_call s)
         (match s_pc p' i with
          | PMig5 _ _ b _ =>
              fupd (t_h s) i (enter c (maps v) (maps (v + 1)) (b * B)
                          (block_end B (addressable_slots mc (maps v)) (b * B)))
          | _ => t_h s
          end))
      | None => None
      end
  | PMig5 k v b g =>
      match t_h s i with
      | HClaim =>
          match go p (SGo i) with Some p' => Some (TSt p' (t_mem s) (t_call s) (t_h s)) | None => None end
      | _ =>
          let '(s', t', _, pc') :=
            hstep c (maps v) (maps (v + 1)) B (t_mem s v) (t_mem s (v + 1)) 0 (t_h s i) in
          Some (TSt p (fupd (fupd (t_mem s) v s') (v + 1) t') (t_call s) (fupd (t_h s) i pc'))
      end
  | _ => match go p (SGo i) with Some p' => Some (TSt p' (t_mem s) (t_call s) (t_h s)) | None => None end
  end.

Fixpoint accesses (n : nat) (i : N) (s : tst) : option tst :=
  match n with
  | O => Some s
  | S n => match access s i with Some s' => accesses n i s' | None => None end
  end.

Definition texec1 (s : tst) (l : tlabel) : option (option (event mop mres) * tst) :=
  let p := t_p s in
  match l with
  | TInv i o =>
      match s_pc p i, t_call s i with
      | PIdle, None => Some (Some (EInv i (spec_op (tsc c) o)),
                         TSt p (t_mem s) (fupd (t_call s) i (Some (o, CWait))) (t_h s))
      | _, _ => None
      end
  | TRuns i n => match accesses (N.to_nat n) i s with Some s' => Some (None, s') | None => None end
  | TWant i => match leave s i (SWant i) with Some s' => Some (None, s') | None => None end
  | TOpen i ins del =>
      match s_pc p i, go p (SGo i) with
      | PGrow7 v, Some p' =>
          if (addressable_slots mc (maps v) <? 2 ^ 32) &&
             mapper_eqb (maps (v + 1)) (resize mc (maps v) ins del)
          then Some (None, TSt p' (fupd (t_mem s) (v + 1) (target_mem mc (maps (v + 1)))) (t_call s) (t_h s))
          else None
      | _, _ => None
      end
  | TRet i =>
      match s_pc p i, t_call s i with
      | PIdle, Some (o, CFin r) =>
          Some (Some (ERet i (gobs o r)), TSt p (t_mem s) (fupd (t_call s) i None) (t_h s))
      | _, _ => None
      end
  | TDestroy i =>
      match t_call s i, go p (SDestroy i) with
      | None, Some p' => Some (None, TSt p' (t_mem s) (t_call s) (t_h s))
      | _, _ => None
      end
  end.

Fixpoint texec (s : tst) (ls : list tlabel) : option (list (event mop mres) * tst) :=
  match ls with
  | [] => Some ([], s)
  | l :: ls =>
      match texec1 s l with
      | Some (e, s1) =>
          match texec s1 ls with
          | Some (tr, s2) => Some (match e with Some e => e :: tr | None => tr end, s2)
          | None => None
          end
      | None => None
      end
  end.

Definition tops_of (ls : list tlabel) : list op :=
  flat_map (fun l => match l with TInv _ o => [o] | _ => [] end) ls.

Section Sound.
Context (client : op -> Prop).
Notation step := (ttab_step c B maps slot client).

Lemma leave_sound s i l s' : l = SGo i \/ l = SWant i -> leave s i l = Some s' -> step s None s'.
Proof.
  destruct s as [p me ca h]. unfold leave. cbn. intros L.
  destruct (s_pc p i) eqn:P; try discriminate.
  destruct (finish (ca i)) eqn:F; try discriminate. destruct (go p l) eqn:G; try discriminate.
  intros [= <-]. eapply tt_leave; eauto.
Qed.

Lemma access_sound s i s' : access s i = Some s' -> step s None s'.
Proof.
  destruct s as [p me ca h]. unfold access. cbn [t_p t_mem t_call t_h].
  destruct (s_pc p i) eqn:P.
  all: try (destruct (go p (SGo i)) eqn:G; [|discriminate]; intros [= <-]; eapply tt_go; [now rewrite P|eassumption]).
  - destruct (go p (SGo i)) eqn:G; [|discriminate]. intros [= <-]. eapply tt_get; eauto.
  - destruct (ca i) as [[o x]|] eqn:E.
    2:{ intros H. apply leave_sound in H; auto. }
    destruct x as [|pc|r]; [intros H; apply leave_sound in H; auto| |intros H; apply leave_sound in H; auto].
    assert (D : (exists r, pc = PDone r) \/ forall r, pc <> PDone r).
    { destruct pc; try (right; intros r; discriminate). eauto. }
    destruct D as [[r ->]|D]; [intros H; apply leave_sound in H; auto|].
    intros H. assert (H' : (let '(t', pc') := bstep c (maps v) (me v) true o pc in
       Some (TSt p (fupd me v t') (fupd ca i (Some (o, CRun pc'))) h)) = Some s').
    { destruct pc; try exact H. now elim (D r). }
    clear H. destruct (bstep c (maps v) (me v) true o pc) as [t' pc'] eqn:BS. injection H' as <-.
    eapply tt_run; eauto.
  - discriminate.
  - destruct (go p (SGo i)) eqn:G; [|discriminate]. intros [= <-]. eapply tt_claim; eauto.
  - assert (D : h i = HClaim \/ h i <> HClaim).
    { destruct (h i); try (right; discriminate). now left. }
    destruct D as [D|D].
    + rewrite D. destruct (go p (SGo i)) eqn:G; [|discriminate]. intros [= <-]. eapply tt_moved; eauto.
    + intros H. assert (H' : (let '(s', t', _, pc') :=
            hstep c (maps v) (maps (v + 1)) B (me v) (me (v + 1)) 0 (h i) in
          Some (TSt p (fupd (fupd me v s') (v + 1) t') ca (fupd h i pc'))) = Some s').
      { destruct (h i); try exact H. now elim D. }
      clear H. destruct (hstep c (maps v) (maps (v + 1)) B (me v) (me (v + 1)) 0 (h i)) as [[[a b1] d] pc'] eqn:HS.
      injection H' as <-. eapply tt_move; eauto.
Qed.

Notation roomy := (ttab_roomy c B maps slot client).
Context (CP : cprob mc = false).

Lemma roomy_step s l s' : step s l s' -> roomy s l s'.
Proof. intros S. split; auto. intros E. congruence. Qed.

Lemma accesses_sound n i : forall s s', accesses n i s = Some s' -> lts_steps roomy s [] s'.
Proof.
  induction n as [|n IH]; cbn; intros s s'.
  - intros [= <-]. constructor.
  - destruct (access s i) as [s1|] eqn:A; [|discriminate]. intros H.
    eapply ls_tau; [apply roomy_step; eapply access_sound; eauto|auto].
Qed.

Lemma steps_cat s tr s1 tr' s2 : lts_steps roomy s tr s1 -> lts_steps roomy s1 tr' s2 -> lts_steps roomy s (tr ++ tr') s2.
Proof. induction 1; cbn; eauto using ls_tau, ls_vis. Qed.

Lemma texec_sound ls : (forall o, In o (tops_of ls) -> client o) ->
  forall s tr s', texec s ls = Some (tr, s') -> lts_steps roomy s tr s'.
Proof.
  induction ls as [|l ls IH]; intros CL s tr s'; cbn [texec].
  - intros [= <- <-]. constructor.
  - destruct (texec1 s l) as [[e s1]|] eqn:X; [|discriminate].
    destruct (texec s1 ls) as [[tr1 s2]|] eqn:Y; [|discriminate]. intros [= <- <-].
    assert (L1 : lts_steps roomy s (match e with Some e => [e] | None => [] end) s1).
    { destruct s as [p me ca h]. destruct l as [i o|i n|i|i ins del|i|i]; cbn [texec1 t_p t_mem t_call t_h] in X.
      - destruct (s_pc p i) eqn:P; try discriminate. destruct (ca i) eqn:E; try discriminate.
        injection X as <- <-. eapply ls_vis; [|constructor]. apply roomy_step. apply tt_inv; auto.
        apply CL. cbn. auto.
      - destruct (accesses (N.to_nat n) i _) eqn:A; [|discriminate]. injection X as <- <-. eapply accesses_sound; eauto.
      - destruct (leave _ i (SWant i)) eqn:A; [|discriminate]. injection X as <- <-.
        eapply ls_tau; [|constructor]. apply roomy_step. eapply leave_sound; eauto.
      - destruct (s_pc p i) eqn:P; try discriminate. destruct (go p (SGo i)) eqn:G; [|discriminate].
        destruct ((addressable_slots mc (maps v) <? 2 ^ 32) && mapper_eqb (maps (v + 1)) (resize mc (maps v) ins del)) eqn:Z; [|discriminate].
        apply andb_true_iff in Z. destruct Z as [Z1 Z2]. apply N.ltb_lt in Z1. apply mapper_eqb_eq in Z2.
        injection X as <- <-. eapply ls_tau; [|constructor]. apply roomy_step. eapply tt_open; eauto.
      - destruct (s_pc p i) eqn:P; try discriminate. destruct (ca i) as [[o [|pc|r]]|] eqn:E; try discriminate.
        injection X as <- <-. eapply ls_vis; [|constructor]. apply roomy_step. now apply tt_ret.
      - destruct (ca i) eqn:E; try discriminate. destruct (go p (SDestroy i)) eqn:G; [|discriminate].
        injection X as <- <-. eapply ls_tau; [|constructor]. apply roomy_step. eapply tt_destroy; eauto. }
    assert (L2 : lts_steps roomy s1 tr1 s2).
    { apply IH; auto. intros o I. apply CL. unfold tops_of. cbn [flat_map]. apply in_app_iff. now right. }
    replace (match e with Some e => e :: tr1 | None => tr1 end)
      with ((match e with Some e => [e] | None => [] end) ++ tr1) by (destruct e; reflexivity).
    eapply steps_cat; eauto.
Qed.
End Sound.

(** Events and final state of a schedule. *)
Definition ttrace (ls : list tlabel) : list (event mop mres) :=
  match texec (ttab_init c maps) ls with Some (tr, _) => tr | None => [] end.
Definition tfinal (ls : list tlabel) : tst :=
  match texec (ttab_init c maps) ls with Some (_, s) => s | None => ttab_init c maps end.
Definition truns (ls : list tlabel) : bool :=
  match texec (ttab_init c maps) ls with Some _ => true | None => false end.

Lemma truns_sound ls : cprob mc = false -> truns ls = true ->
  lts_steps (ttab_roomy c B maps slot (fun o => In o (tops_of ls))) (ttab_init c maps) (ttrace ls) (tfinal ls).
Proof.
  unfold truns, ttrace, tfinal. intros CP H.
  destruct (texec (ttab_init c maps) ls) as [[tr x]|] eqn:E; [|discriminate].
  eapply texec_sound; eauto.
Qed.

End Exec.
