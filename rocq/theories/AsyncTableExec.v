(** An executable scheduler for asynchronous growing tables, used to exhibit
    concrete executions. *)
From Coq Require Import NArith Bool List Lia.
From Verif Require Import Words Slot Mapper ReturnCode MapSpec LinSpec Base BaseInv TableSpec Migrate MigrateExec Growing
  SyncTable SyncTableExec Async AsyncTable AsyncTableSpec.
Import ListNotations.
Open Scope N_scope.

(** [RRuns i n]: thread [i] makes [n] accesses.  [RWant i]: it leaves its table
    and asks for a growth step.  [ROpen i ins del]: it creates the successor, with
    these counters. *)
Inductive rlabel :=
| RInv (i : N) (o : op)
| RRuns (i n : N)
| RWant (i : N)
| ROpen (i ins del : N)
| RRet (i : N)
| RDestroy (i : N).

Definition rthread (l : rlabel) : N :=
  match l with RInv i _ | RRuns i _ | RWant i | ROpen i _ _ | RRet i | RDestroy i => i end.

Section Exec.
(** [calm]: steps that [atab_calm] excludes are refused.  Threads are below [nt]. *)
Context (c : tcfg) (B : N) (maps : N -> mapper) (calm : bool) (nt : nat).
Notation mc := (tmc c).
Notation ago := (ago c B maps).

Definition threads : list N := map N.of_nat (seq 0 nt).
Definition in_mark (s : atst) (i : N) : bool :=
  match y_pc (a_p s) i, a_h s i with AMig5 _ _, H2Mark _ _ => true | _, _ => false end.
Definition may_write (s : atst) : bool := negb calm || forallb (fun i => negb (in_mark s i)) threads.

Definition goes (s : atst) (i : N) : option atst :=
  match ago (a_p s) i with Some p' => Some (ATSt p' (a_mem s) (a_call s) (a_h s)) | None => None end.

(** The call of thread [i] is done with its table. *)
Definition off (s : atst) (i : N) : option atst :=
  let p := a_p s in
  match finish (a_call s i) with
  | Some x =>
      if wants_help (a_call s i) then Some (ATSt (with_pc p i AMig1) (a_mem s) (fupd (a_call s) i x) (a_h s))
      else if wants_grow (a_call s i) then Some (ATSt (with_pc p i AGrow) (a_mem s) (fupd (a_call s) i x) (a_h s))
      else match ago p i with
           | Some p' => Some (ATSt p' (a_mem s) (fupd (a_call s) i x) (a_h s))
           | None => None
           end
  | None => None
  end.

(** One access of thread [i]. *)
Definition access (s : atst) (i : N) : option atst :=
  let p := a_p s in
  match y_pc p i with
  | AIdle | AWait true =>
      match ago p i with
      | Some p' => Some (ATSt p' (a_mem s)
          (match y_pc p' i with AOp => fupd (a_call s) i (begun c maps (y_loc p' i) (a_call s i)) | _ => a_call s end) (a_h s))
      | None => None
      end
  | AOp =>
      match a_call s i with
      | Some (o, CRun (PDone _)) => off s i
      | Some (o, CRun pc) =>
          if may_write s then
            let '(t', pc') := bstep c (maps (y_loc p i)) (a_mem s (y_loc p i)) true o pc in
            Some (ATSt p (fupd (a_mem s) (y_loc p i) t') (fupd (a_call s) i (Some (o, CRun pc'))) (a_h s))
          else None
      | _ => off s i
      end
  | AGrow => if y_next p (y_loc p i) then goes s i else None
  | AMig4 v =>
      match ago p i with
      | Some p' => Some (ATSt p' (a_mem s) (a_call s)
         (match y_pc p' i with
          | AMig5 _ b =>
              fupd (a_h s) i (enter c (maps v) (maps (v + 1)) (b * B)
                          (block_end B (addressable_slots mc (maps v)) (b * B)))
          | _ => a_h s
          end))
      | None => None
      end
  | AMig5 v b =>
      match a_h s i with
      | HClaim => goes s i
      | _ =>
          let '(s', t', _, pc') :=
            hstep c (maps v) (maps (v + 1)) B (a_mem s v) (a_mem s (v + 1)) 0 (a_h s i) in
          if negb calm || forallb (fun j => match y_pc p j with AMig5 w _ => w =? v | _ => true end) threads
          then Some (ATSt p (fupd (fupd (a_mem s) v s') (v + 1) t') (a_call s) (fupd (a_h s) i pc'))
          else None
      end
  | _ => goes s i
  end.

Fixpoint accesses (n : nat) (i : N) (s : atst) : option atst :=
  match n with
  | O => Some s
  | S n => match access s i with Some s' => accesses n i s' | None => None end
  end.

Definition rexec1 (s : atst) (l : rlabel) : option (option (event mop mres) * atst) :=
  let p := a_p s in
  if negb (rthread l <? N.of_nat nt) then None else
  match l with
  | RInv i o =>
      match y_pc p i, a_call s i with
      | AIdle, None => Some (Some (EInv i (spec_op (tsc c) o)),
                         ATSt p (a_mem s) (fupd (a_call s) i (Some (o, CWait))) (a_h s))
      | _, _ => None
      end
  | RRuns i n => match accesses (N.to_nat n) i s with Some s' => Some (None, s') | None => None end
  | RWant i =>
      match y_pc p i, finish (a_call s i) with
      | AOp, Some x =>
          if wants_help (a_call s i) then None
          else Some (None, ATSt (with_pc p i AGrow) (a_mem s) (fupd (a_call s) i x) (a_h s))
      | _, _ => None
      end
  | ROpen i ins del =>
      let v := y_loc p i in
      match y_pc p i, ago p i with
      | AGrow, Some p' =>
          if negb (y_next p v) && (addressable_slots mc (maps v) <? 2 ^ 32) &&
             mapper_eqb (maps (v + 1)) (resize mc (maps v) ins del) && may_write s
          then Some (None, ATSt p' (fupd (a_mem s) (v + 1) (target_mem mc (maps (v + 1)))) (a_call s) (a_h s))
          else None
      | _, _ => None
      end
  | RRet i =>
      match y_pc p i, a_call s i with
      | AIdle, Some (o, CFin r) =>
          Some (Some (ERet i (gobs o r)), ATSt p (a_mem s) (fupd (a_call s) i None) (a_h s))
      | _, _ => None
      end
  | RDestroy i =>
      match a_call s i, y_pc p i with
      | None, AIdle => Some (None, ATSt (with_pc p i AUnreg) (a_mem s) (a_call s) (a_h s))
      | _, _ => None
      end
  end.

Fixpoint rexec (s : atst) (ls : list rlabel) : option (list (event mop mres) * atst) :=
  match ls with
  | [] => Some ([], s)
  | l :: ls =>
      match rexec1 s l with
      | Some (e, s1) =>
          match rexec s1 ls with
          | Some (tr, s2) => Some (match e with Some e => e :: tr | None => tr end, s2)
          | None => None
          end
      | None => None
      end
  end.

Definition rops_of (ls : list rlabel) : list op :=
  flat_map (fun l => match l with RInv _ o => [o] | _ => [] end) ls.

Section Sound.
Context (client : op -> Prop) (CP : cprob mc = false).
Definition rstep (s : atst) (l : option (event mop mres)) (s' : atst) : Prop :=
  if calm then atab_calm c B maps client s l s' else atab_step c B maps client s l s'.

(** Threads from [nt] on have no handle. *)
Definition few (s : atst) : Prop := forall i, N.of_nat nt <= i -> y_pc (a_p s) i = AUnreg.

Lemma in_threads i : i < N.of_nat nt -> In i threads.
Proof. intros L. apply in_map_iff. exists (N.to_nat i). split; [lia|]. apply in_seq. lia. Qed.

Lemma mk_rstep s l s' : atab_step c B maps client s l s' -> (calm = true -> a_undisturbed c maps s s') -> rstep s l s'.
Proof.
  intros S U. unfold rstep. destruct calm; auto. split; auto. split; auto. intros E. congruence.
Qed.

Lemma same_calm s s' : a_mem s' = a_mem s -> a_undisturbed c maps s s'.
Proof. intros E i v b j curr _ _. left. now rewrite E. Qed.

Lemma may_calm s s' : few s -> may_write s = true -> calm = true -> a_undisturbed c maps s s'.
Proof.
  intros F W C i v b j curr P H. exfalso. unfold may_write in W. rewrite C in W. cbn in W.
  rewrite forallb_forall in W. destruct (N.lt_ge_cases i (N.of_nat nt)) as [L|L].
  - specialize (W i (in_threads i L)). unfold in_mark in W. now rewrite P, H in W.
  - rewrite (F i L) in P. discriminate.
Qed.

Lemma go_few s i p' me ca h : i < N.of_nat nt -> few s -> ago (a_p s) i = Some p' -> few (ATSt p' me ca h).
Proof.
  intros L F G j LJ. cbn. specialize (F j LJ). assert (NE : j <> i) by lia. revert G F. clear -NE.
  unfold AsyncTable.ago. destruct (a_p s) as [tb ep hp nx bl mv pc lo le]. cbn.
  destruct (pc i) eqn:P;
    repeat match goal with
      | |- (if ?a then Some _ else _) = _ -> _ => destruct a eqn:?
      end; try discriminate; intros [= <-]; cbn; rewrite ?fupd_neq by exact NE; auto.
Qed.

Lemma pc_few s i x me ca h : i < N.of_nat nt -> few s -> few (ATSt (with_pc (a_p s) i x) me ca h).
Proof. intros L F j LJ. cbn. rewrite fupd_neq by lia. auto. Qed.

Lemma goes_sound s i s' : i < N.of_nat nt -> few s -> goes s i = Some s' ->
  (forall p', ago (a_p s) i = Some p' ->
     atab_step c B maps client s None (ATSt p' (a_mem s) (a_call s) (a_h s))) ->
  rstep s None s' /\ few s'.
Proof.
  intros L F E H. unfold goes in E. destruct (ago (a_p s) i) as [p'|] eqn:G; [|discriminate]. injection E as <-.
  split; [|eapply go_few; eauto]. apply mk_rstep; auto. intros _. now apply same_calm.
Qed.

Lemma off_sound s i s' : i < N.of_nat nt -> few s -> y_pc (a_p s) i = AOp -> off s i = Some s' -> rstep s None s' /\ few s'.
Proof.
  intros L F P E. unfold off in E. destruct (finish (a_call s i)) as [x|] eqn:FI; [|discriminate].
  destruct s as [p me ca h]. cbn [a_p a_mem a_call a_h] in *.
  destruct (wants_help (ca i)) eqn:WH; [|destruct (wants_grow (ca i)) eqn:WG].
  - injection E as <-. split; [|now apply (pc_few (ATSt p me ca h))].
    apply mk_rstep; [eapply at_help; eauto|intros _; now apply same_calm].
  - injection E as <-. split; [|now apply (pc_few (ATSt p me ca h))].
    apply mk_rstep; [eapply at_want; eauto|intros _; now apply same_calm].
  - destruct (ago p i) as [p'|] eqn:G; [|discriminate]. injection E as <-.
    split; [|eapply (go_few (ATSt p me ca h)); eauto].
    apply mk_rstep; [eapply at_leave; eauto|intros _; now apply same_calm].
Qed.

Lemma access_sound s i s' : i < N.of_nat nt -> few s -> access s i = Some s' -> rstep s None s' /\ few s'.
Proof.
  intros L F. destruct s as [p me ca h]. unfold access. cbn [a_p a_mem a_call a_h].
  destruct (y_pc p i) eqn:P.
  all: try (intros E; apply (goes_sound _ _ _ L F E); intros p' G; apply at_go with (i := i); [cbn; now rewrite P|exact G]; fail).
  - destruct (ago p i) as [p'|] eqn:G; [|discriminate]. intros [= <-]. split; [|eapply (go_few (ATSt p me ca h)); eauto].
    apply mk_rstep; [apply at_get; auto|intros _; now apply same_calm].
  - destruct op.
    + destruct (ago p i) as [p'|] eqn:G; [|discriminate]. intros [= <-]. split; [|eapply (go_few (ATSt p me ca h)); eauto].
      apply mk_rstep; [apply at_get; auto|intros _; now apply same_calm].
    + intros E; apply (goes_sound _ _ _ L F E); intros p' G; apply at_go with (i := i); [cbn; now rewrite P|exact G].
  - destruct (ca i) as [[o x]|] eqn:E.
    2:{ intros H. now apply (off_sound _ _ _ L F P) in H. }
    destruct x as [|pc|r]; [intros H; now apply (off_sound _ _ _ L F P) in H| |intros H; now apply (off_sound _ _ _ L F P) in H].
    assert (D : (exists r, pc = PDone r) \/ forall r, pc <> PDone r).
    { destruct pc; try (right; intros r; discriminate). eauto. }
    destruct D as [[r ->]|D]; [intros H; now apply (off_sound _ _ _ L F P) in H|].
    intros H. assert (H' : (if may_write (ATSt p me ca h) then
       let '(t', pc') := bstep c (maps (y_loc p i)) (me (y_loc p i)) true o pc in
       Some (ATSt p (fupd me (y_loc p i) t') (fupd ca i (Some (o, CRun pc'))) h) else None) = Some s').
    { destruct pc; try exact H. now elim (D r). }
    clear H. destruct (may_write _) eqn:MW; [|discriminate].
    destruct (bstep c (maps (y_loc p i)) (me (y_loc p i)) true o pc) as [t' pc'] eqn:BS. injection H' as <-.
    split; [|exact F]. apply mk_rstep; [eapply at_run; eauto|now apply may_calm].
  - destruct (y_next p (y_loc p i)) eqn:NX; [|discriminate].
    intros E; apply (goes_sound _ _ _ L F E); intros p' G. eapply at_lost; eauto.
  - destruct (ago p i) as [p'|] eqn:G; [|discriminate]. intros [= <-]. split; [|eapply (go_few (ATSt p me ca h)); eauto].
    apply mk_rstep; [eapply at_claim; eauto|intros _; now apply same_calm].
  - assert (D : h i = HClaim \/ h i <> HClaim).
    { destruct (h i); try (right; discriminate). now left. }
    destruct D as [D|D].
    + rewrite D. intros E; apply (goes_sound _ _ _ L F E); intros p' G. eapply at_moved; eauto.
    + intros H. assert (H' : (let '(s', t', _, pc') :=
            hstep c (maps v) (maps (v + 1)) B (me v) (me (v + 1)) 0 (h i) in
          if negb calm || forallb (fun j => match y_pc p j with AMig5 w _ => w =? v | _ => true end) threads
          then Some (ATSt p (fupd (fupd me v s') (v + 1) t') ca (fupd h i pc')) else None) = Some s').
      { destruct (h i); try exact H. now elim D. }
      clear H. destruct (hstep c (maps v) (maps (v + 1)) B (me v) (me (v + 1)) 0 (h i)) as [[[a b1] d] pc'] eqn:HS.
      destruct (negb calm || _) eqn:CK; [|discriminate]. injection H' as <-.
      split; [|exact F]. apply mk_rstep; [eapply at_move; eauto|].
      intros C i' v' b' j curr P' H'. cbn [a_p a_mem a_call a_h] in *. rewrite C in CK. cbn in CK.
      rewrite forallb_forall in CK.
      assert (v' = v).
      { destruct (N.lt_ge_cases i' (N.of_nat nt)) as [LI|LI].
        - specialize (CK i' (in_threads i' LI)). rewrite P' in CK. now apply N.eqb_eq in CK.
        - specialize (F i' LI). cbn in F. congruence. }
      subst v'. rewrite fupd_neq by lia. rewrite fupd_eq. eapply hstep_marks; eauto.
Qed.

Lemma accesses_sound n i : i < N.of_nat nt -> forall s s', few s -> accesses n i s = Some s' ->
  lts_steps rstep s [] s' /\ few s'.
Proof.
  intros L. induction n as [|n IH]; cbn; intros s s' F.
  - intros [= <-]. split; [constructor|auto].
  - destruct (access s i) as [s1|] eqn:A; [|discriminate]. intros H.
    destruct (access_sound _ _ _ L F A) as [S1 F1]. destruct (IH _ _ F1 H) as [S2 F2].
    split; auto. eapply ls_tau; eauto.
Qed.

Lemma rsteps_cat s tr s1 tr' s2 : lts_steps rstep s tr s1 -> lts_steps rstep s1 tr' s2 -> lts_steps rstep s (tr ++ tr') s2.
Proof. induction 1; cbn; eauto using ls_tau, ls_vis. Qed.

Lemma rexec_sound ls : (forall o, In o (rops_of ls) -> client o) ->
  forall s tr s', few s -> rexec s ls = Some (tr, s') -> lts_steps rstep s tr s'.
Proof.
  induction ls as [|l ls IH]; intros CL s tr s' F; cbn [rexec].
  - intros [= <- <-]. constructor.
  - destruct (rexec1 s l) as [[e s1]|] eqn:X; [|discriminate].
    destruct (rexec s1 ls) as [[tr1 s2]|] eqn:Y; [|discriminate]. intros [= <- <-].
    assert (L1 : lts_steps rstep s (match e with Some e => [e] | None => [] end) s1 /\ few s1).
    { destruct s as [p me ca h]. unfold rexec1 in X. cbn [a_p a_mem a_call a_h] in X.
      destruct (N.ltb_spec (rthread l) (N.of_nat nt)) as [L|]; [|discriminate]. cbn [negb] in X.
      destruct l as [i o|i n|i|i ins del|i|i]; cbn [rthread] in L.
      - destruct (y_pc p i) eqn:P; try discriminate. destruct (ca i) eqn:E; try discriminate.
        injection X as <- <-. split; [|exact F].
        eapply ls_vis; [|constructor]. apply mk_rstep; [|intros _; now apply same_calm]. apply at_inv; auto.
        apply CL. cbn. auto.
      - destruct (accesses (N.to_nat n) i _) eqn:A; [|discriminate]. injection X as <- <-. eapply accesses_sound; eauto.
      - destruct (y_pc p i) eqn:P; try discriminate. destruct (finish (ca i)) eqn:FI; [|discriminate].
        destruct (wants_help (ca i)) eqn:WH; [discriminate|]. injection X as <- <-.
        split; [|now apply (pc_few (ATSt p me ca h))].
        eapply ls_tau; [|constructor]. apply mk_rstep; [|intros _; now apply same_calm]. eapply at_want; eauto.
      - destruct (y_pc p i) eqn:P; try discriminate. destruct (ago p i) eqn:G; [|discriminate].
        destruct (_ && may_write _) eqn:Z; [|discriminate].
        apply andb_true_iff in Z. destruct Z as [Z MW]. apply andb_true_iff in Z. destruct Z as [Z Z2].
        apply andb_true_iff in Z. destruct Z as [Z0 Z1].
        apply negb_true_iff in Z0. apply N.ltb_lt in Z1. apply mapper_eqb_eq in Z2.
        injection X as <- <-. split; [|eapply (go_few (ATSt p me ca h)); eauto].
        eapply ls_tau; [|constructor]. apply mk_rstep; [eapply at_open; eauto|now apply may_calm].
      - destruct (y_pc p i) eqn:P; try discriminate. destruct (ca i) as [[o [|pc|r]]|] eqn:E; try discriminate.
        injection X as <- <-. split; [|exact F]. eapply ls_vis; [|constructor].
        apply mk_rstep; [now apply at_ret|intros _; now apply same_calm].
      - destruct (ca i) eqn:E; try discriminate. destruct (y_pc p i) eqn:P; try discriminate.
        injection X as <- <-. split; [|now apply (pc_few (ATSt p me ca h))].
        eapply ls_tau; [|constructor]. apply mk_rstep; [now apply at_destroy|intros _; now apply same_calm]. }
    destruct L1 as [L1 F1].
    assert (L2 : lts_steps rstep s1 tr1 s2).
    { apply IH; auto. intros o I. apply CL. unfold rops_of. cbn [flat_map]. apply in_app_iff. now right. }
    replace (match e with Some e => e :: tr1 | None => tr1 end)
      with ((match e with Some e => [e] | None => [] end) ++ tr1) by (destruct e; reflexivity).
    eapply rsteps_cat; eauto.
Qed.
End Sound.

(** Events and final state of a schedule. *)
Definition rtrace (ls : list rlabel) : list (event mop mres) :=
  match rexec (atab_init c maps) ls with Some (tr, _) => tr | None => [] end.
Definition rfinal (ls : list rlabel) : atst :=
  match rexec (atab_init c maps) ls with Some (_, s) => s | None => atab_init c maps end.
Definition rruns (ls : list rlabel) : bool :=
  match rexec (atab_init c maps) ls with Some _ => true | None => false end.

Lemma rruns_sound ls : cprob mc = false -> rruns ls = true ->
  lts_steps (rstep (fun o => In o (rops_of ls))) (atab_init c maps) (rtrace ls) (rfinal ls).
Proof.
  unfold rruns, rtrace, rfinal. intros CP H.
  destruct (rexec (atab_init c maps) ls) as [[tr x]|] eqn:E; [|discriminate].
  eapply rexec_sound; eauto. intros i _. reflexivity.
Qed.

End Exec.
