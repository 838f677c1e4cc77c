(** An executable scheduler for the table machine, used to exhibit concrete
    executions, and solo runs of one call. *)
From Coq Require Import NArith Bool List Lia.
From Verif Require Import Words Slot Mapper ReturnCode MapSpec LinSpec Base.
Import ListNotations.
Open Scope N_scope.

(** Scheduling decisions. *)
Inductive blabel :=
| LInv (tid : N) (o : op)
| LRun (tid : N) (b : bool)
| LMark (p : N)
| LRet (tid : N).

Section Exec.
Context (c : tcfg) (m : mapper).

Definition exec1 (s : bsys) (l : blabel) : option (option (event mop mres) * bsys) :=
  match l with
  | LInv tid o =>
      match bthr s tid with
      | None => Some (Some (EInv tid (spec_op (tsc c) o)),
                      BSys (bmem s) (fupd (bthr s) tid (Some (o, start c m o))))
      | Some _ => None
      end
  | LRun tid b =>
      match bthr s tid with
      | None => None
      | Some (o, PDone _) => None
      | Some (o, pc) =>
          let '(t', pc') := bstep c m (bmem s) b o pc in
          Some (None, BSys t' (fupd (bthr s) tid (Some (o, pc'))))
      end
  | LMark p =>
      if sc_mark (tsc c) && (p <? total_slots (tmc c) m) then
        match bmem s p with
        | Some x => Some (None, BSys (fupd (bmem s) p (Some (mark_slot (tsc c) x))) (bthr s))
        | None => None
        end
      else None
  | LRet tid =>
      match bthr s tid with
      | Some (o, PDone r) =>
          Some (Some (ERet tid (obs o r)), BSys (bmem s) (fupd (bthr s) tid None))
      | _ => None
      end
  end.

Fixpoint exec (s : bsys) (ls : list blabel) : option (list (event mop mres) * bsys) :=
  match ls with
  | [] => Some ([], s)
  | l :: ls =>
      match exec1 s l with
      | None => None
      | Some (e, s') =>
          match exec s' ls with
          | None => None
          | Some (tr, s'') => Some (match e with Some e => e :: tr | None => tr end, s'')
          end
      end
  end.

(** Calls made by a schedule. *)
Fixpoint ops_of (ls : list blabel) : list op :=
  match ls with
  | [] => []
  | LInv _ o :: ls => o :: ops_of ls
  | _ :: ls => ops_of ls
  end.

Lemma exec1_sound (client : op -> Prop) s l e s' :
  (forall o, In o (ops_of [l]) -> client o) ->
  exec1 s l = Some (e, s') -> bsys_step c m client s e s'.
Proof.
  destruct s as [t th]. intros CL E. destruct l as [tid o|tid b|p|tid]; cbn in *.
  - destruct (th tid) eqn:Et; [discriminate|]. injection E as <- <-. apply bs_inv; auto.
  - destruct (th tid) as [[o pc]|] eqn:Et; [|discriminate].
    destruct pc as [i|i s|i s|i s|r|] eqn:Ep; try discriminate;
      (destruct (bstep c m t b o pc) as [t' pc'] eqn:S; rewrite Ep in S; rewrite S in E;
       injection E as <- <-; eapply bs_run; eauto; discriminate).
  - destruct (sc_mark (tsc c)) eqn:M; [|discriminate].
    destruct (N.ltb_spec p (total_slots (tmc c) m)); [|discriminate].
    destruct (t p) eqn:Et; [|discriminate]. injection E as <- <-. apply bs_mark; auto.
  - destruct (th tid) as [[o pc]|] eqn:Et; [|discriminate].
    destruct pc as [i|i s|i s|i s|r|]; try discriminate.
    injection E as <- <-. now apply bs_ret.
Qed.

Lemma exec_sound (client : op -> Prop) s ls tr s' :
  (forall o, In o (ops_of ls) -> client o) ->
  exec s ls = Some (tr, s') -> lts_steps (bsys_step c m client) s tr s'.
Proof.
  revert s tr. induction ls as [|l ls IH]; intros s tr CL E; cbn in E.
  - injection E as <- <-. constructor.
  - destruct (exec1 s l) as [[e s1]|] eqn:E1; [|discriminate].
    destruct (exec s1 ls) as [[tr1 s2]|] eqn:E2; [|discriminate].
    injection E as <- <-.
    assert (S : bsys_step c m client s e s1).
    { eapply exec1_sound; eauto. intros o I. apply CL.
      destruct l; cbn in *; try contradiction. destruct I as [->|[]]. now left. }
    assert (R : lts_steps (bsys_step c m client) s1 tr1 s2).
    { apply IH; auto. intros o I. apply CL. destruct l; cbn; auto. }
    destruct e; [eapply ls_vis|eapply ls_tau]; eauto.
Qed.

(** A call running alone: [n] steps. *)
Fixpoint solo (n : nat) (t : mem) (o : op) (pc : bpc) : mem * bpc :=
  match n with
  | O => (t, pc)
  | S n => let '(t', pc') := bstep c m t true o pc in solo n t' o pc'
  end.

(** Labels of one complete call by thread [tid] that takes [n] steps. *)
Definition call (tid : N) (o : op) (n : nat) : list blabel :=
  LInv tid o :: repeat (LRun tid true) n ++ [LRet tid].

End Exec.
