(** An executable scheduler for tables behind store buffers. *)
From Coq Require Import NArith Bool List Lia.
From Verif Require Import Words Slot Mapper ReturnCode MapSpec LinSpec Base Tso.
Import ListNotations.
Open Scope N_scope.

(** Scheduling decisions. *)
Inductive xlabel :=
| XInv (u : N) (o : op)
| XRun (u : N) (b : bool)
| XDrain (u : N)
| XRet (u : N).

Section Exec.
Context (c : tcfg) (m : mapper) (plain : functor -> bool).

Definition xexec1 (s : tsys) (l : xlabel) : option (option (event mop mres) * tsys) :=
  match l with
  | XInv u o =>
      match xthr s u with
      | None => Some (Some (EInv u (spec_op (tsc c) o)),
                      TSys (xmem s) (xbuf s) (fupd (xthr s) u (Some (o, start c m o))))
      | Some _ => None
      end
  | XRun u b =>
      match xthr s u with
      | None => None
      | Some (o, PDone _) => None
      | Some (o, PLoad i) =>
          let '(_, pc') := bstep c m (view (xmem s) (xbuf s u)) b o (PLoad i) in
          Some (None, TSys (xmem s) (xbuf s) (fupd (xthr s) u (Some (o, pc'))))
      | Some (o, pc) =>
          if plain_store c plain o pc then
            match pc with
            | PUpd i curr =>
                let '(q', pc') := put c m (xmem s) (xbuf s u) o i curr in
                Some (None, TSys (xmem s) (fupd (xbuf s) u q') (fupd (xthr s) u (Some (o, pc'))))
            | _ => None
            end
          else
            match xbuf s u with
            | [] => let '(t', pc') := bstep c m (xmem s) b o pc in
                    Some (None, TSys t' (xbuf s) (fupd (xthr s) u (Some (o, pc'))))
            | _ => None
            end
      end
  | XDrain u =>
      match xbuf s u with
      | w :: l => Some (None, TSys (store_word (xmem s) w) (fupd (xbuf s) u l) (xthr s))
      | [] => None
      end
  | XRet u =>
      match xthr s u with
      | Some (o, PDone r) => Some (Some (ERet u (obs o r)), TSys (xmem s) (xbuf s) (fupd (xthr s) u None))
      | _ => None
      end
  end.

Fixpoint xexec (s : tsys) (ls : list xlabel) : option (list (event mop mres) * tsys) :=
  match ls with
  | [] => Some ([], s)
  | l :: ls =>
      match xexec1 s l with
      | None => None
      | Some (e, s') =>
          match xexec s' ls with
          | None => None
          | Some (tr, s'') => Some (match e with Some e => e :: tr | None => tr end, s'')
          end
      end
  end.

Fixpoint xops_of (ls : list xlabel) : list op :=
  match ls with
  | [] => []
  | XInv _ o :: ls => o :: xops_of ls
  | _ :: ls => xops_of ls
  end.

Lemma xexec1_sound (client : op -> Prop) s l e s' :
  (forall o, In o (xops_of [l]) -> client o) ->
  xexec1 s l = Some (e, s') -> tso_step c m plain client s e s'.
Proof.
  destruct s as [t q th]. intros CL E. destruct l as [u o|u b|u|u]; cbn [xexec1 xthr xmem xbuf] in *.
  - destruct (th u) eqn:Et; [discriminate|]. injection E as <- <-. apply ts_inv; auto. apply CL. now left.
  - destruct (th u) as [[o pc]|] eqn:Et; [|discriminate].
    destruct pc as [i|i s|i s|i s|r|]; try discriminate.
    + destruct (bstep c m (view t (q u)) b o (PLoad i)) as [t' pc'] eqn:S. injection E as <- <-.
      eapply ts_load; eauto.
    + destruct (plain_store c plain o (PCas i s)) eqn:P; [discriminate|]. destruct (q u) eqn:Q; [|discriminate].
      destruct (bstep c m t b o (PCas i s)) as [t' pc'] eqn:S. injection E as <- <-.
      eapply ts_lock; eauto; discriminate.
    + destruct (plain_store c plain o (PUpd i s)) eqn:P.
      * destruct (put c m t (q u) o i s) as [q' pc'] eqn:S. injection E as <- <-. eapply ts_store; eauto.
      * destruct (q u) eqn:Q; [|discriminate].
        destruct (bstep c m t b o (PUpd i s)) as [t' pc'] eqn:S. injection E as <- <-.
        eapply ts_lock; eauto; discriminate.
    + destruct (plain_store c plain o (PDel i s)) eqn:P; [discriminate|]. destruct (q u) eqn:Q; [|discriminate].
      destruct (bstep c m t b o (PDel i s)) as [t' pc'] eqn:S. injection E as <- <-.
      eapply ts_lock; eauto; discriminate.
    + destruct (plain_store c plain o PBad) eqn:P; [discriminate|]. destruct (q u) eqn:Q; [|discriminate].
      destruct (bstep c m t b o PBad) as [t' pc'] eqn:S. injection E as <- <-.
      eapply ts_lock; eauto; discriminate.
  - destruct (q u) as [|w l] eqn:Q; [discriminate|]. injection E as <- <-. now apply ts_drain.
  - destruct (th u) as [[o pc]|] eqn:Et; [|discriminate].
    destruct pc as [i|i s|i s|i s|r|]; try discriminate.
    injection E as <- <-. now apply ts_ret.
Qed.

Lemma xexec_sound (client : op -> Prop) s ls tr s' :
  (forall o, In o (xops_of ls) -> client o) ->
  xexec s ls = Some (tr, s') -> lts_steps (tso_step c m plain client) s tr s'.
Proof.
  revert s tr. induction ls as [|l ls IH]; intros s tr CL E; cbn in E.
  - injection E as <- <-. constructor.
  - destruct (xexec1 s l) as [[e s1]|] eqn:E1; [|discriminate].
    destruct (xexec s1 ls) as [[tr1 s2]|] eqn:E2; [|discriminate]. injection E as <- <-.
    assert (C1 : forall o, In o (xops_of [l]) -> client o).
    { intros o H. apply CL. destruct l; cbn in *; tauto. }
    assert (C2 : forall o, In o (xops_of ls) -> client o).
    { intros o H. apply CL. destruct l; cbn in *; tauto. }
    pose proof (xexec1_sound client _ _ _ _ C1 E1) as S1.
    destruct e as [e|]; [eapply ls_vis|eapply ls_tau]; eauto.
Qed.

(** Every response of the schedule finds the buffer empty. *)
Fixpoint xfenced (s : tsys) (ls : list xlabel) : bool :=
  match ls with
  | [] => true
  | l :: ls =>
      match l with XRet u => match xbuf s u with [] => true | _ => false end | _ => true end &&
      match xexec1 s l with Some (_, s') => xfenced s' ls | None => true end
  end.

Lemma xexec1_ret s l e s' : xexec1 s l = Some (e, s') -> forall u r, e = Some (ERet u r) -> l = XRet u.
Proof.
  intros E u r ->. destruct l as [v o|v b|v|v]; cbn in E.
  - destruct (xthr s v); discriminate.
  - destruct (xthr s v) as [[o pc]|]; [|discriminate]. destruct pc; try discriminate;
      repeat (match type of E with context [match ?x with _ => _ end] => destruct x end; try discriminate).
  - destruct (xbuf s v); discriminate.
  - destruct (xthr s v) as [[o pc]|]; [|discriminate]. destruct pc; try discriminate. now injection E as <- _ _.
Qed.

Lemma xexec_fenced (client : op -> Prop) s ls tr s' :
  (forall o, In o (xops_of ls) -> client o) -> xfenced s ls = true ->
  xexec s ls = Some (tr, s') -> lts_steps (tso_fenced c m plain client) s tr s'.
Proof.
  revert s tr. induction ls as [|l ls IH]; intros s tr CL F E; cbn in E, F.
  - injection E as <- <-. constructor.
  - destruct (xexec1 s l) as [[e s1]|] eqn:E1; [|discriminate].
    destruct (xexec s1 ls) as [[tr1 s2]|] eqn:E2; [|discriminate]. injection E as <- <-.
    apply andb_true_iff in F. destruct F as [F1 F2].
    assert (C1 : forall o, In o (xops_of [l]) -> client o).
    { intros o H. apply CL. destruct l; cbn in *; tauto. }
    assert (C2 : forall o, In o (xops_of ls) -> client o).
    { intros o H. apply CL. destruct l; cbn in *; tauto. }
    assert (S1 : tso_fenced c m plain client s e s1).
    { split; [exact (xexec1_sound client _ _ _ _ C1 E1)|]. intros u r X.
      rewrite (xexec1_ret _ _ _ _ E1 u r X) in F1. now destruct (xbuf s u). }
    destruct e as [e|]; [eapply ls_vis|eapply ls_tau]; eauto.
Qed.

End Exec.
