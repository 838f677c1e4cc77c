(** Model of the table of Base.v on a processor that loads a 16-byte cell in two
    halves.  /repo/data-structures/element_types/simple_slot.hpp:311-322 [load]
    reads key and value with [_mm_loadu_si128], which x86 does not guarantee to
    be one access; the compare-and-swap of the whole cell (332-346) is one. *)
From Coq Require Import NArith Bool List Lia.
From Verif Require Import Words Slot Mapper ReturnCode MapSpec LinSpec Base.
Import ListNotations.
Open Scope N_scope.

(** A call is where it is in Base.v, or between the two halves of the load of
    cell [i]: the key word [k] or the value word [d] has been read. *)
Inductive tpc :=
| TAt (pc : bpc)
| TKey (i k : N)
| TData (i d : N).

(** One access.  [kf]: the processor loads the key word first. *)
Definition tstep (c : tcfg) (m : mapper) (kf : bool) (t : mem) (b : bool) (o : op) (tp : tpc) : mem * tpc :=
  match tp with
  | TAt (PLoad i) =>
      match rd c m t (remap (tmc c) m i) with
      | None => (t, TAt PBad)
      | Some cell => (t, if kf then TKey i (skey cell) else TData i (sdata cell))
      end
  | TAt pc => let '(t', pc') := bstep c m t b o pc in (t', TAt pc')
  | TKey i k =>
      let p := remap (tmc c) m i in
      match rd c m t p with
      | None => (t, TAt PBad)
      | Some cell => (t, TAt (after_load c m o i p (Slot k (sdata cell))))
      end
  | TData i d =>
      let p := remap (tmc c) m i in
      match rd c m t p with
      | None => (t, TAt PBad)
      | Some cell => (t, TAt (after_load c m o i p (Slot (skey cell) d)))
      end
  end.

(** Any number of threads on one table that is not being migrated. *)
Record tsys := TSys { tmem : mem; tthr : N -> option (op * tpc) }.

Inductive tsys_step (c : tcfg) (m : mapper) (kf : bool) (client : op -> Prop)
  : tsys -> option (event mop mres) -> tsys -> Prop :=
| ts_inv t th tid o :
    th tid = None -> client o ->
    tsys_step c m kf client (TSys t th) (Some (EInv tid (spec_op (tsc c) o)))
      (TSys t (fupd th tid (Some (o, TAt (start c m o)))))
| ts_run t th tid o tp b t' tp' :
    th tid = Some (o, tp) -> (forall r, tp <> TAt (PDone r)) ->
    tstep c m kf t b o tp = (t', tp') ->
    tsys_step c m kf client (TSys t th) None (TSys t' (fupd th tid (Some (o, tp'))))
| ts_ret t th tid o r :
    th tid = Some (o, TAt (PDone r)) ->
    tsys_step c m kf client (TSys t th) (Some (ERet tid (obs o r)))
      (TSys t (fupd th tid None)).

(** A new table. *)
Definition tsys_init (c : tcfg) (m : mapper) : tsys := TSys (fresh_mem c m) (fun _ => None).

(** An executable scheduler, to exhibit executions. *)
Inductive tlabel := TInv (tid : N) (o : op) | TRun (tid : N) | TRet (tid : N).

Section Exec.
Context (c : tcfg) (m : mapper) (kf : bool).

Definition texec1 (s : tsys) (l : tlabel) : option (option (event mop mres) * tsys) :=
  match l with
  | TInv tid o =>
      match tthr s tid with
      | None => Some (Some (EInv tid (spec_op (tsc c) o)),
                      TSys (tmem s) (fupd (tthr s) tid (Some (o, TAt (start c m o)))))
      | Some _ => None
      end
  | TRun tid =>
      match tthr s tid with
      | None => None
      | Some (o, TAt (PDone _)) => None
      | Some (o, tp) =>
          let '(t', tp') := tstep c m kf (tmem s) true o tp in
          Some (None, TSys t' (fupd (tthr s) tid (Some (o, tp'))))
      end
  | TRet tid =>
      match tthr s tid with
      | Some (o, TAt (PDone r)) =>
          Some (Some (ERet tid (obs o r)), TSys (tmem s) (fupd (tthr s) tid None))
      | _ => None
      end
  end.

Fixpoint texec (s : tsys) (ls : list tlabel) : option (list (event mop mres) * tsys) :=
  match ls with
  | [] => Some ([], s)
  | l :: ls =>
      match texec1 s l with
      | None => None
      | Some (e, s') =>
          match texec s' ls with
          | None => None
          | Some (tr, s'') => Some (match e with Some e => e :: tr | None => tr end, s'')
          end
      end
  end.

Fixpoint tops_of (ls : list tlabel) : list op :=
  match ls with
  | [] => []
  | TInv _ o :: ls => o :: tops_of ls
  | _ :: ls => tops_of ls
  end.

Lemma texec1_sound (client : op -> Prop) s l e s' :
  (forall o, In o (tops_of [l]) -> client o) ->
  texec1 s l = Some (e, s') -> tsys_step c m kf client s e s'.
Proof.
  destruct s as [t th]. intros CL E. destruct l as [tid o|tid|tid]; cbn [texec1 tthr tmem tops_of In] in *.
  - destruct (th tid) eqn:Et; [discriminate|]. injection E as <- <-. apply ts_inv; auto.
  - destruct (th tid) as [[o tp]|] eqn:Et; [|discriminate].
    destruct (tstep c m kf t true o tp) as [t' tp'] eqn:S.
    assert (X : (forall r, tp <> TAt (PDone r)) /\ e = None /\ s' = TSys t' (fupd th tid (Some (o, tp')))).
    { destruct tp as [pc|i k|i d]; [destruct pc|..]; try discriminate E;
        injection E as <- <-; repeat split; try discriminate. }
    destruct X as (ND & -> & ->). eapply ts_run; eauto.
  - destruct (th tid) as [[o tp]|] eqn:Et; [|discriminate].
    destruct tp as [pc|i k|i d]; [destruct pc|..]; try discriminate.
    injection E as <- <-. now apply ts_ret.
Qed.

Lemma texec_sound (client : op -> Prop) ls : forall s tr s',
  (forall o, In o (tops_of ls) -> client o) ->
  texec s ls = Some (tr, s') -> lts_steps (tsys_step c m kf client) s tr s'.
Proof.
  induction ls as [|l ls IH]; intros s tr s' CL E; cbn [texec] in E.
  - injection E as <- <-. constructor.
  - destruct (texec1 s l) as [[e s1]|] eqn:E1; [|discriminate].
    destruct (texec s1 ls) as [[tr1 s2]|] eqn:E2; [|discriminate]. injection E as <- <-.
    assert (C1 : forall o, In o (tops_of [l]) -> client o).
    { intros o H. apply CL. destruct l; cbn in *; try contradiction. destruct H as [<-|[]]. now left. }
    assert (C2 : forall o, In o (tops_of ls) -> client o).
    { intros o H. apply CL. destruct l; cbn; auto. }
    pose proof (texec1_sound client _ _ _ _ C1 E1) as S1. pose proof (IH _ _ _ C2 E2) as S2.
    destruct e; [eapply ls_vis|eapply ls_tau]; eauto.
Qed.

End Exec.
