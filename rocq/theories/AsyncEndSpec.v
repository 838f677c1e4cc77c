(** Specification only: progress of the asynchronous growing strategy. *)
From Coq Require Import NArith Bool List.
From Verif Require Import Words Async.
Import ListNotations.
Open Scope N_scope.

(** The thread has no operation in progress. *)
Definition aresting (s : ast_) (i : N) : Prop := y_pc s i = AIdle \/ y_pc s i = AUnreg.

(** The thread waits for a version that has been announced and replaced already (C21). *)
Definition missed (s : ast_) (i : N) : Prop := (exists o, y_pc s i = AWait o) /\ y_loc s i < y_epoch s.

(** Whose step it is. *)
Definition aactor (l : alabel) : N := match l with YGo i | YWant i | YInvalid i | YDestroy i => i end.

(** The step belongs to an operation in progress: none begins, no handle is
    created or destroyed. *)
Definition abusy (s : ast_) (l : alabel) : bool :=
  match l with
  | YGo i => match y_pc s i with AIdle | AUnreg => false | _ => true end
  | YWant _ | YInvalid _ => true
  | YDestroy _ => false
  end.

(** [aworks s n s']: from [s] to [s'] in [n] steps of the operations in progress that
    change something; a thread that waits changes nothing. *)
Inductive aworks (nblocks : N -> N) (s : ast_) : N -> ast_ -> Prop :=
| aw_nil : aworks nblocks s 0 s
| aw_step n s1 l s2 :
    aworks nblocks s n s1 -> abusy s1 l = true -> async_run1 nblocks s1 l = Some s2 -> s2 <> s1 ->
    aworks nblocks s (n + 1) s2.

(** A schedule is a list of steps to be attempted one after the other; what cannot be
    done, or would begin a new operation, is skipped. *)
Definition aattempt (nblocks : N -> N) (s : ast_) (l : alabel) : ast_ :=
  if abusy s l then match async_run1 nblocks s l with Some s' => s' | None => s end else s.
Definition aattempts (nblocks : N -> N) (ls : list alabel) (s : ast_) : ast_ :=
  fold_left (aattempt nblocks) ls s.

(** A part of a schedule in which everybody has a turn: each thread with an operation
    in progress in [s] makes an attempt.  Other attempts may be in between. *)
Definition afair_round (s : ast_) (r : list alabel) : Prop :=
  forall i, ~ aresting s i -> In (YGo i) r.
