(** Vocabulary for the theorems on the synchronised growing strategy. *)
From Coq Require Import NArith Bool List.
From Verif Require Import Words Sync.
Import ListNotations.
Open Scope N_scope.

(** Different handles have different flags. *)
Definition own_flags (slot : N -> N) : Prop := forall i j, slot i = slot j -> i = j.

(** Thread [i] is inside of an operation on table [v]: get_table has returned it and
    rls_table has not been called. *)
Definition operating (s : sst) (i v : N) : Prop := s_pc s i = POp v.

(** Thread [i] is moving the elements of block [b] of table [v]. *)
Definition moving (s : sst) (i v b : N) : Prop := exists k g, s_pc s i = PMig5 k v b g.

(** Thread [i] has won the right to grow table [v] and has not yet published the
    successor. *)
Definition organising (s : sst) (i v : N) : Prop :=
  match s_pc s i with
  | PGrow3 w | PGrow4 w | PGrow5 w | PWaitOps w _ _ | PGrow7 w | PGrow9 w | PWaitStart w
  | PWaitMig w _ _ | PPublish w => w = v
  | PMig1 (KOrg w) | PMig2 (KOrg w) _ | PMig3 (KOrg w) _ _ | PMig4 (KOrg w) _ _
  | PMig5 (KOrg w) _ _ _ | PMig6 (KOrg w) _ _ => w = v
  | _ => False
  end.

(** All elements of table [v] have been moved; none has. *)
Definition all_moved (nblocks : N -> N) (s : sst) (v : N) : Prop :=
  forall b, b < nblocks v -> s_moved s v b = true.
Definition untouched (s : sst) (v : N) : Prop := forall b, s_moved s v b = false.

(** The tables the next access of a thread reads or writes (no growth step in
    between; [v + 1] is the successor of [v]). *)
Definition uses (p : spc) (v : N) : Prop :=
  match p with
  | POp w => v = w
  | PMig3 _ w _ | PMig4 _ w _ => v = w
  | PMig5 _ w _ _ => v = w \/ v = w + 1
  | PMig6 _ w _ => v = w + 1
  | _ => False
  end.

(** The thread helps, and it announced so only after the organiser had taken the
    table out of use. *)
Definition late (p : spc) : Prop :=
  match p with
  | PMig3 KHelp _ false | PMig4 KHelp _ false | PMig5 KHelp _ _ false | PMig6 KHelp _ false => True
  | _ => False
  end.

(** The versions for which a growth step has been started, in order: executions with
    the moments where a thread wins the right to grow. *)
Definition starts (s : sst) (l : slabel) (s' : sst) : list N :=
  match l with
  | SGo i => match s_pc s i, s_pc s' i with PGrow2 _ _, PGrow3 v => [v] | _, _ => [] end
  | _ => []
  end.

Inductive history (tso : bool) (nblocks slot : N -> N) : list N -> sst -> Prop :=
| hi_init : history tso nblocks slot [] sync_init
| hi_step h s l s' : history tso nblocks slot h s -> sync_run1 tso nblocks slot s l = Some s' ->
    history tso nblocks slot (h ++ starts s l s') s'.

(** 0, 1, ..., n-1. *)
Definition first_versions (n : nat) : list N := map N.of_nat (seq 0 n).
