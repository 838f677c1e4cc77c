(** Specification only: progress of the synchronised growing strategy. *)
From Coq Require Import NArith Bool List.
From Verif Require Import Words Sync.
Import ListNotations.
Open Scope N_scope.

(** The thread has no operation in progress, and its stores are visible. *)
Definition quiet (p : spc) : bool := match p with PIdle | PUnreg => true | _ => false end.
Definition resting (s : sst) (i : N) : Prop := quiet (s_pc s i) = true /\ s_buf s i = [].

(** Some thread has accessed a deleted table (C24). *)
Definition crashed (s : sst) : Prop := exists i v, s_pc s i = PFault v.

(** Whose step it is. *)
Definition actor (l : slabel) : N := match l with SGo i | SWant i | SDestroy i | SFlush i => i end.

(** The step belongs to an operation in progress: none begins, no handle is
    created or destroyed. *)
Definition busy (s : sst) (l : slabel) : bool :=
  match l with
  | SGo i => negb (quiet (s_pc s i))
  | SWant _ | SFlush _ => true
  | SDestroy _ => false
  end.

(** [works s n s']: from [s] to [s'] in [n] steps of the operations in progress that
    change something; a thread that waits changes nothing. *)
Inductive works (tso : bool) (nblocks slot : N -> N) (s : sst) : N -> sst -> Prop :=
| wk_nil : works tso nblocks slot s 0 s
| wk_step n s1 l s2 :
    works tso nblocks slot s n s1 -> busy s1 l = true ->
    sync_run1 tso nblocks slot s1 l = Some s2 -> s2 <> s1 -> works tso nblocks slot s (n + 1) s2.

(** A schedule is a list of steps to be attempted one after the other; what cannot be
    done, or would begin a new operation, is skipped. *)
Definition attempt (tso : bool) (nblocks slot : N -> N) (s : sst) (l : slabel) : sst :=
  if busy s l then match sync_run1 tso nblocks slot s l with Some s' => s' | None => s end else s.
Definition attempts (tso : bool) (nblocks slot : N -> N) (ls : list slabel) (s : sst) : sst :=
  fold_left (attempt tso nblocks slot) ls s.

(** A part of a schedule in which everybody has a turn: each thread with an operation
    in progress in [s] makes an attempt, and the oldest store in its buffer
    becomes visible.  Other attempts may be in between. *)
Definition fair_round (s : sst) (r : list slabel) : Prop :=
  forall i, ~ resting s i -> In (SGo i) r /\ In (SFlush i) r.
