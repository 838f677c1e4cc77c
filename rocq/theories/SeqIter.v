(** Iterators of the sequential table that are kept while the table is used,
    /repo/data-structures/seq_linear.hpp:21-132, with cells of type seq_simple_slot.
    operator++ does not compile (see [Seq]) and is left out. *)
From Coq Require Import NArith Bool List.
From Verif Require Import Words Slot Mapper MapSpec Seq.
Import ListNotations.
Open Scope N_scope.

(** seq_linear.hpp:120-124: pointer ([None] is nullptr), copy of the cell, version. *)
Record siter := SIter { si_ptr : option N; si_slot : slot; si_ver : N }.

(** What a client does: calls whose returned iterator is kept in variable [x],
    dereferencing a variable, assigning to "second" through it, comparing it with
    end(). *)
Inductive icmd :=
| ICall (x : N) (o : sop)
| IShow (x : N)
| IAssign (x v : N)
| IIsEnd (x : N).

(** What the client sees. *)
Inductive iout :=
| UCall (b : bool)
| UShow (k d : N)
| UDone
| UEnd (b : bool).

Section Iter.
Context (mc : mcfg) (hash : N -> N).

(** seq_linear.hpp:186, 555: _version is 0 at first and incremented whenever the
    table grows.  A table only changes its size when it grows, and then gets larger
    (SeqIterFacts.grow_larger), so here the size stands for the version. *)
Definition q_version (s : stab) : N := total_slots mc (q_map s).

(** The calls of [Seq.srun], with the cell of the returned iterator in place of what
    it shows. *)
Definition scall (s : stab) (o : sop) : outcome (stab * (option N * bool)) :=
  match o with
  | SInsert k d =>
      bind (insert_intern mc hash depth s k d) (fun '(s', p, b) => ROk (s', (Some p, b)))
  | SIou k d f =>
      bind (insert_or_update_intern mc hash depth s k d f) (fun '(s', p, b) => ROk (s', (Some p, b)))
  | SFind k =>
      bind (q_scan mc hash s k) (fun r =>
        ROk (s, if snd r then (Some (remap mc (q_map s) (fst r)), true) else (None, false)))
  | SUpdate k f =>
      bind (q_scan mc hash s k) (fun r =>
        let p := remap mc (q_map s) (fst r) in
        if snd r then
          match q_get mc s p with
          | None => RBad
          | Some x => ROk (q_set s p (Slot (skey x) (f (sdata x))), (Some p, true))
          end
        else ROk (s, (None, false)))
  | SErase k =>
      bind (erase mc hash (S (N.to_nat (total_slots mc (q_map s)))) s k)
        (fun '(s', b) => ROk (s', (None, b)))
  end.

(** seq_linear.hpp:249-252 make_it, 287-290 end().  All calls pass the present
    content of the cell: what they have just loaded (317, 392, 429, 485) or stored
    (402, 500). *)
Definition make_it (s : stab) (p : option N) : outcome siter :=
  match p with
  | None => ROk (SIter None empty_slot (q_version s))
  | Some p =>
      match q_get mc s p with
      | None => RBad
      | Some x => ROk (SIter (Some p) x (q_version s))
      end
  end.

(** seq_linear.hpp:126-131 refresh: looks the key of the copy up; the copy stays. *)
Definition si_refresh (s : stab) (it : siter) : outcome siter :=
  bind (q_scan mc hash s (skey (si_slot it))) (fun r =>
    ROk (SIter (if snd r then Some (remap mc (q_map s) (fst r)) else None) (si_slot it) (q_version s))).

(** seq_linear.hpp:99-109 operator*, operator->: refresh if the versions differ, then
    access the cell.  [RBad]: null pointer or outside of the table. *)
Definition si_deref (s : stab) (it : siter) : outcome (siter * N * slot) :=
  bind (if q_version s =? si_ver it then ROk it else si_refresh s it) (fun it' =>
    match si_ptr it' with
    | None => RBad
    | Some p => match q_get mc s p with None => RBad | Some x => ROk (it', p, x) end
    end).

(** The variables of the client: iterators, at first end().  (The assignment operator
    of the iterators is defaulted, hence deleted, as they have a reference member; a
    client uses a new variable, or a container, for each call.) *)
Record isys := ISys { i_tab : stab; i_var : N -> siter }.

Definition icmd_run (y : isys) (c : icmd) : outcome (isys * iout) :=
  match c with
  | ICall x o =>
      bind (scall (i_tab y) o) (fun '(s', (p, b)) =>
      bind (make_it s' p) (fun it => ROk (ISys s' (fupd (i_var y) x it), UCall b)))
  | IShow x =>
      bind (si_deref (i_tab y) (i_var y x)) (fun '(it, p, c) =>
        ROk (ISys (i_tab y) (fupd (i_var y) x it), UShow (skey c) (sdata c)))
  | IAssign x v =>
      bind (si_deref (i_tab y) (i_var y x)) (fun '(it, p, c) =>
        ROk (ISys (q_set (i_tab y) p (Slot (skey c) v)) (fupd (i_var y) x it), UDone))
  | IIsEnd x =>                       (* 111-118: comparison of the pointers *)
      ROk (y, UEnd (match si_ptr (i_var y x) with None => true | Some _ => false end))
  end.

Fixpoint icmd_all (y : isys) (l : list icmd) : outcome (isys * list iout) :=
  match l with
  | [] => ROk (y, [])
  | c :: l =>
      bind (icmd_run y c) (fun '(y', r) => bind (icmd_all y' l) (fun '(y'', rs) => ROk (y'', r :: rs)))
  end.

(** A new table and no iterators. *)
Definition isys_init (m : mapper) : isys :=
  ISys (q_fresh mc m) (fun _ => SIter None empty_slot (q_version (q_fresh mc m))).

End Iter.
