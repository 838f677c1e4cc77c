(** Comparing iterators of the sequential table. *)
From Coq Require Import NArith Bool List.
From Verif Require Import Words Slot Mapper MapSpec Migrate Seq SeqIter.
Open Scope N_scope.

(** seq_linear.hpp:111-118 operator== and operator!=: "_ptr == r._ptr", without
    refresh.  [base v] is the address of the cells of version [v] of the table, [size]
    the size of a cell. *)
Definition si_eqb (base : N -> N) (size : N) (a b : siter) : bool :=
  match si_ptr a, si_ptr b with
  | None, None => true
  | Some p, Some q => base (si_ver a) + size * p =? base (si_ver b) + size * q
  | _, _ => false
  end.

(** seq_linear.hpp:287-290 end(). *)
Definition si_end (mc : mcfg) (s : stab) : siter := SIter None empty_slot (q_version mc s).

(** seq_linear.hpp:275-285 begin(): the first cell of [l] that is not empty. *)
Fixpoint q_first (mc : mcfg) (s : stab) (l : list N) : outcome (option N) :=
  match l with
  | nil => ROk None
  | i :: l =>
      match q_get mc s i with
      | None => RBad
      | Some x => if q_empty x then q_first mc s l else ROk (Some i)
      end
  end%list.
Definition q_begin (mc : mcfg) (s : stab) : outcome siter :=
  bind (q_first mc s (nseq 0 (N.to_nat (total_slots mc (q_map s))))) (make_it mc s).
