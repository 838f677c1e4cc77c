(** Comparing iterators. *)
From Coq Require Import NArith Bool List.
From Verif Require Import Words Slot Mapper MapSpec Base Iter.
Open Scope N_scope.

(** migration_table_iterator.hpp:324-331 operator== and operator!= of the iterators
    of growing tables: "_it == rhs._it", which compares the addresses of two cells
    (base_linear_iterator.hpp:267-274) and looks neither at the versions nor at the
    keys.  [base v] is the address of the cells of the table with version [v],
    [size] the size of a cell.  For one table this is [it_eqb]. *)
Definition mit_eqb (base : N -> N) (size : N) (a b : miter) : bool :=
  match it_ptr (mi_it a), it_ptr (mi_it b) with
  | PCell p, PCell q => base (mi_ver a) + size * p =? base (mi_ver b) + size * q
  | PNull p, PNull q => p =? q
  | _, _ => false
  end.
