(** Model of references into a growing table,
    /repo/data-structures/migration_table_iterator.hpp:27-132, when the table is
    replaced between the calls made through them. *)
From Coq Require Import NArith Bool List.
From Verif Require Import Words Slot Mapper ReturnCode Base BaseExec Iter.
Import ListNotations.
Open Scope N_scope.

(** migration_table_iterator.hpp:117-119: version, and the copy and position of the
    reference into the current table (base_linear_iterator.hpp:106-107). *)
Record mref := MRef { mr_ver : N; mr_pos : iptr; mr_copy : slot }.

(** migration_table_iterator.hpp:309-315 operator*. *)
Definition mit_deref (it : miter) : mref := MRef (mi_ver it) (it_ptr (mi_it it)) (it_copy (mi_it it)).

(** What a call through a reference ends with: it returned; it accessed memory
    outside of the table or through a null pointer; its lookup has not ended. *)
Inductive access (A : Type) := Returned (a : A) | BadAccess | Unfinished.
Arguments Returned {A}. Arguments BadAccess {A}. Arguments Unfinished {A}.

Section Ref.
Context (c : tcfg).

(** migration_table_iterator.hpp:121-131 base_refresh_ptr: on a newer table the
    key is looked up again and the reference is replaced by the element found.
    Dereferencing end() copies its null pointer, which is not accessed here. *)
Definition mref_refresh (n : nat) (g : gtab) (r : mref) : option mref :=
  if g_ver g =? mr_ver r then Some r
  else match find_it c n g (get_key (tsc c) (mr_copy r)) with
       | ItOk b => Some (MRef (g_ver g) (it_ptr b) (it_copy b))
       | ItBad => None
       end.

(** migration_table_iterator.hpp:76-91 operator=. *)
Definition mref_assign (n : nat) (g : gtab) (r : mref) (v : N) : access (gtab * mref) :=
  match mref_refresh n g r with
  | None => Unfinished
  | Some r' =>
      match mr_pos r' with
      | PNull _ => BadAccess
      | PCell p =>
          match ref_assign c (g_map g) (g_mem g) p (mr_copy r') v with
          | None => BadAccess
          | Some (t', x') => Returned (GTab (g_ver g) (g_map g) t', MRef (mr_ver r') (mr_pos r') x')
          end
      end
  end.

(** migration_table_iterator.hpp:104-114 compare_exchange. *)
Definition mref_exchange (n : nat) (g : gtab) (r : mref) (v : N) : access (gtab * mref * bool) :=
  match mref_refresh n g r with
  | None => Unfinished
  | Some r' =>
      match mr_pos r' with
      | PNull _ => BadAccess
      | PCell p =>
          match ref_exchange c (g_map g) (g_mem g) p (mr_copy r') v with
          | None => BadAccess
          | Some (t', x', b) => Returned (GTab (g_ver g) (g_map g) t', MRef (mr_ver r') (mr_pos r') x', b)
          end
      end
  end.

End Ref.
