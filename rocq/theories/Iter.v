(** Model of the iterators and references of base_linear,
    /repo/data-structures/base_linear_iterator.hpp, and of begin, end and range,
    /repo/data-structures/base_linear.hpp.  Const iterators (cbegin, cend) have
    the same code and are not modelled separately. *)
From Coq Require Import NArith Bool List.
From Verif Require Import Words Slot Mapper ReturnCode Base BaseExec.
Import ListNotations.
Open Scope N_scope.

(** A pointer to a cell: cell [p] of the table, or the null pointer advanced by
    [n] cells (the code may increment a null pointer). *)
Inductive iptr := PCell (p : N) | PNull (n : N).

(** base_linear_iterator.hpp:294-297: copy of the slot, position, end position. *)
Record iter := Iter { it_copy : slot; it_ptr : iptr; it_eptr : iptr }.

(** base_linear.hpp:494-498 end(), 367 range_end(). *)
Definition it_end : iter := Iter empty_slot (PNull 0) (PNull 0).

(** base_linear_iterator.hpp:267-274: iterators are compared by position. *)
Definition iptr_eqb (a b : iptr) : bool :=
  match a, b with
  | PCell p, PCell q => p =? q
  | PNull p, PNull q => p =? q
  | _, _ => false
  end.
Definition it_eqb (a b : iter) : bool := iptr_eqb (it_ptr a) (it_ptr b).

(** What a scan over cells ends with.  [SBad]: an access outside of the table. *)
Inductive scanned := SHit (p : N) (x : slot) | SEnd (last : slot) | SBad.

(** What an iteration step ends with. *)
Inductive itres := ItOk (it : iter) | ItBad.

Section Iter.
Context (c : tcfg) (m : mapper).
Notation sc := (tsc c).
Notation tot := (total_slots (tmc c) m).

(** The test of begin (487), range (529) and operator++ (238). *)
Definition shown (x : slot) : bool := negb (is_empty sc x || is_deleted sc x).

(** The loops of begin, range and operator++: at most [n] cells from [p] on,
    [copy] is the last slot loaded. *)
Fixpoint scan (t : mem) (n : nat) (p : N) (copy : slot) : scanned :=
  match n with
  | O => SEnd copy
  | S n =>
      match rd c m t p with
      | None => SBad
      | Some x => if shown x then SHit p x else scan t n (p + 1) x
      end
  end.

(** The same loop while other threads are active: the [j]-th load sees memory
    [ts j]. *)
Fixpoint cscan (ts : nat -> mem) (j n : nat) (p : N) (copy : slot) : scanned :=
  match n with
  | O => SEnd copy
  | S n =>
      match rd c m (ts j) p with
      | None => SBad
      | Some x => if shown x then SHit p x else cscan ts (S j) n (p + 1) x
      end
  end.

(** base_linear.hpp:311-314 make_iterator: the end position is the end of the
    table. *)
Definition make_iterator (x : slot) (p : N) : iter := Iter x (PCell p) (PCell tot).

(** base_linear.hpp:482-492 begin. *)
Definition it_begin (t : mem) : itres :=
  match scan t (N.to_nat tot) 0 empty_slot with
  | SHit p x => ItOk (make_iterator x p)
  | SEnd _ => ItOk it_end
  | SBad => ItBad
  end.

(** base_linear.hpp:522-534 range. *)
Definition it_range (t : mem) (rstart rend : N) : itres :=
  let e := N.min rend tot in
  match scan t (N.to_nat (e - rstart)) rstart empty_slot with
  | SHit p x => ItOk (Iter x (PCell p) (PCell e))
  | SEnd _ => ItOk it_end
  | SBad => ItBad
  end.

(** base_linear_iterator.hpp:232-243 operator++.  A pointer into the table is
    never compared with an advanced null pointer, because the two pointers of an
    iterator are both null or both in the table, except for an iterator that has
    reached the end; incrementing that one is outside of the model (ItBad). *)
Definition it_next (t : mem) (it : iter) : itres :=
  match it_ptr it, it_eptr it with
  | PCell p, PCell e =>
      match scan t (N.to_nat (e - (p + 1))) (p + 1) (it_copy it) with
      | SHit q x => ItOk (Iter x (PCell q) (PCell e))
      | SEnd x =>
          ItOk (Iter x (if N.max (p + 1) e =? e then PNull 0 else PCell (p + 1)) (PCell e))
      | SBad => ItBad
      end
  | PNull a, PNull e =>
      if a + 1 <? e then ItBad
      else ItOk (Iter (it_copy it) (if a + 1 =? e then PNull 0 else PNull (a + 1)) (PNull e))
  | _, _ => ItBad
  end.

(** base_linear_iterator.hpp:133-136 and 102: what dereferencing shows: "first" is
    the raw key word, "second" the value. *)
Definition it_first (it : iter) : N := get_key_ref (it_copy it).
Definition it_second (it : iter) : N := get_mapped (it_copy it).

(** The user's loop "for (it = begin; it != end(); ++it) visit(*it)", for at most
    [n] rounds: what was visited, and whether the loop has ended. *)
Inductive walk_res := Walked (l : list (N * N)) | Walking (l : list (N * N)) | WalkBad.
Definition visit (v : N * N) (r : walk_res) : walk_res :=
  match r with Walked l => Walked (v :: l) | Walking l => Walking (v :: l) | WalkBad => WalkBad end.

Fixpoint walk (t : mem) (n : nat) (r : itres) : walk_res :=
  match r with
  | ItBad => WalkBad
  | ItOk it =>
      if it_eqb it it_end then Walked []
      else match n with
           | O => Walking []
           | S n => visit (it_first it, it_second it) (walk t n (it_next t it))
           end
  end.

(** *** Changing elements through an iterator or reference.
    The element is at cell [p], the iterator's copy is [x].  Each function yields
    the new memory, the new copy and the answer; [None] is an access outside of
    the table. *)

(** base_linear_iterator.hpp:45-58 _overwrite. *)
Definition overwrite (v : N) : functor := Functor (fun _ => v) (Some (fun _ => (v, v))).

(** base_linear_iterator.hpp:71-78 operator=: "_ptr->atomic_update(_copy, ...)";
    the answer is ignored.  atomic_update takes the expected slot by reference and
    a failed CAS may overwrite it. *)
Definition ref_assign (t : mem) (p : N) (x : slot) (v : N) : option (mem * slot) :=
  match rd c m t p with
  | None => None
  | Some cell =>
      let '(_, _, cell') := atomic_update sc cell x (overwrite v) in
      let '(_, _, x') := cas sc cell x (Slot (skey x) v) in
      Some (fupd t p (Some cell'), if sc_mark sc then x' else x)
  end.

(** base_linear_iterator.hpp:87-100 compare_exchange. *)
Definition ref_exchange (t : mem) (p : N) (x : slot) (v : N) : option (mem * slot * bool) :=
  match rd c m t p with
  | None => None
  | Some cell =>
      let '(ok, cell', x') := cas sc cell x (Slot (get_key sc x) v) in
      Some (fupd t p (Some cell'), if ok then set_mapped x' v else x', ok)
  end.

(** base_linear_iterator.hpp:288-292 erase_if_unchanged. *)
Definition it_erase_if (t : mem) (p : N) (x : slot) : option (mem * slot * bool) :=
  match rd c m t p with
  | None => None
  | Some cell =>
      let '(ok, cell', x') := atomic_delete sc cell x in
      Some (fupd t p (Some cell'), x', ok)
  end.

(** base_linear_iterator.hpp:279-286 erase, at most [n] rounds of its loop, nobody
    else being active: memory, copy and whether it has returned. *)
Fixpoint it_erase (n : nat) (t : mem) (p : N) (x : slot) : option (mem * slot * bool) :=
  match n with
  | O => Some (t, x, false)
  | S n =>
      match it_erase_if t p x with
      | None => None
      | Some (t', x', true) => Some (t', x', true)
      | Some (t', x', false) => it_erase n t' p x'
      end
  end.

(** base_linear_iterator.hpp:277 refresh. *)
Definition it_refresh (t : mem) (it : iter) : itres :=
  match it_ptr it with
  | PCell p =>
      match rd c m t p with
      | None => ItBad
      | Some x => ItOk (Iter x (it_ptr it) (it_eptr it))
      end
  | PNull _ => ItBad
  end.

(** The iterator an operation returns (base_linear.hpp:311-314 and the return
    statements of the intern functions). *)
Definition ret_iter (r : bret) : iter :=
  match rpos r with
  | Some p => make_iterator (rslot r) p
  | None => it_end
  end.

(** "table[k] = v" by the only thread using the table: migration_table.hpp:249-257
    operator[] inserts the default value and dereferences the returned iterator,
    base_linear_iterator.hpp:71-78 assigns.  [n] bounds the steps of the insertion.
    [None]: the insertion has not finished, or it returned end().  The table is
    not replaced in between (version unchanged), so the migration table's
    reference (migration_table_iterator.hpp:76-90) does the same. *)
Definition index_assign (n : nat) (t : mem) (k v : N) : option mem :=
  let o := OInsert k 0 in
  match solo c m n t o (start c m o) with
  | (t1, PDone r) =>
      match rpos r with
      | Some p => option_map fst (ref_assign t1 p (rslot r) v)
      | None => None
      end
  | _ => None
  end.

End Iter.

(** *** Iterators of growing tables, migration_table_iterator.hpp *)

(** The table a handle works on: version, size and cells. *)
Record gtab := GTab { g_ver : N; g_map : mapper; g_mem : mem }.

(** migration_table_iterator.hpp:376-379: base iterator and the version of the
    table it belongs to. *)
Record miter := MIter { mi_ver : N; mi_it : iter }.

Section Growing.
Context (c : tcfg).

(** base_linear.hpp:881-901 find, run to its end within [n] steps. *)
Definition find_it (n : nat) (g : gtab) (k : N) : itres :=
  match solo c (g_map g) n (g_mem g) (OFind k) (start c (g_map g) (OFind k)) with
  | (_, PDone r) => ItOk (ret_iter c (g_map g) r)
  | _ => ItBad
  end.

(** migration_table_iterator.hpp:382-389 base_refresh_ptr: on a newer table the
    element is looked up again. *)
Definition refresh_ptr (n : nat) (g : gtab) (it : miter) : option miter :=
  if g_ver g =? mi_ver it then Some it
  else match find_it n g (get_key (tsc c) (it_copy (mi_it it))) with
       | ItOk b => Some (MIter (g_ver g) b)
       | ItBad => None
       end.

(** migration_table_iterator.hpp:290-300 operator++. *)
Definition mit_next (n : nat) (g : gtab) (it : miter) : option miter :=
  match refresh_ptr n g it with
  | None => None
  | Some it' =>
      match it_next c (g_map g) (g_mem g) (mi_it it') with
      | ItOk b => Some (MIter (mi_ver it') b)
      | ItBad => None
      end
  end.

(** migration_table_iterator.hpp:334-343 refresh. *)
Definition mit_refresh (n : nat) (g : gtab) (it : miter) : option miter :=
  match refresh_ptr n g it with
  | None => None
  | Some it' =>
      match it_refresh c (g_map g) (g_mem g) (mi_it it') with
      | ItOk b => Some (MIter (mi_ver it') b)
      | ItBad => None
      end
  end.

(** migration_table_iterator.hpp:318-325 comparison with end(), 302-308
    dereferencing. *)
Definition mit_at_end (it : miter) : bool := it_eqb (mi_it it) it_end.

(** The user's loop "for (; it != end(); ++it) visit(*it)" on a table that is not
    replaced any more; [n] rounds, [s] steps for each lookup. *)
Fixpoint mwalk (s : nat) (g : gtab) (n : nat) (it : miter) : walk_res :=
  if mit_at_end it then Walked []
  else match n with
       | O => Walking []
       | S n =>
           visit (it_first (mi_it it), it_second (mi_it it))
             match mit_next s g it with
             | None => WalkBad
             | Some it' => mwalk s g n it'
             end
       end.

(** migration_table_iterator.hpp:362-374 erase_if_unchanged. *)
Definition mit_erase_if (n : nat) (g : gtab) (it : miter) : option (gtab * miter * bool) :=
  let k := get_key (tsc c) (it_copy (mi_it it)) in
  match refresh_ptr n g it with
  | None => None
  | Some it' =>
      if negb (g_ver g =? mi_ver it) && negb (k =? get_key (tsc c) (it_copy (mi_it it')))
      then Some (g, it', false)
      else match it_ptr (mi_it it') with
           | PNull _ => None
           | PCell p =>
               match it_erase_if c (g_map g) (g_mem g) p (it_copy (mi_it it')) with
               | None => None
               | Some (t', x', b) =>
                   Some (GTab (g_ver g) (g_map g) t',
                         MIter (mi_ver it') (Iter x' (it_ptr (mi_it it')) (it_eptr (mi_it it'))), b)
               end
           end
  end.

(** migration_table_iterator.hpp:345-360 erase: "while (true) { refresh;
    erase_if_unchanged; }" with no way out of the loop.  [ErReturned] is the
    answer "return true" behind the loop. *)
Inductive erased := ErReturned | ErRunning (g : gtab) (it : miter) | ErFault.

Fixpoint mit_erase (s : nat) (n : nat) (g : gtab) (it : miter) : erased :=
  match n with
  | O => ErRunning g it
  | S n =>
      match mit_refresh s g it with
      | None => ErFault
      | Some it' =>
          match mit_erase_if s g it' with
          | None => ErFault
          | Some (g', it'', _) => mit_erase s n g' it''
          end
      end
  end.

End Growing.
