(** Model of the cell types
    /repo/data-structures/element_types/simple_slot.hpp and
    /repo/data-structures/element_types/single_word_slot.hpp.
    Both files have the same structure; they differ in the word size and in
    whether a failed compare-and-swap overwrites its [expected] argument. *)
From Coq Require Import NArith Bool List.
From Verif Require Import Words.
Open Scope N_scope.

(** Template parameters of a cell type.
    [sc_w]: bits of the key word (simple_slot: 64, single_word_slot: 32).
    [sc_mark]: template parameter [markable].
    [sc_upd]: a failed [cas] stores the current content into [expected]
    (single_word_slot.hpp:338-343 uses compare_exchange_strong: true;
     simple_slot.hpp:333-346 uses __sync_bool_compare_and_swap_16: false). *)
Record scfg := SCfg { sc_w : N; sc_mark : bool; sc_upd : bool }.

(** simple_slot<uint64_t,uint64_t,m>, single_word_slot<uint32_t,uint32_t,m>. *)
Definition simple_slot (m : bool) : scfg := SCfg 64 m false.
Definition single_word_slot (m : bool) : scfg := SCfg 32 m true.

(** simple_slot.hpp:35 / single_word_slot.hpp:32 [marked_bit]. *)
Definition mbit (c : scfg) : N := 2 ^ (sc_w c - 1).
(** simple_slot.hpp:36 / single_word_slot.hpp:33 [bitmask]. *)
Definition bmask (c : scfg) : N := mbit c - 1.
(** simple_slot.hpp:31 / single_word_slot.hpp:27 [delete_dummy] (default). *)
Definition ddummy (c : scfg) : N := mbit c - 1.

(** simple_slot.hpp:53-58: the two words of a [slot_type]. *)
Record slot := Slot { skey : N; sdata : N }.

(** simple_slot.hpp:127-130 [get_empty], 131-134 [get_deleted]. *)
Definition empty_slot : slot := Slot 0 0.
Definition deleted_slot (c : scfg) : slot := Slot (ddummy c) 0.

(** simple_slot.hpp:187-193 [get_key]. *)
Definition get_key (c : scfg) (s : slot) : N :=
  if sc_mark c then N.land (skey s) (bmask c) else skey s.

(** simple_slot.hpp:195-200 [get_key_ref] (the raw key word). *)
Definition get_key_ref (s : slot) : N := skey s.

(** simple_slot.hpp:202-207 [get_mapped]. *)
Definition get_mapped (s : slot) : N := sdata s.

(** simple_slot.hpp:209-213 [set_mapped]. *)
Definition set_mapped (s : slot) (d : N) : slot := Slot (skey s) d.

(** simple_slot.hpp:221-225 [is_empty] (masked for every cell type). *)
Definition is_empty (c : scfg) (s : slot) : bool := N.land (skey s) (bmask c) =? 0.

(** simple_slot.hpp:227-231 [is_deleted] (compares the raw key word). *)
Definition is_deleted (c : scfg) (s : slot) : bool := skey s =? ddummy c.

(** simple_slot.hpp:233-238 [is_marked]. *)
Definition is_marked (c : scfg) (s : slot) : bool :=
  if sc_mark c then negb (N.land (skey s) (mbit c) =? 0) else false.

(** simple_slot.hpp:240-247 [compare_key] (the hash is unused). *)
Definition compare_key (c : scfg) (s : slot) (k : N) : bool :=
  if sc_mark c then N.land (skey s) (bmask c) =? k else skey s =? k.

(** simple_slot.hpp:355-362, line "temp.key |= marked_bit". *)
Definition mark_slot (c : scfg) (s : slot) : slot :=
  Slot (N.lor (skey s) (mbit c)) (sdata s).

(** Bitwise equality, as compared by the 128-bit (64-bit) instruction. *)
Definition slot_eqb (a b : slot) : bool :=
  (skey a =? skey b) && (sdata a =? sdata b).

(** simple_slot.hpp:332-346 / single_word_slot.hpp:337-343 [cas].
    Result: success, new cell content, new value of [expected]. *)
Definition cas (c : scfg) (cell expected goal : slot) : bool * slot * slot :=
  if slot_eqb cell expected then (true, goal, expected)
  else (false, cell, if sc_upd c then cell else expected).

(** simple_slot.hpp:348-353 [atomic_delete]. *)
Definition atomic_delete (c : scfg) (cell expected : slot) : bool * slot * slot :=
  cas c cell expected (deleted_slot c).

(** simple_slot.hpp:355-363 [atomic_mark]. *)
Definition atomic_mark (c : scfg) (cell expected : slot) : bool * slot * slot :=
  if sc_mark c then cas c cell expected (mark_slot c expected)
  else (true, cell, expected).

(** An update functor: [fn] is the effect of operator() on the data word; [fat]
    is the optional member [atomic], assumed to be one atomic read-modify-write
    (as in /repo/example/update_fcts.hpp); it yields the new data word and the
    value it returns. *)
Record functor := Functor { fn : N -> N; fat : option (N -> N * N) }.

(** simple_slot.hpp:425-449 [atomic_update], 387-423 [_atomic_helper_type].
    Result: returned slot, success flag, new cell content.
    Markable: one CAS of the whole cell.  Not markable: only the data word is
    touched, either by [f.atomic] (unconditionally) or by a CAS of the data
    word; the key word of the cell is neither read nor compared.
    (single_word_slot.hpp:425 does not compile for functors without [atomic] on
    non-markable cells; the model gives it the evidently intended meaning.) *)
Definition atomic_update (c : scfg) (cell expected : slot) (f : functor)
  : slot * bool * slot :=
  if sc_mark c then
    let temp := Slot (skey expected) (fn f (sdata expected)) in
    let '(ok, cell', _) := cas c cell expected temp in (temp, ok, cell')
  else
    match fat f with
    | Some g => let '(d', r) := g (sdata cell) in
                (Slot (get_key c expected) r, true, Slot (skey cell) d')
    | None =>
        if sdata cell =? sdata expected then
          let d' := fn f (sdata expected) in
          (Slot (get_key c expected) d', true, Slot (skey cell) d')
        else (Slot (get_key c expected) (sdata cell), false, cell)
    end.

(** simple_slot.hpp:451-465 [non_atomic_update]: load and store of the data word
    (the functor's return value is taken to be the new data word). *)
Definition non_atomic_update (c : scfg) (cell : slot) (f : functor) : slot * slot :=
  (Slot (get_key c cell) (fn f (sdata cell)), Slot (skey cell) (fn f (sdata cell))).
