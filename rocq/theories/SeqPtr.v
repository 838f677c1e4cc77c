(** Model of the sequential growing table, /repo/data-structures/seq_linear.hpp,
    with cells of type seq_complex_slot
    (/repo/data-structures/element_types/seq_complex_slot.hpp): a cell is one word,
    16 bits of fingerprint and 48 bits of pointer to an element on the heap.
    seq_table_config.hpp:38-41 chooses these cells for every key or value that is
    not 8 bytes wide, and for growing tables with referential integrity.
    Addresses are taken to be below 2^48 and malloc to succeed. *)
From Coq Require Import NArith Bool List.
From Verif Require Import Words Slot Mapper MapSpec Base Migrate Seq.
Import ListNotations.
Open Scope N_scope.

(** *** The heap *)

(** The live elements: address, key and value. *)
Definition heap := list (N * (N * N)).
Fixpoint h_get (h : heap) (a : N) : option (N * N) :=
  match h with
  | [] => None
  | (b, v) :: h => if b =? a then Some v else h_get h a
  end.
(** seq_complex_slot.hpp:135-138 [deallocate]. *)
Definition h_free (h : heap) (a : N) : heap := filter (fun e => negb (fst e =? a)) h.
(** Writing the value of an element in place. *)
Definition h_upd (h : heap) (a : N) (f : N -> N) : heap :=
  map (fun e => if fst e =? a then (fst e, (fst (snd e), f (snd (snd e)))) else e) h.
(** Writing the whole element that malloc returned: any address that is not in use
    and not null.  [al] is the choice malloc makes; it may use freed memory again. *)
Definition allocator := heap -> N.
Definition allocator_ok (al : allocator) : Prop :=
  forall h, al h <> 0 /\ h_get h (al h) = None.

(** *** Cells *)

(** seq_complex_slot.hpp:18-26: the fields of a word; 30-34 [fingerprint]. *)
Definition w_fp (w : N) : N := w mod 2 ^ 16.
Definition w_ptr (w : N) : N := w / 2 ^ 16.
Definition w_mk (fp a : N) : N := fp + 2 ^ 16 * a.
Definition fingerprint (hv : N) : N := hv mod 2 ^ 16.

(** seq_complex_slot.hpp:277-289 [compare_key]; [None] is an access to an element
    that is not there. *)
Definition compare_key (h : heap) (w k hv : N) : option bool :=
  if fingerprint hv =? w_fp w then
    if w_ptr w =? 0 then Some false
    else match h_get h (w_ptr w) with
         | None => None
         | Some e => Some (fst e =? k)
         end
  else Some false.

(** *** The table *)

(** The data members as in Seq.v, with the heap. *)
Record ctab := Ctab { c_map : mapper; c_cells : N -> option N; c_n : N; c_heap : heap }.

Definition c_with_heap (c : ctab) (h : heap) : ctab := Ctab (c_map c) (c_cells c) (c_n c) h.

Section SeqPtr.
Context (mc : mcfg) (hash : N -> N) (al : allocator).

Definition c_get (c : ctab) (p : N) : option N :=
  if p <? total_slots mc (c_map c) then c_cells c p else None.
Definition c_set (c : ctab) (p w : N) : ctab :=
  Ctab (c_map c) (fupd (c_cells c) p (Some w)) (c_n c) (c_heap c).

(** seq_complex_slot.hpp:155-164 the constructor from key, value and hash. *)
Definition c_new (c : ctab) (k d fp : N) : ctab * N :=
  let a := al (c_heap c) in (c_with_heap c ((a, (k, d)) :: c_heap c), w_mk fp a).

(** Passing a slot by value (seq_linear.hpp:350, 362, 376 and 396 call
    [insert_intern(slot_type sl, size_t hash)] with a non-const variable).  The
    constructor template [slot_type(Args&&...)], seq_complex_slot.hpp:66 and
    200-212, is a better match for a non-const variable than the copy constructor:
    it allocates a new element, copies into it what the slot refers to (operator
    value_type, 305-313) and leaves the fingerprint 0. *)
Definition c_copy (c : ctab) (w : N) : outcome (ctab * N) :=
  match h_get (c_heap c) (w_ptr w) with
  | None => RBad
  | Some (k, d) => ROk (c_new c k d 0)
  end.

(** seq_complex_slot.hpp:357-362 [cleanup]: nothing for null. *)
Definition c_cleanup (h : heap) (w : N) : outcome heap :=
  if w_ptr w =? 0 then ROk h
  else match h_get h (w_ptr w) with None => RBad | Some _ => ROk (h_free h (w_ptr w)) end.

(** base_linear.hpp:353-358 [slot_cleanup]. *)
Fixpoint c_cleanup_all (get : N -> option N) (h : heap) (l : list N) : outcome heap :=
  match l with
  | [] => ROk h
  | i :: l => match get i with
              | None => RBad
              | Some w => bind (c_cleanup h w) (fun h => c_cleanup_all get h l)
              end
  end.

(** The loop of find, insert_intern, update, insert_or_update_intern and erase, as
    [scan] of Seq.v. *)
Fixpoint c_scan (fuel : nat) (c : ctab) (k hv i : N) : outcome (N * bool) :=
  match fuel with
  | O => RLoop
  | S f =>
      match c_get c (remap mc (c_map c) i) with
      | None => RBad
      | Some w =>
          match compare_key (c_heap c) w k hv with
          | None => RBad
          | Some true => ROk (i, true)
          | Some false => if w =? 0 then ROk (i, false) else c_scan f c k hv (i + 1)
          end
      end
  end.
Definition c_find (c : ctab) (k hv : N) : outcome (N * bool) :=
  c_scan (S (N.to_nat (total_slots mc (c_map c)))) c k hv (map_hash mc (c_map c) hv).

(** seq_linear.hpp:184-196 and base_linear.hpp:413-438: an empty table. *)
Definition c_fresh (m : mapper) (h : heap) : ctab :=
  Ctab m (fun p => if p <? total_slots mc m then Some 0 else None) 0 h.

(** seq_linear.hpp:344-354 [insert(k, d)], 356-366 [insert(e)] and 368-378
    [emplace]: a slot is made, handed to insert_intern by value, and cleaned up
    when nothing was inserted. *)
Definition c_insert (intern : ctab -> N -> N -> outcome (ctab * N * bool)) (c : ctab) (k d : N)
  : outcome (ctab * N * bool) :=
  let hv := w64 (hash k) in
  let '(c1, w) := c_new c k d (fingerprint hv) in
  bind (intern c1 w hv) (fun '(c2, p, b) =>
    if b then ROk (c2, p, b)
    else bind (c_cleanup (c_heap c2) w) (fun h => ROk (c_with_heap c2 h, p, b))).

(** seq_linear.hpp:569-591 [migrate]: insert the key and the value of every
    non-empty cell into [target]. *)
Fixpoint c_migrate (insert : ctab -> N -> N -> outcome (ctab * N * bool))
  (get : N -> option N) (target : ctab) (l : list N) : outcome ctab :=
  match l with
  | [] => ROk target
  | i :: l =>
      match get i with
      | None => RBad
      | Some w =>
          if w =? 0 then c_migrate insert get target l
          else match h_get (c_heap target) (w_ptr w) with
               | None => RBad
               | Some (k, d) => bind (insert target k d) (fun r => c_migrate insert get (fst (fst r)) l)
               end
      end
  end.

(** seq_linear.hpp:552-567 [grow], [swap]; the destructor of [temp]
    (base_linear.hpp:440-450) cleans up the elements of the old table. *)
Definition c_grow (insert : ctab -> N -> N -> outcome (ctab * N * bool)) (c : ctab) : outcome ctab :=
  let cells := nseq 0 (N.to_nat (total_slots mc (c_map c))) in
  bind (c_migrate insert (c_get c) (c_fresh (resize mc (c_map c) (c_n c) 0) (c_heap c)) cells)
    (fun target =>
       bind (c_cleanup_all (c_get c) (c_heap target) cells)
         (fun h => ROk (Ctab (c_map target) (c_cells target) (c_n c) h))).

Definition c_plus (c : ctab) : ctab := Ctab (c_map c) (c_cells c) (c_n c + 1) (c_heap c).
Definition c_minus (c : ctab) : ctab := Ctab (c_map c) (c_cells c) (c_n c - 1) (c_heap c).

(** seq_linear.hpp:380-407 [insert_intern] with 541-550 [inc_n]; its first
    parameter is a copy.  The recursive call copies again. *)
Fixpoint c_insert_intern (depth : nat) (c : ctab) (sl hv : N) : outcome (ctab * N * bool) :=
  match depth with
  | O => RLoop
  | S depth =>
      bind (c_copy c sl) (fun '(c, sl) =>
      match h_get (c_heap c) (w_ptr sl) with
      | None => RBad
      | Some (k, _) =>
          bind (c_find c k hv) (fun r =>
            let p := remap mc (c_map c) (fst r) in
            if snd r then ROk (c, p, false)
            else if fill_limit (total_slots mc (c_map c)) <? c_n c + 1
            then bind (c_grow (c_insert (c_insert_intern depth)) (c_plus c)) (fun c2 =>
                   c_insert_intern depth (c_minus c2) sl hv)
            else ROk (c_set (c_plus c) p sl, p, true))
      end)
  end.

(** seq_linear.hpp:472-506 [insert_or_update_intern]; the slot is passed by
    reference.  seq_complex_slot.hpp:447-457 [non_atomic_update] changes the
    element in place. *)
Fixpoint c_iou_intern (depth : nat) (c : ctab) (sl hv : N) (f : N -> N) : outcome (ctab * N * bool) :=
  match depth with
  | O => RLoop
  | S depth =>
      match h_get (c_heap c) (w_ptr sl) with
      | None => RBad
      | Some (k, _) =>
          bind (c_find c k hv) (fun r =>
            let p := remap mc (c_map c) (fst r) in
            if snd r then
              match c_get c p with
              | None => RBad
              | Some w => ROk (c_with_heap c (h_upd (c_heap c) (w_ptr w) f), p, false)
              end
            else if fill_limit (total_slots mc (c_map c)) <? c_n c + 1
            then bind (c_grow (c_insert (c_insert_intern depth)) (c_plus c)) (fun c2 =>
                   c_iou_intern depth (c_minus c2) sl hv f)
            else ROk (c_set (c_plus c) p sl, p, true))
      end
  end.

(** seq_linear.hpp:438-453 [insert_or_update], 455-470 [emplace_or_update]. *)
Definition c_iou (depth : nat) (c : ctab) (k d : N) (f : N -> N) : outcome (ctab * N * bool) :=
  let hv := w64 (hash k) in
  let '(c1, w) := c_new c k d (fingerprint hv) in
  bind (c_iou_intern depth c1 w hv f) (fun '(c2, p, b) =>
    if b then ROk (c2, p, b)
    else bind (c_cleanup (c_heap c2) w) (fun h => ROk (c_with_heap c2 h, p, b))).

(** seq_linear.hpp:508-538 [erase]: cells are moved and emptied, no element is
    freed.  226-236 [get_key]: the key of the element. *)
Fixpoint c_erase_loop (fuel : nat) (c : ctab) (i j : N) : outcome ctab :=
  match fuel with
  | O => RLoop
  | S fuel =>
      let temp := remap mc (c_map c) j in
      match c_get c temp with
      | None => RBad
      | Some w =>
          if w =? 0 then ROk c
          else match h_get (c_heap c) (w_ptr w) with
               | None => RBad
               | Some (k, _) =>
                   if w64 (hash k) <=? i
                   then c_erase_loop fuel (c_set (c_set c i w) temp 0) temp (temp + 1)
                   else c_erase_loop fuel c i (j + 1)
               end
      end
  end.
Definition c_erase (fuel : nat) (c : ctab) (k : N) : outcome (ctab * bool) :=
  bind (c_find c k (w64 (hash k))) (fun r =>
    if snd r then
      let i := N.land (fst r) (remap mc (c_map c) (fst r)) in
      match c_get c i with
      | None => RBad
      | Some _ => bind (c_erase_loop fuel (c_set c i 0) i (i + 1)) (fun c' => ROk (c', true))
      end
    else ROk (c, false)).

(** *** Calls, as in Seq.v *)

(** The element the cell of an iterator refers to. *)
Definition c_shows (c : ctab) (p : N) : option (N * N) :=
  match c_get c p with None => None | Some w => h_get (c_heap c) (w_ptr w) end.

Definition crun (c : ctab) (o : sop) : outcome (ctab * (option (N * N) * bool)) :=
  match o with
  | SInsert k d =>
      bind (c_insert (c_insert_intern depth) c k d) (fun '(c', p, b) => ROk (c', (c_shows c' p, b)))
  | SIou k d f =>
      bind (c_iou depth c k d f) (fun '(c', p, b) => ROk (c', (c_shows c' p, b)))
  | SFind k =>
      bind (c_find c k (w64 (hash k))) (fun r =>
        ROk (c, if snd r then (c_shows c (remap mc (c_map c) (fst r)), true) else (None, false)))
  | SUpdate k f =>
      bind (c_find c k (w64 (hash k))) (fun r =>
        let p := remap mc (c_map c) (fst r) in
        if snd r then
          match c_get c p with
          | None => RBad
          | Some w => let c' := c_with_heap c (h_upd (c_heap c) (w_ptr w) f) in
                      ROk (c', (c_shows c' p, true))
          end
        else ROk (c, (None, false)))
  | SErase k =>
      bind (c_erase (S (N.to_nat (total_slots mc (c_map c)))) c k) (fun '(c', b) => ROk (c', (None, b)))
  end.

Fixpoint crun_all (c : ctab) (l : list sop) : outcome (ctab * list (option (N * N) * bool)) :=
  match l with
  | [] => ROk (c, [])
  | o :: l =>
      bind (crun c o) (fun '(c', r) => bind (crun_all c' l) (fun '(c'', rs) => ROk (c'', r :: rs)))
  end.

(** The destructor, base_linear.hpp:440-450: what is left on the heap. *)
Definition c_destroy (c : ctab) : outcome heap :=
  c_cleanup_all (c_get c) (c_heap c) (nseq 0 (N.to_nat (total_slots mc (c_map c)))).

(** What operator* and operator-> of an iterator really show, seq_linear.hpp:97-107:
    the bytes of the cell read as a pair of two 32-bit numbers (keys and values of
    4 bytes). *)
Definition c_star32 (c : ctab) (p : N) : option (N * N) :=
  option_map (fun w => (w mod 2 ^ 32, w / 2 ^ 32)) (c_get c p).

End SeqPtr.
