(** Model of the sequential growing table, /repo/data-structures/seq_linear.hpp,
    with cells of type seq_simple_slot
    (/repo/data-structures/element_types/seq_simple_slot.hpp).
    Iterators are modelled by what they show: the pair in the cell they point to
    (operator*, seq_linear.hpp:97-101).  operator++ of the iterator refers to a
    member [_t] that does not exist, so iterating does not compile and is not
    modelled; the same holds for emplace with this cell type. *)
From Coq Require Import NArith Bool List.
From Verif Require Import Words Slot Mapper MapSpec Base Migrate.
Import ListNotations.
Open Scope N_scope.

(** seq_simple_slot.hpp:159-162 [is_empty], 177-181 [compare_key]. *)
Definition q_empty (x : slot) : bool := skey x =? 0.
Definition q_is (x : slot) (k : N) : bool := skey x =? k.

(** Rounding of an integer to 53 significant bits, ties to even. *)
Definition round53 (p : N) : N :=
  let sh := N.log2 p - 52 in
  let q := p / 2 ^ sh in
  let r := p mod 2 ^ sh in
  let up := (2 ^ sh <? 2 * r) || ((2 * r =? 2 ^ sh) && N.odd q) in
  (if up then q + 1 else q) * 2 ^ sh.

(** seq_linear.hpp:187, 194: "_mapper.total_slots() * _max_fill_factor", a product
    of doubles converted to size_t.  The double 0.666 is 5998794703657501 / 2^53;
    total_slots is taken to be below 2^53. *)
Definition fill_limit (total : N) : N := round53 (5998794703657501 * total) / 2 ^ 53.

(** The data members: mapper, table, number of elements.  [_thresh] is a function
    of the mapper (constructors 184-196, swap 560-567). *)
Record stab := Stab { q_map : mapper; q_mem : mem; q_n : N }.

(** Outcome of a call: normal end, an access outside of the table, or no end. *)
Inductive outcome (A : Type) := ROk (x : A) | RBad | RLoop.
Arguments ROk {A} x.
Arguments RBad {A}.
Arguments RLoop {A}.
Definition bind {A B} (x : outcome A) (f : A -> outcome B) : outcome B :=
  match x with ROk a => f a | RBad => RBad | RLoop => RLoop end.

Section Seq.
Context (mc : mcfg) (hash : N -> N).

(** The cell at index [p]. *)
Definition q_get (s : stab) (p : N) : option slot :=
  if p <? total_slots mc (q_map s) then q_mem s p else None.
Definition q_home (s : stab) (k : N) : N := map_hash mc (q_map s) (w64 (hash k)).

(** The loop shared by find (308-321), insert_intern (380-407), update (410-436),
    insert_or_update_intern (472-506) and erase (510-520).  Result: the loop index
    and whether the key was there.  A scan of more than total_slots cells repeats
    itself, hence does not end. *)
Fixpoint scan (fuel : nat) (s : stab) (k i : N) : outcome (N * bool) :=
  match fuel with
  | O => RLoop
  | S f =>
      match q_get s (remap mc (q_map s) i) with
      | None => RBad
      | Some x => if q_is x k then ROk (i, true)
                  else if q_empty x then ROk (i, false) else scan f s k (i + 1)
      end
  end.
Definition q_scan (s : stab) (k : N) : outcome (N * bool) :=
  scan (S (N.to_nat (total_slots mc (q_map s)))) s k (q_home s k).

Definition q_set (s : stab) (p : N) (x : slot) : stab :=
  Stab (q_map s) (fupd (q_mem s) p (Some x)) (q_n s).

(** seq_linear.hpp:184-196 and base_linear.hpp:413-438: an empty table. *)
Definition q_fresh (m : mapper) : stab :=
  Stab m (fun p => if p <? total_slots mc m then Some empty_slot else None) 0.

(** seq_linear.hpp:569-591 [migrate]: insert every non-empty cell into [target]. *)
Fixpoint migrate_loop (insert : stab -> N -> N -> outcome (stab * N * bool))
  (s target : stab) (l : list N) : outcome stab :=
  match l with
  | [] => ROk target
  | i :: l =>
      match q_get s i with
      | None => RBad
      | Some x =>
          if q_empty x then migrate_loop insert s target l
          else bind (insert target (skey x) (sdata x))
                 (fun r => migrate_loop insert s (fst (fst r)) l)
      end
  end.

(** seq_linear.hpp:552-567 [grow], [swap]: _n_elem is not exchanged. *)
Definition grow (insert : stab -> N -> N -> outcome (stab * N * bool)) (s : stab) : outcome stab :=
  bind (migrate_loop insert s (q_fresh (resize mc (q_map s) (q_n s) 0))
          (nseq 0 (N.to_nat (total_slots mc (q_map s)))))
    (fun target => ROk (Stab (q_map target) (q_mem target) (q_n s))).

(** seq_linear.hpp:380-407 [insert_intern] with 541-550 [inc_n].  [depth] bounds
    the recursion.  Result: table, cell of the returned iterator, success. *)
Fixpoint insert_intern (depth : nat) (s : stab) (k d : N) : outcome (stab * N * bool) :=
  match depth with
  | O => RLoop
  | S depth =>
      bind (q_scan s k) (fun r =>
        let p := remap mc (q_map s) (fst r) in
        if snd r then ROk (s, p, false)
        else
          let s1 := Stab (q_map s) (q_mem s) (q_n s + 1) in
          if fill_limit (total_slots mc (q_map s)) <? q_n s1
          then bind (grow (insert_intern depth) s1) (fun s2 =>
                 insert_intern depth (Stab (q_map s2) (q_mem s2) (q_n s2 - 1)) k d)
          else ROk (q_set s1 p (Slot k d), p, true))
  end.

(** seq_linear.hpp:472-506 [insert_or_update_intern]; [f] is the effect of the
    functor on the value (non_atomic_update). *)
Fixpoint insert_or_update_intern (depth : nat) (s : stab) (k d : N) (f : N -> N)
  : outcome (stab * N * bool) :=
  match depth with
  | O => RLoop
  | S depth =>
      bind (q_scan s k) (fun r =>
        let p := remap mc (q_map s) (fst r) in
        if snd r then
          match q_get s p with
          | None => RBad
          | Some x => ROk (q_set s p (Slot (skey x) (f (sdata x))), p, false)
          end
        else
          let s1 := Stab (q_map s) (q_mem s) (q_n s + 1) in
          if fill_limit (total_slots mc (q_map s)) <? q_n s1
          then bind (grow (insert_intern depth) s1) (fun s2 =>
                 insert_or_update_intern depth (Stab (q_map s2) (q_mem s2) (q_n s2 - 1)) k d f)
          else ROk (q_set s1 p (Slot k d), p, true))
  end.

(** seq_linear.hpp:508-538 [erase].  The second loop moves cells back; [i] is the
    free cell, [j] the loop index. *)
Fixpoint erase_loop (fuel : nat) (s : stab) (i j : N) : outcome stab :=
  match fuel with
  | O => RLoop
  | S fuel =>
      let temp := remap mc (q_map s) j in
      match q_get s temp with
      | None => RBad
      | Some x =>
          if q_empty x then ROk s
          else if w64 (hash (skey x)) <=? i
          then erase_loop fuel (q_set (q_set s i x) temp empty_slot) temp (temp + 1)
          else erase_loop fuel s i (j + 1)
      end
  end.
Definition erase (fuel : nat) (s : stab) (k : N) : outcome (stab * bool) :=
  bind (q_scan s k) (fun r =>
    if snd r then
      let i := N.land (fst r) (remap mc (q_map s) (fst r)) in
      match q_get s i with
      | None => RBad
      | Some _ => bind (erase_loop fuel (q_set s i empty_slot) i (i + 1)) (fun s' => ROk (s', true))
      end
    else ROk (s, false)).

(** *** Calls *)
Inductive sop :=
| SInsert (k d : N)
| SFind (k : N)
| SUpdate (k : N) (f : N -> N)
| SIou (k d : N) (f : N -> N)
| SErase (k : N).

(** What a call returns: the pair its iterator shows ([None] for end()), and the
    boolean (true for find that found something). *)
Definition shows (s : stab) (p : N) : option (N * N) :=
  option_map (fun x => (skey x, sdata x)) (q_get s p).

Definition depth : nat := 4.

Definition srun (s : stab) (o : sop) : outcome (stab * (option (N * N) * bool)) :=
  match o with
  | SInsert k d =>
      bind (insert_intern depth s k d) (fun '(s', p, b) => ROk (s', (shows s' p, b)))
  | SIou k d f =>
      bind (insert_or_update_intern depth s k d f) (fun '(s', p, b) => ROk (s', (shows s' p, b)))
  | SFind k =>
      bind (q_scan s k) (fun r =>
        ROk (s, if snd r then (shows s (remap mc (q_map s) (fst r)), true) else (None, false)))
  | SUpdate k f =>
      bind (q_scan s k) (fun r =>
        let p := remap mc (q_map s) (fst r) in
        if snd r then
          match q_get s p with
          | None => RBad
          | Some x => let s' := q_set s p (Slot (skey x) (f (sdata x))) in ROk (s', (shows s' p, true))
          end
        else ROk (s, (None, false)))
  | SErase k =>
      bind (erase (S (N.to_nat (total_slots mc (q_map s)))) s k) (fun '(s', b) => ROk (s', (None, b)))
  end.

(** A sequence of calls. *)
Fixpoint srun_all (s : stab) (l : list sop) : outcome (stab * list (option (N * N) * bool)) :=
  match l with
  | [] => ROk (s, [])
  | o :: l =>
      bind (srun s o) (fun '(s', r) => bind (srun_all s' l) (fun '(s'', rs) => ROk (s'', r :: rs)))
  end.

End Seq.
