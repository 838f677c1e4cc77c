(** Specification only: histories of the sequential table with pointer cells. *)
From Coq Require Import NArith Bool List.
From Verif Require Import Words Slot Mapper MapSpec Seq SeqSpec SeqPtr.
Import ListNotations.
Open Scope N_scope.

(** Number of inserts in a history. *)
Definition inserts (l : list sop) : nat :=
  length (filter (fun o => match o with SInsert _ _ => true | _ => false end) l).
Definition is_iou (o : sop) : Prop := match o with SIou _ _ _ => True | _ => False end.

(** The 16 low bits of the hash value: what the table compares before the keys. *)
Definition low16 (hash : N -> N) (k : N) : N := hash k mod 2 ^ 64 mod 2 ^ 16.

(** An allocator that always takes new memory. *)
Definition bump : allocator := fun h => 16 + fold_right N.max 0 (map fst h).
