(** Specification only: the sequential table as a map. *)
From Coq Require Import NArith List.
From Verif Require Import Words Slot Mapper MapSpec Seq.
Import ListNotations.
Open Scope N_scope.

(** Effect of a call on the map, and what it returns: the element the iterator
    shows and the boolean. *)
Definition sq_spec (a : amap) (o : sop) : amap * (option (N * N) * bool) :=
  match o with
  | SInsert k d =>
      match a k with
      | Some d0 => (a, (Some (k, d0), false))
      | None => (fupd a k (Some d), (Some (k, d), true))
      end
  | SFind k =>
      match a k with Some d0 => (a, (Some (k, d0), true)) | None => (a, (None, false)) end
  | SUpdate k f =>
      match a k with
      | Some d0 => (fupd a k (Some (f d0)), (Some (k, f d0), true))
      | None => (a, (None, false))
      end
  | SIou k d f =>
      match a k with
      | Some d0 => (fupd a k (Some (f d0)), (Some (k, f d0), false))
      | None => (fupd a k (Some d), (Some (k, d), true))
      end
  | SErase k =>
      match a k with
      | Some _ => (fupd a k None, (None, true))
      | None => (a, (None, false))
      end
  end.

Fixpoint sq_spec_all (a : amap) (l : list sop) : amap * list (option (N * N) * bool) :=
  match l with
  | [] => (a, [])
  | o :: l => let '(a', r) := sq_spec a o in
              let '(a'', rs) := sq_spec_all a' l in (a'', r :: rs)
  end.

Definition sop_key (o : sop) : N :=
  match o with SInsert k _ | SFind k | SUpdate k _ | SIou k _ _ | SErase k => k end.
Definition is_erase (o : sop) : Prop := match o with SErase _ => True | _ => False end.

(** The map has exactly [n] keys. *)
Definition has_size (a : amap) (n : N) : Prop :=
  exists ks, NoDup ks /\ (forall k, In k ks <-> a k <> None) /\ N.of_nat (length ks) = n.

(** Every erase in the history meets the key it erases (if present) directly in
    front of a free cell. *)
Fixpoint tame (mc : mcfg) (hash : N -> N) (s : stab) (l : list sop) : Prop :=
  match l with
  | [] => True
  | o :: l =>
      (forall k p d, o = SErase k -> q_get mc s p = Some (Slot k d) ->
         exists x, q_get mc s (remap mc (q_map s) (p + 1)) = Some x /\ skey x = 0) /\
      match srun mc hash s o with ROk (s', _) => tame mc hash s' l | _ => True end
  end.
