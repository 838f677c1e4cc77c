(** Specification only: a map whose iterators are keys. *)
From Coq Require Import NArith List.
From Verif Require Import Words Slot Mapper MapSpec Seq SeqSpec SeqIter.
Import ListNotations.
Open Scope N_scope.

(** What the iterator in a variable of the client stands for: end(), a key, or an
    element that was erased meanwhile. *)
Inductive ivar := VEnd | VKey (k : N) | VGone.

Record ispec := ISpec { is_map : amap; is_var : N -> ivar }.

(** After erase(k) iterators to k no longer stand for an element, even if k is
    inserted again. *)
Definition forget (o : sop) (v : N -> ivar) : N -> ivar :=
  match o with
  | SErase k =>
      fun x => match v x with VKey k' => if k' =? k then VGone else VKey k' | y => y end
  | _ => v
  end.

(** [None]: the client dereferences end() or an iterator to an erased element. *)
Definition icmd_spec (y : ispec) (c : icmd) : option (ispec * iout) :=
  match c with
  | ICall x o =>
      let '(a', (el, b)) := sq_spec (is_map y) o in
      Some (ISpec a' (fupd (forget o (is_var y)) x
                        (match el with Some (k, _) => VKey k | None => VEnd end)), UCall b)
  | IShow x =>
      match is_var y x with
      | VKey k => match is_map y k with None => None | Some d => Some (y, UShow k d) end
      | _ => None
      end
  | IAssign x v =>
      match is_var y x with
      | VKey k =>
          match is_map y k with
          | None => None
          | Some _ => Some (ISpec (fupd (is_map y) k (Some v)) (is_var y), UDone)
          end
      | _ => None
      end
  | IIsEnd x => Some (y, UEnd (match is_var y x with VEnd => true | _ => false end))
  end.

Fixpoint icmd_spec_all (y : ispec) (l : list icmd) : option (ispec * list iout) :=
  match l with
  | [] => Some (y, [])
  | c :: l =>
      match icmd_spec y c with
      | None => None
      | Some (y', r) =>
          match icmd_spec_all y' l with Some (y'', rs) => Some (y'', r :: rs) | None => None end
      end
  end.

Definition ispec_init : ispec := ISpec amap_empty (fun _ => VEnd).

(** Commands with a storable key. *)
Definition storable (c : icmd) : Prop :=
  match c with ICall _ o => sop_key o <> 0 | _ => True end.
(** Commands that do not erase. *)
Definition no_erase (c : icmd) : Prop :=
  match c with ICall _ o => ~ is_erase o | _ => True end.

(** Every erase in the history meets the key it erases (if present) directly in
    front of a free cell, as [tame] in SeqSpec.v. *)
Fixpoint itame (mc : mcfg) (hash : N -> N) (y : isys) (l : list icmd) : Prop :=
  match l with
  | [] => True
  | c :: l =>
      (forall x k p d, c = ICall x (SErase k) -> q_get mc (i_tab y) p = Some (Slot k d) ->
         exists z, q_get mc (i_tab y) (remap mc (q_map (i_tab y)) (p + 1)) = Some z /\ skey z = 0) /\
      match icmd_run mc hash y c with ROk (y', _) => itame mc hash y' l | _ => True end
  end.
