(** Specification only: what concurrent calls leave behind when all of them have returned. *)
From Coq Require Import NArith Bool List.
From Verif Require Import Words MapSpec LinSpec HistSpec.
Import ListNotations.
Open Scope N_scope.

(** [l] lists the elements of [a], no key twice. *)
Definition lists (a : amap) (l : list (N * N)) : Prop :=
  NoDup (map fst l) /\ forall k d, a k = Some d <-> In (k, d) l.

(** The calls of history [tr], all of which have returned, can have taken effect one after the other, each between its
    invocation and its response, on a map that was empty; then they have left [a]. *)
Definition leaves (spec : amap -> mop -> amap -> mres -> Prop) (tr : list ev) (a : amap) : Prop :=
  exists x, asteps spec (AObj amap_empty (fun _ => AIdle)) tr x /\ ast x = a /\ forall t, ath x t = AIdle.

(** The number of answers of one kind in a history. *)
Fixpoint replies (f : mres -> bool) (tr : list ev) : nat :=
  match tr with
  | [] => O
  | ERet _ r :: tr => (if f r then 1 else 0) + replies f tr
  | EInv _ _ :: tr => replies f tr
  end.
Definition is_inserted (r : mres) : bool := match r with RInserted => true | _ => false end.
Definition is_erased (r : mres) : bool := match r with RErased => true | _ => false end.

(** What an iteration over the whole table has shown is what the calls have left: every element once, nothing else; and
    there are as many elements as insertions were acknowledged, minus the acknowledged erasures. *)
Definition shows_what_is_left (spec : amap -> mop -> amap -> mres -> Prop) (tr : list ev) (l : list (N * N)) : Prop :=
  (exists a, leaves spec tr a /\ lists a l) /\
  (length l + replies is_erased tr = replies is_inserted tr)%nat.
