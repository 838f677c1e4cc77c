(** Model of begin() of a growing table, and of the loop over all elements that starts with it. *)
From Coq Require Import NArith Bool List.
From Verif Require Import Words Slot Mapper Base Iter.
Import ListNotations.
Open Scope N_scope.

(** /repo/data-structures/migration_table.hpp:1038-1045 begin: the iterator of the current table with its version. *)
Definition mit_begin (c : tcfg) (g : gtab) : option miter :=
  match it_begin c (g_map g) (g_mem g) with ItOk b => Some (MIter (g_ver g) b) | ItBad => None end.

(** "for (it = begin(); it != end(); ++it) visit( *it )", at most [n] rounds; [s]: as in [mwalk]. *)
Definition mit_loop (c : tcfg) (s : nat) (g : gtab) (n : nat) : walk_res :=
  match mit_begin c g with Some it => mwalk c s g n it | None => WalkBad end.
