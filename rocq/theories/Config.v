(** Model of /repo/data-structures/hash_table_mods.hpp and
    /repo/data-structures/table_config.hpp. *)
From Coq Require Import NArith Bool List.
From Verif Require Import Words ReturnCode.
Import ListNotations.
Open Scope N_scope.

(** hash_table_mods.hpp:5-15 [hmod]. *)
Inductive hmod :=
| neutral | growable | deletion | ref_integrity | sync | pool | circular_map | circular_prob.
Definition hmod_val (m : hmod) : N :=
  match m with
  | neutral => 0 | growable => 1 | deletion => 2 | ref_integrity => 4 | sync => 8
  | pool => 16 | circular_map => 32 | circular_prob => 64
  end.

(** hash_table_mods.hpp:20-21 [mod_descriptor] (left fold over "|"). *)
Definition mod_descriptor (mods : list hmod) : N :=
  fold_left (fun acc m => N.lor acc (hmod_val m)) mods 0.

(** hash_table_mods.hpp:24-28 [is]. *)
Definition mods_is (mods : list hmod) (ask : hmod) : bool :=
  negb (N.land (mod_descriptor mods) (hmod_val ask) =? 0).

(** hash_table_mods.hpp:30-35 [all]; the aggregator is built from Mods. *)
Definition mods_all (mods asks : list hmod) : bool :=
  let ask_descriptor := mod_descriptor mods in
  N.land ask_descriptor (mod_descriptor mods) =? ask_descriptor.

Inductive slot_kind := SimpleSlot | SingleWordSlot | ComplexSlot.
Inductive table_kind := BaseTable | MigrationTable.
Inductive worker_kind := WUser | WPool.
Inductive excl_kind := EAsync | ESync.

(** table_config.hpp:29-49 [slot_config]: sizeof(value_type), sizeof(key_type),
    needs_growing_with_ref_integrity. *)
Definition slot_config (vsize ksize : N) (ref : bool) : slot_kind :=
  if negb ref && (vsize =? 16) && (ksize =? 8) then SimpleSlot
  else if negb ref && (vsize =? 8) && (ksize =? 4) then SingleWordSlot
  else ComplexSlot.

(** What table_config.hpp:51-114 selects. *)
Record selection := Selection {
  sel_table : table_kind;     (* 107-110 table_type *)
  sel_slot : slot_kind;       (* 81-85 *)
  sel_marking : bool;         (* 67-68 needs_marking *)
  sel_cmap : bool;            (* 88 *)
  sel_cprob : bool;           (* 89 *)
  sel_cleanup : bool;         (* 90; further restricted by base_linear.hpp:52 *)
  sel_worker : worker_kind;   (* 94-98 *)
  sel_excl : excl_kind        (* 99-103 *)
}.

Definition table_config (mods : list hmod) (vsize ksize : N) : selection :=
  let is := mods_is mods in
  let needs_marking := is growable && negb (is sync) in
  let needs_ref := is ref_integrity && is growable in
  let needs_migration := is growable || is deletion in
  Selection
    (if needs_migration then MigrationTable else BaseTable)
    (slot_config vsize ksize needs_ref)
    needs_marking (is circular_map) (is circular_prob) (negb (is growable))
    (if negb (is pool) then WUser else WPool)
    (if negb (is sync) then EAsync else ESync).

(** estrat_async.hpp:71-73: the asynchronous strategy is only accepted by the
    compiler for marking cells; it is only instantiated for migrating tables. *)
Definition compiles (s : selection) : bool :=
  match sel_table s, sel_excl s with
  | MigrationTable, EAsync => sel_marking s
  | _, _ => true
  end.

(** *** Results of the public functions of base_linear.hpp *)

(** 918-961 insert, emplace; 979-1008 update(_with_backoff/_unsafe). *)
Definition ret_success (code : N) : bool := successful code.
(** 963-977 erase, erase_if. *)
Definition ret_count (code : N) : N := if successful code then 1 else 0.
(** 1010-1086 insert_or_update and emplace_or_update. *)
Definition ret_inserted (code : N) : bool := code =? RC_SUCCESS_IN.
