(** Model of base_linear_config::mapper_type,
    /repo/data-structures/base_linear.hpp:54-97 and 1296-1410. *)
From Coq Require Import NArith Bool List.
From Verif Require Import Words.
Open Scope N_scope.

(** Template parameters CyclicMap, CyclicProb (base_linear.hpp:38-40). *)
Record mcfg := MCfg { cmap : bool; cprob : bool }.

(** The three data members (base_linear.hpp:74-76). *)
Record mapper := Mapper { probe_helper : N; map_helper : N; grow_helper : N }.

(** base_linear.hpp:87 [lp_buffer]. *)
Definition lp_buffer : N := 1024.

(** base_linear.hpp:58-63 [compute_capacity]: [temp] is a 32-bit unsigned, so the
    shift wraps at 2^32.  [None]: the loop did not end within [fuel] rounds. *)
Fixpoint cc_loop (fuel : nat) (temp desired : N) : option N :=
  match fuel with
  | O => None
  | S f => if temp <? desired then cc_loop f ((temp * 2) mod 2 ^ 32) desired
           else Some temp
  end.
Definition compute_capacity (fuel : nat) (desired : N) : option N :=
  option_map (fun temp => (temp * 2) mod 2 ^ 32) (cc_loop fuel 256 desired).

(** base_linear.hpp:65-70 [compute_right_shift]; the counting loop computes the
    binary logarithm (0 for capacity 0), written here as [N.log2]. *)
Definition compute_right_shift (capacity : N) : N := 64 - N.log2 capacity.

(** base_linear.hpp:1317-1330 [init_helper]; "capacity - 1" wraps for 0. *)
Definition init_probe_helper (c : mcfg) (capacity : N) : N :=
  if cprob c then w64 (capacity + (2 ^ 64 - 1)) else capacity + lp_buffer.
Definition init_map_helper (c : mcfg) (capacity : N) : N :=
  if cmap c then w64 (capacity + (2 ^ 64 - 1)) else compute_right_shift capacity.

(** base_linear.hpp:1309-1315: constructor with explicit capacity and grow helper. *)
Definition mk_mapper (c : mcfg) (capacity gh : N) : mapper :=
  Mapper (init_probe_helper c capacity) (init_map_helper c capacity) gh.

(** base_linear.hpp:1300-1307: constructor from a requested size. *)
Definition mapper_of_size (c : mcfg) (fuel : nat) (desired : N) : option mapper :=
  option_map (fun cap => mk_mapper c cap 0) (compute_capacity fuel desired).

(** base_linear.hpp:1332-1340 [total_slots]. *)
Definition total_slots (c : mcfg) (m : mapper) : N :=
  if cprob c then probe_helper m + 1 else probe_helper m.

(** base_linear.hpp:1342-1350 [addressable_slots]. *)
Definition addressable_slots (c : mcfg) (m : mapper) : N :=
  if cprob c then probe_helper m + 1 else probe_helper m - lp_buffer.

(** base_linear.hpp:1352-1362 [bitmask]. *)
Definition bitmask (c : mcfg) (m : mapper) : N :=
  if cprob c then probe_helper m
  else if cmap c then map_helper m else probe_helper m - lp_buffer - 1.

(** base_linear.hpp:1371-1379 [map]. *)
Definition map_hash (c : mcfg) (m : mapper) (hashed : N) : N :=
  if cmap c then N.land hashed (map_helper m) else N.shiftr hashed (map_helper m).

(** base_linear.hpp:1381-1389 [remap]. *)
Definition remap (c : mcfg) (m : mapper) (i : N) : N :=
  if cprob c then N.land i (probe_helper m) else i.

(** "fill_rate > 0.3" (base_linear.hpp:1397-1399) where
    fill_rate = double(inserted - deleted) / double(nsize).
    0.3 is the double 5404319552844595 / 2^54 and nsize is a power of two, so the
    quotient is exact as long as the count is below 2^53 (assumed here). *)
Definition fill_above (count nsize : N) : bool :=
  5404319552844595 * nsize <? count * 2 ^ 54.

(** base_linear.hpp:1391-1408 [resize]; the subtraction is on 64-bit words. *)
Definition resize (c : mcfg) (m : mapper) (inserted deleted : N) : mapper :=
  let nsize := addressable_slots c m in
  let above := fill_above (w64 (inserted + (2 ^ 64 - w64 deleted))) nsize in
  let nsize' := if above then nsize * 2 else nsize in
  let temp := if cmap c then nsize else if above then 1 else 0 in
  mk_mapper c nsize' temp.
