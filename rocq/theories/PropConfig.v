(** C11 - C14 and C38 - C40: capacity, mapping, cell encoding, configuration. *)
From Coq Require Import NArith Bool List Lia.
From Verif Require Import Words Slot SlotFacts Mapper MapperFacts ReturnCode MapSpec Base TableSpec
  BaseFacts Config ConfigFacts.
Import ListNotations.
Open Scope N_scope.

(** ** C11 *)
Theorem C11_capacity_partial :
  forall mc n, n <= 2 ^ 30 ->
    exists m lg, mapper_of_size mc 40 n = Some m /\ addressable_slots mc m = 2 ^ lg /\
      2 * n <= 2 ^ lg /\ 512 <= 2 ^ lg /\ 2 ^ lg <= N.max 512 (4 * n).
Proof. exact capacity_ok. Qed.
Print Assumptions C11_capacity_partial.
Example C11_case : option_map (addressable_slots (MCfg false false)) (mapper_of_size (MCfg false false) 40 1000) = Some 2048.
Proof. vm_compute. reflexivity. Qed.

(** Requests above 2^30 are not honoured: up to 2^31 the table has no slot at all
    (the 32-bit capacity wraps to 0), and beyond that construction never ends. *)
Theorem C11_capacity_refuted :
  (forall mc n, 2 ^ 30 < n <= 2 ^ 31 ->
     exists m, mapper_of_size mc 40 n = Some m /\ probe_helper m = probe_helper (mk_mapper mc 0 0)) /\
  (forall mc n fuel, 2 ^ 31 < n -> mapper_of_size mc fuel n = None).
Proof. exact capacity_bad. Qed.
Print Assumptions C11_capacity_refuted.

(** ** C12 *)
Theorem C12_home_slot :
  forall mc lg gh gh' h i, 9 <= lg <= 62 -> h < 2 ^ 64 ->
    let m := sized mc lg gh in
    let m' := sized mc (lg + 1) gh' in
    addressable_slots mc m = 2 ^ lg /\
    map_hash mc m h < 2 ^ lg /\
    (if cmap mc
     then map_hash mc m' h = map_hash mc m h \/ map_hash mc m' h = map_hash mc m h + 2 ^ lg
     else map_hash mc m' h = 2 * map_hash mc m h \/ map_hash mc m' h = 2 * map_hash mc m h + 1) /\
    (cprob mc = true -> remap mc m i < addressable_slots mc m /\ remap mc m i = i mod 2 ^ lg) /\
    (cprob mc = false -> remap mc m i = i /\ total_slots mc m = 2 ^ lg + 1024).
Proof. exact home_slot. Qed.
Print Assumptions C12_home_slot.
Example C12_case :
  map_hash (MCfg false true) (sized (MCfg false true) 9 0) (2 ^ 63 + 2 ^ 54) = 256 /\
  map_hash (MCfg false true) (sized (MCfg false true) 10 1) (2 ^ 63 + 2 ^ 54) = 513 /\
  map_hash (MCfg true true) (sized (MCfg true true) 9 0) 1000 = 488 /\
  map_hash (MCfg true true) (sized (MCfg true true) 10 512) 1000 = 1000.
Proof. vm_compute. auto. Qed.

(** ** C13 *)
Theorem C13_cell_encoding :
  forall sc k d, cell_type sc -> user_key sc k ->
    forall x, x = Slot k d \/ (sc_mark sc = true /\ x = mark_slot sc (Slot k d)) ->
    is_empty sc x = false /\ is_deleted sc x = false /\
    get_key sc x = k /\ get_mapped x = d /\
    (forall k', user_key sc k' -> (compare_key sc x k' = true <-> k' = k)) /\
    (is_marked sc x = true <-> x <> Slot k d) /\
    (* a writer that saw the unmarked cell fails on the marked one, and reports so *)
    (is_marked sc x = true -> forall goal, fst (fst (cas sc x (Slot k d) goal)) = false) /\
    (is_marked sc x = true -> forall c m o i p, tsc c = sc -> (forall k', o <> OFind k') ->
       after_load c m o i p x = PDone (ret_end RC_INVALID)).
Proof. exact cell_encoding. Qed.
Print Assumptions C13_cell_encoding.
Theorem C13_special_cells :
  forall sc, cell_type sc ->
    is_empty sc empty_slot = true /\ is_deleted sc (deleted_slot sc) = true /\
    is_empty sc (deleted_slot sc) = false /\ is_deleted sc empty_slot = false /\
    (sc_mark sc = true -> is_empty sc (mark_slot sc empty_slot) = true /\
                          is_marked sc (mark_slot sc empty_slot) = true) /\
    is_marked sc empty_slot = false /\ is_marked sc (deleted_slot sc) = false /\
    forall k, user_key sc k -> compare_key sc empty_slot k = false /\
                               compare_key sc (deleted_slot sc) k = false.
Proof. exact special_cells. Qed.
Print Assumptions C13_special_cells.
Example C13_case :
  user_key (simple_slot true) 77 /\ get_key (simple_slot true) (mark_slot (simple_slot true) (Slot 77 5)) = 77 /\
  is_marked (simple_slot true) (mark_slot (simple_slot true) (Slot 77 5)) = true.
Proof.
  split; [|split; vm_compute; reflexivity].
  unfold user_key. cbn. change (2 ^ (64 - 1)) with 9223372036854775808. lia.
Qed.

(** The "deleted" test misses a marked tombstone (needed for C34). *)
Theorem C13_marked_tombstone_refuted :
  is_deleted (simple_slot true) (mark_slot (simple_slot true) (deleted_slot (simple_slot true))) = false /\
  is_empty (simple_slot true) (mark_slot (simple_slot true) (deleted_slot (simple_slot true))) = false.
Proof. vm_compute. auto. Qed.
Print Assumptions C13_marked_tombstone_refuted.

(** ** C14: the exact set of storable keys; the reserved ones are 0, 2^63-1 and,
    without marking, 2^63. *)
Theorem C14_storable_keys_partial :
  forall m k d, k < 2 ^ 64 ->
    let sc := simple_slot m in
    user_key sc k <->
    (is_empty sc (Slot k d) = false /\ is_deleted sc (Slot k d) = false /\ is_marked sc (Slot k d) = false).
Proof. exact storable_keys. Qed.
Print Assumptions C14_storable_keys_partial.

(** Cells of one 64-bit word with 32-bit keys: the reserved keys are 0, 2^31-1 and, without
    marking, 2^31; with marking all keys from 2^31-1 on. *)
Theorem C14_single_word_keys :
  forall m k d, k < 2 ^ 32 ->
    let sc := single_word_slot m in
    (is_empty sc (Slot k d) = false /\ is_deleted sc (Slot k d) = false /\ is_marked sc (Slot k d) = false) <->
    (k <> 0 /\ k <> 2147483647 /\ k <> 2147483648 /\ (m = true -> k < 2147483648)).
Proof. exact single_word_keys. Qed.
Print Assumptions C14_single_word_keys.
Example C14_single_word_case :
  is_empty (single_word_slot false) (Slot 2147483649 5) = false /\
  is_marked (single_word_slot true) (Slot 2147483649 5) = true /\
  is_deleted (single_word_slot false) (Slot 2147483647 5) = true.
Proof. vm_compute. auto. Qed.

(** Undocumented restrictions: key 0, key 2^63-1, and on non-growing tables 2^63. *)
Theorem C14_every_key_refuted :
  is_empty (simple_slot false) (Slot 0 1) = true /\
  is_deleted (simple_slot false) (Slot (2 ^ 63 - 1) 1) = true /\
  is_empty (simple_slot false) (Slot (2 ^ 63) 1) = true /\
  is_empty (simple_slot true) (Slot 0 1) = true /\
  is_deleted (simple_slot true) (Slot (2 ^ 63 - 1) 1) = true.
Proof. vm_compute. auto. Qed.
Print Assumptions C14_every_key_refuted.

(** In a table: insert(0,1) reports success, and find(0) does not find it; two
    insert calls with key 2^63 both report success. *)
Theorem C14_lost_keys_refuted :
  exists sc mc hash lg,
    cell_type sc /\ 1 <= lg <= 63 /\
    let c := TCfg sc mc hash in let m := sized mc lg 0 in
    (exists t1 t2 r1 r2,
       two_calls c m (OInsert 0 1) (OFind 0) = Some (t1, r1, t2, r2) /\
       obs (OInsert 0 1) r1 = RInserted /\ obs (OFind 0) r2 = RAbsent) /\
    (exists t1 t2 r1 r2,
       two_calls c m (OInsert (2 ^ 63) 1) (OInsert (2 ^ 63) 1) = Some (t1, r1, t2, r2) /\
       obs (OInsert (2 ^ 63) 1) r1 = RInserted /\ obs (OInsert (2 ^ 63) 1) r2 = RInserted).
Proof. exact lost_keys. Qed.
Print Assumptions C14_lost_keys_refuted.

(** ** C38 *)
Theorem C38_return_codes :
  NoDup all_codes /\
  (forall code, In code all_codes ->
     (successful code = true <-> In code [RC_SUCCESS_IN; RC_SUCCESS_UP; RC_SUCCESS_DEL;
                                          RC_TSX_SUCCESS_IN; RC_TSX_SUCCESS_UP; RC_TSX_SUCCESS_DEL])) /\
  (forall o r, In (rcode r) table_codes -> (forall k, o <> OFind k) ->
     (ret_success (rcode r) = true <->
        obs o r = RInserted \/ (exists v, obs o r = RUpdated v) \/ obs o r = RErased) /\
     (ret_inserted (rcode r) = true <-> obs o r = RInserted) /\
     (ret_count (rcode r) = 1 <-> ret_success (rcode r) = true)).
Proof. exact return_codes. Qed.
Print Assumptions C38_return_codes.
Example C38_case : successful RC_SUCCESS_DEL = true /\ successful RC_ALREADY_USED = false.
Proof. vm_compute. auto. Qed.

(** ** C39 *)
Theorem C39_is_partial :
  forall mods m, m <> neutral -> (mods_is mods m = true <-> In m mods).
Proof. exact mods_is_iff. Qed.
Print Assumptions C39_is_partial.
Example C39_case : mods_is [growable; circular_map] circular_map = true /\ mods_is [growable] sync = false.
Proof. vm_compute. auto. Qed.
(** [all] answers true whatever is asked. *)
Theorem C39_all_refuted :
  (forall mods asks, mods_all mods asks = true) /\
  exists mods asks, mods_all mods asks = true /\ exists m, In m asks /\ ~ In m mods.
Proof. exact mods_all_bad. Qed.
Print Assumptions C39_all_refuted.

(** ** C40 *)
Theorem C40_selection :
  forall mods vsize ksize,
    let s := table_config mods vsize ksize in
    (sel_table s = MigrationTable <-> In growable mods \/ In deletion mods) /\
    (In growable mods -> (sel_marking s = true <-> sel_excl s = EAsync)) /\
    (sel_excl s = ESync <-> In sync mods) /\ (sel_worker s = WPool <-> In pool mods) /\
    (sel_cmap s = true <-> In circular_map mods) /\ (sel_cprob s = true <-> In circular_prob mods) /\
    (sel_slot s = SimpleSlot <->
       vsize = 16 /\ ksize = 8 /\ ~ (In ref_integrity mods /\ In growable mods)) /\
    (sel_slot s = SingleWordSlot <->
       vsize = 8 /\ ksize = 4 /\ ~ (In ref_integrity mods /\ In growable mods)) /\
    (sel_cleanup s = true <-> ~ In growable mods) /\
    (In growable mods -> compiles s = true) /\
    (~ In growable mods -> ~ In deletion mods -> compiles s = true).
Proof. exact selection_ok. Qed.
Print Assumptions C40_selection.
Example C40_case :
  table_config [growable; deletion] 16 8 =
    Selection MigrationTable SimpleSlot true false false false WUser EAsync.
Proof. vm_compute. reflexivity. Qed.

(** ** C49: not every combination can be instantiated: deletion without growth
    selects the asynchronous strategy with cells that cannot be marked. *)
Theorem C49_every_configuration_compiles_refuted :
  exists mods, forall vsize ksize, compiles (table_config mods vsize ksize) = false.
Proof. exact deletion_only. Qed.
Print Assumptions C49_every_configuration_compiles_refuted.
Theorem C49_configurations_partial :
  forall mods vsize ksize,
    compiles (table_config mods vsize ksize) = false <->
    (In deletion mods /\ ~ In growable mods /\ ~ In sync mods).
Proof. exact compiles_iff. Qed.
Print Assumptions C49_configurations_partial.
Example C49_case : compiles (table_config [deletion; sync] 16 8) = true.
Proof. vm_compute. reflexivity. Qed.
