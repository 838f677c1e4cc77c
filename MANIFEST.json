{
 "claims": [
  {
   "property": "C01",
   "status": "proved",
   "theorems": [
    "C01_no_erase_linearizable"
   ],
   "note": "Any number of threads, any hash, all four mapping/probing configurations, simple and single-word cells."
  },
  {
   "property": "C02",
   "status": "proved",
   "theorems": [
    "C02_no_update_linearizable"
   ],
   "note": "As C01, for insert/find/erase/erase_if."
  },
  {
   "property": "C03",
   "status": "partial",
   "theorems": [
    "C03_update_vs_erase_if_refuted",
    "C03_atomic_update_vs_erase_refuted"
   ],
   "note": "The code violates the property on non-marking cells; two concrete histories produced by the table are proved not linearizable. What does hold is C01 and C02 (no mixture) and C04 (marking cells); C85 bounds what can go wrong."
  },
  {
   "property": "C04",
   "status": "proved",
   "theorems": [
    "C04_marking_cells_linearizable"
   ],
   "note": "Cells may be marked at any time; a call that meets a mark answers invalid without effect."
  },
  {
   "property": "C05",
   "status": "proved",
   "theorems": [
    "C05_keys_unique_and_reachable"
   ],
   "note": "For every client: any keys, functors and mixture of calls."
  },
  {
   "property": "C06",
   "status": "proved",
   "theorems": [
    "C06_inserted_key_stays",
    "C06_inserted_value_stays"
   ],
   "note": "No erase of the key may overlap the insert or come later."
  },
  {
   "property": "C07",
   "status": "partial",
   "theorems": [
    "C07_no_update_lost",
    "C07_reported_value",
    "C07_reported_value_refuted"
   ],
   "note": "The sum of all acknowledged additions is exact. The reported value is the new value for functors without atomic member or whose atomic member returns it; the Increment functor of the examples returns the old value on non-marking cells (refuted)."
  },
  {
   "property": "C08",
   "status": "proved",
   "theorems": [
    "C08_accesses_in_bounds"
   ],
   "note": "For every client: any keys, functors and mixture of calls."
  },
  {
   "property": "C09",
   "status": "proved",
   "theorems": [
    "C09_solo_call_terminates",
    "C09_any_client_returns"
   ],
   "note": "From every reachable state and every point of the call; termination for every client, the result for the clients of C01, C02 and C04."
  },
  {
   "property": "C10",
   "status": "partial",
   "theorems": [
    "C10_full_circular_table_refuted",
    "C10_present_key_partial",
    "C10_find_returns_iff_partial",
    "C10_insert_returns_iff_partial",
    "C10_absent_key_refuted"
   ],
   "note": "Refuted: on a full circular table find of an absent key and insert of a new key run forever. Proved: find (and, if no cell is marked, insert) running alone returns exactly if its key is stored or a cell is vacant, in every reachable state. Missing: returning on full tables, which is false."
  },
  {
   "property": "C11",
   "status": "partial",
   "theorems": [
    "C11_capacity_partial",
    "C11_capacity_refuted"
   ],
   "note": "Holds for n <= 2^30; above the 32-bit computation yields 0 slots or never ends."
  },
  {
   "property": "C12",
   "status": "proved",
   "theorems": [
    "C12_home_slot"
   ],
   "note": "All hash values, capacities 2^9..2^62 (doubling to 2^63)."
  },
  {
   "property": "C13",
   "status": "proved",
   "theorems": [
    "C13_cell_encoding",
    "C13_special_cells",
    "C13_marked_tombstone_refuted"
   ],
   "note": "The encoding is lossless; the separate finding is that is_deleted does not recognise a marked tombstone."
  },
  {
   "property": "C14",
   "status": "partial",
   "theorems": [
    "C14_storable_keys_partial",
    "C14_single_word_keys",
    "C14_every_key_refuted",
    "C14_lost_keys_refuted"
   ],
   "note": "The exact set of storable keys is proved; keys 0, 2^63-1 and (non-growing tables) 2^63 are lost although insert reports success."
  },
  {
   "property": "C38",
   "status": "proved",
   "theorems": [
    "C38_return_codes"
   ],
   "note": ""
  },
  {
   "property": "C39",
   "status": "partial",
   "theorems": [
    "C39_is_partial",
    "C39_all_refuted"
   ],
   "note": "is<m>() is correct for every modifier except neutral (whose value is 0); all<...>() is always true."
  },
  {
   "property": "C40",
   "status": "proved",
   "theorems": [
    "C40_selection"
   ],
   "note": ""
  },
  {
   "property": "C49",
   "status": "partial",
   "theorems": [
    "C49_every_configuration_compiles_refuted",
    "C49_configurations_partial"
   ],
   "note": "Exactly the sets with deletion but neither growable nor sync are rejected by the static_assert of the asynchronous strategy."
  },
  {
   "property": "C15",
   "status": "partial",
   "theorems": [
    "C15_migration_exact",
    "C15_life_linearizable",
    "C15_large_table_refuted",
    "C15_full_circular_refuted"
   ],
   "note": "Proved for every reachable table of up to 2^31 slots (circular probing: with a vacant cell), every hash, block size, number of helpers and interleaving. False, and refuted, for 2^32 slots and more (block ends are truncated to 32 bits) and for a completely full circular table: there nothing is moved."
  },
  {
   "property": "C16",
   "status": "partial",
   "theorems": [
    "C16_circular_mapping_refuted"
   ],
   "note": "False: with circular mapping and linear probing a helper uses target cells that another block has not initialised."
  },
  {
   "property": "C17",
   "status": "proved",
   "theorems": [
    "C17_overflow_area",
    "C17_migration_in_bounds"
   ],
   "note": "Over any sequence of use and migrations; tables of up to 2^31 slots when they are migrated."
  },
  {
   "property": "C18",
   "status": "partial",
   "theorems": [
    "C18_operations_during_migration_partial",
    "C18_operations_during_migration_refuted"
   ],
   "note": "False in general: an insert into a cell that a helper has loaded but not yet marked in the second loop of migrate is lost. Proved for all executions in which that does not happen."
  },
  {
   "property": "C19",
   "status": "partial",
   "theorems": [
    "C19_blocks_partition",
    "C19_large_table_refuted"
   ],
   "note": "Proved for tables of up to 2^31 slots; from 2^32 slots on every handed-out block is empty, which is refuted."
  },
  {
   "property": "C41",
   "status": "proved",
   "theorems": [
    "C41_sequential_map",
    "C41_linear_probing",
    "C41_linear_probing_few_insertions",
    "C41_linear_probing_low_hash_values"
   ],
   "note": "Every hash, capacities 2^9..2^52 and histories of up to 2^48 calls (so that the fill limit, a product of doubles, is computed as modelled). Linear probing: unless a call leaves the table (C43)."
  },
  {
   "property": "C42",
   "status": "partial",
   "theorems": [
    "C42_erase_loses_keys_refuted",
    "C42_erase_loses_colliding_key_refuted",
    "C42_erase_partial",
    "C42_small_hash_values_partial",
    "C42_wrap_around_refuted",
    "C42_linear_probing_partial"
   ],
   "note": "False: the second loop of erase compares a 64-bit hash value with a table index, so keys behind the erased one become unreachable. Proved for histories in which every erased key stands in front of a free cell, and, with circular mapping, for keys whose hash values are below a quarter of the initial size (there hash values are cell numbers and no probe wraps around; hash values below the size are not enough). With linear probing the first part needs at most 1024 insertions (C43)."
  },
  {
   "property": "C43",
   "status": "partial",
   "theorems": [
    "C43_in_bounds_partial",
    "C43_linear_probing_partial",
    "C43_low_hash_values_partial",
    "C43_linear_probing_refuted"
   ],
   "note": "Proved for circular probing (the default) with every hash and arbitrary erases, and for linear probing with every hash and arbitrary erases as long as there are at most 1024 calls that may insert or all hash values are in the first quarter of their range; false for linear probing with 1026 insertions and a degenerate hash."
  },
  {
   "property": "C28",
   "status": "proved",
   "theorems": [
    "C28_iteration"
   ],
   "note": "For every table content reached by any history of calls and growths."
  },
  {
   "property": "C29",
   "status": "proved",
   "theorems": [
    "C29_ranges"
   ],
   "note": "For every list of adjacent ranges, empty ones and ones beyond the capacity included."
  },
  {
   "property": "C30",
   "status": "partial",
   "theorems": [
    "C30_returned_iterator_partial",
    "C30_insert_refuted",
    "C30_find_key_refuted"
   ],
   "note": "Holds for update, insert_or_update, find outside of migrations and insert of a present key, for every execution. False for a successful insert (the iterator shows key 0 and value 0, base_linear.hpp:580) and for the key shown by find on a cell that is being migrated (mark bit set)."
  },
  {
   "property": "C31",
   "status": "partial",
   "theorems": [
    "C31_index_assignment_partial",
    "C31_new_key_refuted"
   ],
   "note": "Holds on non-marking cells, and on marking cells if the key was present. On marking cells the value assigned to a new key is always lost."
  },
  {
   "property": "C32",
   "status": "partial",
   "theorems": [
    "C32_iterator_calls_partial",
    "C32_unchanged_succeeds",
    "C32_during_migration_refuted"
   ],
   "note": "Iterators with an unmarked copy: linearizable together with all other calls and with marking, for any number of threads. An iterator obtained during a migration succeeds on the old table although the new table keeps the element."
  },
  {
   "property": "C33",
   "status": "partial",
   "theorems": [
    "C33_erase_partial",
    "C33_changed_element_refuted",
    "C33_growing_erase_refuted",
    "C33_refresh_refuted"
   ],
   "note": "erase through an up-to-date iterator of a fixed-size table terminates and removes the element. False otherwise: the growing table's iterator erase never returns, erase with an outdated copy loops forever on 16-byte cells, refresh of an erased element does not yield end()."
  },
  {
   "property": "C34",
   "status": "partial",
   "theorems": [
    "C34_shown_elements_partial",
    "C34_marked_key_refuted",
    "C34_phantom_refuted",
    "C34_endless_refuted"
   ],
   "note": "Elements shown without the mark bit are stored ones, for every interleaving. During a migration keys are shown with the mark bit and erased cells appear as elements; an iterator whose element is erased before a growth never reaches end()."
  },
  {
   "property": "C25",
   "status": "partial",
   "theorems": [
    "C25_growth_triggered_partial",
    "C25_never_triggered_refuted"
   ],
   "note": "Holds unless an update finds exactly the limit. False in general: update_numbers tests old < limit < new, so with old = limit nothing happens; handles that publish one element at a time never start a growth step."
  },
  {
   "property": "C26",
   "status": "proved",
   "theorems": [
    "C26_conserved",
    "C26_withheld",
    "C26_exact",
    "C26_off_by",
    "C26_in_range"
   ],
   "note": "Any number of handles, creations, moves and destructions, and both kinds of growth steps interleaved with updates. Counters are unbounded integers; C26_in_range shows that int suffices for 2^30 insertions."
  },
  {
   "property": "C27",
   "status": "partial",
   "theorems": [
    "C27_count_partial",
    "C27_no_erasures",
    "C27_count_refuted"
   ],
   "note": "Holds if the difference of the counters is not negative, in particular without erasures. Otherwise the negative difference is converted to size_t: about 2^64."
  },
  {
   "property": "C22",
   "status": "partial",
   "theorems": [
    "C22_exclusion",
    "C22_one_organiser",
    "C22_versions_in_order",
    "C22_resume_after_migration",
    "C22_moved_handle_refuted"
   ],
   "note": "Proved for any number of handles, versions and blocks and every interleaving, as long as no handle is moved. Destroying a handle that was moved from while the handle made from it operates on another thread breaks the exclusion (both use the same flags)."
  },
  {
   "property": "C23",
   "status": "partial",
   "theorems": [
    "C23_exclusion_refuted",
    "C23_resume_after_migration_partial"
   ],
   "note": "False: the release store of the flag and the following load of the table pointer may be reordered by a store buffer; an operation then runs on a table that is being migrated and even deleted. One organiser per version and complete migration before publication hold with store buffers too (C22_one_organiser, C22_versions_in_order, C23_resume_after_migration_partial)."
  },
  {
   "property": "C24",
   "status": "partial",
   "theorems": [
    "C24_freed_table_refuted",
    "C24_existing_tables_partial",
    "C24_moves_in_existing_tables"
   ],
   "note": "False for helpers that are delayed between loading the table pointer and announcing themselves (migrate tests its local copy again instead of the table pointer). Proved for all other accesses, and no thread ever moves elements in a deleted table."
  },
  {
   "property": "C45",
   "status": "partial",
   "theorems": [
    "C45_distinct_flags_partial",
    "C45_undisturbed_constructor",
    "C45_too_many_refuted"
   ],
   "note": "Live handles with valid flags never share them, for every interleaving. With 256 live handles the next constructor yields a handle with flags at index -1: the length_error is constructed but not thrown."
  },
  {
   "property": "C20",
   "status": "proved",
   "theorems": [
    "C20_published_complete",
    "C20_published_once"
   ],
   "note": "Any number of threads, versions and blocks, handles created and destroyed at any time, every interleaving of atomic accesses. Assumes that protected tables stay alive (reclamation is in the utils submodule, which is not in the repository)."
  },
  {
   "property": "C21",
   "status": "partial",
   "theorems": [
    "C21_waits_forever_refuted",
    "C21_missed_version_refuted",
    "C21_proceeds_partial"
   ],
   "note": "False: load and init wait for the version of the table they fetched; if the next version is announced first, they wait forever. Proved as long as no newer version is published meanwhile."
  },
  {
   "property": "C44",
   "status": "partial",
   "theorems": [
    "C44_resumes_early_refuted",
    "C44_sleeps_forever_refuted",
    "C44_resumes_after_migration_partial",
    "C44_woken_partial"
   ],
   "note": "False with a single handle: a late wake makes the pool thread raise the user counter twice, and the next growth publishes an empty table. Also a pool thread that starts during a migration of a later version leaves its user asleep. Proved for executions without wake-ups of threads whose counter is unchanged and without pool threads starting on a migration they did not count; there waking is shown possible, not inevitable."
  },
  {
   "property": "C35",
   "status": "proved",
   "theorems": [
    "C35_packing_is_lossless",
    "C35_lookup_is_key_equality",
    "C35_marking_keeps_key_and_emptiness",
    "C35_deleted_is_one_word",
    "C35_set_fingerprint"
   ],
   "note": "Packing, unpacking, comparing and marking of the 64-bit pointer cell, for every pointer below 2^48, hash, key and heap."
  },
  {
   "property": "C36",
   "status": "partial",
   "theorems": [
    "C36_fixed_size_emplace_refuted",
    "C36_added_twice_refuted",
    "C36_emplaced_is_found_partial"
   ],
   "note": "False as stated: emplace on a fixed-size table of pointer cells never sets the fingerprint, so for every key with a nonzero fingerprint the element is not found and can be added again (refuted for every such key, hash function and capacity). Proved: growing tables, and fixed-size tables for keys with fingerprint 0."
  },
  {
   "property": "C37",
   "status": "partial",
   "theorems": [
    "C37_elements_accounted",
    "C37_destruction_frees_all_partial",
    "C37_sync_destructor_leaks_refuted",
    "C37_moved_from_refuted",
    "C37_moved_from_linear",
    "C37_address_dropped_refuted"
   ],
   "note": "False as stated: the destructor of the synchronised strategy frees no element, a moved-from table with wrap-around dereferences a null pointer when it is destroyed, and growth drops an element at address 2^32 with fingerprint 0. Proved for fixed-size tables and the asynchronous destructor: no invalid access, no double free, the allocated elements are exactly those in the table, destruction frees them all. Growth is a step during which no call looks at the cells."
  },
  {
   "property": "C50",
   "status": "proved",
   "theorems": [
    "C50_fixed_size_linearizable",
    "C50_growing_linearizable"
   ],
   "note": "Any number of threads; emplace on fixed-size tables only for keys with fingerprint 0 (see C36). Growth: any number of helpers migrate while no call looks at the cells."
  },
  {
   "property": "C46",
   "status": "partial",
   "theorems": [
    "C46_insert_terminates_refuted",
    "C46_call_completes_partial",
    "C46_spread_keys_complete_partial",
    "C46_inserted_keys_complete_partial",
    "C46_few_keys_complete_partial"
   ],
   "note": "Refuted: with linear probing and keys sharing the largest hash value at most 302 inserts of different keys ever complete, whatever the table grows to; the next insert retries forever (C46_insert_terminates_refuted quantifies over all executions). Holds: a call running alone completes without a growth step when a vacant cell lies between its key's position and capacity+300 (C46_call_completes_partial), in particular when for every position a up to that of its key the stored keys with positions from a on, and the cells of erased elements, leave one usable cell from a on (C46_spread_keys_complete_partial; without erasures the keys ever inserted count, C46_inserted_keys_complete_partial); so at most 302 different keys never cause trouble, for any hash function (C46_few_keys_complete_partial), which is exact. Missing: completion after growing when the condition fails at the current capacity."
  },
  {
   "property": "C47",
   "status": "partial",
   "theorems": [
    "C47_one_thread_is_a_map_partial",
    "C47_erase_and_update_partial"
   ],
   "note": "All cell types with in-place elements, all hash functions, any number of growth steps and helpers between and inside the calls. Missing: circular mapping with linear probing (C16), circular tables without a vacant cell (C15), tables of 2^32 slots and more (C15)."
  },
  {
   "property": "C48",
   "status": "partial",
   "theorems": [
    "C48_asynchronous_growing_linearizable_partial",
    "C48_lost_insert_refuted"
   ],
   "note": "Refuted in general: C48_lost_insert_refuted is an execution of the whole table (with the real block size) in which an acknowledged insert is not found by a later find. Holds under the restriction that no call changes a cell between the load and the mark of a helper's second loop: all calls, including finds that finish on an old version after the switch, are linearizable."
  },
  {
   "property": "C51",
   "status": "partial",
   "theorems": [
    "C51_synchronised_growing_linearizable_partial"
   ],
   "note": "Any interleaving of calls and growth steps with the exclusion that C22 establishes. Missing: circular mapping with linear probing (C16), circular tables without a vacant cell (C15), erase and update together on non-marking cells (C03, bounded by C85)."
  },
  {
   "property": "C52",
   "status": "proved",
   "theorems": [
    "C52_full_means_used",
    "C52_no_early_full"
   ],
   "note": "Every client. C52_case: the bound of 302 is exact."
  },
  {
   "property": "C53",
   "status": "partial",
   "theorems": [
    "C53_whole_table_linearizable_partial",
    "C53_linear_probing"
   ],
   "note": "One machine containing the handshake, the calls, the retry loops and the block migration at the granularity of single accesses; no restriction on executions for linear probing (C53_linear_probing). Missing: circular mapping with linear probing (C16), circular tables without a vacant cell (C15), tables of 2^32 slots and more (C15), erase and update together on non-marking cells (C03, bounded by C85), store buffers (C23). A helper that reads a deleted table (C24) stops in the model."
  },
  {
   "property": "C54",
   "status": "partial",
   "theorems": [
    "C54_synchronised_inserts_stay_partial",
    "C54_asynchronous_inserts_stay_partial"
   ],
   "note": "Same restrictions as C53 and C48; C48_lost_insert_refuted shows that the asynchronous strategy loses acknowledged inserts otherwise."
  },
  {
   "property": "C55",
   "status": "partial",
   "theorems": [
    "C55_synchronised_counts_partial",
    "C55_asynchronous_counts_partial"
   ],
   "note": "Same restrictions as C53 and C48."
  },
  {
   "property": "C56",
   "status": "partial",
   "theorems": [
    "C56_absent_element_partial",
    "C56_assignment_partial",
    "C56_same_table",
    "C56_changed_element_erased_refuted",
    "C56_changed_element_exchanged_refuted",
    "C56_erased_element_refuted"
   ],
   "note": "False as stated: after a growth step the element is looked up again and compared with what is stored now, so both calls change an element whose value differs from the one shown (two _refuted theorems, for every table state), and through a reference to an erased element they access a null pointer. Holds: erase_if_unchanged of an erased element returns false and changes nothing; plain assignment of an element still stored. On a table that is not replaced compare_exchange succeeds iff the element is unchanged (C56_same_table; all interleavings: C32)."
  },
  {
   "property": "C57",
   "status": "partial",
   "theorems": [
    "C57_rest_partial",
    "C57_skipped_element_refuted",
    "C57_repeated_element_refuted"
   ],
   "note": "False as stated: growth changes the order of elements with different hash values in one cluster, so elements are skipped or shown twice although nobody else is active. Holds: the iteration ends, and after the growth step it shows stored elements only, each at most once, unless the element it stands at was erased (then C34_endless_refuted)."
  },
  {
   "property": "C58",
   "status": "partial",
   "theorems": [
    "C58_new_size_partial",
    "C58_half_empty_partial",
    "C58_doubled_when_empty_refuted"
   ],
   "note": "Exact for capacities up to 2^54 when the counters are exact or at least not negative. False when more erasures than insertions have been counted (handles publish their counts late): the unsigned difference wraps and the table is doubled however empty it is; C58_case reaches such counters."
  },
  {
   "property": "C59",
   "status": "partial",
   "theorems": [
    "C59_same_histories",
    "C59_fixed_size_partial",
    "C59_synchronised_growing_partial",
    "C59_asynchronous_growing_partial",
    "C59_fixed_size_refuted"
   ],
   "note": "The definition of Herlihy and Wing and the atomic object used elsewhere accept the same histories (C59_same_histories), so the linearizability theorems hold in this form. False on non-marking cells for clients that use both erase and update (C59_fixed_size_refuted); restrictions as in C01, C02, C04, C48, C53."
  },
  {
   "property": "C60",
   "status": "partial",
   "theorems": [
    "C60_all_runs_counted",
    "C60_migration_ends",
    "C60_busy_migration_ends_partial",
    "C60_helpers_finish"
   ],
   "note": "Complete for a migration during which nobody uses the table. With concurrent calls: marking cells only, and no call changes a cell between the load and the mark in a helper's second loop (C18). Missing as in C15: circular mapping with linear probing and tables of 2^32 slots and more."
  },
  {
   "property": "C61",
   "status": "partial",
   "theorems": [
    "C61_whole_table_linearizable_partial",
    "C61_inserts_stay_partial",
    "C61_herlihy_wing_partial",
    "C61_handshake_partial",
    "C61_lost_insert_refuted"
   ],
   "note": "One machine containing the handshake, the calls on tables that are being migrated, the retry loops and the block migration at the granularity of single accesses. False in general: C61_lost_insert_refuted loses an acknowledged insert of the whole machine with the real block size. Holds when no call changes a cell between the load and the mark in a helper's second loop. Also missing: circular mapping with linear probing (C16), circular tables without a vacant cell (C15), tables of 2^32 slots and more (C15), store buffers (C23)."
  },
  {
   "property": "C62",
   "status": "proved",
   "theorems": [
    "C62_somebody_can_go",
    "C62_work_bounded",
    "C62_fair_schedules_finish",
    "C62_stopped_thread_blocks"
   ],
   "note": "About the handshake of the strategy; the operation on the current table is one step, and a call that asked for a growth step and tries again counts as a new operation. C62_stopped_thread_blocks shows that fairness is needed. That each migration itself ends is C60."
  },
  {
   "property": "C63",
   "status": "partial",
   "theorems": [
    "C63_sync_failure_is_fatal",
    "C63_sync_usable_after_failure_refuted",
    "C63_async_failure_changes_nothing",
    "C63_async_failures_keep_tables",
    "C63_null_is_reported_refuted"
   ],
   "note": "False for the synchronised strategy: the table is marked as growing before the allocation, and nobody removes the mark, so no later call ever returns (C63_sync_failure_is_fatal, for every execution). Holds for the handshake of the asynchronous strategy, which allocates first. False for allocators that return null (aligned and pool allocator): the constructors make an exception object without throwing it."
  },
  {
   "property": "C64",
   "status": "partial",
   "theorems": [
    "C64_pool_made_once",
    "C64_constructors_return",
    "C64_size_one_refuted",
    "C64_failed_pool_refuted",
    "C64_converted_refuted"
   ],
   "note": "Proved if the memory for the pool can be allocated, no pool of size 1 is asked for, allocators are not converted from other element types and reset is not called. False otherwise: a pool of size 1 and a failed allocation make all later constructors wait forever, and a converted allocator uses a pool nobody has made. The pool itself belongs to tbb and is not modelled."
  },
  {
   "property": "C65",
   "status": "proved",
   "theorems": [
    "C65_somebody_can_go",
    "C65_work_bounded",
    "C65_fair_schedules_finish",
    "C65_stopped_helper_blocks"
   ],
   "note": "About the handshake with user threads as workers; the operation on the current table is one step, and a call that tries again after a growth step counts as a new operation. C65_stopped_helper_blocks shows that fairness is needed. That each migration itself ends is C60."
  },
  {
   "property": "C66",
   "status": "proved",
   "theorems": [
    "C66_somebody_finishes",
    "C66_work_bounded",
    "C66_enough_turns",
    "C66_single_call_starves"
   ],
   "note": "Every client, including ones with reserved keys. With circular probing a vacant cell must be left (otherwise C10). C66_single_call_starves shows that no such bound holds for a single call while others keep beginning."
  },
  {
   "property": "C67",
   "status": "partial",
   "theorems": [
    "C67_map_partial",
    "C67_memory_safe_partial",
    "C67_no_leak_partial",
    "C67_inserted_key_is_found_refuted",
    "C67_lost_by_growth_refuted",
    "C67_elements_are_freed_refuted",
    "C67_references_stay_refuted",
    "C67_iterator_shows_element_refuted"
   ],
   "note": "False: insert passes its slot by value, and for these cells that copy is a new element with fingerprint 0, so a key whose hash value has a nonzero low half word is never found again, one element per insert is leaked, growth replaces all elements by copies, and iterators show the bytes of the cell. Holds: with hash values whose low 16 bits are zero all calls except erase return what a map returns, no call uses or frees an element that is gone, and insert_or_update, update and find leak nothing until the table grows."
  },
  {
   "property": "C68",
   "status": "partial",
   "theorems": [
    "C68_key_first_linearizable_partial",
    "C68_erase_refuted",
    "C68_value_first_refuted"
   ],
   "note": "Holds when the key word is loaded first and nothing is erased, for all other calls and all in-place cell types. False with erase (the value word of an erased cell is 0, so a find reports 0 for a key that never had it), and false without erase when the value word is loaded first. Missing: what the calls other than find and insert guarantee in those cases, and halved loads during a migration."
  },
  {
   "property": "C69",
   "status": "partial",
   "theorems": [
    "C69_exceptions_keep_exclusion",
    "C69_growth_after_exception_is_fatal",
    "C69_progress_without_leftovers",
    "C69_single_handle",
    "C69_asynchronous_unaffected",
    "C69_usable_after_exception_refuted"
   ],
   "note": "False for synchronised growing: execute has no guard object, so the table a thread has announced stays announced, and if another handle starts to grow the table before that thread makes its next call, no call ever returns (C69_growth_after_exception_is_fatal, for every execution; C69_usable_after_exception_refuted shows that it happens). Holds: nothing is moved while somebody operates; progress once the threads concerned have called again; a single handle; asynchronous growing, for which a throw is the same as a return. About the handshake; what the throwing call has done to its cell is not part of it."
  },
  {
   "property": "C70",
   "status": "partial",
   "theorems": [
    "C70_same_handle_refuted",
    "C70_nested_find_refuted",
    "C70_second_handle_blocks",
    "C70_asynchronous_second_handle",
    "C70_asynchronous_same_handle_refuted",
    "C70_asynchronous_null_refuted",
    "C70_asynchronous_same_table_partial"
   ],
   "note": "False. Synchronised growing: a nested call through the same handle withdraws the announcement of the outer one, which goes on with a table that is moved or deleted; through another handle, the growth step waits for the function that waits for it (C70_second_handle_blocks, for every execution). Asynchronous growing: if the table is replaced during a nested call through the same handle, the operation goes on with a table nobody keeps, and may install null as the current table. Holds: asynchronous growing with another handle, or while the handle's cached table stays the same."
  },
  {
   "property": "C71",
   "status": "partial",
   "theorems": [
    "C71_no_use_after_free",
    "C71_no_double_free",
    "C71_freed_at_rest_partial",
    "C71_destroyed_handle_keeps_table",
    "C71_replaced_tables_are_freed_refuted",
    "C71_same_executions",
    "C71_synchronised"
   ],
   "note": "Complete for synchronised growing (accesses by late helpers are C24). Asynchronous growing: nothing is used after it was freed or freed twice; everything replaced is freed once no handle has it cached, except tables that a handle had cached when it was destroyed: those are never freed (C71_destroyed_handle_keeps_table, for every execution), because deinit is empty. The counting reclamation belongs to a submodule that is not part of the repository; its behaviour is assumed as described in Reclaim.v."
  },
  {
   "property": "C72",
   "status": "partial",
   "theorems": [
    "C72_thrown_calls_happen_at_most_once_partial",
    "C72_thrown_call_has_no_effect_refuted"
   ],
   "note": "False as stated: a call that counts its insertion or erasure, and therefore has to grow the table, throws after it has taken effect. At most once is proved for the asynchronous strategy under the restrictions of C48; the synchronised strategy completes no call after a failure (C63)."
  },
  {
   "property": "C73",
   "status": "partial",
   "theorems": [
    "C73_counted_again",
    "C73_exact_partial",
    "C73_count_after_failure_refuted",
    "C73_destroying_a_handle_is_safe_refuted"
   ],
   "note": "False as stated: a handle whose growth step fails publishes its counts a second time, and a destructor that has to grow the table terminates the program. The size of the error is exactly what the failing handles had counted."
  },
  {
   "property": "C74",
   "status": "partial",
   "theorems": [
    "C74_synchronised_growing_linearizable_partial",
    "C74_asynchronous_growing_linearizable_partial"
   ],
   "note": "Synchronised growing: growth steps exclude accesses to cells (C22). Asynchronous growing: marking cells, and no call changes a cell between the load and the mark in a helper's second loop (C18). Missing as in C48: circular mapping with linear probing, a circular table migrated without an empty cell, tables of 2^32 slots and more; elements at address 2^32 (C37)."
  },
  {
   "property": "C75",
   "status": "partial",
   "theorems": [
    "C75_synchronised_elements_partial",
    "C75_asynchronous_elements_partial",
    "C75_freed_twice_refuted"
   ],
   "note": "False as stated for asynchronous growing: if an insert takes the cell a helper has loaded in its second loop, the helper moves the new element twice, and the destructor frees it twice (C75_freed_twice_refuted, with the real block size). Holds under the restrictions of C74. The destructor is that of the asynchronous strategy; the one of the synchronised strategy frees no element (C37)."
  },
  {
   "property": "C76",
   "status": "proved",
   "theorems": [
    "C76_every_call_returns"
   ],
   "note": "Circular probing, which is what the shipped tables with circular probing use; a linear table grows by its overflow area as well and is not part of this machine. Both mappings from hash values to slots, all in-place cell types; fewer than 2^31 events."
  },
  {
   "property": "C77",
   "status": "partial",
   "theorems": [
    "C77_every_call_returns_partial",
    "C77_every_call_returns_refuted"
   ],
   "note": "False as stated: a table grows only when a publication of the counters takes the counted elements from below the limit to above it, so a publication that lands exactly on the limit ends growing for good, and a circular table fills up. C77_every_call_returns_refuted: 512 slots, 562 calls, and then an insertion that never returns. Holds as long as the counted elements never equal the limit exactly."
  },
  {
   "property": "C78",
   "status": "partial",
   "theorems": [
    "C78_every_call_returns_partial",
    "C78_with_erasing_partial",
    "C78_every_call_returns_refuted"
   ],
   "note": "False as stated: every handle keeps up to 64 insertions to itself, so three handles fill a table of 512 slots without anybody noticing, and the next insertion never returns (C78_every_call_returns_refuted, without erasing and without any concurrency). Holds for n handles on a table that starts with at least 214 n slots, with erasing as long as the counted elements never equal the limit exactly (C77). Handles that are destroyed on the way: C82."
  },
  {
   "property": "C79",
   "status": "partial",
   "theorems": [
    "C79_linear_probing",
    "C79_with_room_partial",
    "C79_closed_at_once_partial",
    "C79_elements_are_found_refuted"
   ],
   "note": "Proved for linear probing with synchronised growing, without restrictions. False for circular probing, in both strategies: between the moment when a thread has found the table too full and the moment when the migration begins, other threads can fill it up; the migration of a full circular table moves and initialises nothing, so all elements are lost and the next call reads cells nobody has written (C79_elements_are_found_refuted, 512 insertions by two threads). Holds if a vacant cell is left when a growth step ends (both strategies; asynchronous growing as in C48), and for synchronised growing without erasing this is so if no call begins to use the table between the decision to grow and the closing of the table, with at most one thread per 217 slots."
  },
  {
   "property": "C80",
   "status": "partial",
   "theorems": [
    "C80_every_call_returns_refuted",
    "C80_closed_at_once_partial",
    "C80_all_calls_return_partial",
    "C80_calls_return_again_partial"
   ],
   "note": "False for circular probing with synchronised growing: two threads on 512 slots; the thread that has to grow the table waits for a call that goes round the full table for ever. No event ever happens after that. Holds, from every reachable state, if no call begins to use the table between the moment when a thread finds it too full and the moment when it is closed, nothing is erased and the first table has 217 slots per thread; tables of 2^32 slots and more do not grow in this model. Under these conditions every schedule without further calls makes all calls return, and in every infinite schedule calls return again and again."
  },
  {
   "property": "C81",
   "status": "partial",
   "theorems": [
    "C81_fixed_size_partial",
    "C81_synchronised_partial",
    "C81_asynchronous_partial",
    "C81_linear_probing",
    "C81_closed_at_once_partial",
    "C81_what_is_left_is_shown_refuted"
   ],
   "note": "False for circular probing, in both strategies: after the run of C79 the iteration reads cells nobody has written although 512 insertions were acknowledged. Proved without restrictions on executions for linear probing with synchronised growing, counters included; otherwise under the conditions of C01, C02 (fixed size), C51, C48 and C79. All for clients that do not use erase together with update on non-marking cells (C03)."
  },
  {
   "property": "C82",
   "status": "partial",
   "theorems": [
    "C82_every_call_returns_partial",
    "C82_every_call_returns_refuted"
   ],
   "note": "False as stated: one handle at a time, nothing erased, 512 slots: 340 insertions, the handle is destroyed, its destructor publishes exactly as many elements as the limit says, and the table never grows again; after 172 more insertions it is full and the next one never returns (C82_every_call_returns_refuted). Holds for at most n handles at a time on a table that starts with at least 214 n slots, as long as the counted elements never equal the limit exactly."
  },
  {
   "property": "C83",
   "status": "partial",
   "theorems": [
    "C83_what_is_lost_partial",
    "C83_thrown_calls_do_not_happen_fixed",
    "C83_thrown_calls_do_not_happen_growing",
    "C83_nothing_is_lost_refuted"
   ],
   "note": "The part about the map and about freed memory holds. The part about kept memory is false: insert_or_update builds the new element first and does not free it if the function throws (C83_nothing_is_lost_refuted), and a constructor that throws loses the memory it was given. Exactly one block is lost per such exception, and none by update or by an allocator that throws (C83_what_is_lost_partial)."
  },
  {
   "property": "C84",
   "status": "partial",
   "theorems": [
    "C84_thrown_calls_do_not_happen_fixed",
    "C84_thrown_calls_do_not_happen_synchronised_partial",
    "C84_thrown_calls_do_not_happen_asynchronous_partial",
    "C84_in_place_at_most_once_fixed",
    "C84_in_place_at_most_once_synchronised_partial",
    "C84_in_place_does_not_happen_refuted"
   ],
   "note": "Holds for functions that get a copy of the value, that is for all functions on cells that can be marked. A function with a member atomic on other cells works in place, and what it has done before it throws stays (C84_in_place_does_not_happen_refuted); such a call happens at one moment or not at all. Growing tables under the restrictions of C48 and C51."
  },
  {
   "property": "C85",
   "status": "partial",
   "theorems": [
    "C85_updates_lost_only_to_erases_fixed",
    "C85_updates_lost_only_to_erases_synchronised_partial",
    "C85_updates_lost_only_to_erases_linear_probing",
    "C85_without_overlap_linearizable_fixed",
    "C85_without_overlap_linearizable_synchronised_partial",
    "C85_keys_nobody_erases_fixed",
    "C85_keys_nobody_erases_synchronised_partial",
    "C85_content_fixed"
   ],
   "note": "Fixed-size tables without restriction, growing tables with linear mapping and linear probing without restriction on the executions. Missing for growing tables: circular mapping with linear probing (C16), circular tables without a vacant cell (C15)."
  },
  {
   "property": "C86",
   "status": "partial",
   "theorems": [
    "C86_atomic_functions_linearizable",
    "C86_assignment_refuted",
    "C86_buffered",
    "C86_keys_are_atomic",
    "C86_fenced_assignment_linearizable"
   ],
   "note": "Refuted for functions whose member atomic is a plain assignment; proved for functions with atomic instructions and for marking cells, and what remains for assignments. Missing: growing tables and erases together with assignments behind store buffers, processors with weaker orders than x86."
  },
  {
   "property": "C87",
   "status": "partial",
   "theorems": [
    "C87_careful_linearizable",
    "C87_growing_in_phases",
    "C87_keys_are_atomic",
    "C87_calls",
    "C87_overlap_refuted",
    "C87_migration_refuted",
    "C87_synchronised_growing_partial",
    "C87_growing_calls",
    "C87_pointers_calls",
    "C87_pointers_linearizable",
    "C87_pointers_synchronised_partial",
    "C87_pointers_asynchronous_partial"
   ],
   "note": "Proved for tables of fixed size, for tables that migrate while nobody uses them, and for tables with synchronised growing and calls that start over (circular mapping with linear probing excluded, C16; circular tables without a vacant cell excluded, C15); the refuted theorems show that keeping updates apart and away from migrations is needed. Tables of pointers need no care: overlapping unsafe updates are atomic there, also during migrations."
  },
  {
   "property": "C88",
   "status": "partial",
   "theorems": [
    "C88_iterator_equality",
    "C88_replaced_table_refuted",
    "C88_reused_memory_refuted",
    "C88_growing_same_table"
   ],
   "note": "Proved for tables of fixed size and for iterators of growing tables that belong to one table. False on growing tables for iterators obtained before and after the table was replaced: they are compared by address without being refreshed, so iterators to one element differ, and iterators to different elements are equal if the memory of a table that is no longer used is given to a later one (C88_reused_memory_refuted). Not modelled: tables of pointers. Iterators of the sequential table are C90."
  },
  {
   "property": "C89",
   "status": "partial",
   "theorems": [
    "C89_kept_iterators_partial",
    "C89_kept_iterators_no_erase_partial",
    "C89_linear_probing_partial",
    "C89_erase_of_another_key_refuted"
   ],
   "note": "Proved for histories in which every erase meets its key in front of a free cell (C42), in particular without erase. False with erase in general: it moves other elements to other cells without changing the version, so iterators to them show an empty cell or the element of another key. With linear probing a call may leave the table (C43); proved as long as none does. operator++ does not compile. Not modelled: the sequential table of pointers."
  },
  {
   "property": "C90",
   "status": "partial",
   "theorems": [
    "C90_iterator_equality_partial",
    "C90_linear_probing_partial",
    "C90_grown_table_refuted"
   ],
   "note": "Proved for iterators obtained, or used for the last time, without a growth step in between, for histories in which every erase meets its key in front of a free cell (C42, C89). False across growth steps: iterators are compared by address without being refreshed. With linear probing a call may leave the table (C43); proved as long as none does. Not modelled: memory of an old table given to a later one; the sequential table of pointers."
  },
  {
   "property": "C91",
   "status": "partial",
   "theorems": [
    "C91_begin_partial",
    "C91_after_assignments_partial",
    "C91_small_hash_values_partial",
    "C91_begin_refuted"
   ],
   "note": "Proved for histories in which every erase meets its key in front of a free cell (C42), in particular without erase, and for small hash values with circular mapping (C42). False otherwise: erase hides other keys, which are inserted a second time, and after erasing those begin() shows the first copy. With linear probing a call may leave the table (C43); proved as long as none does. cbegin() does not compile."
  }
 ]
}