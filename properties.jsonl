{"id": "C01", "title": "Fixed-capacity table without erase is linearizable", "statement": "Any number of threads calling insert, find, update and insert_or_update on one fixed-capacity table observe results as if every call took effect atomically, at one moment between its invocation and its response, on a single map from keys to values. (Calls that report 'table full' have no effect.)", "quantifier": "every hash function, every mapping/probing configuration, every number of threads, every set of calls on admissible keys, every interleaving of the atomic memory accesses", "why_tests_cant": "Linearizability quantifies over all interleavings; a stress test samples a vanishing fraction of them.", "anchors": ["data-structures/base_linear.hpp: insert_intern, update_intern, insert_or_update_intern, find", "data-structures/element_types/simple_slot.hpp: cas, atomic_update"]}
{"id": "C02", "title": "Fixed-capacity table with erase but no in-place update is linearizable", "statement": "Any number of threads calling insert, find, erase and erase_if on one fixed-capacity table observe results as if every call took effect atomically on a single map; an erased key can be inserted again and a key is never present twice.", "quantifier": "every hash function, configuration, thread count, call set on admissible keys and interleaving", "why_tests_cant": "The interesting histories (insert racing erase racing insert of the same key) need specific interleavings.", "anchors": ["data-structures/base_linear.hpp: insert_intern, erase_intern, erase_if_intern, find", "data-structures/element_types/simple_slot.hpp: atomic_delete"]}
{"id": "C03", "title": "In-place update racing erase is still atomic (fixed-capacity / non-marking cells)", "statement": "If update(k,f) reports success then f was applied to a value that was associated with k at some moment during the call, and together with concurrent erase/erase_if/update calls the results are those of some sequential order.", "quantifier": "every history of update, erase, erase_if calls on non-marking cells and every interleaving", "why_tests_cant": "Needs a three-way race on one cell; tests essentially never hit it.", "anchors": ["data-structures/element_types/simple_slot.hpp: _atomic_helper_type::execute, atomic_update, atomic_delete", "data-structures/base_linear.hpp: update_intern, erase_if_intern"]}
{"id": "C04", "title": "Marking cells: the full operation set is linearizable between migrations", "statement": "On a table whose cells can be marked, insert, find, update, update_with_backoff, insert_or_update, erase and erase_if that complete on that table appear atomic on a single map, for every interleaving with each other and with threads marking cells; a call that hits a marked cell reports 'invalid' and has had no effect.", "quantifier": "every hash function, configuration, thread count, call set on admissible keys, set and timing of markings, interleaving", "why_tests_cant": "Unbounded interleavings of operations and marking.", "anchors": ["data-structures/base_linear.hpp: *_intern, find", "data-structures/element_types/simple_slot.hpp: atomic_mark, atomic_update, cas", "data-structures/element_types/single_word_slot.hpp: cas"]}
{"id": "C05", "title": "A key is never present twice", "statement": "At every moment of every execution of a table the number of live cells holding a given key is at most one, and every live key can be reached by a lookup (no empty cell precedes it on its probe sequence).", "quantifier": "every reachable state under every interleaving", "why_tests_cant": "An invariant of all reachable states, not only of the final ones tests look at.", "anchors": ["data-structures/base_linear.hpp: insert_intern, insert_or_update_intern, erase_intern"]}
{"id": "C06", "title": "An acknowledged insert stays visible", "statement": "If insert(k,d) (or insert_or_update taking the insert branch) has returned true and no erase of k overlaps or follows it, then every later find(k) succeeds, and returns d as long as nobody updates k.", "quantifier": "every execution and every later find", "why_tests_cant": "A liveness-free but history-wide guarantee over all schedules.", "anchors": ["data-structures/base_linear.hpp: insert_intern, find"]}
{"id": "C07", "title": "No update is lost", "statement": "When threads concurrently apply an increment-like functor with update or insert_or_update to the same key, the final value is the initial value with every acknowledged update applied exactly once, and each returned value is the one produced by its own application.", "quantifier": "every number of threads and updates, every interleaving", "why_tests_cant": "Lost updates only occur in rare interleavings.", "anchors": ["data-structures/element_types/simple_slot.hpp: atomic_update", "data-structures/base_linear.hpp: update_intern, insert_or_update_intern"]}
{"id": "C08", "title": "Table operations never touch memory outside the table", "statement": "No insert, find, update, insert_or_update, erase or erase_if on a table ever reads or writes a cell index outside the allocated cells, however badly the hash function clusters keys.", "quantifier": "every hash function (including constant ones), every reachable table, every interleaving", "why_tests_cant": "Needs adversarial hash functions and overflow-area arithmetic for all sizes.", "anchors": ["data-structures/base_linear.hpp: insert_intern (FULL check), mapper_type::total_slots, lp_buffer"]}
{"id": "C09", "title": "A call running alone terminates", "statement": "Any call terminates if it runs without interference, with the result of the sequential map; with linear probing always, with circular probing provided the table has at least one empty cell.", "quantifier": "every reachable table state and every call", "why_tests_cant": "Termination for all states and all hash functions.", "anchors": ["data-structures/base_linear.hpp: for-loops of *_intern and find"]}
{"id": "C10", "title": "A full circular table still answers lookups", "statement": "find of an absent key, and insert into a completely full table, return (not found / unsuccessful) instead of running forever.", "quantifier": "every reachable table state with circular probing", "why_tests_cant": "A non-terminating call cannot be distinguished from a slow one by a test.", "anchors": ["data-structures/base_linear.hpp: find, insert_intern with cyclic_probing"]}
{"id": "C11", "title": "Requested capacity is honoured", "statement": "Constructing a table with size n terminates and yields a power-of-two number of addressable slots that is at least 2n and at least 512 (and at most max(512, 4n)).", "quantifier": "every n representable in 64 bits", "why_tests_cant": "n near 2^30..2^64 cannot be tested (memory), but the arithmetic must hold there too.", "anchors": ["data-structures/base_linear.hpp: mapper_type::compute_capacity, compute_right_shift, init_helper"]}
{"id": "C12", "title": "Home slot is always inside the table and consistent under growth", "statement": "For every 64-bit hash value the home slot is smaller than the number of addressable slots; after doubling, the new home slot is 2h or 2h+1 (linear mapping) or h or h+capacity (circular mapping) where h is the old one, and circular re-mapping always yields an index inside the table.", "quantifier": "every hash value, every capacity 2^9..2^63, every configuration", "why_tests_cant": "64-bit hash values and capacities up to 2^63.", "anchors": ["data-structures/base_linear.hpp: mapper_type::map, remap, resize"]}
{"id": "C13", "title": "Cell encoding is lossless", "statement": "For every admissible key and every value the cell holding them is neither empty nor deleted, reports exactly this key and value, and continues to do so after it was marked; marking is detected by every writer; the empty and the deleted cell are distinct from every admissible pair, marked or not.", "quantifier": "every 64-bit (32-bit) key and value", "why_tests_cant": "2^128 key/value pairs.", "anchors": ["data-structures/element_types/simple_slot.hpp: slot_type::is_empty,is_deleted,is_marked,compare_key,get_key", "data-structures/element_types/single_word_slot.hpp"]}
{"id": "C14", "title": "Every 64-bit key may be stored unless documented otherwise", "statement": "Apart from the documented restriction (keys >= 2^63 on growing tables) every key can be inserted, found and iterated.", "quantifier": "every 64-bit key", "why_tests_cant": "Specific keys (0, 2^63-1, 2^63) out of 2^64.", "anchors": ["data-structures/element_types/simple_slot.hpp: get_empty, get_deleted, is_empty, is_marked", "README.org"]}
{"id": "C15", "title": "Migration moves every element exactly once", "statement": "When a table is migrated (same size or doubled) while nobody changes it, then afterwards the target holds exactly the live elements of the source: same keys, same values, none lost, none duplicated, tombstones dropped, and every element is findable; whatever the number of helper threads, the way blocks are distributed and the interleaving of their memory accesses.", "quantifier": "every source content satisfying the table invariant, every hash function, every block size, number of helpers and interleaving (linear mapping with either probing; circular mapping with circular probing)", "why_tests_cant": "Interleavings of block-wise helpers around implicit cluster boundaries.", "anchors": ["data-structures/base_linear.hpp: migrate, initialize, insert_unsafe, resize", "data-structures/strategies/estrat_sync.hpp: blockwise_migrate", "data-structures/strategies/estrat_async.hpp: blockwise_migrate"]}
{"id": "C16", "title": "Growth with circular mapping and linear probing is also exact", "statement": "The same as C15 for the configuration circular mapping + linear probing.", "quantifier": "every source content, number of helpers, interleaving", "why_tests_cant": "Only a particular block order loses elements.", "anchors": ["data-structures/base_linear.hpp: initialize(size_t), migrate (commented-out third loop)"]}
{"id": "C17", "title": "Growth never overflows the overflow area", "statement": "With linear probing, after any number of growths and cleanups no element is ever stored outside the allocated overflow area, whatever the hash function.", "quantifier": "every hash function, every sequence of fills and migrations", "why_tests_cant": "Requires adversarial clustering at the end of the table over many growths.", "anchors": ["data-structures/base_linear.hpp: insert_unsafe, migrate, lp_buffer"]}
{"id": "C18", "title": "Operations during an asynchronous migration are not lost", "statement": "An insert, update or erase acknowledged while the table is being migrated concurrently is reflected in the table after the migration: an acknowledged insert is found, an acknowledged update keeps its value, an acknowledged erase stays erased.", "quantifier": "every interleaving of operations with migrating threads", "why_tests_cant": "Races around block boundaries.", "anchors": ["data-structures/base_linear.hpp: migrate (third loop, lines 1171-1192)", "data-structures/element_types/simple_slot.hpp: atomic_mark"]}
{"id": "C19", "title": "Every slot is migrated by exactly one block", "statement": "The blocks handed out to the helpers partition the addressable slots of the source: every slot belongs to exactly one handed-out block, no block is handed out twice, and no helper gets a block beyond the table.", "quantifier": "every table size, number of helpers, interleaving of block requests", "why_tests_cant": "Sizes of 2^32 slots and more cannot be allocated in tests.", "anchors": ["data-structures/strategies/estrat_async.hpp: blockwise_migrate", "data-structures/strategies/estrat_sync.hpp: blockwise_migrate"]}
{"id": "C20", "title": "The new table is published only after the migration has finished (asynchronous, user threads)", "statement": "With user-thread migration no operation is ever executed on the new table before every block of the old table has been completely migrated, and each version is published once.", "quantifier": "every number of threads and every interleaving of grow, help_grow, migrate and end_grow", "why_tests_cant": "Protocol property over all interleavings.", "anchors": ["data-structures/strategies/estrat_async.hpp: grow, help_grow, migrate, end_grow, load", "data-structures/strategies/wstrat_user.hpp"]}
{"id": "C21", "title": "A handle waiting for a new table version always proceeds", "statement": "A thread that waits for the table version to be published resumes once the publishing thread has made its steps.", "quantifier": "every interleaving, any number of growths", "why_tests_cant": "A rare permanent spin looks like a slow test.", "anchors": ["data-structures/strategies/estrat_async.hpp: load, init"]}
{"id": "C22", "title": "Synchronised growth excludes operations (sequential consistency)", "statement": "With the synchronised strategy no operation runs on a table while its elements are being migrated, at most one thread organises a growth step per version, and operations resume on the new table only after all elements have been moved.", "quantifier": "every number of handles and every interleaving of the atomic accesses under sequential consistency", "why_tests_cant": "Mutual exclusion over all interleavings.", "anchors": ["data-structures/strategies/estrat_sync.hpp: get_table, rls_table, grow, help_grow, wait_for_table_op"]}
{"id": "C23", "title": "Synchronised growth excludes operations on x86 hardware", "statement": "The exclusion of C22 also holds with store buffering as the C++ memory orders used (release store, acquire load) permit it.", "quantifier": "every execution of a TSO machine", "why_tests_cant": "Store-buffer reorderings are timing dependent.", "anchors": ["data-structures/strategies/estrat_sync.hpp: get_table lines 284-287, grow, wait_for_table_op"]}
{"id": "C24", "title": "Helpers never touch a freed table (synchronised growth)", "statement": "A thread helping to migrate never accesses a table that has been deleted by the thread organising the growth.", "quantifier": "every interleaving", "why_tests_cant": "A use after free in one interleaving.", "anchors": ["data-structures/strategies/estrat_sync.hpp: migrate, grow, wait_for_migration"]}
{"id": "C25", "title": "Growth is triggered before the table fills up", "statement": "Whenever the number of inserted elements known to the table passes the fill limit, a growth step is started by the thread whose update crossed it.", "quantifier": "every sequence of counter updates by any number of handles", "why_tests_cant": "Depends on exact counter values.", "anchors": ["data-structures/migration_table.hpp: update_numbers, inc_inserted"]}
{"id": "C26", "title": "Element count is conserved", "statement": "At every moment the global element counter minus the global tombstone counter plus the not yet published per-handle counts equals the number of acknowledged insertions minus acknowledged erasures; each handle withholds at most 64 updates, so the approximate count is exact after all handles were destroyed and off by at most 64 per handle before.", "quantifier": "every history of inserts, erases, growths, handle creations, moves and destructions", "why_tests_cant": "Counting invariant over all histories.", "anchors": ["data-structures/migration_table.hpp: update_numbers, inc_inserted, inc_deleted, local_count, ~migration_table_handle, element_count_approx", "data-structures/strategies/estrat_async.hpp: end_grow", "data-structures/strategies/estrat_sync.hpp: grow"]}
{"id": "C27", "title": "The approximate element count is plausible", "statement": "element_count_approx never exceeds the number of acknowledged insertions.", "quantifier": "every history and moment", "why_tests_cant": "Only particular orders of counter flushes show it.", "anchors": ["data-structures/migration_table.hpp: element_count_approx"]}
{"id": "C28", "title": "Iteration visits every element exactly once", "statement": "Iterating from begin() to end() over a table nobody changes terminates and visits every live element exactly once, in slot order, with its key and value, and nothing else.", "quantifier": "every table content", "why_tests_cant": "All contents and sizes.", "anchors": ["data-structures/base_linear.hpp: begin, end", "data-structures/base_linear_iterator.hpp: operator++"]}
{"id": "C29", "title": "Ranges partition the table", "statement": "Iterating the ranges [0,a1), [a1,a2), ... , [an, capacity()) one after the other visits the same elements as one full iteration; ranges may exceed the capacity or be empty.", "quantifier": "every table content and every list of split points", "why_tests_cant": "All split points.", "anchors": ["data-structures/base_linear.hpp: range, range_end", "data-structures/base_linear_iterator.hpp: operator++"]}
{"id": "C30", "title": "Iterators returned by operations show the element", "statement": "Dereferencing the iterator returned by find, insert, update or insert_or_update yields the key and the value the call found or wrote.", "quantifier": "every table state and call", "why_tests_cant": "Wrong results could depend on cell state.", "anchors": ["data-structures/base_linear.hpp: insert_intern line 580, update_intern, insert_or_update_intern, find", "data-structures/base_linear_iterator.hpp"]}
{"id": "C31", "title": "Assignment through operator[] stores the value", "statement": "After handle[k] = v by the only thread using the table, find(k) yields v.", "quantifier": "every table state, key and value", "why_tests_cant": "Depends on cell type and on whether the key was fresh.", "anchors": ["data-structures/migration_table.hpp: operator[]", "data-structures/base_linear_iterator.hpp: operator=", "data-structures/element_types/simple_slot.hpp: atomic_update"]}
{"id": "C32", "title": "compare_exchange and erase_if_unchanged are effective iff the element is unchanged", "statement": "compare_exchange(v) / erase_if_unchanged() on an iterator returns true iff the element still has the value the iterator shows, and then the element has value v / is erased for all later operations.", "quantifier": "every table state including running migrations", "why_tests_cant": "Only visible if an iterator was obtained during a migration.", "anchors": ["data-structures/base_linear_iterator.hpp: compare_exchange, erase_if_unchanged", "data-structures/element_types/simple_slot.hpp: cas, atomic_delete"]}
{"id": "C33", "title": "Iterator erase and refresh behave as documented", "statement": "erase() on an iterator terminates and removes the element; refresh() of an iterator whose element was erased yields end().", "quantifier": "every table state and concurrent history", "why_tests_cant": "Non-termination / dangling state.", "anchors": ["data-structures/base_linear_iterator.hpp: erase, refresh", "data-structures/migration_table_iterator.hpp: erase, refresh, base_refresh_ptr", "README.org"]}
{"id": "C34", "title": "Iteration during a migration only shows stored elements", "statement": "An iteration that overlaps a migration only yields keys that were inserted, with the key the user inserted.", "quantifier": "every state in which cells are marked", "why_tests_cant": "Needs an iteration overlapping a migration over erased cells.", "anchors": ["data-structures/base_linear_iterator.hpp: operator++, reference::first", "data-structures/element_types/simple_slot.hpp: is_deleted, get_key_ref"]}
{"id": "C35", "title": "Pointer cells: packing is lossless and lookups agree with key equality", "statement": "For pointer cells, packing pointer, fingerprint and mark loses nothing for pointers below 2^48; a lookup with the hash used at insertion matches a cell iff the keys are equal; marking changes neither key nor emptiness.", "quantifier": "every pointer < 2^48, hash, key", "why_tests_cant": "2^48 pointers and 2^64 hashes.", "anchors": ["data-structures/element_types/complex_slot.hpp: ptr_splitter, fingerprint, compare_key, is_empty, atomic_mark"]}
{"id": "C36", "title": "Emplaced elements are found", "statement": "An element added with emplace is found by find with the same key and is not added a second time by a later insert.", "quantifier": "every key, value, hash function", "why_tests_cant": "Depends on 16 bits of the hash.", "anchors": ["data-structures/base_linear.hpp: emplace", "data-structures/element_types/complex_slot.hpp: slot_type(Args...), set_fingerprint"]}
{"id": "C37", "title": "Pointer cells: every element is freed exactly once", "statement": "For tables of pointer cells, every element allocated by an insert/emplace/insert_or_update call is freed exactly once: immediately if the call did not store it, otherwise when the table is destroyed; none is leaked or freed twice, also across growth.", "quantifier": "every history of calls and growths", "why_tests_cant": "Leaks over all histories.", "anchors": ["data-structures/base_linear.hpp: insert, insert_or_update, slot_cleanup, ~base_linear", "data-structures/strategies/estrat_async.hpp: ~global_data_type", "data-structures/strategies/estrat_sync.hpp: ~global_data_type", "data-structures/element_types/complex_slot.hpp: cleanup"]}
{"id": "C38", "title": "Return codes are decoded correctly", "statement": "A call is reported successful iff its return code is one of the success codes, and the boolean of insert / insert_or_update / update / erase reflects the branch taken (inserted, updated, already used, not found, full).", "quantifier": "every return code", "why_tests_cant": "Enumerable, but the relation to the branch taken ranges over all states.", "anchors": ["data-structures/returnelement.hpp: successful", "data-structures/base_linear.hpp: insert, update, insert_or_update, erase", "data-structures/migration_table.hpp"]}
{"id": "C39", "title": "Modifier queries are correct", "statement": "is<m>() is true iff m is among the modifiers; all<ms...>() is true iff every one of ms is among the modifiers.", "quantifier": "every set of modifiers and query", "why_tests_cant": "All subsets.", "anchors": ["data-structures/hash_table_mods.hpp: mod_aggregator"]}
{"id": "C40", "title": "The configuration selects a table that provides what was asked for", "statement": "A growable configuration always yields a migrating table whose cells support the chosen exclusion strategy (markable iff asynchronous); a non-growable, non-deleting one yields the plain table; 16-byte (8-byte) elements without reference stability use two-word (one-word) cells and all others pointer cells.", "quantifier": "every modifier set and element size", "why_tests_cant": "All modifier combinations.", "anchors": ["data-structures/table_config.hpp"]}
{"id": "C41", "title": "The sequential table is a map (without erase)", "statement": "The sequential growing table behaves like a map under insert, find, update and insert_or_update, including across its growth steps, and its element counter equals the number of elements.", "quantifier": "every hash function, configuration, call sequence on admissible keys whose probe sequences stay inside the table", "why_tests_cant": "All call sequences.", "anchors": ["data-structures/seq_linear.hpp: insert_intern, find, update, insert_or_update_intern, inc_n, grow, migrate, swap", "data-structures/element_types/seq_simple_slot.hpp"]}
{"id": "C42", "title": "Erasing from the sequential table removes only that key", "statement": "After erase(k) on the sequential table, k is absent and every other key is still found with its value.", "quantifier": "every table content", "why_tests_cant": "Depends on clustering.", "anchors": ["data-structures/seq_linear.hpp: erase"]}
{"id": "C43", "title": "The sequential table never leaves its memory", "statement": "No operation on the sequential table touches memory outside its allocation, whatever the hash function.", "quantifier": "every hash function and call sequence", "why_tests_cant": "Adversarial hash functions.", "anchors": ["data-structures/seq_linear.hpp: insert_intern, find"]}
{"id": "C44", "title": "Pool migration: a user thread never resumes before the migration is complete and never sleeps forever", "statement": "With pool threads, execute_migration returns only after the migration of the current version was carried out, and a waiting user thread is always woken up eventually.", "quantifier": "every interleaving of user and pool threads, handle creation and destruction", "why_tests_cant": "Futex races.", "anchors": ["data-structures/strategies/wstrat_pool.hpp: execute_migration, grow_thread_loop, deinit", "data-structures/strategies/counting_wait.hpp", "data-structures/strategies/estrat_async.hpp: end_grow"]}
{"id": "C45", "title": "The number of handles is limited safely (synchronised growth)", "statement": "Creating handles never yields an invalid handle: at most 256 handles are live and each has its own flag slot, otherwise an error is reported.", "quantifier": "every history of handle creations and destructions", "why_tests_cant": "All histories.", "anchors": ["data-structures/strategies/estrat_sync.hpp: register_handle, local_data_type, ~local_data_type"]}
{"id": "C46", "title": "A growing insert always terminates (single thread)", "statement": "With a single thread, insert on a growing table with linear probing terminates after finitely many growth steps for every hash function.", "quantifier": "every hash function and table content", "why_tests_cant": "Adversarial hash functions.", "anchors": ["data-structures/migration_table.hpp: insert_intern (UNSUCCESS_FULL)", "data-structures/base_linear.hpp: resize"]}
{"id": "C47", "title": "A growing table used by one thread is a map", "statement": "Any sequence of insert, find, update, insert_or_update, erase and erase_if calls through a handle, with the growth steps they trigger, gives the results of a sequential map.", "quantifier": "every hash function, configuration, call sequence on admissible keys", "why_tests_cant": "All call sequences and growth points.", "anchors": ["data-structures/migration_table.hpp: insert_intern, update, insert_or_update_intern, erase, erase_if, find, update_numbers", "data-structures/strategies/estrat_async.hpp", "data-structures/strategies/estrat_sync.hpp"]}
{"id": "C48", "title": "Finds during an asynchronous migration are linearizable", "statement": "A find overlapping a migration (and the switch to the new table) returns a value the key had at some moment during the call.", "quantifier": "every interleaving", "why_tests_cant": "Stale-table reads.", "anchors": ["data-structures/migration_table.hpp: find", "data-structures/strategies/estrat_async.hpp: get_table, load", "data-structures/base_linear.hpp: find"]}
{"id": "C49", "title": "Every modifier combination can be instantiated", "statement": "table_config yields a table type that compiles for every combination of modifiers (in particular deletion without growable).", "quantifier": "every set of modifiers and element size", "why_tests_cant": "tests instantiate only a few of the 2^7 modifier sets", "anchors": ["data-structures/table_config.hpp: table_config", "data-structures/strategies/estrat_async.hpp: static_assert(allows_marking)"]}
{"id": "C50", "title": "Tables of pointer cells are linearizable maps", "statement": "insert, insert_or_update, update and find on a table whose elements are stored behind pointers (keys or values that do not fit into an atomic cell) are linearizable, for a fixed-size table under any interleaving, and for a growing table also across growth steps that happen while no call is running on the table (synchronised growing). On a growing table no call fails.", "quantifier": "every interleaving of any number of threads, hash function, capacity, allocator behaviour and growth points", "why_tests_cant": "Interleavings, fingerprint collisions and allocator addresses cannot be enumerated.", "anchors": ["data-structures/element_types/complex_slot.hpp: slot_type, atomic_slot_type", "data-structures/base_linear.hpp: insert_intern, insert_or_update_intern, update_intern, find, insert_unsafe", "data-structures/migration_table.hpp: insert_intern, insert_or_update_intern, update, find"]}
{"id": "C51", "title": "A synchronised growing table is a linearizable map that never fails", "statement": "insert, insert_or_update, update, find, erase and erase_if on a growing table whose growth steps exclude running calls are linearizable, across any number of growth steps, and no call reports a full table or a migration.", "quantifier": "every interleaving of any number of threads and growth steps, hash function, initial capacity, block size", "why_tests_cant": "Interleavings and growth points cannot be enumerated.", "anchors": ["data-structures/migration_table.hpp: execute, insert_intern, update, insert_or_update_intern, find, erase, erase_if", "data-structures/strategies/estrat_sync.hpp: get_table, grow, help_grow", "data-structures/base_linear.hpp: migrate"]}
{"id": "C52", "title": "Insertions are refused only when there is no room", "statement": "insert and insert_or_update answer FULL (or, on a growing table, ask for growth for that reason) only on tables without wrap-around and only when every cell the key may use, from its position to 300 cells after the nominal capacity, is in use; in particular no execution with at most 302 insertions ever sees FULL, whatever the hash function.", "quantifier": "every client (any keys, functors and mixture of calls), every hash function, capacity and interleaving", "why_tests_cant": "Needs adversarial hash functions and all interleavings of insertions; the bound is exact.", "anchors": ["data-structures/base_linear.hpp: insert_intern, insert_or_update_intern (RETURN_FULL), linear_mapping_type lp_buffer"]}
{"id": "C53", "title": "The synchronised growing table, handshake included, is a linearizable map", "statement": "insert, insert_or_update, update, find, erase and erase_if on a table with the synchronised growing strategy are linearizable and never report a full or migrated table when every access of the strategy's handshake, of the calls, of the retry loops and of the migration may be interleaved with every other; nothing is assumed about when growth steps happen, who helps, or which handles exist.", "quantifier": "every sequentially consistent interleaving of any number of handles, every hash function, initial capacity, sequence of growth factors, block size", "why_tests_cant": "The exclusion and the correctness of the migration depend on each other and on the schedule.", "anchors": ["data-structures/strategies/estrat_sync.hpp: get_table, rls_table, grow, help_grow, migrate, blockwise_migrate", "data-structures/strategies/wstrat_user.hpp", "data-structures/migration_table.hpp: execute and the retry loops", "data-structures/base_linear.hpp: migrate and all calls"]}
{"id": "C54", "title": "Growing tables keep acknowledged inserts", "statement": "On a growing table an acknowledged insert stays visible across all growth steps: unless somebody erases the key every later find succeeds (with the inserted value unless somebody updates it) and no later insert of the key succeeds.", "quantifier": "every execution with any number of growth steps, before, during and after the calls", "why_tests_cant": "A history-wide guarantee over all schedules and growth points.", "anchors": ["data-structures/migration_table.hpp: insert_intern, find", "data-structures/base_linear.hpp: migrate", "data-structures/strategies/estrat_sync.hpp", "data-structures/strategies/estrat_async.hpp"]}
{"id": "C55", "title": "Growing tables lose no update", "statement": "If a key of a growing table is used as a counter (insert_or_update and update with additive functors), a find with no such call in progress returns the sum of all acknowledged amounts, however often the table has grown in between.", "quantifier": "every number of threads, updates and growth steps, every interleaving", "why_tests_cant": "Lost updates need an update racing with the copying of its cell.", "anchors": ["data-structures/migration_table.hpp: update, insert_or_update_intern", "data-structures/base_linear.hpp: update_intern, insert_or_update_intern, migrate"]}
{"id": "C56", "title": "Conditional changes through iterators and references stay conditional when the table grows", "statement": "erase_if_unchanged() through an iterator and compare_exchange(v) through a reference, used after the table has grown, return true only if the element still has the value shown by the iterator or reference; if the element has been erased they return false.", "quantifier": "every table state before and after any number of growth steps, every element", "why_tests_cant": "Needs a change of the element and a growth step between obtaining the iterator and using it.", "anchors": ["data-structures/migration_table_iterator.hpp: migration_table_iterator::erase_if_unchanged, base_refresh_ptr", "data-structures/migration_table_iterator.hpp: migration_table_mapped_reference::compare_exchange, operator=, base_refresh_ptr"]}
{"id": "C57", "title": "An iteration during which the table grows shows every element once", "statement": "An iteration with ++ during which the table grows ends, and shows every element that is stored all the time exactly once and nothing else.", "quantifier": "every table content, hash function and moment of growth", "why_tests_cant": "Depends on how the order of elements changes for the hash function at hand.", "anchors": ["data-structures/migration_table_iterator.hpp: operator++, base_refresh_ptr", "data-structures/base_linear.hpp: find, migrate"]}
{"id": "C58", "title": "Growth doubles the table exactly when it is more than 30% full", "statement": "A growth step creates a table with twice the number of slots if more than 30% of the slots hold elements, and with the same number otherwise; at most half of the slots of the new table are needed for the elements.", "quantifier": "every capacity and every number of insertions and erasures counted so far", "why_tests_cant": "Depends on floating-point comparison and on unsigned subtraction for all capacities and counts; tests see a few.", "anchors": ["data-structures/base_linear.hpp: mapper_type::resize", "data-structures/strategies/estrat_async.hpp: grow", "data-structures/strategies/estrat_sync.hpp: grow"]}
{"id": "C59", "title": "Concurrent calls are linearizable in the textbook sense", "statement": "For every history of invocations and responses there is an order of the calls, containing every call that returned, in which each call gives its result as a sequential map would, and in which a call that returned before another one was invoked comes first.", "quantifier": "every number of threads, every schedule and every history of calls", "why_tests_cant": "The number of schedules is unbounded, and a linearization must exist for each of them.", "anchors": ["data-structures/base_linear.hpp: insert, find, update, insert_or_update, erase, erase_if", "data-structures/migration_table.hpp: execute", "data-structures/strategies/estrat_sync.hpp", "data-structures/strategies/estrat_async.hpp"]}
{"id": "C60", "title": "A migration ends", "statement": "The threads that move a table into its successor return after a number of steps that depends on the capacity and the number of helpers only, whatever the other helpers do; calls on the old table delay each helper by at most two steps per step of theirs, and a migration never waits for anybody but its helpers.", "quantifier": "every table content, hash function, block size, number of helpers and schedule", "why_tests_cant": "A livelock of two helpers or of a helper and a call needs a particular schedule repeated forever; tests only see runs that end.", "anchors": ["data-structures/base_linear.hpp: migrate, insert_unsafe, initialize", "data-structures/strategies/estrat_async.hpp: blockwise_migrate", "data-structures/strategies/estrat_sync.hpp: blockwise_migrate"]}
{"id": "C61", "title": "The asynchronous growing table, handshake included, is a linearizable map", "statement": "insert, insert_or_update, update, find, erase and erase_if on a table with the asynchronous growing strategy are linearizable, keep every acknowledged insert and never report a full or migrated table, when every access of the strategy's handshake, of the calls, of the retry loops and of the migration may be interleaved with every other; a call that is told to help finds a migration to help with, and no call runs on a table before its predecessors have been moved completely.", "quantifier": "every sequentially consistent interleaving of any number of handles, every hash function, initial capacity, sequence of growth factors, block size", "why_tests_cant": "A call overlaps a migration at an arbitrary access; losing an insert takes one particular access of a helper between two accesses of a call.", "anchors": ["data-structures/strategies/estrat_async.hpp: get_table, rls_table, grow, help_grow, blockwise_migrate, end_grow, load", "data-structures/strategies/wstrat_user.hpp", "data-structures/migration_table.hpp: execute and the retry loops", "data-structures/base_linear.hpp: migrate and all calls"]}
{"id": "C62", "title": "Growing with the synchronised strategy never gets stuck", "statement": "As long as no thread has used a freed table (C24), the threads using a table with the synchronised growing strategy never all wait for each other, cannot keep each other busy forever, and every call that waits for a growth step, for the calls on the old table or for the helpers goes on after finitely many turns of the other threads. (The strategy is blocking: a thread that is stopped inside of a call stops all others.)", "quantifier": "every number of handles and growth steps, every schedule in which each thread with a call in progress has turns again and again, with and without store buffers", "why_tests_cant": "A deadlock or livelock needs one particular interleaving of the organiser, its helpers and the calls; a test that does not hang says nothing about the other schedules.", "anchors": ["data-structures/strategies/estrat_sync.hpp: get_table, rls_table, grow, help_grow, migrate, wait_for_table_op, wait_for_migration, change_stage", "data-structures/strategies/wstrat_user.hpp"]}
{"id": "C63", "title": "A table stays usable when growing runs out of memory", "statement": "If the allocation of the larger table fails while a call grows the table, that call throws std::bad_alloc, and the other handles and later calls work as before.", "quantifier": "every number of handles, every moment at which an allocation fails, every schedule before and after it", "why_tests_cant": "Tests do not make allocations fail, let alone at each point of each schedule; that a table is unusable forever afterwards is a statement about all continuations.", "anchors": ["data-structures/strategies/estrat_sync.hpp: grow", "data-structures/strategies/estrat_async.hpp: grow", "data-structures/base_linear.hpp: constructors", "allocator/alignedallocator.hpp: allocate", "allocator/poolallocator.hpp: allocate"]}
{"id": "C64", "title": "The pool allocator makes its pool once, and whoever has an allocator can use it", "statement": "However many threads construct pool allocators or call init at the same time, the pool of an element type is made once, every constructor returns once the pool exists, and no allocation uses a pool that does not exist.", "quantifier": "every number of threads and element types, every schedule, every pool size", "why_tests_cant": "The window between the announcement that a pool is being made and the announcement that it exists is hit by particular schedules only; that a constructor hangs forever cannot be observed.", "anchors": ["allocator/poolallocator.hpp: init, reset, constructors, allocate"]}
{"id": "C65", "title": "Growing with the asynchronous strategy gets stuck only when a handle misses a version", "statement": "The threads using a table with the asynchronous growing strategy never all wait for each other, cannot keep each other busy forever, and every call that waits for helpers or for a version returns after finitely many turns of the other threads, unless it waits for a version that has been replaced already (C21); such a call does not keep others from returning. (The strategy is blocking: a helper that is stopped stops the others.)", "quantifier": "every number of handles and growth steps, every schedule in which each thread with a call in progress has turns again and again", "why_tests_cant": "A deadlock or livelock needs one particular interleaving of helpers and calls; a test that does not hang says nothing about the other schedules.", "anchors": ["data-structures/strategies/estrat_async.hpp: get_table, grow, help_grow, migrate, blockwise_migrate, end_grow, load, init", "data-structures/strategies/wstrat_user.hpp"]}
{"id": "C66", "title": "Calls on a table of fixed size are lock-free", "statement": "However the threads using a table of fixed size interleave, some call returns after a bounded number of steps of the calls in progress, even if threads are stopped in the middle of a call, cells are being marked and new calls keep beginning; and when no new calls begin, each call in progress that gets enough turns returns. This holds with linear probing, and with circular probing as long as a vacant cell is left. A single call may be overtaken for ever by a stream of calls of others (it is not wait-free).", "quantifier": "every cell type, capacity, hash function, client, set of threads, reachable state and schedule", "why_tests_cant": "Livelock needs an unlucky interleaving that repeats; a test that terminates says nothing about the other schedules, and a bound for all of them cannot be observed.", "anchors": ["data-structures/base_linear.hpp: find, insert_intern, update_intern, update_with_backoff_intern, insert_or_update_intern, erase_intern, erase_if_intern", "data-structures/element_types/simple_slot.hpp: cas, atomic_update, atomic_delete"]}
{"id": "C67", "title": "The sequential growing table with pointer cells behaves like a map", "statement": "The sequential growing table for keys or values that do not fit a word (or with referential integrity) returns what a map returns: an inserted key is found, a key is inserted once, growth keeps all elements, iterators show the stored element, references to elements stay valid when the table grows, and every element is freed by the time the table is destroyed and never used afterwards.", "quantifier": "every hash function, capacity, allocator and history of insert, emplace, find, update, insert_or_update and erase, across any number of growth steps", "why_tests_cant": "Whether a lookup works depends on the low bits of the hash value of each key; no test visits all hash functions, and leaks and stale references do not change the results a test compares.", "anchors": ["data-structures/element_types/seq_complex_slot.hpp: slot_type, compare_key, cleanup, non_atomic_update", "data-structures/seq_linear.hpp: insert, insert_intern, insert_or_update, update, erase, grow, migrate, seq_iterator", "data-structures/seq_table_config.hpp: needs_complex_slot"]}
{"id": "C68", "title": "Calls stay atomic when the processor loads a cell in two halves", "statement": "Key and value of an element are read by one 16-byte vector load, which the processor may carry out as two 8-byte loads. Calls on the table still take effect atomically; in particular a lookup only reports values that were stored under its key.", "quantifier": "every hash function, capacity, mapping, set of threads and interleaving of their single 8-byte loads and 16-byte compare-and-swaps on a table that is not being migrated, for either order of the two halves", "why_tests_cant": "Common processors happen to load aligned 16-byte words at once, so no test on them shows the other behaviour.", "anchors": ["data-structures/element_types/simple_slot.hpp: atomic_slot_type::load, cas, atomic_delete", "data-structures/base_linear.hpp: insert_intern, update_intern, erase_intern, find"]}
{"id": "C69", "title": "A call whose user function throws leaves the table usable", "statement": "If a function passed to update or insert_or_update, or the hash or comparison function, throws an exception, the exception reaches the caller, the handle can be used again, and all handles go on to operate on the table, which may still grow.", "quantifier": "every number of handles, block count, placement of exceptions inside of operations and interleaving of all threads' accesses, for both growing strategies", "why_tests_cant": "A single handle recovers by itself at its next call; what other handles see depends on when they grow the table between the exception and that call.", "anchors": ["data-structures/migration_table.hpp: execute, cexecute", "data-structures/strategies/estrat_sync.hpp: get_table, rls_table, grow", "data-structures/strategies/estrat_async.hpp: get_table, rls_table"]}
{"id": "C70", "title": "A function passed to update may itself use the table", "statement": "While a function passed to update or insert_or_update runs it may call the same table, through the same handle or another one; these calls return, and the operation then goes on with a table that exists and that nobody is moving.", "quantifier": "every number of handles, block count, nesting depth and interleaving, for both growing strategies", "why_tests_cant": "The harm needs a growth step during the nested call.", "anchors": ["data-structures/migration_table.hpp: execute, cexecute", "data-structures/strategies/estrat_sync.hpp: get_table, rls_table, grow", "data-structures/strategies/estrat_async.hpp: get_table, load, help_grow, end_grow"]}
{"id": "C71", "title": "Replaced tables are freed, once, and never while somebody uses them", "statement": "When a table has grown, the memory of the old table is released as soon as no call and no handle uses it any more; it is released once, and no call reads or writes a table after it has been released.", "quantifier": "every number of handles, block count and interleaving of all accesses, including the calls of the reclamation, for both growing strategies; handles may be made and destroyed at any time", "why_tests_cant": "A leak or a late access shows only in schedules in which handles come and go, or are delayed, across several growth steps.", "anchors": ["data-structures/strategies/estrat_async.hpp: init, deinit, load, migrate, end_grow", "data-structures/strategies/estrat_sync.hpp: grow"]}
{"id": "C72", "title": "A call that reports lack of memory has no effect", "statement": "If a call on a growing table ends with the exception std::bad_alloc, then the table is as if the call had not been made. In any case such a call takes effect at most once, and before it ends.", "quantifier": "every sequence and interleaving of calls, every growth step, every allocation that fails", "why_tests_cant": "Allocations fail rarely and the call that fails is decided by counters of all handles; a test sees a few of the calls that can fail.", "anchors": ["data-structures/migration_table.hpp: insert_intern, update, update_with_backoff, insert_or_update_intern, erase, erase_if, inc_inserted, inc_deleted, update_numbers", "data-structures/strategies/estrat_async.hpp: grow"]}
{"id": "C73", "title": "The number of elements stays right when growing fails", "statement": "After a growth step that failed for lack of memory the number of elements a table reports is as good as before, and exact when all handles are gone; handles can be destroyed.", "quantifier": "every number of handles, every interleaving of counting, publishing and growth steps, every allocation that fails", "why_tests_cant": "The error shows up only when a handle that failed publishes its counts again, many calls later or in its destructor.", "anchors": ["data-structures/migration_table.hpp: update_numbers, ~migration_table_handle, element_count_approx"]}
{"id": "C74", "title": "Growing tables of pointer cells are linearizable while they are migrated", "statement": "Calls of insert, emplace, insert_or_update, find and update on a growing table whose cells hold pointers to elements are linearizable, also when they overlap migrations and the switch to the new table, and none of them fails.", "quantifier": "every interleaving of calls, helpers and growth steps, every hash function, every sequence of addresses the allocator returns", "why_tests_cant": "An element is shared by a cell of the old and a cell of the new table; errors need a call and a helper at the same cell at the same moment.", "anchors": ["data-structures/migration_table.hpp: insert_intern, emplace, insert_or_update_intern, update, find, execute", "data-structures/element_types/complex_slot.hpp: slot_type, atomic_slot_type", "data-structures/base_linear.hpp: migrate, insert_unsafe"]}
{"id": "C75", "title": "Growing tables of pointer cells: elements are neither lost nor freed twice during migrations", "statement": "While calls and migrations overlap no call uses or frees an element that is not allocated, no element is in two cells of the current table, and when no call is running the allocated elements are exactly those in the table; destroying the table then frees each of them once.", "quantifier": "every interleaving of calls, helpers and growth steps", "why_tests_cant": "A pointer copied twice is visible only to the destructor, and only if a call hit the moment between a helper's load and its mark.", "anchors": ["data-structures/base_linear.hpp: migrate, slot_cleanup", "data-structures/strategies/estrat_async.hpp: ~global_data_type", "data-structures/migration_table.hpp: insert_intern, insert_or_update_intern", "data-structures/element_types/complex_slot.hpp: atomic_mark, cleanup"]}
{"id": "C76", "title": "A growing table used through one handle without erasing answers every call", "statement": "A growing table with circular probing that is used through a single handle, and from which nothing is erased, answers every call as a sequential map would: no call goes on for ever, whatever migrations it has to perform itself on the way, and after each answer the next call can be made.", "quantifier": "every initial size of at least 512 slots, every block size, every hash function, every sequence of calls up to 2^31", "why_tests_cant": "Whether a call returns depends on where the approximate counters stand relative to the limit at which the table grows; there are as many cases as histories.", "anchors": ["data-structures/migration_table.hpp: insert_intern, update, erase, execute, increase_size_approx", "data-structures/counter.hpp", "data-structures/strategies/estrat_async.hpp: grow, help_grow", "data-structures/strategies/wstrat_user.hpp", "data-structures/base_linear.hpp: resize, migrate"]}
{"id": "C77", "title": "A growing table used through one handle answers every call also when elements are erased", "statement": "A growing table with circular probing that is used through a single handle answers every call as a sequential map would: no call goes on for ever, and after each answer the next call can be made.", "quantifier": "every initial size of at least 512 slots, every block size, every hash function, every sequence of calls up to 2^31, erasures included", "why_tests_cant": "A call that never returns needs an exact coincidence between the counted elements and the limit, which a random test practically never meets.", "anchors": ["data-structures/migration_table.hpp: insert_intern, erase, execute, increase_size_approx", "data-structures/counter.hpp", "data-structures/strategies/estrat_async.hpp: grow, help_grow", "data-structures/base_linear.hpp: resize"]}
{"id": "C78", "title": "A growing table used through several handles, one call at a time, answers every call", "statement": "A growing table with circular probing that one thread uses through several handles, one call after the other, answers every call as a sequential map would: no call goes on for ever, and after each answer the next call can be made.", "quantifier": "every number of handles, every initial size of at least 512 slots, every block size, every hash function, every sequence of calls up to 2^31", "why_tests_cant": "Whether the table grows in time depends on how the insertions are distributed among the handles, each of which keeps up to 64 of them to itself.", "anchors": ["data-structures/migration_table.hpp: local_count, inc_inserted, update_numbers, insert_intern", "data-structures/base_linear.hpp: insert_intern", "data-structures/strategies/estrat_async.hpp: grow", "data-structures/strategies/estrat_sync.hpp: grow"]}
{"id": "C79", "title": "Several threads use a growing table that decides by its counters when to grow, and no acknowledged element is lost", "statement": "A growing table used by several threads, each through its own handle, behaves as an atomic map: every answer is explained by one order of the calls, an element whose insertion was acknowledged is found until it is erased, and of several insertions of one key one succeeds. When the table grows is decided by the table itself, from the counts the handles publish.", "quantifier": "every number of threads, every schedule, every initial size, every block size, every hash function, both strategies", "why_tests_cant": "The table loses its elements only if it fills up completely between the moment when a thread has found it too full and the moment when the migration begins; no test chooses that schedule.", "anchors": ["data-structures/migration_table.hpp: inc_inserted, update_numbers, insert_intern, execute", "data-structures/strategies/estrat_async.hpp: grow, help_grow, end_grow", "data-structures/strategies/estrat_sync.hpp: grow, wait_for_table_op, end_grow", "data-structures/base_linear.hpp: migrate, migrate_block"]}
{"id": "C80", "title": "Several threads use a growing table, and every call can return", "statement": "Whatever several threads have done with a growing table so far, the calls in progress can still all return: there is no state from which a call can only go on for ever.", "quantifier": "every number of threads, every reachable state, every initial size, every hash function", "why_tests_cant": "The bad states need one thread to be delayed between two adjacent statements while others fill the table.", "anchors": ["data-structures/migration_table.hpp: update_numbers, insert_intern", "data-structures/strategies/estrat_sync.hpp: grow, wait_for_table_op, get_table", "data-structures/base_linear.hpp: insert_intern"]}
{"id": "C81", "title": "After concurrent use an iteration shows exactly what the calls have left", "statement": "When all calls on a table have returned and it is not growing, an iteration from begin() to end() terminates and shows exactly the elements that some order of the calls (each between its invocation and its return) leaves in a map: every element once, nothing else; their number is the number of insertions reported as successful minus the number of erasures reported as successful.", "quantifier": "all numbers of threads, all interleavings of calls and growth steps, all hash functions, cell types, capacities and block sizes", "why_tests_cant": "Tests that fill a table concurrently and then count see a few schedules; that no schedule with growth steps in between loses, duplicates or resurrects an element needs a proof over all of them.", "anchors": ["data-structures/migration_table.hpp: begin, end, insert, insert_or_update, erase", "data-structures/migration_table_iterator.hpp: operator++", "data-structures/base_linear.hpp: begin, migrate", "data-structures/base_linear_iterator.hpp: operator++"]}
{"id": "C82", "title": "A growing table answers every call also when handles are destroyed, made anew and moved", "statement": "A growing table with circular probing that one thread uses through handles which are destroyed, made anew and moved between calls, and whose counters the user may publish at any time (update_numbers), answers every call as a sequential map would: no call goes on for ever, every destructor returns, and afterwards the next call can be made.", "quantifier": "every order of calls, destructions, constructions and moves of handles, every number of handles at a time, every initial size of at least 512 slots, every block size, every hash function, up to 2^30 calls", "why_tests_cant": "A destructor publishes a number of elements that depends on the whole history; whether the table stops growing depends on one exact sum.", "anchors": ["data-structures/migration_table.hpp: ~migration_table_handle, migration_table_handle(migration_table_handle&&), local_count, update_numbers"]}
{"id": "C83", "title": "A call that ends with an exception of the user's code leaves the table as it was and keeps no memory", "statement": "On a table whose elements are allocated one by one (keys or values that do not fit a cell), a call in which the allocator, a constructor of the element or the function given to update or insert_or_update throws has no effect on the map, no memory is used after it was freed or freed twice, and when all calls have ended the only allocated memory is that of the elements in the table, which destroying the table frees.", "quantifier": "every number of threads, every schedule, every sequence of calls and exceptions, every hash function, every allocator, fixed-size and growing tables", "why_tests_cant": "Where an exception strikes in a schedule of concurrent calls, and what it loses, depends on the history and the interleaving.", "anchors": ["data-structures/element_types/complex_slot.hpp: slot_type constructors, allocate, _atomic_helper_type::execute, cleanup", "data-structures/base_linear.hpp: insert_or_update, emplace_or_update, insert, update", "data-structures/migration_table.hpp: insert_or_update, update"]}
{"id": "C84", "title": "An update whose function throws does not happen", "statement": "On a table that stores keys and values in its cells, a call of update, update_with_backoff or insert_or_update in which the function it was given throws has no effect on the map, and neither has the exception on other calls: the history without the calls that threw is one of an atomic map.", "quantifier": "every number of threads, every schedule, every sequence of calls and exceptions, every hash function, fixed-size and growing tables, with exceptions also during and after migrations", "why_tests_cant": "Which accesses a call has already made when its function throws, and what other calls do meanwhile, depends on the schedule.", "anchors": ["data-structures/element_types/simple_slot.hpp: atomic_update, _atomic_helper_type::execute", "data-structures/element_types/single_word_slot.hpp: atomic_update", "data-structures/base_linear.hpp: insert_or_update, update", "data-structures/migration_table.hpp: insert_or_update, update"]}
{"id": "C85", "title": "Without marks, only an update that races an erase of its key can be lost", "statement": "On cells that cannot be marked, clients may mix find, insert, insert_or_update, update and all erases freely, with one consequence only: an update or insert_or_update that overlaps a successful erase of the same key may report success although it has no effect. Every other call, and every update that overlaps no erase of its key, happens at one moment between its invocation and its response; so a history in which no update overlaps an erase of its key is linearizable. Keys that nobody erases are found, inserted once and counted exactly as if there were no such races, and at any moment the cells hold exactly one entry per key of the map.", "quantifier": "every number of threads, every schedule, every mix of calls, every hash function, both probing schemes and both mappings, fixed-size tables and tables that grow by the synchronised strategy", "why_tests_cant": "The races of updates and erases are a matter of schedules, and their harm must be bounded over all of them.", "anchors": ["data-structures/element_types/simple_slot.hpp: atomic_update, atomic_delete", "data-structures/base_linear.hpp: insert_or_update, update, erase, erase_if", "data-structures/migration_table.hpp: insert_or_update, update, erase", "data-structures/strategies/estrat_sync.hpp"]}
{"id": "C86", "title": "Updates by plain assignment on a processor with store buffers", "statement": "On x86, a call that has returned is visible to every call that begins later, provided that the functions passed to update and insert_or_update change the value by atomic instructions, or that cells can be marked. It does not hold for a function whose member atomic is a plain assignment, such as the Overwrite of the examples, on cells that cannot be marked: its update may return while other threads still find the old value, and an increment by another thread that begins and ends after it may be wiped out. What remains if nothing is erased: the table behaves like a map behind one store queue per thread, and up to the values reported all calls are atomic; with a fence after each such update all calls are atomic again.", "quantifier": "every number of threads, every schedule including every delay of buffered stores, every mix of calls without erase (with erase for atomic functions, as in C01-C04), every hash function, both probing schemes and both mappings, fixed-size tables", "why_tests_cant": "How long a store stays in the buffer of its core is neither observable nor controllable in a test; the stale reads are rare and the claim covers all delays.", "anchors": ["example/update_fcts.hpp: Overwrite, Increment", "data-structures/element_types/simple_slot.hpp: _atomic_helper_type, atomic_update, cas, load", "data-structures/base_linear.hpp: update, insert_or_update"]}
{"id": "C87", "title": "Unsafe updates are atomic for clients that keep them apart", "statement": "update_unsafe and insert_or_update_unsafe behave like update and insert_or_update, atomically and together with all other calls, as long as no other thread is in an update, an insert_or_update or an erase of the same key while they run, and the table does not migrate meanwhile. Lookups and inserts of the same key may run, and other keys are unrestricted. Without that care, but with nothing erased, keys are still never lost, doubled or updated while absent; the values may be: two increments can count as one, a finished update can be undone, and if the table migrates meanwhile even a single thread's successful update can be lost.", "quantifier": "every number of threads, every schedule that keeps unsafe updates apart, every mix of calls (no erase with update on cells without marks, as in C01-C04), every hash function, all probing schemes and mappings, tables of fixed size and tables that are migrated while nobody uses them", "why_tests_cant": "Unsafe updates overlap in the few instructions between load and store; whether clients that keep them apart are safe from everything else in the table is a claim about all schedules.", "anchors": ["data-structures/base_linear.hpp: update_unsafe, insert_or_update_unsafe, update_unsafe_intern, insert_or_update_unsafe_intern", "data-structures/migration_table.hpp: update_unsafe, insert_or_update_unsafe", "data-structures/element_types/simple_slot.hpp: non_atomic_update", "data-structures/element_types/single_word_slot.hpp: non_atomic_update"]}
{"id": "C88", "title": "Iterators are equal iff they show the same element", "statement": "An iterator returned by find, insert, update or insert_or_update equals end() exactly if the call showed no element. Two iterators other than end() are equal only if their calls were for the same key, no matter when they were obtained and what was done to the table in between; two iterators for the same key are equal as long as their elements are stored, and always if clients do not erase. On growing tables the same holds for iterators obtained before and after the table grew.", "quantifier": "every pair of calls of any threads at any two times of any execution, every hash function, capacity, probing scheme, mapping and cell type that stores elements in place", "why_tests_cant": "A cell that is handed to another key, or two cells with the same key, would need one particular interleaving of inserts and erases between the two calls; that cells keep their key for ever is a claim about all histories.", "anchors": ["data-structures/base_linear_iterator.hpp: operator==, operator!=", "data-structures/migration_table_iterator.hpp: operator==, operator!=, base_refresh_ptr", "data-structures/base_linear.hpp: make_iterator, end"]}
{"id": "C89", "title": "Iterators of the sequential table stay valid while it is used", "statement": "An iterator of the sequential table shows the element of its call for as long as that element is stored: dereferencing it later, after any further calls and after any number of growth steps, shows the key with the value stored then, assigning through it changes the value of that key and of no other, and comparing it with end() tells whether its call had found or stored something.", "quantifier": "every history of calls mixed with uses of any iterators returned so far, every hash function and mapping, circular probing, every initial size from 2^9 slots on, up to 2^48 commands", "why_tests_cant": "Whether a kept iterator is still right depends on everything that was inserted and erased since, on growth steps in between and on collisions; only a claim about all histories covers it.", "anchors": ["data-structures/seq_linear.hpp: seq_iterator::operator*, operator->, operator==, refresh; seq_linear::make_it, end, grow, erase"]}
{"id": "C90", "title": "Iterators of the sequential table are equal iff they stand for the same element", "statement": "An iterator of the sequential table equals end() exactly if its call found or stored nothing. Two iterators other than end() are equal exactly if their calls were for the same key, no matter what was inserted or updated between the two calls, before the comparison, and whether the table grew.", "quantifier": "every pair of iterators returned in any history of calls mixed with uses of any iterators, every hash function and mapping, circular probing, every initial size from 2^9 slots on, up to 2^48 commands", "why_tests_cant": "Whether two kept pointers still agree depends on the whole history between the calls, in particular on when growth steps happened.", "anchors": ["data-structures/seq_linear.hpp: seq_iterator::operator==, operator!=, refresh; seq_linear::make_it, end, grow"]}
{"id": "C91", "title": "begin() of the sequential table shows a stored element, or end() if there is none", "statement": "After any history of calls on the sequential table begin() equals end() exactly if no key is stored; otherwise dereferencing it shows a stored key with its value.", "quantifier": "every history of calls, every hash function and mapping, circular probing, every initial size from 2^9 slots on, up to 2^48 calls", "why_tests_cant": "What lies in the first occupied cell depends on all earlier calls, collisions and growth steps; cells left behind by erasures appear only after particular sequences.", "anchors": ["data-structures/seq_linear.hpp: begin, end, erase"]}
