# Formal model of growt in Rocq

Source: /repo (TooBiased/growt, C++).  Proof assistant: Coq 8.16.1.
Theories live in `rocq/theories` (logical name `Verif`).

## Modelling principles

* Words are `N`.  Arithmetic that can wrap in C++ is written with an explicit
  `mod 2^w`.  Bit operations are `N.land`, `N.lor`, `N.shiftl`, `N.shiftr`.
* A table is a memory `N -> option slot` plus its mapper.  `None` is an
  uninitialised cell.  Reading an uninitialised cell or an index outside
  `total_slots` is a distinct outcome (`PBad`, `HBad`, ...), never silently defined.
* The hash function is universally quantified in every theorem.  Only its
  result is wrapped to 64 bits.
* Concurrency is a small-step machine, one atomic memory access per step, any
  number of threads, sequentially consistent.  C23 and C86 use machines with store
  buffers (TSO).
* Linearizability is stated against a separate canonical atomic object
  (`MapSpec.v`, `LinSpec.v`): every visible trace of the implementation is
  a trace of the atomic object.  Neither file refers to the table model.
  `HWSpec.v` is the definition of Herlihy and Wing (a legal sequential order that
  respects real time); C59 proves that both describe the same histories.
* When the code as written violates the natural property, the natural property
  is stated and refuted in the model by a concrete execution or by a theorem
  about all executions (`..._refuted`).  The strongest true variant that we could
  prove carries the suffix `_partial`.  Such properties have status `partial` in
  MANIFEST.json, and the note says what is false and what holds.

## Files

`X.v` is the model, `XSpec.v` the vocabulary of the theorems (no proofs),
`XInv.v`, `XFacts.v`, ... the proofs, `PropX.v` the property theorems with
their examples and `Print Assumptions`.

| files | code modelled |
|-------|---------------|
| `Words` | word arithmetic, function update |
| `Slot`, `SlotFacts` | element_types/simple_slot.hpp, single_word_slot.hpp |
| `Mapper`, `MapperFacts` | base_linear.hpp mapper_type, resize |
| `ReturnCode` | returnelement.hpp |
| `Config`, `ConfigFacts`, `PropConfig` | hash_table_mods.hpp, table_config.hpp |
| `MapSpec`, `LinSpec`, `HWSpec`, `EndSpec`, `HistSpec`, `TableSpec` | specifications only |
| `LinCheck`, `LinFacts`, `HWFacts`, `PropLin`, `Hist`, `HistCount` | facts about histories, a checker for "not linearizable" |
| `Base`, `BaseInv`, `BaseLin`, `BaseExec`, `BaseSolo`, `BaseFacts`, `BaseReport`, `Raw`, `PropBase` | base_linear.hpp insert, find, update, update_with_backoff, insert_or_update, erase, erase_if |
| `Migrate`, `GrowSpec`, `Migrate*`, `GrowFacts`, `PropMigrate` | base_linear.hpp migrate, initialize, insert_unsafe; estrat blockwise_migrate |
| `Seq`, `SeqSpec`, `SeqFacts`, `PropSeq` | seq_linear.hpp with seq_simple_slot.hpp |
| `Iter`, `IterSpec`, `IterFacts`, `PropIter` | base_linear_iterator.hpp, migration_table_iterator.hpp, begin/end/range |
| `IterGrow`, `IterGrowFacts`, `PropIterGrow` | references of migration_table_iterator.hpp, iterators and references across growth steps |
| `Count`, `CountSpec`, `CountFacts`, `PropCount` | migration_table.hpp counters |
| `Sync`, `SyncInv`, `SyncSpec`, `SyncFacts`, `Handles`, `HandlesFacts`, `PropSync` | estrat_sync.hpp with wstrat_user.hpp, also with store buffers |
| `Async`, `AsyncInv`, `AsyncSpec`, `AsyncFacts`, `PropAsync` | estrat_async.hpp with wstrat_user.hpp |
| `Pool`, `PoolSpec`, `PoolInv`, `PoolFacts`, `PropPool` | wstrat_pool.hpp, counting_wait.hpp with estrat_async.hpp |
| `Ptr`, `PtrSpec`, `PtrWords`, `PtrInv`, `PtrMove`, `PtrGrow`, `PtrSys`, `PtrLin`, `PtrFacts`, `PropPtr` | complex_slot.hpp with base_linear.hpp and its growth |
| `Growing`, `GrowingSpec`, `Frozen`, `GrowingInv`, `GrowingFacts`, `GrowingExec`, `GrowingSolo`, `GrowingRoom`, `PropGrowing` | migration_table.hpp retry loops, all versions and migrations together |
| `SyncTable`, `SyncTableSpec`, `SyncTableInv`, `SyncTableExec`, `TraceSpec`, `TraceFacts`, `PropSyncTable` | the synchronised growing table as one machine: handshake, calls, retry loops and migration access by access |
| `AsyncTable`, `AsyncTableSpec`, `AsyncTableInv`, `AsyncTableExec`, `PropAsyncTable` | the asynchronous growing table as one machine: handshake, calls on tables being migrated, retry loops and migration access by access |
| `SyncEndSpec`, `SyncEnd`, `PropSyncEnd` | progress of the synchronised handshake: no deadlock, no livelock, fair schedules finish |
| `AsyncEndSpec`, `AsyncEnd`, `PropAsyncEnd` | progress of the asynchronous handshake |
| `LockFreeSpec`, `LockFree`, `PropLockFree` | lock-freedom of the calls on a fixed-size table |
| `SeqPtr`, `SeqPtrSpec`, `SeqPtrFacts`, `PropSeqPtr` | sequential growing table, pointer cells |
| `SeqIter`, `SeqIterSpec`, `SeqIterFacts`, `PropSeqIter` | seq_linear.hpp seq_iterator: dereferencing, refresh, comparison with end(); make_it (cells of type seq_simple_slot) |
| `SeqIterEq`, `SeqIterEqFacts`, `PropSeqIterEq` | seq_linear.hpp seq_iterator::operator==, seq_linear::begin |
| `SeqErase`, `PropSeqErase` | seq_linear.hpp erase, second loop |
| `SeqLin`, `PropSeqLin` | seq_linear.hpp with linear probing: at most 1024 insertions, or hash values in the first quarter of their range |
| `PropFull` | base_linear.hpp find and insert_intern on full circular tables |
| `Torn`, `TornFacts`, `PropTorn` | simple_slot.hpp load, carried out in two halves |
| `UserCode`, `UserCodeFacts`, `PropUser` | migration_table.hpp execute/cexecute around functions of the user that throw or call the table |
| `Reclaim`, `ReclaimFacts`, `PropReclaim` | when tables are freed: protections of estrat_async.hpp, delete of estrat_sync.hpp |
| `OomSpec`, `GrowOom`, `GrowOomFacts`, `CountOom`, `CountOomFacts`, `PropGrowOom` | calls and counters of growing tables when allocations fail: the places where migration_table.hpp calls grow |
| `PtrGrowing`, `PtrGrowingSpec`, `PtrGrowingImg`, `PtrGrowingInv`, `PtrGrowingRel`, `PtrGrowingStep`, `PtrGrowingSim`, `PtrGrowingFacts`, `PtrGrowingExec`, `PropPtrGrowing` | growing tables of pointer cells whose calls run during migrations: the calls and helpers of `Ptr` on the versions of `Growing` |
| `OneHandle`, `OneHandleSpec`, `OneHandleFacts`, `OneHandleExec`, `PropOneHandle` | one handle of a growing table: calls, approximate counters, the decision to grow, the migration done by the caller, the retry |
| `ManyHandles`, `ManyHandlesFacts`, `PropManyHandles` | several handles used in turn by one thread: `OneHandle` with the counts of each handle |
| `Crowd`, `CrowdSpec`, `CrowdExec`, `CrowdFacts`, `CrowdCount`, `CrowdLive`, `CrowdEnds`, `PropCrowd` | several threads and a growing table with the counters that decide when it grows; both strategies, with the growth step and the migration of `Growing` |
| `After`, `AfterSpec`, `AfterFacts`, `PropAfter` | begin() of a growing table; what calls that have all returned leave behind, and what an iteration shows then |
| `HandleLife`, `HandleLifeSpec`, `HandleLifeFacts`, `PropHandleLife` | handles that are destroyed, made anew and moved: their counters, and growth steps begun by a destructor |
| `PtrThrow`, `PtrThrowSpec`, `PtrThrowFacts`, `PropPtrThrow` | complex_slot.hpp constructors and update, and the calls around them, when the allocator, a constructor or a function of the user throws |
| `UserThrow`, `UserThrowSpec`, `UserThrowFacts`, `UserThrowExec`, `PropUserThrow` | simple_slot.hpp and single_word_slot.hpp atomic_update, and the calls around them, when the function of the user throws |
| `LoseSpec`, `LoseFacts`, `LoseBase`, `LoseLin`, `LoseHist`, `LoseGrow`, `PropLose` | simple_slot.hpp atomic_update and atomic_delete on cells without marks, in tables used with any mix of calls |
| `BufSpec`, `BufFacts`, `Tso`, `TsoFacts`, `TsoExec`, `PropTso` | example/update_fcts.hpp and simple_slot.hpp `_atomic_helper_type` on x86: mapped values assigned through a store buffer; every other write to a cell is a locked instruction |
| `Unsafe`, `UnsafeSpec`, `UnsafeFacts`, `UnsafeExec`, `UnsafeKeys`, `PropUnsafe`, `UnsafeGrowing`, `UnsafeGrowingSpec`, `UnsafeGrowingFacts`, `UnsafeGrowingExec`, `PropUnsafeGrowing`, `PtrUnsafe`, `PtrUnsafeFacts`, `PtrUnsafeExec`, `PropPtrUnsafe` | base_linear.hpp update_unsafe_intern, insert_or_update_unsafe_intern and the slots' non_atomic_update: load and later store of the mapped value; alone, during a migration, and inside the retry loops of migration_table.hpp update_unsafe and insert_or_update_unsafe |
| `IterEq`, `IterEqSpec`, `IterEqFacts`, `PropIterEq` | base_linear_iterator.hpp and migration_table_iterator.hpp operator==, operator!= of iterators, for cells in place |
| `Oom`, `OomFacts`, `PropOom` | failing allocations during growth, and allocators that return null |
| `PoolAlloc`, `PoolAllocFacts`, `PropPoolAlloc` | allocator/poolallocator.hpp: making, announcing and using the pool |

## Plan per property

| id | model | proof |
|----|-------|-------|
| C01 C02 C04 | Base machine vs. atomic map | forward simulation; invariant "path to a live key contains no empty cell", fixed linearization points |
| C03 | Base machine, non-marking cells | refutation by concrete schedules; positive parts are C01, C02 |
| C05 | Base machine | inductive invariant |
| C06 C07 | atomic object | corollaries of trace inclusion |
| C08 | Base machine | invariant: used cells <= addressable+301 |
| C09 | Base machine, solo runs | measure on the probe position; termination for every client from the invariant of Raw.v |
| C10 | Base machine | refutation: full circular table; `PropFull`: a lookup running alone returns exactly if its key is stored or a cell is vacant (stored keys are reached by probing, C05) |
| C11 C12 | Mapper | arithmetic; refutation for n > 2^30 |
| C13 C14 | Slot | bit arithmetic; refutation for reserved keys |
| C15 C17 C19 | Migrate machine, arbitrary helpers | invariant on frozen cluster boundaries; counting argument for displacement; block counter |
| C16 | Migrate machine | refutation by schedule |
| C18 | Migrate + Base machine | refutation by schedule; partial theorem for schedules where no call changes a cell between the helper's load and mark in the second loop |
| C20 | Async | protocol invariant on helper counts |
| C21 | Async | refutation (stuck state reachable) |
| C22 | Sync | invariant |
| C23 | Sync with store buffers | refutation by store-buffer schedule |
| C24 | Sync | refutation by schedule; invariant for the other accesses |
| C25 C26 C27 | Count | invariants; refutations |
| C28 C29 | Iter | induction on remaining cells |
| C30-C34 | Iter | case analysis; refutations for fresh inserts and marked cells |
| C35 C36 C37 C50 | Ptr | bit arithmetic; ownership invariant; reduction of growth to C15; simulation; refutations |
| C38 C39 C40 C49 | Config | case analysis; refutations |
| C41 C42 C43 | Seq | refinement of a map; refutations for erase and bounds; `SeqErase`: erase closes gaps rightly when hash values are small cell numbers (loop invariant: a table with one gap); `SeqLin`: with linear probing, and at most 1024 calls that may insert or hash values in the first quarter of their range, a free cell stands behind every home cell, so no probe leaves the table |
| C44 | Pool | refutation by schedule; partial theorem |
| C45 | Handles | invariant up to 256; refutation beyond |
| C46 | Growing | refutation for all executions (pigeonhole on the overflow area); solo completion when a vacant cell is in reach, and a counting condition on the positions of the keys that implies it (GrowingRoom.v: run of used cells at the end of the table; keys of cells as an invariant of clients without erase) |
| C47 C51 | Growing, calls excluded from migrations | simulation of the atomic map across versions |
| C48 | Growing, calls during migrations | the same simulation with frozen old versions; refutation by schedule |
| C52 | Base machine | every client: invariant that a call has passed only used cells; counting of used cells and insertions |
| C53 | SyncTable (Sync + Base + Migrate + retry loops) | refinement into Growing with calls excluded from migrations, using the invariant of Sync |
| C54 C55 | SyncTable, Growing | consequences of linearizability on histories |
| C56 C57 | IterGrow | lookups by the only active thread in tables with any history; executions for the refutations |
| C58 | Mapper, Count | arithmetic on the comparison of doubles; an execution for the negative difference |
| C59 | none of its own (Base, SyncTable, Growing) | both inclusions: a linearization is read off a run of the atomic object; a run is built from a linearization event by event |
| C60 | `EndSpec` (counted runs of `Migrate`) | measure: blocks left times a bound per block plus, for every helper, a bound on its remaining steps that depends on whether its cell is marked and its copy outdated; the position bounds come from the invariant of C15 |
| C61 | AsyncTable (Async + Base + Migrate + retry loops) | refinement into Growing (asynchronous rules), using the invariant of Async and that marked cells exist only in tables with a successor; refutation by a concrete schedule of the whole machine |
| C62 | Sync | every set flag belongs to a thread that will clear it, hence no cycle of waits; a ranking function (changes of the table pointer still to come, then steps left per thread) bounds the steps that are none of waiting; fair rounds decrease it |
| C63 | Oom (Sync and Async with a step in which the allocation throws) | invariant of all states after a failure (refutation for the synchronised strategy); preservation of the invariant of Async |
| C64 | PoolAlloc | inductive invariant: at most one thread makes the pool of a type, and its announcement follows it; refutations by runs after which a type is never initialised |
| C65 | Async | a waiting thread waits for helpers or for the thread that announces its version, none of which wait; ranking function as for C62 |
| C66 | Base | number of accesses a call can still make while no call returns: distance to the next unused cell, plus what a stale compare-and-swap costs; lexicographic in the number of unfinished calls |
| C67 | SeqPtr | simulation of the table with in-place cells (C41, C43) when all fingerprints are 0; frames (elements a call does not own stay untouched) for leaks and freed elements; invariant that cells stored by insert have fingerprint 0 for the refutation |
| C68 | Torn (Base with two steps per load) | simulation: an empty key word counts as a load of the whole cell at the first half, a used one at the second; refutations by executions |
| C69 | UserCode: Sync and Async with a throw step | C20 and C62 invariants without the clause that ties announcements to calls; invariant of an announcement nobody withdraws; refutation by an execution |
| C70 | UserCode: stacks of suspended operations | refutations by executions; the invariant of C24 for operations resumed on the cached table; C65 with one suspended handle |
| C71 | Reclaim: Async with counters and marks of the reclamation; Sync | invariant: counter = protections of all threads + those left by destroyed handles; helpers are at most one version behind; refutation by an execution |
| C72 | GrowOom: Growing with local and global counters and calls that end with bad_alloc | simulation of an atomic map whose calls may throw; refutation by an execution |
| C73 | CountOom: Count with failing growth steps | balance of the counters, by induction on executions; refutation by executions |
| C74 | PtrGrowing: calls and helpers of Ptr on all versions of a growing table | simulation by the growing table of in-place cells whose data are the addresses, and through it by the atomic map |
| C75 | PtrGrowing with the destructor of Ptr | from the same simulation: addresses in the table are the values of an atomic map, hence distinct; refutation by an execution |
| C76 | OneHandle: the calls of Growing, counters of Count, growth of Migrate, joined into one machine with one thread | deterministic machine; every call is run to its end by induction on measures of its phases; invariant: at least one empty slot, from the counters |
| C77 | the same machine with erase | proved for executions in which the counted elements never equal the limit exactly; refuted otherwise by an execution that loops |
| C78 | ManyHandles: OneHandle with one set of local counts per handle | the invariant of C76 with the unpublished counts of the other handles; refuted by a program with three handles |
| C79 | Crowd: Growing with one handle per thread, local and global counters, the decision to grow and the state of each thread in it | every step is a step of Growing or changes nothing there; the counters bound the used cells, so a vacant cell is left if nobody begins to use the table between the decision and the start; refuted by two threads on 512 slots otherwise |
| C80 | Crowd | refuted: from a reachable state of two threads no event ever happens; with the table closed at once: from every reachable state all calls can return (induction on how far the threads are from the end of their calls; migrations end by C60, calls alone by C46), and every schedule without further calls makes them return (CrowdEnds: calls in progress, waiting threads, threads outside the migration and C44's bound on accesses decrease lexicographically) |
| C81 | Base, Growing, Crowd, After | simulation relation at rest (every thread of the atomic object is idle) + C28 for the table in use; number of elements by induction over the runs of the atomic object; refuted for circular probing with the run of C79 |
| C82 | `ManyHandles` plus steps for update_numbers, destructors and moves; the counters of all handles are an invariant, the growth step of a destructor runs to its end; a run that stops growing |
| C83 | `Ptr` plus steps that end a call with an exception; a call that threw is kept as a call of a thread that never moves, so the invariant and the simulation of C37/C50 apply; the number of blocks lost is counted exactly; a run that loses one |
| C84 | `Base` and `Growing` plus steps that end a call with an exception; the simulations of C01-C03, C48 and C51 with an atomic map whose calls may be dropped; from there the history without the dropped calls; a run where a function that works in place throws after its work |
| C85 | `LoseSpec`: an atomic map whose updates may also answer without effect after an erase of their key during the call; `Base` and `Growing` run beside a copy in which lost updates leave the cell alone, and the copy satisfies the invariants of C01, C51 and C53; a history without overlap has no lost updates; the guarantees of C06 and C07 for keys that nobody erases, and C05, follow; runs of both kinds |
| C86 | `Tso`: the table of `Base` with one store buffer per thread, drained at any time; `BufSpec`: a map behind store queues. Without plain stores the buffers stay empty and C01-C04 apply; with them every thread's view satisfies the table invariant and the table refines the queued map; key sets are untouched by the queues; stores drained before the response take effect when drained; refuted by a run for plain stores |
| C87 | `Unsafe`: the table of `Base` with calls that load a value and store the new one in a later step; `UnsafeSpec`: executions that keep unsafe updates apart. Simulation by the safe calls: between load and store nobody changes the cell, so the store is the successful exchange; keys by the keys-only simulation of C86; refuted by runs for overlapping updates and for a migration between load and store. `UnsafeGrowing`: the same calls on the growing table of `Growing`, with the retry loops of the handle; `UnsafeGrowingSpec`: synchronised growing used with that care; every unsafe store is shown to be the update of `Growing`, then the simulation of C51. `PtrUnsafe`: the same calls on tables of pointer cells; the second load leads to the same element because a cell never changes its pointer, so the executions are executions of `Ptr` and `PtrGrowing` |
| C88 | `Iter`, `IterEq`: comparison of the positions of iterators. Invariant over executions with a growing set of (cell, key) pairs, one for each iterator ever returned: the cell holds its key or is deleted, and a cell has one key; uniqueness of stored keys (C01-C04) gives the other direction; refuted for iterators from before and after the table was replaced, which are compared by address (also with the memory of the old table given to a later one) |
| C89 | `SeqIter`: a client with variables holding iterators, mixed with the calls of `Seq`; `SeqIterSpec`: a map whose iterators are keys. Simulation: a call either enlarges the table, so that every older iterator looks its key up again, or leaves every element other than an erased one in its cell, if erase meets its key in front of a free cell (as in C42); refuted for erase in general by a run, since it moves elements without a new version |
| C90 | `SeqIterEq`: comparison by address. Invariant beside the simulation of C89: iterators with the same version have the same cell iff the same key; refuted for iterators from before and after a growth step, which are compared without being refreshed |
| C91 | `SeqIterEq`: begin() scans for the first occupied cell; with the invariant of C41 and C42 occupied cells are the elements; refuted for erase in general by a run in which an erased key stays in a cell |

## What the models leave out, per area

* **Cells (`Slot`, `Base`).**  A 16-byte load of key and value is one atomic step
  (`_mm_loadu_si128`; C68 splits it in two).  Update functors are arbitrary functions `N -> N`;
  a functor with an `atomic` member is applied to the value word in one step.
  Members that cannot be instantiated are not modelled: base_linear insert of a
  `value_type`, complex_slot `atomic_delete`, `operator==` and the functor helper
  for non-atomic functors.
* **Life of a table (`GrowSpec`).**  `life` is a table that was constructed, used
  by any interleaving of calls until no call is running, and migrated, any number
  of times.  `calm_step` restricts calls during a migration as described at C18.
* **Seq.**  The fill limit is a product of doubles.  It is modelled by rounding to
  53 bits; the theorems state the ranges in which the value is exact.
* **Iter.**  One access per step as in `Base`.  References hold a copy of the cell
  and a pointer to it, as in the code.  Pointers of the growing table's iterators
  are pairs of version and index.
* **Count.**  Counters are unbounded integers; `C26_in_range` bounds them.
* **Sync.**  Tables are named by their version (addresses are not reused while a
  thread holds them); one thread per flag slot; the migration itself is a
  sequence of blocks.
* **Async.**  Reclamation (utils submodule, not in the repository) is assumed to
  keep a protected table alive; deletion is only modelled in `Reclaim`.  A call is told INVALID
  only after a block of its version was handed out.
* **Pool.**  futex compares and sleeps atomically, a wake wakes all sleepers, there
  are no spurious wake-ups, handles are not moved.
* **Ptr.**  Keys are `N`, standing for values of any type with equality.  Growth
  is a step during which no call looks at the cells; its inside is the Migrate
  machine.  Updates only with an `atomic` functor, no erase (the others do not
  compile).  The allocator returns fresh addresses below 2^48.
* **Growing.**  Anybody may start a growth step at any time with arbitrary
  counters.  A call told to start over may do so at any time (the code waits
  first).  Old versions are not reclaimed.  `get_table` yields the published
  version.  Tables have less than 2^32 slots.  `exclusive`, `g_undisturbed` and
  `room` (GrowingSpec.v) are the restrictions of the theorems.
* **SyncTable.**  Sequentially consistent memory.  The mappers of all versions are a
  parameter (opening a migration checks that the next one is the result of
  `resize` with some counters), so that the handshake knows the number of blocks.
  A thread may also take and release the table without calling anything.  A helper
  that reads a deleted table (C24) stops.
* **AsyncTable.**  As SyncTable.  Old versions are not reclaimed while a handle may
  use them (reclamation is in the utils submodule).  `a_undisturbed` and `a_room`
  (AsyncTableSpec.v) are the restrictions of the theorems.
* **UserCode.**  The handshakes of Sync and Async with a step in which a function of the
  user throws, or makes a nested call; the table itself is not part of it.
* **Reclaim.**  Counting reclamation as its use suggests (the submodule is missing);
  protecting is one step with the load of the pointer.
* **GrowOom, CountOom.**  Only the asynchronous strategy (the synchronised one stops, C63).
  Counters are integers; any allocation of a table may fail.
* **PtrThrow.**  As Ptr.  A function throws before it changes the value.  Memory that was
  given out and lost is noted as holding an element.
* **UserThrow.**  A function that gets a copy throws before the cell changes; one that
  works in place throws before or after all of its work.
* **PtrGrowing.**  As Ptr and Growing.  Old versions are not reclaimed; the destructor
  runs when no call is running.

## Not modelled at all

* `tsx_circular.hpp` (legacy, not reachable from `table_config`; its element type
  needs a member `Key`, and no type in the repository has one), wrappers for other libraries, tests, benchmarks.
* What the allocators do inside `tbb`, `malloc` and the operating system (the
  logic around the memory pool is C64, failing allocations are C63).
* The `utils` submodule (hash functions, debug output, memory reclamation).
* Weak memory other than TSO (C23).
* Post-increment of the iterators: it returns a reference to a local variable
  (`base_linear_iterator.hpp:245-250`, `migration_table_iterator.hpp:302-307`,
  `seq_linear.hpp:92-97`), so its result has no defined meaning.
* A function of the user that throws in the middle of a change of a value in place (its
  effect on the handshake is C69, on memory C83, on the map C83 and C84, nested calls
  are C70), and exceptions of hash functions and of the comparison of keys.

## Trusted base

* Coq's kernel (8.16.1) and the `coqc` driver; `vm_compute` is part of the kernel.
* The modelling step: that the Gallina definitions describe the C++ code.  Each
  definition cites the lines it models.
* Axioms: `Print Assumptions` after every property theorem prints "Closed under the
  global context".  No axiom of the standard library is used by any theorem.
  `coqchk -o` over all modules additionally lists seven parameters of the module
  type `Coq.ssr.ssrunder.Under_rel` (Under_rel, Under_rel_from_rel, Under_relE,
  Over_rel, over_rel, over_rel_done, under_rel_done), which the standard library
  declares in a sealed module and which `Lia` loads; no theorem depends on
  them.
* No functor, module type, `Admitted`, custom axiom or disabled check.

## Testing the theorems

`seeded/LOG.jsonl` records edits of the model that imitate realistic bugs, made in
a scratch copy, with the theorems that failed and those that were tightened.
