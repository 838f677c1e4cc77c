(** Growing when memory runs out: the allocation of the new table throws
    std::bad_alloc.

    The exception leaves grow() and the call of the handle; nothing catches it
    (migration_table.hpp:315, called at 621, 665, 712, 755, 834, 911 and 1110).  The handle has
    withdrawn its protection before (rls_table precedes grow), so that it can be used
    again.  Simplification: the moment of the allocation is the access that follows it in
    [Sync] and [Async]. *)
From Coq Require Import NArith Bool List.
From Verif Require Import Words Sync Async.
Import ListNotations.
Open Scope N_scope.

(** estrat_sync.hpp:333-336: the table has been marked before, at 326. *)
Definition sync_fail (s : sst) (i : N) : option sst :=
  match s_pc s i with
  | PGrow5 _ => Some (set_pc s i PIdle)
  | _ => None
  end.

(** estrat_async.hpp:222-226: nothing has been changed yet. *)
Definition async_fail (s : ast_) (i : N) : option ast_ :=
  match y_pc s i with
  | AGrow => Some (with_pc s i AIdle)
  | _ => None
  end.

(** Steps of the strategies when allocations may fail. *)
Definition sync_step_oom (tso : bool) (nblocks slot : N -> N) (s s' : sst) : Prop :=
  sync_step tso nblocks slot s s' \/ exists i, sync_fail s i = Some s'.
Definition async_step_oom (nblocks : N -> N) (s s' : ast_) : Prop :=
  async_step nblocks s s' \/ exists i, async_fail s i = Some s'.

(** [sync_later s s']: [s'] can be reached from [s]. *)
Inductive sync_later (tso : bool) (nblocks slot : N -> N) (s : sst) : sst -> Prop :=
| sl_here : sync_later tso nblocks slot s s
| sl_step s1 s2 : sync_later tso nblocks slot s s1 -> sync_step_oom tso nblocks slot s1 s2 -> sync_later tso nblocks slot s s2.

Inductive async_reachable_oom (nblocks : N -> N) : ast_ -> Prop :=
| ao_init : async_reachable_oom nblocks async_init
| ao_step s s' : async_reachable_oom nblocks s -> async_step_oom nblocks s s' -> async_reachable_oom nblocks s'.

(** ** Allocators that return null

    What an allocator does when it has no memory: std::allocator throws; memalign and
    tbb's fixed_pool return null (allocator/alignedallocator.hpp:59-65,
    allocator/poolallocator.hpp:160-166). *)
Inductive alloc_result := GotMemory | GotNull | AllocThrows.

(** What a constructor of the table does. *)
Inductive ctor_result :=
| Constructed                  (* a table with memory *)
| ConstructedNull              (* a table whose cells are at address null *)
| NullStore                    (* the constructor stores through null *)
| CtorThrows.

(** base_linear.hpp:396-412 (first table: all [total] cells are filled) and 415-438
    (successor: all cells, or with parallel initialisation the [total - addressable]
    cells behind the addressable ones, none if probing is cyclic).  405 and 422:
    [if (!_table) std::bad_alloc();] makes an exception object and drops it. *)
Definition filled (first par_init cyclic : bool) (total addressable : N) : N :=
  if first || negb par_init then total else if cyclic then 0 else total - addressable.
Definition construct (r : alloc_result) (first par_init cyclic : bool) (total addressable : N) : ctor_result :=
  match r with
  | AllocThrows => CtorThrows
  | GotMemory => Constructed
  | GotNull => if filled first par_init cyclic total addressable =? 0 then ConstructedNull else NullStore
  end.
