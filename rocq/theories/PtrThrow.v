(** Tables of pointer cells when code of the user throws: the allocator, the constructor
    of an element or the function given to update and insert_or_update. *)
From Coq Require Import NArith Bool List.
From Verif Require Import Words Mapper MapSpec LinSpec Base Migrate Ptr.
Import ListNotations.
Open Scope N_scope.

(** What threw. *)
Inductive thrower := AllocatorThrew | ElementThrew | FunctionThrew.

(** An event of a call, or the end of the call [o] of a thread by an exception. *)
Inductive tevent := TCall (e : event mop mres) | TThrow (tid : N) (o : pop) (w : thrower).

(** Steps.  No function of the table catches: an exception ends the call, and the rest of
    the call, in particular "slot.cleanup()" (base_linear.hpp:927-957,
    1024-1081, migration_table.hpp:558-585, 777-795, 856-872), does not happen.
    [th_run]: a step of [Ptr.psys_step].
    [th_alloc]: "allocate()" throws (complex_slot.hpp:172-176, 204, 216, 228, 242, 255).
    [th_element]: it returned memory and the constructor in the next line throws
    (205, 217, 229, 243, 256); only
    "new" expressions that allocate give the memory back.  The model notes the memory as
    an element.
    [th_fun]: the function throws in "f.atomic(...)" (complex_slot.hpp:550, 615); the model
    takes it that it has not changed the value before.  A function that leaves an announced
    call behind (C69) only makes growing wait, which [th_run] does not need. *)
Inductive thr_step (c : pcfg) (alloc : N -> Prop) (client : pop -> Prop)
  : psys -> option tevent -> psys -> Prop :=
| th_run s e s' :
    psys_step c alloc client s e s' -> thr_step c alloc client s (option_map TCall e) s'
| th_alloc hp m t th tid o :
    th tid = Some (o, QAlloc) ->
    thr_step c alloc client (PSys hp m t th) (Some (TThrow tid o AllocatorThrew))
      (PSys hp m t (fupd th tid None))
| th_element hp m t th tid o a :
    th tid = Some (o, QAlloc) -> alloc a -> hp a = None ->
    thr_step c alloc client (PSys hp m t th) (Some (TThrow tid o ElementThrew))
      (PSys (fupd hp a (Some (pop_key o, pop_data o))) m t (fupd th tid None))
| th_fun hp m t th tid o w curr :
    th tid = Some (o, QUpd w curr) ->
    thr_step c alloc client (PSys hp m t th) (Some (TThrow tid o FunctionThrew))
      (PSys hp m t (fupd th tid None)).
