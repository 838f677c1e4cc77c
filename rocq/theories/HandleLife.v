(** Model of a growing table whose handles are destroyed, made anew and moved while one
    thread uses it: /repo/data-structures/migration_table.hpp:463-538 (constructors,
    move, destructor), 383 and 1084-1117 (update_numbers, which is public). *)
From Coq Require Import NArith ZArith Bool List.
From Verif Require Import Words Slot Mapper ReturnCode MapSpec LinSpec Base Migrate Growing Count GrowOom OneHandle ManyHandles.
Import ListNotations.
Open Scope N_scope.

(** Steps with at most [n] handles at a time.
    [lf_many]: calls, and turning to another handle.
    [lf_flush], [lf_cross], [lf_done]: update_numbers through the handle in use, without growing (1097-1117) and
      with growing (1108-1112): by the user (383), or by the destructor (533).  A handle with no counts left
      is also what the constructor makes (_counts(), 467-489), so afterwards number [k] is the handle that
      was kept, or one that has been made anew.
    [lf_move]: handle [j] is made out of the handle in use, and used from now on (493-505, 397-404); before, there
      was no handle [j].  The other one has no counts left; when it is destroyed, update_numbers adds nothing.
    Simplification: that the handle that was moved from still has a reference to the flags of the other one
    (estrat_sync.hpp:236-247) is the subject of C22_moved_handle_refuted, and its table pointer (estrat_async.hpp:162)
    belongs to an external library; neither is part of this model. *)
Inductive life_step (c : tcfg) (B : N) (bo : bool) (client : op -> Prop) (n : N) : mhsys -> option (event mop mres) -> mhsys -> Prop :=
| lf_many s l s' : many_step c B bo client n s l s' -> life_step c B bo client n s l s'
| lf_flush v mp me th e d u i x loc k :
    th 0 = None -> crosses e i (thresh (total_slots (tmc c) (mp v))) = false ->
    life_step c B bo client n (MHSys (HSys (GSys v mp me None th) e d (u, i, x) HCall) loc k) None
      (MHSys (HSys (GSys v mp me None th) (e + i) (d + x) (0, 0, 0)%Z HCall) loc k)
| lf_cross v mp me th e d u i x loc k :
    th 0 = None -> crosses e i (thresh (total_slots (tmc c) (mp v))) = true ->
    addressable_slots (tmc c) (mp v) < 2 ^ 32 ->
    life_step c B bo client n (MHSys (HSys (GSys v mp me None th) e d (u, i, x) HCall) loc k) None
      (MHSys (HSys (begin_grow c v mp me th (e + i) (d + x)) (e + i) (d + x) (0%Z, i, x) (HGrow true)) loc k)
| lf_done v mp me th e d l loc k :
    th 0 = None ->
    life_step c B bo client n (MHSys (HSys (GSys v mp me None th) e d l (HBack true)) loc k) None
      (MHSys (HSys (GSys v mp me None th) e d (0, 0, 0)%Z HCall) loc k)
| lf_move g e d l loc k j :
    gthr g 0 = None -> j < n -> j <> k -> loc j = (0, 0, 0)%Z ->
    life_step c B bo client n (MHSys (HSys g e d l HCall) loc k) None
      (MHSys (HSys g e d l HCall) (fupd loc k (0, 0, 0)%Z) j).
