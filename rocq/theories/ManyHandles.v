(** Model of a growing table that one thread uses through several handles, one call at a
    time: /repo/data-structures/migration_table.hpp:283-426.  Every handle counts its own
    insertions and erasures (local_count, 386-426); everything else is [one_step]. *)
From Coq Require Import NArith ZArith Bool List.
From Verif Require Import Words Slot Mapper ReturnCode MapSpec LinSpec Base Migrate Growing Count GrowOom OneHandle.
Import ListNotations.
Open Scope N_scope.

(** [mh_s]: the table and the handle in use.  [mh_cur]: which handle that is.
    [mh_loc]: _updates, _inserted and _deleted of the other handles. *)
Record mhsys := MHSys { mh_s : hsys; mh_loc : N -> Z * Z * Z; mh_cur : N }.

Definition mhsys_init (c : tcfg) (lg : N) : mhsys := MHSys (hsys_init c lg) (fun _ => (0, 0, 0)%Z) 0.

(** Steps with handles 0 to [n] - 1.
    [mh_one]: a step of a call, through the handle in use.
    [mh_switch]: between two calls the thread turns to another handle.
    Simplification: handles are neither made nor destroyed on the way (see HandleLife.v). *)
Inductive many_step (c : tcfg) (B : N) (bo : bool) (client : op -> Prop) (n : N) : mhsys -> option (event mop mres) -> mhsys -> Prop :=
| mh_one s l s' loc i :
    one_step c B bo client s l s' ->
    many_step c B bo client n (MHSys s loc i) l (MHSys s' loc i)
| mh_switch g e d l loc i j :
    gthr g 0 = None -> j < n ->
    many_step c B bo client n (MHSys (HSys g e d l HCall) loc i) None
      (MHSys (HSys g e d (fupd loc i l j) HCall) (fupd loc i l) j).
