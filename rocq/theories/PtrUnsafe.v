(** Model: unsafe updates on tables of pointer cells.  base_linear.hpp:686-722
    [update_unsafe_intern] and 775-823 [insert_or_update_unsafe_intern] (growing tables:
    migration_table.hpp:724-762, 845-919) search like update and insert_or_update; at the
    cell with the key they call complex_slot.hpp:606-617 [non_atomic_update], which loads the
    cell again and passes the value behind the new pointer to the functor's member atomic. *)
From Coq Require Import NArith Bool List.
From Verif Require Import Words Slot Mapper ReturnCode MapSpec LinSpec Base Migrate Ptr PtrSpec PtrGrowing PtrGrowingSpec.
Import ListNotations.
Open Scope N_scope.

(** Calls: those of Ptr.v and the unsafe ones. *)
Inductive ucall :=
| USafe (o : pop)
| UUpdate (k : N) (f : N -> N)       (* update_unsafe *)
| UIou (k d : N) (f : N -> N).       (* insert_or_update_unsafe, emplace_or_update_unsafe *)

(** The call of Ptr.v with the same meaning; the unsafe ones search like it. *)
Definition ucall_pop (q : ucall) : pop :=
  match q with USafe o => o | UUpdate k f => QUpdate k f | UIou k d f => QIou k d f end.

(** Beside the state of Ptr.v: is the call of a thread unsafe, at which cell has it found its
    key, and which word has it loaded there for the second time? *)
Inductive qmode := VOff | VOn | VAt (p : N) | VGot (w : N).
Definition mode_of_call (q : ucall) : qmode := match q with USafe _ => VOff | _ => VOn end.
Definition is_upd (pc : ppc) : bool := match pc with QUpd _ _ => true | _ => false end.

(** *** Tables of fixed size *)

(** Steps: a call begins; an unsafe call finds its key ([pu_find]), loads the cell again
    (complex_slot.hpp:613, [pu_read]) and applies the functor (614-616, [pu_apply]); all
    other steps are those of Ptr.v. *)
Inductive pu_step (c : pcfg) (alloc : N -> Prop) (client : ucall -> Prop)
  : psys * (N -> qmode) -> option (event mop mres) -> psys * (N -> qmode) -> Prop :=
| pu_inv hp m t th kd u q :
    th u = None -> client q ->
    pu_step c alloc client (PSys hp m t th, kd) (Some (EInv u (pspec_op (ucall_pop q))))
      (PSys hp m t (fupd th u (Some (ucall_pop q, pstart c m (ucall_pop q)))), fupd kd u (mode_of_call q))
| pu_base s kd l s' :
    psys_step c alloc (fun _ => False) s l s' ->
    (forall u o pc o' pc', kd u <> VOff -> pthr s u = Some (o, pc) -> pthr s' u = Some (o', pc') ->
       is_upd pc || is_upd pc' = true -> pc' = pc) ->
    pu_step c alloc client (s, kd) l (s', kd)
| pu_find hp m t th kd u o i w a w' curr :
    th u = Some (o, QLoad i w) -> kd u = VOn ->
    qstep c m hp t a o (QLoad i w) = (hp, t, QUpd w' curr) ->
    pu_step c alloc client (PSys hp m t th, kd) None
      (PSys hp m t (fupd th u (Some (o, QUpd w' curr))), fupd kd u (VAt (remap (pmc c) m i)))
| pu_read hp m t th kd u o w curr p w2 :
    th u = Some (o, QUpd w curr) -> kd u = VAt p -> prd c m t p = Some w2 ->
    pu_step c alloc client (PSys hp m t th, kd) None (PSys hp m t th, fupd kd u (VGot w2))
| pu_apply hp m t th kd u o w curr w2 a hp' t' pc' :
    th u = Some (o, QUpd w curr) -> kd u = VGot w2 ->
    qstep c m hp t a o (QUpd w w2) = (hp', t', pc') ->
    pu_step c alloc client (PSys hp m t th, kd) None
      (PSys hp' m t' (fupd th u (Some (o, pc'))), fupd kd u VOn).

Definition pu_init (c : pcfg) (lg : N) : psys * (N -> qmode) := (psys_init c lg, fun _ => VOff).

(** *** Growing tables *)

(** The same on the tables of PtrGrowing.v. *)
Inductive pug_step (c : pcfg) (B : N) (alloc : N -> Prop) (client : ucall -> Prop)
  : pgsys * (N -> qmode) -> option (event mop mres) -> pgsys * (N -> qmode) -> Prop :=
| pug_inv v mp me mg hp th kd u q :
    th u = None -> client q ->
    pug_step c B alloc client (PGSys v mp me mg hp th, kd) (Some (EInv u (pspec_op (ucall_pop q))))
      (PGSys v mp me mg hp (fupd th u (Some (ucall_pop q, v, pstart c (mp v) (ucall_pop q)))), fupd kd u (mode_of_call q))
| pug_base s kd l s' :
    pgstep c B alloc (fun _ => False) s l s' ->
    (forall u o x pc o' x' pc', kd u <> VOff -> pgthr s u = Some (o, x, pc) -> pgthr s' u = Some (o', x', pc') ->
       is_upd pc || is_upd pc' = true -> pc' = pc) ->
    pug_step c B alloc client (s, kd) l (s', kd)
| pug_find v mp me mg hp th kd u o x i w a w' curr :
    th u = Some (o, x, QLoad i w) -> kd u = VOn ->
    qstep c (mp x) hp (me x) a o (QLoad i w) = (hp, me x, QUpd w' curr) ->
    pug_step c B alloc client (PGSys v mp me mg hp th, kd) None
      (PGSys v mp (fupd me x (me x)) mg hp (fupd th u (Some (o, x, QUpd w' curr))), fupd kd u (VAt (remap (pmc c) (mp x) i)))
| pug_read v mp me mg hp th kd u o x w curr p w2 :
    th u = Some (o, x, QUpd w curr) -> kd u = VAt p -> prd c (mp x) (me x) p = Some w2 ->
    pug_step c B alloc client (PGSys v mp me mg hp th, kd) None (PGSys v mp me mg hp th, fupd kd u (VGot w2))
| pug_apply v mp me mg hp th kd u o x w curr w2 a hp' t' pc' :
    th u = Some (o, x, QUpd w curr) -> kd u = VGot w2 ->
    qstep c (mp x) hp (me x) a o (QUpd w w2) = (hp', t', pc') ->
    pug_step c B alloc client (PGSys v mp me mg hp th, kd) None
      (PGSys v mp (fupd me x t') mg hp' (fupd th u (Some (o, x, pc'))), fupd kd u VOn).

Definition pug_init (c : pcfg) (lg : N) : pgsys * (N -> qmode) := (pg_init c lg, fun _ => VOff).

(** The restrictions of PtrGrowingSpec.v. *)
Definition pug_sync_step (c : pcfg) (B : N) (alloc : N -> Prop) (client : ucall -> Prop)
  (s : pgsys * (N -> qmode)) (l : option (event mop mres)) (s' : pgsys * (N -> qmode)) : Prop :=
  pug_step c B alloc client s l s' /\ pg_exclusive (fst s') /\ pg_room c (fst s) (fst s').
Definition pug_async_step (c : pcfg) (B : N) (alloc : N -> Prop) (client : ucall -> Prop)
  (s : pgsys * (N -> qmode)) (l : option (event mop mres)) (s' : pgsys * (N -> qmode)) : Prop :=
  pug_step c B alloc client s l s' /\ pg_undisturbed c (fst s) (fst s') /\ pg_room c (fst s) (fst s').
