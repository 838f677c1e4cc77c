(** Specification only: how clients use unsafe updates with care. *)
From Coq Require Import NArith Bool List.
From Verif Require Import Words Slot Mapper MapSpec LinSpec Base TableSpec Migrate GrowSpec Unsafe.
Open Scope N_scope.

(** Calls that can replace or remove a value. *)
Definition changing (q : call) : Prop := updating (as_safe q) \/ erasing (as_safe q).

(** While an unsafe update of a key is in progress, nobody else is in a call that can replace
    or remove the value of that key.  (Lookups and inserts may be in progress.) *)
Definition apart (s : usys) : Prop :=
  forall u v q q' x y, u <> v -> uthr s u = Some (q, x) -> uthr s v = Some (q', y) ->
    unsafe q -> changing q' -> call_key q <> call_key q'.

(** Executions in which that holds all the time. *)
Definition careful (step : usys -> option (event mop mres) -> usys -> Prop)
  (s : usys) (l : option (event mop mres)) (s' : usys) : Prop :=
  step s l s' /\ apart s /\ apart s'.

(** Admissible calls; erase and update are not mixed on cells without marks. *)
Definition fair_calls (sc : scfg) (client : call -> Prop) : Prop :=
  (forall q, client q -> admissible sc (as_safe q)) /\
  (sc_mark sc = true \/ (forall q, client q -> ~ erasing (as_safe q)) \/
   (forall q, client q -> ~ updating (as_safe q))).

(** Life of a table that is used with care and migrated while nobody uses it, as
    synchronised growing arranges it: [phases c client lg m t tr] says that a table with
    mapper [m] (2^lg slots) and cells [t] comes about with the calls of [tr]. *)
Inductive phases (c : tcfg) (client : call -> Prop) : N -> mapper -> mem -> list (event mop mres) -> Prop :=
| ph_new lg :
    1 <= lg <= 63 -> phases c client lg (sized (tmc c) lg 0) (fresh_mem c (sized (tmc c) lg 0)) nil
| ph_use lg m t tr tr' s :
    phases c client lg m t tr ->
    lts_steps (careful (u_step c m client)) (USys t idle) tr' s ->
    (forall u, uthr s u = None) -> unmarked (tsc c) (cells_of (tmc c) lg) (umem s) ->
    phases c client lg m (umem s) (tr ++ tr')
| ph_move lg lg' m t tr ins del B tr' s :
    phases c client lg m t tr -> lg <= 31 -> 0 < B <= 2 ^ 31 ->
    addressable_slots (tmc c) (resize (tmc c) m ins del) = 2 ^ lg' ->
    lts_steps (msys_step c m (resize (tmc c) m ins del) B nobody)
      (msys_init c (resize (tmc c) m ins del) t idle) tr' s ->
    finished s ->
    (cprob (tmc c) = true -> exists p, vacant (tsc c) (cells_of (tmc c) lg) t p) ->
    phases c client lg' (resize (tmc c) m ins del) (mtgt s) tr.
