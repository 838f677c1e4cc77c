(** Specification only: counting the steps of a migration. *)
From Coq Require Import NArith Bool List.
From Verif Require Import Words Slot Mapper MapSpec LinSpec Base TableSpec Migrate GrowSpec.
Import ListNotations.
Open Scope N_scope.

(** [counted c ms mt B client s n j u s']: from [s] to [s'] the helpers that have
    not returned made [n] steps, helpers joined (or joined again) [j] times, and
    calls on the old table made [u] steps, in any order. *)
Inductive counted (c : tcfg) (ms mt : mapper) (B : N) (client : op -> Prop) (s0 : msys)
  : N -> N -> N -> msys -> Prop :=
| ct_nil : counted c ms mt B client s0 0 0 0 s0
| ct_join n j u s t k h th tid :
    counted c ms mt B client s0 n j u (MSys s t k h th) ->
    h tid = None \/ h tid = Some HEnd ->
    counted c ms mt B client s0 n (j + 1) u (MSys s t k (fupd h tid (Some HClaim)) th)
| ct_help n j u s t k h th tid pc s' t' k' pc' :
    counted c ms mt B client s0 n j u (MSys s t k h th) ->
    h tid = Some pc -> pc <> HEnd -> hstep c ms mt B s t k pc = (s', t', k', pc') ->
    counted c ms mt B client s0 (n + 1) j u (MSys s' t' k' (fupd h tid (Some pc')) th)
| ct_idle n j u s t k h th tid s' t' k' pc' :
    counted c ms mt B client s0 n j u (MSys s t k h th) ->
    h tid = Some HEnd -> hstep c ms mt B s t k HEnd = (s', t', k', pc') ->
    counted c ms mt B client s0 n j u (MSys s' t' k' (fupd h tid (Some pc')) th)
| ct_inv n j u s t k h th tid o :
    counted c ms mt B client s0 n j u (MSys s t k h th) ->
    th tid = None -> client o ->
    counted c ms mt B client s0 n j u (MSys s t k h (fupd th tid (Some (o, start c ms o))))
| ct_run n j u s t k h th tid o pc b s' pc' :
    counted c ms mt B client s0 n j u (MSys s t k h th) ->
    th tid = Some (o, pc) -> (forall r, pc <> PDone r) -> bstep c ms s b o pc = (s', pc') ->
    undisturbed c ms (MSys s t k h th) (MSys s' t k h (fupd th tid (Some (o, pc')))) ->
    counted c ms mt B client s0 n j (u + 1) (MSys s' t k h (fupd th tid (Some (o, pc'))))
| ct_ret n j u s t k h th tid o r :
    counted c ms mt B client s0 n j u (MSys s t k h th) ->
    th tid = Some (o, PDone r) ->
    counted c ms mt B client s0 n j u (MSys s t k h (fupd th tid None)).
