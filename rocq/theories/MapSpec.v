(** Specification only: a map from keys to values and the effect and result of
    each operation on it.  Nothing here refers to the model of the code. *)
From Coq Require Import NArith Bool List.
From Verif Require Import Words.
Open Scope N_scope.

(** A finite or infinite map from keys to values. *)
Definition amap := N -> option N.
Definition amap_empty : amap := fun _ => None.

(** Operations.  An update carries the function applied to the value ([f]) and
    the value it reports as a function of the old value ([r]). *)
Inductive mop :=
| MInsert (k d : N)
| MFind (k : N)
| MUpdate (k : N) (f r : N -> N)
| MUpdateB (k : N) (f r : N -> N)
| MInsertOrUpdate (k d : N) (f r : N -> N)
| MErase (k : N)
| MEraseIf (k d : N).

(** Results. *)
Inductive mres :=
| RInserted
| RPresent (v : N)   (* insert: the key was present with value v *)
| RFound (v : N)
| RAbsent
| RUpdated (v : N)
| RErased
| RFull              (* no effect: the table has no room for the key *)
| RInvalid           (* no effect: the table is being replaced *)
| RBackoff.          (* no effect: update gave up *)

Definition mop_key (o : mop) : N :=
  match o with
  | MInsert k _ | MFind k | MUpdate k _ _ | MUpdateB k _ _
  | MInsertOrUpdate k _ _ _ | MErase k | MEraseIf k _ => k
  end.

(** [mspec inv full m o m' r]: on map [m], operation [o] may answer [r] and leave
    [m'].  [inv]: the answer RInvalid is possible; [full]: RFull is possible. *)
Inductive mspec (inv full : bool) (m : amap) : mop -> amap -> mres -> Prop :=
| s_insert_new k d : m k = None -> mspec inv full m (MInsert k d) (fupd m k (Some d)) RInserted
| s_insert_old k d v : m k = Some v -> mspec inv full m (MInsert k d) m (RPresent v)
| s_insert_full k d : full = true -> m k = None -> mspec inv full m (MInsert k d) m RFull
| s_find_hit k v : m k = Some v -> mspec inv full m (MFind k) m (RFound v)
| s_find_miss k : m k = None -> mspec inv full m (MFind k) m RAbsent
| s_update_hit k f r v :
    m k = Some v -> mspec inv full m (MUpdate k f r) (fupd m k (Some (f v))) (RUpdated (r v))
| s_update_miss k f r : m k = None -> mspec inv full m (MUpdate k f r) m RAbsent
| s_updateb_hit k f r v :
    m k = Some v -> mspec inv full m (MUpdateB k f r) (fupd m k (Some (f v))) (RUpdated (r v))
| s_updateb_miss k f r : m k = None -> mspec inv full m (MUpdateB k f r) m RAbsent
| s_updateb_backoff k f r : mspec inv full m (MUpdateB k f r) m RBackoff
| s_iou_new k d f r :
    m k = None -> mspec inv full m (MInsertOrUpdate k d f r) (fupd m k (Some d)) RInserted
| s_iou_hit k d f r v :
    m k = Some v ->
    mspec inv full m (MInsertOrUpdate k d f r) (fupd m k (Some (f v))) (RUpdated (r v))
| s_iou_full k d f r :
    full = true -> m k = None -> mspec inv full m (MInsertOrUpdate k d f r) m RFull
| s_erase_hit k v : m k = Some v -> mspec inv full m (MErase k) (fupd m k None) RErased
| s_erase_miss k : m k = None -> mspec inv full m (MErase k) m RAbsent
| s_erase_if_hit k d : m k = Some d -> mspec inv full m (MEraseIf k d) (fupd m k None) RErased
| s_erase_if_miss k d : m k <> Some d -> mspec inv full m (MEraseIf k d) m RAbsent
| s_invalid o : inv = true -> (forall k, o <> MFind k) -> mspec inv full m o m RInvalid.
