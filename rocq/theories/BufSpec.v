(** Specification only: a map behind store buffers.  Every thread keeps the values it has
    stored in a queue of its own until they reach the shared map.  A thread sees the shared
    map through its own queue; nobody else sees a queued value.  Atomic instructions act on
    the shared map and wait until the queue of their thread is empty. *)
From Coq Require Import NArith Bool List.
From Verif Require Import Words MapSpec LinSpec HistSpec.
Import ListNotations.
Open Scope N_scope.

Section Buf.
Context (spec : amap -> mop -> amap -> mres -> Prop) (stores : mop -> Prop).

(** The map with the queued values written over it, oldest first. *)
Definition see (m : amap) (q : list (N * N)) : amap :=
  fold_left (fun m' w => fupd m' (fst w) (Some (snd w))) q m.

Record bufobj := BufObj {
  bo_map : amap;
  bo_queue : N -> list (N * N);
  bo_call : N -> astat mop mres
}.

Inductive bufstep : bufobj -> option (event mop mres) -> bufobj -> Prop :=
| bo_inv m q th t o :
    th t = AIdle -> bufstep (BufObj m q th) (Some (EInv t o)) (BufObj m q (fupd th t (APend o)))
(** a call that changes nothing answers from what its thread sees *)
| bo_read m q th t o m' r :
    th t = APend o -> spec (see m (q t)) o m' r -> (forall k, m' k = see m (q t) k) ->
    bufstep (BufObj m q th) None (BufObj m q (fupd th t (ADone r)))
(** a call that changes the shared map *)
| bo_lock m q th t o m' r :
    th t = APend o -> q t = [] -> spec m o m' r ->
    bufstep (BufObj m q th) None (BufObj m' q (fupd th t (ADone r)))
(** an update of a present key by a plain store *)
| bo_store m q th t o m' w v d :
    th t = APend o -> stores o -> spec (see m (q t)) o m' (RUpdated w) ->
    see m (q t) (mop_key o) = Some v -> m' (mop_key o) = Some d ->
    bufstep (BufObj m q th) None
      (BufObj m (fupd q t (q t ++ [(mop_key o, d)])) (fupd th t (ADone (RUpdated w))))
(** the oldest queued value of a thread reaches the shared map, at any time *)
| bo_flush m q th t k d l :
    q t = (k, d) :: l ->
    bufstep (BufObj m q th) None (BufObj (fupd m k (Some d)) (fupd q t l) th)
| bo_ret m q th t r :
    th t = ADone r -> bufstep (BufObj m q th) (Some (ERet t r)) (BufObj m q (fupd th t AIdle)).

Definition bufobj_init : bufobj := BufObj amap_empty (fun _ => []) (fun _ => AIdle).

(** [tr] is a trace of the buffered map, started empty. *)
Definition buffered (tr : list (event mop mres)) : Prop :=
  exists x, lts_steps bufstep bufobj_init tr x.

End Buf.

(** Equal but for the value a call reports. *)
Definition same_but_value (r r' : mres) : Prop :=
  match r, r' with
  | RFound _, RFound _ | RPresent _, RPresent _ | RUpdated _, RUpdated _ => True
  | _, _ => r = r'
  end.

Definition same_event (e e' : event mop mres) : Prop :=
  match e, e' with
  | ERet t r, ERet t' r' => t = t' /\ same_but_value r r'
  | _, _ => e = e'
  end.

(** Up to the values reported, [tr] is a history of the atomic map. *)
Definition atomic_but_values (spec : amap -> mop -> amap -> mres -> Prop) (tr : list (event mop mres)) : Prop :=
  exists tr', Forall2 same_event tr tr' /\ linearizable_trace spec amap_empty tr'.
