(** Specification only: what iteration and element access through iterators have
    to achieve. *)
From Coq Require Import NArith Bool List Sorted.
From Verif Require Import Words Slot Mapper MapSpec LinSpec Base TableSpec Iter.
Import ListNotations.
Open Scope N_scope.

(** Consecutive ranges with ascending boundaries: [0,b1), [b1,b2), ... *)
Inductive ranges : N -> list (N * N) -> N -> Prop :=
| rg_nil a : ranges a [] a
| rg_cons a b l e : a <= b -> ranges b l e -> ranges a ((a, b) :: l) e.

(** What the iterations of several ranges yield, one after the other. *)
Inductive walked_all (c : tcfg) (m : mapper) (t : mem) : list (N * N) -> list (N * N) -> Prop :=
| wa_nil : walked_all c m t [] []
| wa_cons a b rs n l l' :
    walk c m t n (it_range c m t a b) = Walked l -> walked_all c m t rs l' ->
    walked_all c m t ((a, b) :: rs) (l ++ l').

(** Calls made through an iterator that shows key [k] and value [d]. *)
Inductive icall :=
| IExchange (k d v : N)    (* compare_exchange(v) *)
| IEraseIf (k d : N).      (* erase_if_unchanged() *)

(** The map operations extended by them: an answer "true" means that the key had
    the value shown and was changed or erased; "false" means no effect. *)
Definition ispec (inv full : bool) (a : amap) (o : mop + icall) (a' : amap) (r : mres + bool) : Prop :=
  match o, r with
  | inl o, inl r => mspec inv full a o a' r
  | inr (IExchange k d v), inr true => a k = Some d /\ a' = fupd a k (Some v)
  | inr (IEraseIf k d), inr true => a k = Some d /\ a' = fupd a k None
  | inr _, inr false => a' = a
  | _, _ => False
  end.

(** *** A table used by any number of threads, also through iterators *)

(** A call through an iterator: its position and copy, and the answer once the
    call is done. *)
Record ithr := IThr { ith_call : icall; ith_pos : N; ith_copy : slot; ith_done : option bool }.
Record isys := ISys { ibase : bsys; iths : N -> option ithr }.

Definition lift_event (e : event mop mres) : event (mop + icall) (mres + bool) :=
  match e with EInv t o => EInv t (inl o) | ERet t r => ERet t (inl r) end.

(** The effect of the call on the table. *)
Definition icall_effect (c : tcfg) (m : mapper) (t : mem) (th : ithr) : option (mem * bool) :=
  match ith_call th with
  | IExchange _ _ v => option_map (fun '(t', _, b) => (t', b)) (ref_exchange c m t (ith_pos th) (ith_copy th) v)
  | IEraseIf _ _ => option_map (fun '(t', _, b) => (t', b)) (it_erase_if c m t (ith_pos th) (ith_copy th))
  end.

Inductive isys_step (c : tcfg) (m : mapper) (client : op -> Prop) (iclient : icall -> Prop)
  : isys -> option (event (mop + icall) (mres + bool)) -> isys -> Prop :=
| is_base b b' e th :
    bsys_step c m client b e b' ->
    (forall t o, e = Some (EInv t o) -> th t = None) ->
    isys_step c m client iclient (ISys b th) (option_map lift_event e) (ISys b' th)
| is_inv b th tid call p x :
    th tid = None -> bthr b tid = None -> iclient call ->
    (* the iterator shows the element: an unmarked copy of a cell of the table *)
    x = (match call with IExchange k d _ | IEraseIf k d => Slot k d end) ->
    p < total_slots (tmc c) m ->
    isys_step c m client iclient (ISys b th) (Some (EInv tid (inr call)))
      (ISys b (fupd th tid (Some (IThr call p x None))))
| is_run b th tid call p x t' r :
    th tid = Some (IThr call p x None) ->
    icall_effect c m (bmem b) (IThr call p x None) = Some (t', r) ->
    isys_step c m client iclient (ISys b th) None
      (ISys (BSys t' (bthr b)) (fupd th tid (Some (IThr call p x (Some r)))))
| is_ret b th tid call p x r :
    th tid = Some (IThr call p x (Some r)) ->
    isys_step c m client iclient (ISys b th) (Some (ERet tid (inr r)))
      (ISys b (fupd th tid None)).

Definition isys_init (c : tcfg) (m : mapper) : isys := ISys (bsys_init c m) (fun _ => None).

Definition icall_key (o : icall) : N := match o with IExchange k _ _ | IEraseIf k _ => k end.

(** Clients: keys as before; on non-marking cells an element that may be erased
    must not be updated concurrently, neither directly nor through iterators. *)
Definition ifair (sc : scfg) (client : op -> Prop) (iclient : icall -> Prop) : Prop :=
  fair sc client /\
  (forall o, iclient o -> user_key sc (icall_key o)) /\
  (sc_mark sc = true \/
   ((forall o, client o -> ~ erasing o) /\ (forall k d, ~ iclient (IEraseIf k d))) \/
   (forall o, client o -> ~ updating o)).
