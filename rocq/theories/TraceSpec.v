(** Specification only: guarantees of a map with concurrent callers, stated on the
    histories (invocations and responses) of any machine. *)
From Coq Require Import NArith Bool List.
From Verif Require Import Words MapSpec LinSpec HistSpec.
Import ListNotations.
Open Scope N_scope.

Section Guarantees.
Context {S : Type} (step : S -> option ev -> S -> Prop) (init : S).

(** An insertion of [k] by thread [t] is acknowledged, then thread [t'] calls [o1]
    and gets [r]; from the invocation of the insertion on no call in [bad] is in
    progress. *)
Definition later_call (k d : N) (bad : mop -> Prop) (t : N) (o1 : mop) (r : mres) (t' : N) (o0 : mop)
  (tr : list ev) : Prop :=
  exists tr1 tr2 tr3 tr4,
    tr = tr1 ++ [EInv t o0] ++ tr2 ++ [ERet t RInserted] ++ tr3 ++ [EInv t' o1] ++ tr4 ++ [ERet t' r] /\
    inserts k d o0 /\
    (forall u o, pending tr1 u = Some o -> ~ bad o) /\
    (forall o, invoked (tr2 ++ tr3 ++ tr4) o -> ~ bad o) /\
    (forall e, In e tr2 -> ev_tid e <> t) /\ (forall e, In e tr4 -> ev_tid e <> t').

(** An inserted key that nobody erases is found. *)
Definition keeps_keys : Prop :=
  forall k d t r t' o0 tr s, lts_steps step init tr s ->
    later_call k d (erases k) t (MFind k) r t' o0 tr -> exists v, r = RFound v.

(** A key inserted with insert that nobody erases or updates is found with its
    value. *)
Definition keeps_values : Prop :=
  forall k d t r t' tr s, lts_steps step init tr s ->
    later_call k d (fun o => erases k o \/ updates k o) t (MFind k) r t' (MInsert k d) tr -> r = RFound d.

(** A key that nobody erases is inserted once. *)
Definition one_winner : Prop :=
  forall k d d' t r t' o0 o1 tr s, lts_steps step init tr s -> inserts k d' o1 ->
    later_call k d (erases k) t o1 r t' o0 tr -> r <> RInserted.

(** If key [k] is only used as a counter, a lookup without a counting call in
    progress shows the sum of all acknowledged amounts. *)
Definition counts_exactly : Prop :=
  forall k t r tr1 tr2 s, lts_steps step init (tr1 ++ [EInv t (MFind k)] ++ tr2 ++ [ERet t r]) s ->
    (forall o, invoked tr1 o -> counting k o) ->
    (forall u o, pending tr1 u = Some o -> mop_key o = k -> o = MFind k) ->
    (forall o, invoked tr2 o -> mop_key o = k -> o = MFind k) ->
    (forall e, In e tr2 -> ev_tid e <> t) ->
    r = RFound (acked k tr1) \/ (r = RAbsent /\ acked k tr1 = 0).

End Guarantees.
