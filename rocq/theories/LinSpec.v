(** Specification only: what it means for a concurrent object to be
    linearizable, for an arbitrary sequential specification.  The canonical
    atomic object answers every call by one atomic application of the
    specification somewhere between the invocation and the response. *)
From Coq Require Import NArith Bool List.
From Verif Require Import Words.
Import ListNotations.
Open Scope N_scope.

Section Lin.
Context {St Op Res : Type} (spec : St -> Op -> St -> Res -> Prop).

(** Visible events of thread [t]. *)
Inductive event := EInv (t : N) (o : Op) | ERet (t : N) (r : Res).

(** What a thread is doing with the atomic object. *)
Inductive astat := AIdle | APend (o : Op) | ADone (r : Res).

Record aobj := AObj { ast : St; ath : N -> astat }.

Inductive astep : aobj -> option event -> aobj -> Prop :=
| a_inv s th t o :
    th t = AIdle -> astep (AObj s th) (Some (EInv t o)) (AObj s (fupd th t (APend o)))
| a_lin s th t o s' r :
    th t = APend o -> spec s o s' r ->
    astep (AObj s th) None (AObj s' (fupd th t (ADone r)))
| a_ret s th t r :
    th t = ADone r -> astep (AObj s th) (Some (ERet t r)) (AObj s (fupd th t AIdle)).

Inductive asteps : aobj -> list event -> aobj -> Prop :=
| as_nil a : asteps a [] a
| as_tau a b c tr : astep a None b -> asteps b tr c -> asteps a tr c
| as_vis a e b c tr : astep a (Some e) b -> asteps b tr c -> asteps a (e :: tr) c.

(** [tr] is a trace of the atomic object started in [s0] with all threads idle. *)
Definition linearizable_trace (s0 : St) (tr : list event) : Prop :=
  exists a, asteps (AObj s0 (fun _ => AIdle)) tr a.

End Lin.

Arguments event : clear implicits.
Arguments astat : clear implicits.
Arguments aobj : clear implicits.

(** Traces of an arbitrary labelled transition system. *)
Inductive lts_steps {S E : Type} (step : S -> option E -> S -> Prop) : S -> list E -> S -> Prop :=
| ls_nil s : lts_steps step s [] s
| ls_tau s s' s'' tr : step s None s' -> lts_steps step s' tr s'' -> lts_steps step s tr s''
| ls_vis s e s' s'' tr :
    step s (Some e) s' -> lts_steps step s' tr s'' -> lts_steps step s (e :: tr) s''.

(** Every trace of the system from [s0] is a trace of the atomic object from [m0]. *)
Definition linearizable {St Op Res S : Type} (spec : St -> Op -> St -> Res -> Prop)
  (step : S -> option (event Op Res) -> S -> Prop) (s0 : S) (m0 : St) : Prop :=
  forall tr s, lts_steps step s0 tr s -> linearizable_trace spec m0 tr.
