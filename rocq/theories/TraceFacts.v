(** Linearizable machines give the guarantees of TraceSpec.v. *)
From Coq Require Import NArith Bool List.
From Verif Require Import Words MapSpec LinSpec HistSpec Hist HistCount TraceSpec.
Import ListNotations.
Open Scope N_scope.

Section Lin.
Context {S : Type} (step : S -> option ev -> S -> Prop) (init : S) (inv full : bool).
Context (LIN : linearizable (mspec inv full) step init amap_empty).

Lemma lin_keys : keeps_keys step init.
Proof.
  intros k d t r t' o0 tr s ST (tr1 & tr2 & tr3 & tr4 & -> & I & P1 & P2 & P3 & P4).
  apply (inserted_stays inv full k d tr1 t o0 tr2 tr3 t' tr4 r); auto. exact (LIN _ _ ST).
Qed.

Lemma lin_values : keeps_values step init.
Proof.
  intros k d t r t' tr s ST (tr1 & tr2 & tr3 & tr4 & -> & I & P1 & P2 & P3 & P4).
  apply (inserted_value_stays inv full k d tr1 t (MInsert k d) tr2 tr3 t' tr4 r); auto. exact (LIN _ _ ST).
Qed.

Lemma lin_winner : one_winner step init.
Proof.
  intros k d d' t r t' o0 o1 tr s ST I1 (tr1 & tr2 & tr3 & tr4 & -> & I & P1 & P2 & P3 & P4).
  apply (inserted_once inv full k d d' tr1 t o0 tr2 tr3 t' o1 tr4 r); auto. exact (LIN _ _ ST).
Qed.

Lemma lin_counts : counts_exactly step init.
Proof.
  intros k t r tr1 tr2 s ST H1 H2 H3 H4.
  apply (count_exact inv full k tr1 t tr2 r); auto. exact (LIN _ _ ST).
Qed.
End Lin.
