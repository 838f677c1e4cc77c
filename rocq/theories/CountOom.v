(** The element counters when the allocation of a new table fails. *)
From Coq Require Import ZArith List Bool.
From Verif Require Import Count.
Import ListNotations.
Open Scope Z_scope.

(** [CFail i ins del]: handle [i] has added [ins] and [del] to the global counters and
    gets std::bad_alloc.  [CTerminate i]: the same in its destructor. *)
Inductive coevent := CStep (e : cevent) | CFail (i : nat) (ins del : Z) | CTerminate (i : nat).

(** The counters, or the end of the program by std::terminate. *)
Inductive costate := Running (s : cstate) | Terminated.

(** [co_fail]: migration_table.hpp:1110 throws; "_counts.set(0,0,0)" in 1111 is skipped, so
    that the handle keeps the counts it has just published (_updates is 0 since 1086).
    [co_terminate]: the destructor (522-538) calls update_numbers; destructors are
    noexcept, the exception does not leave it. *)
Inductive costep : costate -> option coevent -> costate -> Prop :=
| co_step s e s' : cstep s e s' -> costep (Running s) (option_map CStep e) (Running s')
| co_fail e d l b n r hs i h :
    nth_error hs i = Some (Some h) -> h_flush h = FGrow -> h_reset h = RNone -> h_dying h = false ->
    costep (Running (CState e d l b n r hs)) (Some (CFail i (h_ins h) (h_del h)))
      (Running (CState e d l b n r (put i (Some (Handle 0 (h_ins h) (h_del h) FNone RNone false)) hs)))
| co_terminate e d l b n r hs i h :
    nth_error hs i = Some (Some h) -> h_flush h = FGrow -> h_reset h = RNone -> h_dying h = true ->
    costep (Running (CState e d l b n r hs)) (Some (CTerminate i)) Terminated.

Inductive costeps : costate -> list coevent -> costate -> Prop :=
| cos_nil s : costeps s [] s
| cos_tau s1 s2 s3 tr : costep s1 None s2 -> costeps s2 tr s3 -> costeps s1 tr s3
| cos_vis s1 e s2 s3 tr : costep s1 (Some e) s2 -> costeps s2 tr s3 -> costeps s1 (e :: tr) s3.

(** Vocabulary: what handles have published and will publish a second time. *)
Definition again (e : option coevent) : Z := match e with Some (CFail _ i d) => i - d | _ => 0 end.
Fixpoint again_all (tr : list coevent) : Z :=
  match tr with [] => 0 | e :: tr => again (Some e) + again_all tr end.
