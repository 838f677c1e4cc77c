(** Model of /repo/data-structures/returnelement.hpp:21-52. *)
From Coq Require Import NArith Bool List.
From Verif Require Import Words.
Open Scope N_scope.

(** returnelement.hpp:21-45 [ReturnCode]. *)
Definition RC_ERROR : N := 0.
Definition RC_SUCCESS_IN : N := 9.
Definition RC_SUCCESS_UP : N := 17.
Definition RC_SUCCESS_DEL : N := 33.
Definition RC_NOT_FOUND : N := 2.
Definition RC_ALREADY_USED : N := 4.
Definition RC_FULL : N := 64.
Definition RC_INVALID : N := 128.
Definition RC_BACKOFF : N := 256.
Definition RC_TSX_SUCCESS_IN : N := 1033.
Definition RC_TSX_SUCCESS_UP : N := 1041.
Definition RC_TSX_SUCCESS_DEL : N := 1057.
Definition RC_TSX_NOT_FOUND : N := 1026.
Definition RC_TSX_ALREADY_USED : N := 1028.
Definition RC_TSX_FULL : N := 1088.
Definition RC_TSX_INVALID : N := 1152.
Definition RC_TSX_ABORT : N := 1024.

Definition all_codes : list N :=
  RC_ERROR :: RC_SUCCESS_IN :: RC_SUCCESS_UP :: RC_SUCCESS_DEL :: RC_NOT_FOUND ::
  RC_ALREADY_USED :: RC_FULL :: RC_INVALID :: RC_BACKOFF :: RC_TSX_SUCCESS_IN ::
  RC_TSX_SUCCESS_UP :: RC_TSX_SUCCESS_DEL :: RC_TSX_NOT_FOUND ::
  RC_TSX_ALREADY_USED :: RC_TSX_FULL :: RC_TSX_INVALID :: RC_TSX_ABORT :: nil.

(** returnelement.hpp:47-52 [successful]: bit 0 of the code. *)
Definition successful (code : N) : bool := negb (N.land code 1 =? 0).
