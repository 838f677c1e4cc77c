(** Small helpers shared by the model files: function update and 64-bit words. *)
From Coq Require Import NArith Bool List.
Open Scope N_scope.

(** Point update of a function on [N]; used for memories and thread maps. *)
Definition fupd {A : Type} (f : N -> A) (k : N) (v : A) : N -> A :=
  fun x => if x =? k then v else f x.

(** [size_t] is 64 bits wide on the platforms the library supports. *)
Definition w64 (x : N) : N := x mod 2 ^ 64.

(** Keep word arithmetic folded under [cbn]/[simpl]. *)
#[global] Arguments N.modulo : simpl never.
#[global] Arguments N.div : simpl never.
#[global] Arguments N.pow : simpl never.
#[global] Arguments N.land : simpl never.
#[global] Arguments N.lor : simpl never.
#[global] Arguments N.shiftl : simpl never.
#[global] Arguments N.shiftr : simpl never.
#[global] Arguments N.add : simpl never.
#[global] Arguments N.mul : simpl never.
#[global] Arguments N.sub : simpl never.
#[global] Arguments N.eqb : simpl never.
#[global] Arguments N.ltb : simpl never.
#[global] Arguments N.leb : simpl never.
#[global] Arguments fupd : simpl never.
