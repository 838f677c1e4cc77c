(** Specification only: vocabulary for statements about tables, in terms of the
    raw words of their cells. *)
From Coq Require Import NArith Bool List.
From Verif Require Import Words Slot Mapper MapSpec LinSpec Base.
Open Scope N_scope.

(** The two cell types of the library that hold key and value in place. *)
Definition cell_type (sc : scfg) : Prop :=
  exists m, sc = simple_slot m \/ sc = single_word_slot m.

(** The mapper of a table with [2^lg] addressable slots. *)
Definition sized (mc : mcfg) (lg gh : N) : mapper := mk_mapper mc (2 ^ lg) gh.

(** Keys a user may store.  Marking cells: 0 < k < 2^(w-1)-1.  Other cells: any
    word but 0, 2^(w-1)-1 and 2^(w-1). *)
Definition user_key (sc : scfg) (k : N) : Prop :=
  if sc_mark sc then 0 < k < 2 ^ (sc_w sc - 1) - 1
  else k < 2 ^ sc_w sc /\ k <> 0 /\ k <> 2 ^ (sc_w sc - 1) - 1 /\ k <> 2 ^ (sc_w sc - 1).

(** The key word of a cell is [k], possibly with the mark bit. *)
Definition word_is (sc : scfg) (x : slot) (k : N) : Prop :=
  skey x = k \/ (sc_mark sc = true /\ skey x = k + 2 ^ (sc_w sc - 1)).

(** Cell [p] of memory [t] (with [tot] cells) holds key [k] with value [d]. *)
Definition holds (sc : scfg) (tot : N) (t : mem) (p k d : N) : Prop :=
  p < tot /\ exists x, t p = Some x /\ word_is sc x k /\ sdata x = d.

(** Cell [p] was never used. *)
Definition vacant (sc : scfg) (tot : N) (t : mem) (p : N) : Prop :=
  p < tot /\ exists x, t p = Some x /\ word_is sc x 0.

(** [a] is the map stored in memory [t]. *)
Definition stored (sc : scfg) (tot : N) (t : mem) (a : amap) : Prop :=
  forall k d, a k = Some d <-> user_key sc k /\ exists p, holds sc tot t p k d.

(** Position of a hash value in a table of [2^lg] slots and the [n]-th position
    of its probe sequence. *)
Definition home_of (mc : mcfg) (lg h : N) : N :=
  if cmap mc then h mod 2 ^ lg else h / 2 ^ (64 - lg).
Definition probe_of (mc : mcfg) (lg h n : N) : N :=
  if cprob mc then (home_of mc lg h + n) mod 2 ^ lg else home_of mc lg h + n.

(** Number of cells: linear probing has an overflow area of 1024 cells. *)
Definition cells_of (mc : mcfg) (lg : N) : N :=
  if cprob mc then 2 ^ lg else 2 ^ lg + 1024.

(** An update functor whose [atomic] member, if present, computes the same new
    value as its call operator. *)
Definition consistent (f : functor) : Prop :=
  forall g x, fat f = Some g -> fst (g x) = fn f x.

(** The functor reports the value it produced. *)
Definition reports_new (sc : scfg) (f : functor) : Prop :=
  sc_mark sc = true \/ forall g x, fat f = Some g -> snd (g x) = fn f x.

(** Admissible calls. *)
Definition admissible (sc : scfg) (o : op) : Prop :=
  user_key sc (op_key o) /\
  match o with OUpdate _ f | OUpdateB _ f | OIou _ _ f => consistent f | _ => True end.
Definition erasing (o : op) : Prop :=
  match o with OErase _ | OEraseIf _ _ => True | _ => False end.
Definition updating (o : op) : Prop :=
  match o with OUpdate _ _ | OUpdateB _ _ | OIou _ _ _ => True | _ => False end.

(** The cell index a call is about to access. *)
Definition next_access (pc : bpc) : option N :=
  match pc with PLoad i | PCas i _ | PUpd i _ | PDel i _ => Some i | _ => None end.

(** Clients: admissible calls, and on non-marking cells not both erase and update. *)
Definition fair (sc : scfg) (client : op -> Prop) : Prop :=
  (forall o, client o -> admissible sc o) /\
  (sc_mark sc = true \/ (forall o, client o -> ~ erasing o) \/
   (forall o, client o -> ~ updating o)).

(** States of a table, from construction on, for any interleaving of the calls. *)
Definition table_reachable (c : tcfg) (m : mapper) (client : op -> Prop) (s : bsys) : Prop :=
  exists tr, lts_steps (bsys_step c m client) (bsys_init c m) tr s.
