(** The element counters of the growing table: migration_table.hpp.

    Any number of handles, each used by one thread, count their successful
    insertions and erasures locally and add them to two global counters now and
    then.  A growth step removes the tombstones from both counters.

    Simplifications: the int counters are unbounded integers; C26_in_range shows
    that no value leaves the range of int before 2^31 insertions.  What the table
    does is reduced to "an insertion succeeded" and "an erasure succeeded", the
    latter only if there is an element to erase. *)
From Coq Require Import ZArith List Bool.
From Verif Require Import Mapper Seq.
Import ListNotations.
Open Scope Z_scope.

(** Where a handle is in update_numbers (migration_table.hpp:1084-1117).  [lim] is
    the fill limit of the table it got in line 1088. *)
Inductive fphase :=
| FNone                     (* not in update_numbers *)
| FTable                    (* _updates is 0; about to get the table *)
| FDummies (lim : Z)        (* about to add to _dummies, line 1097 *)
| FElems (lim : Z)          (* about to add to _elements, line 1099 *)
| FGrow.                    (* in grow, line 1110 *)

(** Where a handle is in the part of a growth step that corrects the counters. *)
Inductive rphase :=
| RNone
| RAsync (tmp : Z)          (* estrat_async.hpp:339 done, 340 to do *)
| RSync (r : Z)             (* estrat_sync.hpp:353 done, 354 to do *)
| RSync2 (r : Z).           (* estrat_sync.hpp:354 done, 355 to do *)

(** A handle: migration_table.hpp:389-426 local_count.  [h_dying]: in the
    destructor (522-538). *)
Record handle := Handle {
  h_upd : Z; h_ins : Z; h_del : Z; h_flush : fphase; h_reset : rphase; h_dying : bool }.

Definition new_handle : handle := Handle 0 0 0 FNone RNone false.

(** [g_elems], [g_dummies]: _elements and _dummies (migration_table.hpp:147-148).
    [g_limit]: the fill limit of the current table.  [g_busy]: a growth step is
    correcting the counters; there is at most one, because at most one thread
    publishes a table version and the next growth step starts afterwards.
    [g_inserted], [g_erased]: how many insertions and erasures have succeeded.
    [g_handles]: all handles ever created, [None] once destroyed. *)
Record cstate := CState {
  g_elems : Z; g_dummies : Z; g_limit : Z; g_busy : bool;
  g_inserted : Z; g_erased : Z; g_handles : list (option handle) }.

(** migration_table.hpp:122-127: counters of a new table; [lim] is its limit. *)
Definition cinit (lim : Z) : cstate := CState 0 0 lim false 0 0 [].

(** migration_table.hpp:1103: "int thresh = capacity() * 0.666", for a table of
    [total] slots; the product of doubles is the one of seq_linear.hpp. *)
Definition thresh (total : N) : Z := Z.of_N (fill_limit total).

Fixpoint put (i : nat) (h : option handle) (l : list (option handle)) : list (option handle) :=
  match i, l with
  | O, _ :: l => h :: l
  | S i, x :: l => x :: put i h l
  | _, [] => []
  end.

(** migration_table.hpp:136-139: the two loads see the states [s1] and [s2]; the
    difference is converted from int to size_t. *)
Definition element_count_approx (s1 s2 : cstate) : Z := (g_elems s1 - g_dummies s2) mod 2 ^ 64.

(** What a step is visible as: a flush by handle [i] that found [old] in _elements
    and added [ins], with the limit it used and whether it calls grow. *)
Inductive cevent := CFlush (i : nat) (old ins lim : Z) (grows : bool) | CPublish.

(** migration_table.hpp:1119-1146 inc_inserted / inc_deleted. *)
Definition counted (ins del : Z) (h : handle) : handle :=
  Handle (h_upd h + 1) (h_ins h + ins) (h_del h + del)
    (if 64 <? h_upd h + 1 then FTable else FNone) RNone (h_dying h).

(** "_counts.set(0,0,0)", lines 1112 and 1117; a dying handle is gone afterwards. *)
Definition flushed (h : handle) : option handle :=
  if h_dying h then None else Some new_handle.

(** Lines 1104-1106. *)
Definition crosses (old ins lim : Z) : bool := (lim <? old + ins) && (old <? lim).

Inductive cstep : cstate -> option cevent -> cstate -> Prop :=
| c_new e d l b n r hs :
    (* migration_table.hpp:467-491 *)
    cstep (CState e d l b n r hs) None (CState e d l b n r (hs ++ [Some new_handle]))
| c_move e d l b n r hs i h :
    (* 495-518: a new handle takes over the counts of [i] *)
    nth_error hs i = Some (Some h) -> h_flush h = FNone -> h_reset h = RNone ->
    cstep (CState e d l b n r hs) None (CState e d l b n r (put i (Some new_handle) hs ++ [Some h]))
| c_destroy e d l b n r hs i h :
    (* 522-538 *)
    nth_error hs i = Some (Some h) -> h_flush h = FNone -> h_reset h = RNone ->
    cstep (CState e d l b n r hs) None
      (CState e d l b n r (put i (Some (Handle 0 (h_ins h) (h_del h) FTable RNone true)) hs))
| c_insert e d l b n r hs i h :
    nth_error hs i = Some (Some h) -> h_flush h = FNone -> h_reset h = RNone ->
    cstep (CState e d l b n r hs) None
      (CState e d l b (n + 1) r (put i (Some (counted 1 0 h)) hs))
| c_erase e d l b n r hs i h :
    nth_error hs i = Some (Some h) -> h_flush h = FNone -> h_reset h = RNone -> r < n ->
    cstep (CState e d l b n r hs) None
      (CState e d l b n (r + 1) (put i (Some (counted 0 1 h)) hs))
| c_table e d l b n r hs i h :
    (* 1086-1088 *)
    nth_error hs i = Some (Some h) -> h_flush h = FTable ->
    cstep (CState e d l b n r hs) None
      (CState e d l b n r (put i (Some (Handle 0 (h_ins h) (h_del h) (FDummies l) RNone (h_dying h))) hs))
| c_dummies e d l b n r hs i h lim :
    (* 1097 *)
    nth_error hs i = Some (Some h) -> h_flush h = FDummies lim ->
    cstep (CState e d l b n r hs) None
      (CState e (d + h_del h) l b n r
         (put i (Some (Handle 0 (h_ins h) (h_del h) (FElems lim) RNone (h_dying h))) hs))
| c_elems e d l b n r hs i h lim :
    (* 1099-1117 *)
    nth_error hs i = Some (Some h) -> h_flush h = FElems lim ->
    cstep (CState e d l b n r hs) (Some (CFlush i e (h_ins h) lim (crosses e (h_ins h) lim)))
      (CState (e + h_ins h) d l b n r
         (put i (if crosses e (h_ins h) lim
                 then Some (Handle 0 (h_ins h) (h_del h) FGrow RNone (h_dying h))
                 else flushed h) hs))
| c_grown e d l b n r hs i h :
    (* grow has returned, 1111-1113 *)
    nth_error hs i = Some (Some h) -> h_flush h = FGrow -> h_reset h = RNone ->
    cstep (CState e d l b n r hs) None (CState e d l b n r (put i (flushed h) hs))
| c_async e d l n r hs i h :
    (* estrat_async.hpp:339, in grow or help_grow called by any operation *)
    nth_error hs i = Some (Some h) -> (h_flush h = FNone \/ h_flush h = FGrow) -> h_reset h = RNone ->
    cstep (CState e d l false n r hs) None
      (CState e 0 l true n r
         (put i (Some (Handle (h_upd h) (h_ins h) (h_del h) (h_flush h) (RAsync d) (h_dying h))) hs))
| c_async2 e d l b n r hs i h tmp l' :
    (* estrat_async.hpp:340-344; the new table has limit [l'] *)
    nth_error hs i = Some (Some h) -> h_reset h = RAsync tmp ->
    cstep (CState e d l b n r hs) (Some CPublish)
      (CState (e - tmp) d l' false n r
         (put i (Some (Handle (h_upd h) (h_ins h) (h_del h) (h_flush h) RNone (h_dying h))) hs))
| c_sync e d l n r hs i h :
    (* estrat_sync.hpp:353 *)
    nth_error hs i = Some (Some h) -> (h_flush h = FNone \/ h_flush h = FGrow) -> h_reset h = RNone ->
    cstep (CState e d l false n r hs) None
      (CState e d l true n r
         (put i (Some (Handle (h_upd h) (h_ins h) (h_del h) (h_flush h) (RSync d) (h_dying h))) hs))
| c_sync2 e d l b n r hs i h x :
    (* 354 *)
    nth_error hs i = Some (Some h) -> h_reset h = RSync x ->
    cstep (CState e d l b n r hs) None
      (CState (e - x) d l b n r
         (put i (Some (Handle (h_upd h) (h_ins h) (h_del h) (h_flush h) (RSync2 x) (h_dying h))) hs))
| c_sync3 e d l b n r hs i h x l' :
    (* 355-364 *)
    nth_error hs i = Some (Some h) -> h_reset h = RSync2 x ->
    cstep (CState e d l b n r hs) (Some CPublish)
      (CState e (d - x) l' false n r
         (put i (Some (Handle (h_upd h) (h_ins h) (h_del h) (h_flush h) RNone (h_dying h))) hs)).

Inductive csteps : cstate -> list cevent -> cstate -> Prop :=
| cs_nil s : csteps s [] s
| cs_tau s1 s2 s3 tr : cstep s1 None s2 -> csteps s2 tr s3 -> csteps s1 tr s3
| cs_vis s1 e s2 s3 tr : cstep s1 (Some e) s2 -> csteps s2 tr s3 -> csteps s1 (e :: tr) s3.
