(** Model of the operations of base_linear,
    /repo/data-structures/base_linear.hpp, as a concurrent machine: one step is
    one atomic access to one cell. *)
From Coq Require Import NArith Bool List.
From Verif Require Import Words Slot Mapper ReturnCode MapSpec LinSpec.
Open Scope N_scope.

(** Template arguments of a table: cell type, mapper, hash function. *)
Record tcfg := TCfg { tsc : scfg; tmc : mcfg; thash : N -> N }.

(** Cells of a table.  [None]: not initialised. *)
Definition mem := N -> option slot.

(** base_linear.hpp:265 [h]: the hash function yields a 64-bit word. *)
Definition hashk (c : tcfg) (k : N) : N := w64 (thash c k).

(** First probe position of a key: "_mapper.map(h(k))". *)
Definition home (c : tcfg) (m : mapper) (k : N) : N := map_hash (tmc c) m (hashk c k).

(** base_linear.hpp:396-411: constructor; all cells are filled with empty slots. *)
Definition fresh_mem (c : tcfg) (m : mapper) : mem :=
  fun p => if p <? total_slots (tmc c) m then Some empty_slot else None.

(** Access to a cell; outside of the allocation nothing can be read. *)
Definition rd (c : tcfg) (m : mapper) (t : mem) (p : N) : option slot :=
  if p <? total_slots (tmc c) m then t p else None.

(** The calls offered by the table. *)
Inductive op :=
| OInsert (k d : N)
| OFind (k : N)
| OUpdate (k : N) (f : functor)
| OUpdateB (k : N) (f : functor)     (* update_with_backoff *)
| OIou (k d : N) (f : functor)       (* insert_or_update *)
| OErase (k : N)
| OEraseIf (k d : N).

Definition op_key (o : op) : N :=
  match o with
  | OInsert k _ | OFind k | OUpdate k _ | OUpdateB k _ | OIou k _ _ | OErase k
  | OEraseIf k _ => k
  end.

(** What an intern function returns: code, and the iterator's copy and position
    ([None] is end()).  [find] has no code; the field is then unused. *)
Record bret := BRet { rcode : N; rslot : slot; rpos : option N }.
Definition ret_end (code : N) : bret := BRet code empty_slot None.

(** Program points.  [i] is the loop variable, [curr] the loaded slot.
    [PBad]: an access outside of the table or to an uninitialised cell. *)
Inductive bpc :=
| PLoad (i : N)
| PCas (i : N) (curr : slot)
| PUpd (i : N) (curr : slot)
| PDel (i : N) (curr : slot)
| PDone (r : bret)
| PBad.

Section Step.
Context (c : tcfg) (m : mapper).
Let sc := tsc c.
Let mc := tmc c.

(** The decisions made on a loaded slot [curr] at cell [p]. *)
Definition after_load (o : op) (i p : N) (curr : slot) : bpc :=
  match o with
  | OFind k =>                            (* 887-900 find *)
      if is_empty sc curr then PDone (ret_end 0)
      else if compare_key sc curr k then PDone (BRet 0 curr (Some p))
      else PLoad (i + 1)
  | OInsert k _ =>                        (* 558-602 insert_intern *)
      if is_marked sc curr then PDone (ret_end RC_INVALID)
      else if is_empty sc curr then
        if negb (cprob mc) && (addressable_slots mc m + 300 <? p)
        then PDone (ret_end RC_FULL) else PCas i curr
      else if compare_key sc curr k
      then PDone (BRet RC_ALREADY_USED curr (Some p))
      else PLoad (i + 1)
  | OUpdate k _ | OUpdateB k _ =>         (* 604-640, 642-683 update(_with_backoff)_intern *)
      if is_marked sc curr then PDone (ret_end RC_INVALID)
      else if is_empty sc curr then PDone (ret_end RC_NOT_FOUND)
      else if compare_key sc curr k then PUpd i curr
      else PLoad (i + 1)
  | OIou k _ _ =>                         (* 724-773 insert_or_update_intern *)
      if is_marked sc curr then PDone (ret_end RC_INVALID)
      else if is_empty sc curr then
        if negb (cprob mc) && (addressable_slots mc m + 300 <? p)
        then PDone (ret_end RC_FULL) else PCas i curr
      else if compare_key sc curr k then PUpd i curr
      else PLoad (i + 1)
  | OErase k =>                           (* 825-851 erase_intern *)
      if is_marked sc curr then PDone (ret_end RC_INVALID)
      else if is_empty sc curr then PDone (ret_end RC_NOT_FOUND)
      else if compare_key sc curr k then PDel i curr
      else PLoad (i + 1)
  | OEraseIf k d =>                       (* 853-879 erase_if_intern *)
      if is_marked sc curr then PDone (ret_end RC_INVALID)
      else if is_empty sc curr then PDone (ret_end RC_NOT_FOUND)
      else if compare_key sc curr k then
        if get_mapped curr =? d then PDel i curr else PDone (ret_end RC_NOT_FOUND)
      else PLoad (i + 1)
  end.

(** The slot written by insert (918-930) and insert_or_update (1010-1027). *)
Definition op_slot (o : op) : slot :=
  match o with OInsert k d | OIou k d _ => Slot k d | _ => empty_slot end.

(** The functor of an updating call. *)
Definition op_fun (o : op) : functor :=
  match o with
  | OUpdate _ f | OUpdateB _ f | OIou _ _ f => f
  | _ => Functor (fun x => x) None
  end.

(** Return value of a successful CAS: insert_intern returns the iterator with
    [curr], i.e. the empty slot (line 580); insert_or_update_intern with [slot]. *)
Definition in_slot (o : op) (curr : slot) : slot :=
  match o with OIou k d _ => Slot k d | _ => curr end.

(** First step of a call: "i = _mapper.map(hash)". *)
Definition start (o : op) : bpc := PLoad (home c m (op_key o)).

(** One step of a call.  A failed CAS is followed by a reload of the same cell
    ("--i" and the loop's "++i").  [b] is the answer of the back-off functor,
    which is only asked after a failed update_with_backoff attempt.
    [i] is unbounded here; in C++ it is a 64-bit word, which makes no difference
    (MapperFacts.remap_wrap). *)
Definition bstep (t : mem) (b : bool) (o : op) (pc : bpc) : mem * bpc :=
  match pc with
  | PLoad i =>
      let p := remap mc m i in
      match rd c m t p with
      | None => (t, PBad)
      | Some curr => (t, after_load o i p curr)
      end
  | PCas i curr =>
      let p := remap mc m i in
      match rd c m t p with
      | None => (t, PBad)
      | Some cell =>
          let '(ok, cell', _) := cas sc cell curr (op_slot o) in
          (fupd t p (Some cell'),
           if ok then PDone (BRet RC_SUCCESS_IN (in_slot o curr) (Some p)) else PLoad i)
      end
  | PUpd i curr =>
      let p := remap mc m i in
      match rd c m t p with
      | None => (t, PBad)
      | Some cell =>
          let '(res, ok, cell') := atomic_update sc cell curr (op_fun o) in
          (fupd t p (Some cell'),
           if ok then PDone (BRet RC_SUCCESS_UP res (Some p))
           else match o with
                | OUpdateB _ _ => if b then PLoad i else PDone (ret_end RC_BACKOFF)
                | _ => PLoad i
                end)
      end
  | PDel i curr =>
      let p := remap mc m i in
      match rd c m t p with
      | None => (t, PBad)
      | Some cell =>
          let '(ok, cell', _) := atomic_delete sc cell curr in
          (fupd t p (Some cell'),
           if ok then PDone (BRet RC_SUCCESS_DEL empty_slot None) else PLoad i)
      end
  | PDone r => (t, PDone r)
  | PBad => (t, PBad)
  end.

End Step.

(** What the caller sees of a return value. *)
Definition obs (o : op) (r : bret) : mres :=
  match o with
  | OFind _ => match rpos r with None => RAbsent | Some _ => RFound (sdata (rslot r)) end
  | _ =>
      if rcode r =? RC_SUCCESS_IN then RInserted
      else if rcode r =? RC_ALREADY_USED then RPresent (sdata (rslot r))
      else if rcode r =? RC_SUCCESS_UP then RUpdated (sdata (rslot r))
      else if rcode r =? RC_SUCCESS_DEL then RErased
      else if rcode r =? RC_NOT_FOUND then RAbsent
      else if rcode r =? RC_FULL then RFull
      else if rcode r =? RC_INVALID then RInvalid
      else RBackoff
  end.

(** The value an update reports: the functor's own result on non-marking cells
    with an [atomic] member, the new value otherwise. *)
Definition fun_ret (sc : scfg) (f : functor) (old : N) : N :=
  if sc_mark sc then fn f old
  else match fat f with Some g => snd (g old) | None => fn f old end.

(** The specified counterpart of a call. *)
Definition spec_op (sc : scfg) (o : op) : mop :=
  match o with
  | OInsert k d => MInsert k d
  | OFind k => MFind k
  | OUpdate k f => MUpdate k (fn f) (fun_ret sc f)
  | OUpdateB k f => MUpdateB k (fn f) (fun_ret sc f)
  | OIou k d f => MInsertOrUpdate k d (fn f) (fun_ret sc f)
  | OErase k => MErase k
  | OEraseIf k d => MEraseIf k d
  end.

(** Any number of threads on one table. *)
Record bsys := BSys { bmem : mem; bthr : N -> option (op * bpc) }.

(** Steps of the system; [client o] restricts which calls clients make.
    [bs_mark] is a migrating thread marking a cell (markable cells only). *)
Inductive bsys_step (c : tcfg) (m : mapper) (client : op -> Prop)
  : bsys -> option (event mop mres) -> bsys -> Prop :=
| bs_inv t th tid o :
    th tid = None -> client o ->
    bsys_step c m client (BSys t th) (Some (EInv tid (spec_op (tsc c) o)))
      (BSys t (fupd th tid (Some (o, start c m o))))
| bs_run t th tid o pc b t' pc' :
    th tid = Some (o, pc) -> (forall r, pc <> PDone r) ->
    bstep c m t b o pc = (t', pc') ->
    bsys_step c m client (BSys t th) None (BSys t' (fupd th tid (Some (o, pc'))))
| bs_mark t th p s :
    sc_mark (tsc c) = true -> p < total_slots (tmc c) m -> t p = Some s ->
    bsys_step c m client (BSys t th) None (BSys (fupd t p (Some (mark_slot (tsc c) s))) th)
| bs_ret t th tid o r :
    th tid = Some (o, PDone r) ->
    bsys_step c m client (BSys t th) (Some (ERet tid (obs o r)))
      (BSys t (fupd th tid None)).

(** A fresh table and no call in progress. *)
Definition bsys_init (c : tcfg) (m : mapper) : bsys :=
  BSys (fresh_mem c m) (fun _ => None).
