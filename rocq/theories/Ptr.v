(** Model of tables of pointer cells,
    /repo/data-structures/element_types/complex_slot.hpp, with the calls of
    /repo/data-structures/base_linear.hpp (fixed-size table) and
    /repo/data-structures/migration_table.hpp (growing table) that use them.
    A cell is one 64-bit word that packs a pointer, a fingerprint and a mark.
    Keys and values are numbers that stand for values of arbitrary key and
    mapped types: only equality and the hash of a key are ever used. *)
From Coq Require Import NArith Bool List.
From Verif Require Import Words Slot Mapper ReturnCode MapSpec LinSpec Base Migrate.
Import ListNotations.
Open Scope N_scope.

(** *** The packed word *)

(** complex_slot.hpp:25-46 [ptr_splitter]: bit-fields from the lowest bit up;
    markable: mark 1, fingerprint 15, pointer 48; otherwise fingerprint 16,
    pointer 48. *)
Definition low_bits (m : bool) : N := if m then 1 else 0.
Definition fp_bits (m : bool) : N := if m then 15 else 16.
Definition pack (m mark : bool) (fp ptr : N) : N :=
  (if m && mark then 1 else 0) + 2 ^ low_bits m * (fp mod 2 ^ fp_bits m)
  + 2 ^ 16 * (ptr mod 2 ^ 48).
Definition w_mark (m : bool) (w : N) : bool := m && N.odd w.
Definition w_fp (m : bool) (w : N) : N := (w / 2 ^ low_bits m) mod 2 ^ fp_bits m.
Definition w_ptr (w : N) : N := (w / 2 ^ 16) mod 2 ^ 48.

(** complex_slot.hpp:64-69 [fingerprint]. *)
Definition fingerprint (m : bool) (h : N) : N := N.land h (2 ^ fp_bits m - 1).

(** complex_slot.hpp:197-208 etc.: constructors that are given the hash. *)
Definition slot_hash (m : bool) (ptr h : N) : N := pack m false (fingerprint m h) ptr.
(** complex_slot.hpp:234-247: the variadic constructor leaves the fingerprint 0. *)
Definition slot_bare (m : bool) (ptr : N) : N := pack m false 0 ptr.
(** complex_slot.hpp:319-323 [set_fingerprint]. *)
Definition set_fingerprint (m : bool) (w h : N) : N :=
  pack m (w_mark m w) (fingerprint m h) (w_ptr w).

(** complex_slot.hpp:159-168 [get_empty], [get_deleted]. *)
Definition empty_word : N := 0.
Definition deleted_word : N := 2 ^ 48.

(** complex_slot.hpp:326-346 [is_empty], [is_deleted], [is_marked]. *)
Definition w_empty (m : bool) (w : N) : bool := if m then w_ptr w =? 0 else w =? 0.
Definition w_deleted (w : N) : bool := w =? deleted_word.

(** The elements in memory: address to key and value. *)
Definition heap := N -> option (N * N).

(** complex_slot.hpp:348-361 [compare_key].  [None]: the pointer is dangling. *)
Definition w_compare (m : bool) (hp : heap) (w k h : N) : option bool :=
  if negb (fingerprint m h =? w_fp m w) then Some false
  else if w_ptr w =? 0 then Some false
  else match hp (w_ptr w) with
       | None => None
       | Some (k', _) => Some (k' =? k)
       end.

(** complex_slot.hpp:471-477 [cas]: result as in [Slot.cas]; a failure stores
    the current word into [expected]. *)
Definition w_cas (cell expected goal : N) : bool * N * N :=
  if cell =? expected then (true, goal, expected) else (false, cell, cell).

(** complex_slot.hpp:488-497 [atomic_mark] (set_mark sets the lowest bit). *)
Definition w_set_mark (w : N) : N := N.lor w 1.
Definition w_atomic_mark (m : bool) (cell expected : N) : bool * N * N :=
  if m then w_cas cell expected (w_set_mark expected) else (true, cell, expected).

(** complex_slot.hpp:411-423 [cleanup]: destroys and frees the element, nothing
    for a null pointer.  [None]: a pointer is freed that is not allocated. *)
Definition w_cleanup (hp : heap) (w : N) : option heap :=
  if w_ptr w =? 0 then Some hp
  else match hp (w_ptr w) with
       | None => None
       | Some _ => Some (fupd hp (w_ptr w) None)
       end.

(** *** Tables *)

(** [pmk]: markable; [pgrow]: the table is the base table of a growing table. *)
Record pcfg := PCfg { pmk : bool; pmc : mcfg; phash : N -> N; pgrow : bool }.

Definition wmem := N -> option N.

(** base_linear.hpp:265 [h]. *)
Definition phk (c : pcfg) (k : N) : N := w64 (phash c k).
Definition phome (c : pcfg) (m : mapper) (k : N) : N := map_hash (pmc c) m (phk c k).

(** base_linear.hpp:396-411. *)
Definition pfresh (c : pcfg) (m : mapper) : wmem :=
  fun p => if p <? total_slots (pmc c) m then Some empty_word else None.

Definition prd (c : pcfg) (m : mapper) (t : wmem) (p : N) : option N :=
  if p <? total_slots (pmc c) m then t p else None.

(** Calls.  A functor [f] must have a member [atomic] here (the other variant,
    complex_slot.hpp:544-581, does not compile); it is one atomic
    read-modify-write of the value.  There is no erase: complex_slot sets
    allows_deletions to false and its atomic_delete does not compile. *)
Inductive pop :=
| QInsert (k d : N)
| QEmplace (k d : N)
| QIou (k d : N) (f : N -> N)      (* insert_or_update, emplace_or_update *)
| QFind (k : N)
| QUpdate (k : N) (f : N -> N).

Definition pop_key (o : pop) : N :=
  match o with QInsert k _ | QEmplace k _ | QIou k _ _ | QFind k | QUpdate k _ => k end.
Definition pop_data (o : pop) : N :=
  match o with QInsert _ d | QEmplace _ d | QIou _ d _ => d | _ => 0 end.
Definition pop_adds (o : pop) : bool :=
  match o with QInsert _ _ | QEmplace _ _ | QIou _ _ _ => true | _ => false end.
Definition pop_fun (o : pop) : N -> N :=
  match o with QIou _ _ f | QUpdate _ f => f | _ => fun x => x end.

(** What is still to be done for the result: it is known, or it is the value
    behind the returned iterator (which refers to the element, not to the cell). *)
Inductive pout := OutIs (r : mres) | OutPresent (w : N) | OutFound (w : N).

(** Program points.  [w] is the slot built by the call (0 for find, update). *)
Inductive ppc :=
| QAlloc                            (* constructor of the slot *)
| QTry (w : N)                      (* growing table: about to run on the current table *)
| QLoad (i w : N)
| QCas (i w curr : N)
| QUpd (w curr : N)                 (* functor on the element of curr *)
| QFree (w : N) (out : pout)        (* slot.cleanup() *)
| QRead (out : pout)                (* the caller dereferences the iterator *)
| QDone (r : mres)
| QBad.                             (* invalid access to a cell or an element *)

Definition deliver (out : pout) : ppc :=
  match out with OutIs r => QDone r | _ => QRead out end.

Section Step.
Context (c : pcfg) (m : mapper).
Notation mk := (pmk c).
Notation mc := (pmc c).

(** The wrappers around the intern functions.  Fixed size: base_linear.hpp:918-961
    (insert, emplace: cleanup unless successful), 1010-1044 (insert_or_update:
    cleanup unless SUCCESS_IN).  Growing: migration_table.hpp:544-590 and 592-630,
    799-843: FULL and INVALID lead to another attempt with the same slot after
    helping with the growth, otherwise cleanup unless the element was inserted. *)
Definition wrap_add (o : pop) (w code : N) (out : pout) : ppc :=
  if pgrow c && ((code =? RC_FULL) || (code =? RC_INVALID)) then QTry w
  else if match o with QIou _ _ _ => code =? RC_SUCCESS_IN | _ => successful code end
       then deliver out
       else QFree w out.

(** update: base_linear.hpp:979-985; migration_table.hpp:632-674. *)
Definition wrap_update (code : N) (out : pout) : ppc :=
  if pgrow c && (code =? RC_INVALID) then QTry 0 else deliver out.

(** The decisions made on a loaded word. *)
Definition p_after_load (hp : heap) (o : pop) (i p w curr : N) : ppc :=
  match o with
  | QFind k =>                             (* base_linear.hpp:887-900 *)
      if w_empty mk curr then QDone RAbsent
      else match w_compare mk hp curr k (phk c k) with
           | None => QBad
           | Some true => QRead (OutFound curr)
           | Some false => QLoad (i + 1) w
           end
  | QUpdate k _ =>                         (* 604-640 *)
      if w_mark mk curr then wrap_update RC_INVALID (OutIs RInvalid)
      else if w_empty mk curr then wrap_update RC_NOT_FOUND (OutIs RAbsent)
      else match w_compare mk hp curr k (phk c k) with
           | None => QBad
           | Some true => QUpd w curr
           | Some false => QLoad (i + 1) w
           end
  | QInsert k _ | QEmplace k _ | QIou k _ _ =>   (* 558-602, 724-773 *)
      if w_mark mk curr then wrap_add o w RC_INVALID (OutIs RInvalid)
      else if w_empty mk curr then
        if negb (cprob mc) && (addressable_slots mc m + 300 <? p)
        then wrap_add o w RC_FULL (OutIs RFull) else QCas i w curr
      else match w_compare mk hp curr k (phk c k) with
           | None => QBad
           | Some true =>
               match o with
               | QIou _ _ _ => QUpd w curr
               | _ => wrap_add o w RC_ALREADY_USED (OutPresent curr)
               end
           | Some false => QLoad (i + 1) w
           end
  end.

(** First program point of a call. *)
Definition pstart (o : pop) : ppc :=
  if pop_adds o then QAlloc
  else if pgrow c then QTry 0 else QLoad (phome c m (pop_key o)) 0.

(** The slot at address [a].  Fixed size: insert (920) and insert_or_update (1016)
    pass the hash, emplace (952) does not.  Growing: never (migration_table.hpp:548,
    561, 575). *)
Definition build (o : pop) (a : N) : N :=
  if pgrow c then slot_bare mk a
  else match o with
       | QEmplace _ _ => slot_bare mk a
       | _ => slot_hash mk a (phk c (pop_key o))
       end.

(** One step of a call; [a] is the address the allocator returns. *)
Definition qstep (hp : heap) (t : wmem) (a : N) (o : pop) (pc : ppc) : heap * wmem * ppc :=
  match pc with
  | QAlloc =>
      (fupd hp a (Some (pop_key o, pop_data o)), t,
       if pgrow c then QTry (build o a) else QLoad (phome c m (pop_key o)) (build o a))
  | QTry w =>                       (* migration_table.hpp:602-603, 809-810 *)
      (hp, t, QLoad (phome c m (pop_key o))
                (if pop_adds o then set_fingerprint mk w (phk c (pop_key o)) else w))
  | QLoad i w =>
      let p := remap mc m i in
      match prd c m t p with
      | None => (hp, t, QBad)
      | Some curr => (hp, t, p_after_load hp o i p w curr)
      end
  | QCas i w curr =>
      let p := remap mc m i in
      match prd c m t p with
      | None => (hp, t, QBad)
      | Some cell =>
          let '(ok, cell', _) := w_cas cell curr w in
          (hp, fupd t p (Some cell'),
           if ok then wrap_add o w RC_SUCCESS_IN (OutIs RInserted) else QLoad i w)
      end
  | QUpd w curr =>                  (* complex_slot.hpp:523-541: f.atomic(value) *)
      match hp (w_ptr curr) with
      | None => (hp, t, QBad)
      | Some (k, d) =>
          (fupd hp (w_ptr curr) (Some (k, pop_fun o d)), t,
           if pop_adds o then wrap_add o w RC_SUCCESS_UP (OutIs (RUpdated 0))
           else wrap_update RC_SUCCESS_UP (OutIs (RUpdated 0)))
      end
  | QFree w out =>
      match w_cleanup hp w with
      | None => (hp, t, QBad)
      | Some hp' => (hp', t, deliver out)
      end
  | QRead out =>
      match out with
      | OutIs r => (hp, t, QDone r)
      | OutPresent w =>
          (hp, t, match hp (w_ptr w) with Some (_, d) => QDone (RPresent d) | None => QBad end)
      | OutFound w =>
          (hp, t, match hp (w_ptr w) with Some (_, d) => QDone (RFound d) | None => QBad end)
      end
  | QDone r => (hp, t, QDone r)
  | QBad => (hp, t, QBad)
  end.

End Step.

(** base_linear.hpp:353-358 [slot_cleanup]. *)
Fixpoint cleanup_cells (t : wmem) (n : nat) (p : N) (hp : heap) : option heap :=
  match n with
  | O => Some hp
  | S n => match t p with
           | None => None
           | Some w => match w_cleanup hp w with
                       | None => None
                       | Some hp' => cleanup_cells t n (p + 1) hp'
                       end
           end
  end.

(** base_linear.hpp:440-450 [~base_linear] of a fixed-size table (its cleanup
    flag is on) and estrat_async.hpp:118-131 [~global_data_type]: clean up all
    cells of the (current) table. *)
Definition destroy (c : pcfg) (m : mapper) (t : wmem) (hp : heap) : option heap :=
  cleanup_cells t (N.to_nat (total_slots (pmc c) m)) 0 hp.

(** estrat_sync.hpp:197-200 [~global_data_type]: deletes the table, whose own
    cleanup flag is off in a growing table. *)
Definition destroy_sync (hp : heap) : option heap := Some hp.

(** base_linear.hpp:452-463: what the moved-from table keeps: a default mapper
    (all members 0) and no cells. *)
Definition moved_from_mapper : mapper := Mapper 0 0 0.
Definition moved_from_mem : wmem := fun _ => None.

(** *** Migration *)

(** base_linear.hpp:413-438. *)
Definition ptarget (c : mcfg) (m : mapper) : wmem :=
  fun p => if negb (cprob c) && (addressable_slots c m <=? p) && (p <? total_slots c m)
           then Some empty_word else None.

Section Move.
Context (c : pcfg) (ms mt : mapper) (B : N) (hp : heap).
Notation mk := (pmk c).
Notation mc := (pmc c).
Notation tc := (TCfg (SCfg 64 (pmk c) true) (pmc c) (phash c)).

(** insert_unsafe (base_linear.hpp:1272-1281): the hash is that of the key the
    pointer leads to. *)
Definition p_ins_start (ph : option N) (i w : N) : hpc :=
  match hp (w_ptr w) with
  | None => HBad
  | Some (k, _) => HIns ph i (Slot w 0) (phome c mt k)
  end.

(** One step of a helper, as [Migrate.hstep] with the tests of complex_slot
    (base_linear.hpp:1114-1293).  The program points are those of [Migrate.hpc];
    a loaded word w is written [Slot w 0]. *)
Definition phstep (src tgt : wmem) (ctr : N) (pc : hpc) : wmem * wmem * N * hpc :=
  match pc with
  | HClaim =>
      (src, tgt, ctr + B,
       if ctr <? addressable_slots mc ms
       then enter tc ms mt ctr (block_end B (addressable_slots mc ms) ctr)
       else HEnd)
  | HEnd => (src, tgt, ctr, HEnd)
  | H0Load e i =>
      (src, tgt, ctr,
       match prd c ms src i with
       | None => HBad
       | Some curr => if w_empty mk curr then H0Mark e i (Slot curr 0)
                      else if i + 1 <? e then H0Load e (i + 1) else HClaim
       end)
  | H0Mark e i curr =>
      match prd c ms src i with
      | None => (src, tgt, ctr, HBad)
      | Some cell =>
          let '(ok, cell', _) := w_atomic_mark mk cell (skey curr) in
          (fupd src i (Some cell'), tgt, ctr, if ok then after0 tc ms mt e i else H0Load e i)
      end
  | H1Init e i l =>
      match l with
      | [] => (src, tgt, ctr, next1 tc ms mt e i)
      | p :: l =>
          if p <? total_slots mc mt
          then (src, fupd tgt p (Some empty_word), ctr,
                match l with [] => next1 tc ms mt e i | _ => H1Init e i l end)
          else (src, tgt, ctr, HBad)
      end
  | H1Load e i =>
      (src, tgt, ctr,
       match prd c ms src i with None => HBad | Some curr => H1Mark e i (Slot curr 0) end)
  | H1Mark e i curr =>
      match prd c ms src i with
      | None => (src, tgt, ctr, HBad)
      | Some cell =>
          let '(ok, cell', _) := w_atomic_mark mk cell (skey curr) in
          (fupd src i (Some cell'), tgt, ctr,
           if ok then
             if negb (w_empty mk (skey curr)) && negb (w_deleted (skey curr))
             then p_ins_start (Some e) (i + 1) (skey curr)
             else next1 tc ms mt e (i + 1)
           else H1Load e i)
      end
  | H2Init i l =>
      match l with
      | [] => (src, tgt, ctr, H2Load i)
      | p :: l =>
          if p <? total_slots mc mt
          then (src, fupd tgt p (Some empty_word), ctr,
                match l with [] => H2Load i | _ => H2Init i l end)
          else (src, tgt, ctr, HBad)
      end
  | H2Load i =>
      (src, tgt, ctr,
       match prd c ms src (remap mc ms i) with
       | None => HBad | Some curr => H2Mark i (Slot curr 0) end)
  | H2Mark i curr =>
      match prd c ms src (remap mc ms i) with
      | None => (src, tgt, ctr, HBad)
      | Some cell =>
          let '(ok, cell', curr') := w_atomic_mark mk cell (skey curr) in
          let i' := if ok then i + 1 else i in
          (fupd src (remap mc ms i) (Some cell'), tgt, ctr,
           if w_empty mk curr' then HClaim
           else if w_deleted curr' then start2 tc ms mt i'
           else p_ins_start None i' curr')
      end
  | HIns ph i sl j =>
      (src, tgt, ctr,
       match prd c mt tgt (remap mc mt j) with
       | None => HBad
       | Some curr => if w_empty mk curr then HSet ph i sl j else HIns ph i sl (j + 1)
       end)
  | HSet ph i sl j =>
      if remap mc mt j <? total_slots mc mt
      then (src, fupd tgt (remap mc mt j) (Some (skey sl)), ctr, after_insert tc ms mt ph i)
      else (src, tgt, ctr, HBad)
  | HBad => (src, tgt, ctr, HBad)
  end.

(** Any number of helpers; nobody else touches the two tables. *)
Record pmsys := PMSys { pmsrc : wmem; pmtgt : wmem; pmctr : N; pmhlp : N -> option hpc }.

Inductive pmstep : pmsys -> pmsys -> Prop :=
| pm_join s t k h tid :
    h tid = None \/ h tid = Some HEnd -> pmstep (PMSys s t k h) (PMSys s t k (fupd h tid (Some HClaim)))
| pm_help s t k h tid pc s' t' k' pc' :
    h tid = Some pc -> phstep s t k pc = (s', t', k', pc') ->
    pmstep (PMSys s t k h) (PMSys s' t' k' (fupd h tid (Some pc'))).

Inductive pmsteps : pmsys -> pmsys -> Prop :=
| pms_nil s : pmsteps s s
| pms_cons s s' s'' : pmstep s s' -> pmsteps s' s'' -> pmsteps s s''.

Definition pminit (src : wmem) : pmsys := PMSys src (ptarget mc mt) 0 (fun _ => None).

Definition pmfinished (s : pmsys) : Prop :=
  (exists tid, pmhlp s tid = Some HEnd) /\
  (forall tid pc, pmhlp s tid = Some pc -> pc = HEnd).

End Move.

(** *** The system *)

Record psys := PSys { pheap : heap; pmap : mapper; ptab : wmem; pthr : N -> option (pop * ppc) }.

(** No call is looking at the cells. *)
Definition off_table (pc : ppc) : Prop :=
  match pc with QLoad _ _ | QCas _ _ _ => False | _ => True end.

(** The specified counterpart of a call; an update reports no value. *)
Definition pspec_op (o : pop) : mop :=
  match o with
  | QInsert k d | QEmplace k d => MInsert k d
  | QIou k d f => MInsertOrUpdate k d f (fun _ => 0)
  | QFind k => MFind k
  | QUpdate k f => MUpdate k f (fun _ => 0)
  end.

(** Steps.  [alloc a]: the allocator may return address [a] (if it is not in
    use).  [q_mark]: a migrating thread marks a cell of a fixed-size table whose
    cells are markable.  [q_grow]: a growing table is replaced by a successor to
    which helpers moved it while no call was looking at the cells (what the
    synchronised strategy guarantees); the other calls wait or have returned. *)
Inductive psys_step (c : pcfg) (alloc : N -> Prop) (client : pop -> Prop)
  : psys -> option (event mop mres) -> psys -> Prop :=
| q_inv hp m t th tid o :
    th tid = None -> client o ->
    psys_step c alloc client (PSys hp m t th) (Some (EInv tid (pspec_op o)))
      (PSys hp m t (fupd th tid (Some (o, pstart c m o))))
| q_run hp m t th tid o pc a hp' t' pc' :
    th tid = Some (o, pc) -> (forall r, pc <> QDone r) ->
    (pc = QAlloc -> alloc a /\ hp a = None) ->
    qstep c m hp t a o pc = (hp', t', pc') ->
    psys_step c alloc client (PSys hp m t th) None (PSys hp' m t' (fupd th tid (Some (o, pc'))))
| q_mark hp m t th p w :
    pmk c = true -> pgrow c = false -> p < total_slots (pmc c) m -> t p = Some w ->
    psys_step c alloc client (PSys hp m t th) None (PSys hp m (fupd t p (Some (w_set_mark w))) th)
| q_grow hp m t th ins del lg B s :
    pgrow c = true -> (forall tid o pc, th tid = Some (o, pc) -> off_table pc) ->
    addressable_slots (pmc c) m = 2 ^ lg -> lg <= 31 -> 0 < B <= 2 ^ 31 ->
    pmsteps c m (resize (pmc c) m ins del) B hp (pminit c (resize (pmc c) m ins del) t) s ->
    pmfinished s ->
    (cprob (pmc c) = true ->
       exists p w, p < total_slots (pmc c) m /\ t p = Some w /\ w_empty (pmk c) w = true) ->
    psys_step c alloc client (PSys hp m t th) None
      (PSys hp (resize (pmc c) m ins del) (pmtgt s) th)
| q_ret hp m t th tid o r :
    th tid = Some (o, QDone r) ->
    psys_step c alloc client (PSys hp m t th) (Some (ERet tid r))
      (PSys hp m t (fupd th tid None)).

(** A new table of 2^lg addressable slots; nothing is allocated. *)
Definition psys_init (c : pcfg) (lg : N) : psys :=
  PSys (fun _ => None) (mk_mapper (pmc c) (2 ^ lg) 0)
    (pfresh c (mk_mapper (pmc c) (2 ^ lg) 0)) (fun _ => None).
