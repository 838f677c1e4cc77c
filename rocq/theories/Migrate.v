(** Model of the migration of one table into its successor:
    /repo/data-structures/base_linear.hpp:413-438 (constructor of the target),
    1114-1227 (migrate), 1229-1270 (initialize), 1272-1293 (insert_unsafe) and
    the block distribution of strategies/estrat_async.hpp:290-308 and
    strategies/estrat_sync.hpp:431-448 (blockwise_migrate).
    One step is one access to a cell or to the block counter. *)
From Coq Require Import NArith Bool List.
From Verif Require Import Words Slot Mapper MapSpec LinSpec Base.
Import ListNotations.
Open Scope N_scope.

(** estrat_async.hpp:98, estrat_sync.hpp:88 [migration_block_size]. *)
Definition migration_block_size : N := 4096.

(** Conversion to [uint] (32 bits) in blockwise_migrate. *)
Definition w32 (x : N) : N := x mod 2 ^ 32.

(** The indices a, a+1, ..., a+n-1. *)
Fixpoint nseq (a : N) (n : nat) : list N :=
  match n with O => [] | S n => a :: nseq (a + 1) n end.

(** base_linear.hpp:413-438 with [_parallel_init] = true (line 127): only the
    overflow area of linear probing is initialised. *)
Definition target_mem (c : mcfg) (m : mapper) : mem :=
  fun p => if negb (cprob c) && (addressable_slots c m <=? p) && (p <? total_slots c m)
           then Some empty_slot else None.

(** The loop headers "for (i = start; i <= bitmask; i += grow_helper)" of
    initialize; [fuel] suffices whenever grow_helper > 0 (for 0 the C++ loop does
    not end; grow_helper is 0 only for tables that are no migration target). *)
Fixpoint strides (fuel : nat) (i gh lim : N) : list N :=
  match fuel with
  | O => []
  | S f => if i <=? lim then i :: strides f (i + gh) gh lim else []
  end.
Definition stride_list (m : mapper) (lim i : N) : list N :=
  strides (S (N.to_nat (lim / grow_helper m))) i (grow_helper m) lim.

(** base_linear.hpp:1229-1247 [initialize(start, end)]: the cells cleared, in order. *)
Definition init_range (c : mcfg) (m : mapper) (start fin : N) : list N :=
  if cmap c
  then flat_map (fun i => nseq i (N.to_nat (fin - start))) (stride_list m (bitmask c m) start)
  else nseq (N.shiftl start (grow_helper m))
            (N.to_nat (N.shiftl fin (grow_helper m) - N.shiftl start (grow_helper m))).

(** base_linear.hpp:1249-1270 [initialize(idx)]. *)
Definition init_one (c : mcfg) (m : mapper) (idx : N) : list N :=
  if cmap c
  then if negb (cprob c) && (grow_helper m <=? idx) then []
       else stride_list m (bitmask c m) idx
  else nseq (N.shiftl idx (grow_helper m))
            (N.to_nat (N.shiftl (idx + 1) (grow_helper m) - N.shiftl idx (grow_helper m))).

(** End of the block that starts at [s] (estrat_async.hpp:301-304,
    estrat_sync.hpp:442-444): std::min(uint(s + block_size), uint(capacity)). *)
Definition block_end (B cap s : N) : N := N.min (w32 (s + B)) (w32 cap).

(** Program points of a thread inside blockwise_migrate / migrate.  [e] is the
    end of its block, [i] the loop variable, [curr] the loaded slot. *)
Inductive hpc :=
| HClaim                                (* about to fetch_add the block counter *)
| HEnd                                  (* no block left: blockwise_migrate returned *)
| H0Load (e i : N)                      (* 1126: searching the first empty cell *)
| H0Mark (e i : N) (curr : slot)        (* 1129 *)
| H1Init (e i : N) (l : list N)         (* 1143: cells still to be cleared *)
| H1Load (e i : N)                      (* 1148 *)
| H1Mark (e i : N) (curr : slot)        (* 1149 *)
| H2Init (i : N) (l : list N)           (* 1176 *)
| H2Load (i : N)                        (* 1178 *)
| H2Mark (i : N) (curr : slot)          (* 1180 *)
| HIns (ph : option N) (i : N) (sl : slot) (j : N)  (* 1283: insert_unsafe, load of cell j *)
| HSet (ph : option N) (i : N) (sl : slot) (j : N)  (* 1287: store to cell j *)
| HBad.                                 (* access to an invalid cell *)

Section Step.
Context (c : tcfg) (ms mt : mapper) (B : N).
Notation sc := (tsc c).
Notation mc := (tmc c).

(** Entering the second loop at index [i] (1172-1176). *)
Definition start2 (i : N) : hpc :=
  match init_one mc mt (remap mc ms i) with
  | [] => H2Load i
  | l => H2Init i l
  end.

(** Next round of the first loop (1146). *)
Definition next1 (e i : N) : hpc := if i <? e then H1Load e i else start2 i.

(** After the search (1138-1143). *)
Definition after0 (e i : N) : hpc :=
  if i <? e then
    match init_range mc mt i e with
    | [] => next1 e i
    | l => H1Init e i l
    end
  else HClaim.

(** Entry of migrate(target, s, e) (1117-1125). *)
Definition enter (s e : N) : hpc :=
  if cprob mc || (0 <? s) then (if s <? e then H0Load e s else HClaim) else after0 e s.

(** After insert_unsafe: back in the first loop ([Some e]) or in the second. *)
Definition after_insert (ph : option N) (i : N) : hpc :=
  match ph with Some e => next1 e i | None => start2 i end.

(** insert_unsafe (1274-1281): first probe position in the target. *)
Definition ins_start (ph : option N) (i : N) (sl : slot) : hpc :=
  HIns ph i sl (home c mt (get_key sc sl)).

(** One step of a helper on (source, target, block counter). *)
Definition hstep (src tgt : mem) (ctr : N) (pc : hpc) : mem * mem * N * hpc :=
  match pc with
  | HClaim =>
      (src, tgt, ctr + B,
       if ctr <? addressable_slots mc ms
       then enter ctr (block_end B (addressable_slots mc ms) ctr)
       else HEnd)
  | HEnd => (src, tgt, ctr, HEnd)
  | H0Load e i =>
      (src, tgt, ctr,
       match rd c ms src i with
       | None => HBad
       | Some curr => if is_empty sc curr then H0Mark e i curr
                      else if i + 1 <? e then H0Load e (i + 1) else HClaim
       end)
  | H0Mark e i curr =>
      match rd c ms src i with
      | None => (src, tgt, ctr, HBad)
      | Some cell =>
          let '(ok, cell', _) := atomic_mark sc cell curr in
          (fupd src i (Some cell'), tgt, ctr, if ok then after0 e i else H0Load e i)
      end
  | H1Init e i l =>
      match l with
      | [] => (src, tgt, ctr, next1 e i)
      | p :: l =>
          if p <? total_slots mc mt
          then (src, fupd tgt p (Some empty_slot), ctr,
                match l with [] => next1 e i | _ => H1Init e i l end)
          else (src, tgt, ctr, HBad)
      end
  | H1Load e i =>
      (src, tgt, ctr,
       match rd c ms src i with None => HBad | Some curr => H1Mark e i curr end)
  | H1Mark e i curr =>
      match rd c ms src i with
      | None => (src, tgt, ctr, HBad)
      | Some cell =>
          let '(ok, cell', _) := atomic_mark sc cell curr in
          (fupd src i (Some cell'), tgt, ctr,
           if ok then
             if negb (is_empty sc curr) && negb (is_deleted sc curr)
             then ins_start (Some e) (i + 1) curr
             else next1 e (i + 1)
           else H1Load e i)
      end
  | H2Init i l =>
      match l with
      | [] => (src, tgt, ctr, H2Load i)
      | p :: l =>
          if p <? total_slots mc mt
          then (src, fupd tgt p (Some empty_slot), ctr,
                match l with [] => H2Load i | _ => H2Init i l end)
          else (src, tgt, ctr, HBad)
      end
  | H2Load i =>
      (src, tgt, ctr,
       match rd c ms src (remap mc ms i) with None => HBad | Some curr => H2Mark i curr end)
  | H2Mark i curr =>
      (* 1180-1190: a failed mark only decrements i; [curr] is processed anyway
         (and was overwritten with the current content if [cas] does that) *)
      match rd c ms src (remap mc ms i) with
      | None => (src, tgt, ctr, HBad)
      | Some cell =>
          let '(ok, cell', curr') := atomic_mark sc cell curr in
          let i' := if ok then i + 1 else i in
          (fupd src (remap mc ms i) (Some cell'), tgt, ctr,
           if is_empty sc curr' then HClaim
           else if is_deleted sc curr' then start2 i'
           else ins_start None i' curr')
      end
  | HIns ph i sl j =>
      (src, tgt, ctr,
       match rd c mt tgt (remap mc mt j) with
       | None => HBad
       | Some curr => if is_empty sc curr then HSet ph i sl j else HIns ph i sl (j + 1)
       end)
  | HSet ph i sl j =>
      if remap mc mt j <? total_slots mc mt
      then (src, fupd tgt (remap mc mt j) (Some sl), ctr, after_insert ph i)
      else (src, tgt, ctr, HBad)
  | HBad => (src, tgt, ctr, HBad)
  end.

End Step.

(** Source, target, block counter, helpers, and the calls in progress on the
    source. *)
Record msys := MSys {
  msrc : mem; mtgt : mem; mctr : N; mhlp : N -> option hpc; mthr : N -> option (op * bpc) }.

(** Steps: a thread joins the migration (possibly again), a helper makes a step, a user thread
    begins, continues or ends a call on the source.  The calls available to the
    users are restricted by [client]; a migration of a table nobody changes has
    [client] = nothing and no call in progress. *)
Inductive msys_step (c : tcfg) (ms mt : mapper) (B : N) (client : op -> Prop)
  : msys -> option (event mop mres) -> msys -> Prop :=
| m_join s t k h th tid :
    h tid = None \/ h tid = Some HEnd ->
    msys_step c ms mt B client (MSys s t k h th) None (MSys s t k (fupd h tid (Some HClaim)) th)
| m_help s t k h th tid pc s' t' k' pc' :
    h tid = Some pc -> hstep c ms mt B s t k pc = (s', t', k', pc') ->
    msys_step c ms mt B client (MSys s t k h th) None (MSys s' t' k' (fupd h tid (Some pc')) th)
| m_inv s t k h th tid o :
    th tid = None -> client o ->
    msys_step c ms mt B client (MSys s t k h th) (Some (EInv tid (spec_op (tsc c) o)))
      (MSys s t k h (fupd th tid (Some (o, start c ms o))))
| m_run s t k h th tid o pc b s' pc' :
    th tid = Some (o, pc) -> (forall r, pc <> PDone r) ->
    bstep c ms s b o pc = (s', pc') ->
    msys_step c ms mt B client (MSys s t k h th) None
      (MSys s' t k h (fupd th tid (Some (o, pc'))))
| m_ret s t k h th tid o r :
    th tid = Some (o, PDone r) ->
    msys_step c ms mt B client (MSys s t k h th) (Some (ERet tid (obs o r)))
      (MSys s t k h (fupd th tid None)).

(** A migration of [src] that is about to start. *)
Definition msys_init (c : tcfg) (mt : mapper) (src : mem) (th : N -> option (op * bpc)) : msys :=
  MSys src (target_mem (tmc c) mt) 0 (fun _ => None) th.

(** The migration is over: at least one helper took part and all that did have
    returned (the condition end_grow waits for). *)
Definition finished (s : msys) : Prop :=
  (exists tid, mhlp s tid = Some HEnd) /\
  (forall tid pc, mhlp s tid = Some pc -> pc = HEnd).
