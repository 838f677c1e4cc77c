(** Vocabulary for the properties of tables of pointer cells. *)
From Coq Require Import NArith Bool List.
From Verif Require Import Words Mapper ReturnCode MapSpec LinSpec Base Migrate Ptr.
Import ListNotations.
Open Scope N_scope.

(** Addresses of elements are positive and have 48 bits.  The second range also
    leaves out the address that, with fingerprint 0, reads as a deleted cell. *)
Definition addr48 (a : N) : Prop := 0 < a < 2 ^ 48.
Definition addr_live (a : N) : Prop := 0 < a < 2 ^ 48 /\ a <> 2 ^ 32.

(** All calls, and all but those emplace calls on a fixed-size table whose key
    has a nonzero fingerprint (the low bits of its hash). *)
Definition any_call (_ : pop) : Prop := True.
Definition print_ok (c : pcfg) (o : pop) : Prop :=
  match o with
  | QEmplace k _ => pgrow c = true \/ fingerprint (pmk c) (phk c k) = 0
  | _ => True
  end.

(** Configurations of growing tables for which growth is proved correct (see C15). *)
Definition grows_ok (mc : mcfg) : Prop := cmap mc = false \/ cprob mc = true.

(** An execution on a new table of 2^lg slots leads to [s]. *)
Definition ptr_reach (c : pcfg) (alloc : N -> Prop) (client : pop -> Prop) (lg : N) (s : psys) : Prop :=
  exists tr, lts_steps (psys_step c alloc client) (psys_init c lg) tr s.

(** No call is running. *)
Definition quiescent (s : psys) : Prop := forall tid, pthr s tid = None.

(** A call is using an element that is not allocated, or freed one. *)
Definition bad_access (s : psys) : Prop := exists tid o, pthr s tid = Some (o, QBad).

(** Cell [p] of the table points to the element at [a]. *)
Definition points_to (c : pcfg) (s : psys) (p a : N) : Prop :=
  p < total_slots (pmc c) (pmap s) /\ exists w, ptab s p = Some w /\ w_ptr w = a /\ a <> 0.

(** *** Executing schedules, for examples *)

Inductive plabel := PInv (tid : N) (o : pop) | PRun (tid a : N) | PRet (tid : N) | PGrow (ins del B n : N).

(** [n] steps of one helper. *)
Fixpoint phrun (c : pcfg) (ms mt : mapper) (B : N) (hp : heap) (n : nat) (s : pmsys) : pmsys :=
  match n with
  | O => s
  | S n =>
      let '(src, tgt, k, pc) := phstep c ms mt B hp (pmsrc s) (pmtgt s) (pmctr s)
        (match pmhlp s 0 with Some pc => pc | None => HClaim end) in
      phrun c ms mt B hp n (PMSys src tgt k (fupd (pmhlp s) 0 (Some pc)))
  end.

(** Executes a label; runs are in the schedule's order, the allocator returns
    the address in the label.  Growth: one helper, all calls idle. *)
Definition pexec1 (c : pcfg) (s : psys) (l : plabel) : option (option (event mop mres) * psys) :=
  let '(PSys hp m t th) := s in
  match l with
  | PInv tid o =>
      match th tid with
      | None => Some (Some (EInv tid (pspec_op o)), PSys hp m t (fupd th tid (Some (o, pstart c m o))))
      | _ => None
      end
  | PRun tid a =>
      match th tid with
      | Some (o, QDone _) => None
      | Some (o, pc) =>
          match pc, (hp a) with
          | QAlloc, Some _ => None
          | _, _ => let '(hp', t', pc') := qstep c m hp t a o pc in
                    Some (None, PSys hp' m t' (fupd th tid (Some (o, pc'))))
          end
      | None => None
      end
  | PRet tid =>
      match th tid with
      | Some (o, QDone r) => Some (Some (ERet tid r), PSys hp m t (fupd th tid None))
      | _ => None
      end
  | PGrow ins del B n =>
      let m' := resize (pmc c) m ins del in
      let s' := phrun c m m' B hp (N.to_nat n)
                  (PMSys t (ptarget (pmc c) m') 0 (fupd (fun _ => None) 0 (Some HClaim))) in
      match pmhlp s' 0 with
      | Some HEnd => Some (None, PSys hp m' (pmtgt s') th)
      | _ => None
      end
  end.

Fixpoint pexec (c : pcfg) (s : psys) (ls : list plabel) : option (list (event mop mres) * psys) :=
  match ls with
  | [] => Some ([], s)
  | l :: ls =>
      match pexec1 c s l with
      | None => None
      | Some (e, s') =>
          match pexec c s' ls with
          | None => None
          | Some (tr, s'') => Some (match e with Some e => e :: tr | None => tr end, s'')
          end
      end
  end.

(** A whole call of thread 0: [n] steps with allocator answer [a]. *)
Definition pcall (o : pop) (a : N) (n : nat) : list plabel :=
  PInv 0 o :: repeat (PRun 0 a) n ++ [PRet 0].
