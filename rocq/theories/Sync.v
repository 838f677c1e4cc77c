(** The synchronised growing strategy: strategies/estrat_sync.hpp with user
    threads as workers (strategies/wstrat_user.hpp).

    Tables are named by their version: version [v+1] is the successor of [v].  A
    version is never reused; the address reuse by new/delete is not modelled.
    What operations do on a table and how a block is moved is left out here (see
    Base.v and Migrate.v): an operation is a period in which a thread uses a
    table, a migration moves numbered blocks.

    [tso = false]: every access is atomic and immediately visible.  [tso = true]:
    plain atomic stores (release, x86 mov) go to a store buffer first, read-modify-
    write accesses need an empty buffer, as on x86. *)
From Coq Require Import NArith Bool List.
From Verif Require Import Words.
Import ListNotations.
Open Scope N_scope.

(** estrat_sync.hpp:139 _table: pointer to a table, possibly with the growing flag. *)
Inductive tab := TTab (v : N) | TMarked (v : N) | TNull.

(** Who called migrate: the organiser of version [v] (grow) or a helper (help_grow). *)
Inductive caller := KOrg (v : N) | KHelp.

(** Where the thread of a handle is.  The comments name the access that comes next
    (lines of estrat_sync.hpp). *)
Inductive spc :=
| PUnreg                         (* no handle; 206-208 used.exchange *)
| PReserved                      (* 210-215 _last_handle_id *)
| PIdle                          (* between operations *)
| PGet1                          (* get_table: 268-271 load _table *)
| PGet2 (v : N)                  (* 284 store ops_protect *)
| PGet3 (v : N)                  (* 286 load _table again *)
| PGet4                          (* 291 store ops_protect = nullptr *)
| POp (v : N)                    (* an operation uses table [v] *)
| PRls (want : option N)         (* 296-299 rls_table; [Some v]: grow(v) follows *)
| PGrow1 (v : N)                 (* grow(v): 305-307 load _epoch *)
| PGrow2 (v e : N)               (* 307-308 compare_exchange of _epoch *)
| PGrow3 (v : N)                 (* 316 load _table *)
| PGrow4 (v : N)                 (* 326 atomic_mark *)
| PGrow5 (v : N)                 (* 333-338 new table; 472 load _last_handle_id *)
| PWaitOps (v e i : N)           (* 473-486 load ops_protect of slot i < e *)
| PGrow7 (v : N)                 (* 342 publish the successor for migration *)
| PGrow9 (v : N)                 (* 353-355, 358 _table = nullptr *)
| PWaitStart (v : N)             (* 491 load _last_handle_id *)
| PWaitMig (v e i : N)           (* 492-504 load mig_protect of slot i < e *)
| PPublish (v : N)               (* 364 _table = successor *)
| PDelete (v : N)                (* 369 delete *)
| PMig1 (k : caller)             (* migrate: 400 load _table *)
| PMig2 (k : caller) (v : N)     (* 407 store mig_protect *)
| PMig3 (k : caller) (v : N) (g : bool)      (* 418-419 load _next_table of table v *)
| PMig4 (k : caller) (v : N) (g : bool)      (* 438/445 fetch_add on table v *)
| PMig5 (k : caller) (v b : N) (g : bool)    (* 441-443 block [b] is moved *)
| PMig6 (k : caller) (v : N) (g : bool)      (* 423-424 mig_protect = nullptr *)
| PHelpWait                      (* 383-387 load _table *)
| PFault (v : N).                (* has accessed table [v] after it was deleted *)

Inductive store := SOps (x : option N) | SMig (x : option N).

(** [s_epoch] is _epoch + 1 (the code starts with -1).  [s_ops], [s_mig]: the
    flags by slot.  [s_next v]: the successor of [v] is published for migration.
    [s_block v]: _current_copy_block of [v], in blocks.  [s_moved], [s_deleted]:
    which blocks have been moved and which tables have been deleted.  [s_pc],
    [s_buf]: program counter and store buffer of each thread. *)
Record sst := SSt {
  s_tab : tab; s_epoch : N; s_last : N;
  s_ops : N -> option N; s_mig : N -> option N;
  s_next : N -> bool; s_block : N -> N;
  s_moved : N -> N -> bool; s_deleted : N -> bool;
  s_pc : N -> spc; s_buf : N -> list store }.

(** 189-195. *)
Definition sync_init : sst :=
  SSt (TTab 0) 0 0 (fun _ => None) (fun _ => None) (fun _ => false) (fun _ => 0)
    (fun _ _ => false) (fun _ => false) (fun _ => PUnreg) (fun _ => []).

Definition set_pc (s : sst) (i : N) (p : spc) : sst :=
  SSt (s_tab s) (s_epoch s) (s_last s) (s_ops s) (s_mig s) (s_next s) (s_block s)
    (s_moved s) (s_deleted s) (fupd (s_pc s) i p) (s_buf s).
Definition set_tab (s : sst) (t : tab) : sst :=
  SSt t (s_epoch s) (s_last s) (s_ops s) (s_mig s) (s_next s) (s_block s)
    (s_moved s) (s_deleted s) (s_pc s) (s_buf s).
Definition set_epoch (s : sst) (e : N) : sst :=
  SSt (s_tab s) e (s_last s) (s_ops s) (s_mig s) (s_next s) (s_block s)
    (s_moved s) (s_deleted s) (s_pc s) (s_buf s).
Definition set_last (s : sst) (l : N) : sst :=
  SSt (s_tab s) (s_epoch s) l (s_ops s) (s_mig s) (s_next s) (s_block s)
    (s_moved s) (s_deleted s) (s_pc s) (s_buf s).
Definition set_next (s : sst) (v : N) : sst :=
  SSt (s_tab s) (s_epoch s) (s_last s) (s_ops s) (s_mig s) (fupd (s_next s) v true) (s_block s)
    (s_moved s) (s_deleted s) (s_pc s) (s_buf s).
Definition set_block (s : sst) (v b : N) : sst :=
  SSt (s_tab s) (s_epoch s) (s_last s) (s_ops s) (s_mig s) (s_next s) (fupd (s_block s) v b)
    (s_moved s) (s_deleted s) (s_pc s) (s_buf s).
Definition set_moved (s : sst) (v b : N) : sst :=
  SSt (s_tab s) (s_epoch s) (s_last s) (s_ops s) (s_mig s) (s_next s) (s_block s)
    (fupd (s_moved s) v (fupd (s_moved s v) b true)) (s_deleted s) (s_pc s) (s_buf s).
Definition set_deleted (s : sst) (v : N) : sst :=
  SSt (s_tab s) (s_epoch s) (s_last s) (s_ops s) (s_mig s) (s_next s) (s_block s)
    (s_moved s) (fupd (s_deleted s) v true) (s_pc s) (s_buf s).
Definition set_buf (s : sst) (i : N) (l : list store) : sst :=
  SSt (s_tab s) (s_epoch s) (s_last s) (s_ops s) (s_mig s) (s_next s) (s_block s)
    (s_moved s) (s_deleted s) (s_pc s) (fupd (s_buf s) i l).
(** A store to the flags of slot [j] becomes visible. *)
Definition commit (s : sst) (j : N) (x : store) : sst :=
  match x with
  | SOps y => SSt (s_tab s) (s_epoch s) (s_last s) (fupd (s_ops s) j y) (s_mig s) (s_next s) (s_block s)
                (s_moved s) (s_deleted s) (s_pc s) (s_buf s)
  | SMig y => SSt (s_tab s) (s_epoch s) (s_last s) (s_ops s) (fupd (s_mig s) j y) (s_next s) (s_block s)
                (s_moved s) (s_deleted s) (s_pc s) (s_buf s)
  end.

Section Sync.
Context (tso : bool) (nblocks : N -> N) (slot : N -> N).
(** [nblocks v]: number of blocks of table [v].  [slot i]: the flags used by the
    handle of thread [i].  Flags are handed on from destroyed handles to new ones
    (Handles.v): thread [i] stands for whoever holds them, so different [i] have
    different [slot i].  The exception are moved handles, 236-247: the handle that
    was moved from keeps its reference to the flags. *)

Definition put_store (s : sst) (i : N) (x : store) : sst :=
  if tso then set_buf s i (s_buf s i ++ [x]) else commit s (slot i) x.

(** Read-modify-write accesses wait until the store buffer is empty. *)
Definition locked (s : sst) (i : N) (s' : sst) : option sst :=
  match s_buf s i with [] => Some s' | _ => None end.

(** migrate returns to grow or to help_grow. *)
Definition mig_return (k : caller) : spc :=
  match k with KOrg v => PGrow9 v | KHelp => PHelpWait end.

(** The next access of thread [i]. *)
Definition sync_go (s : sst) (i : N) : option sst :=
  match s_pc s i with
  | PUnreg => locked s i (set_pc s i PReserved)
  | PReserved => locked s i (set_pc (set_last s (N.max (s_last s) (slot i + 1))) i PIdle)
  | PIdle => Some (set_pc s i PGet1)
  | PGet1 =>
      match s_tab s with
      | TNull => Some s
      | TMarked _ => Some (set_pc s i (PMig1 KHelp))
      | TTab v => Some (set_pc s i (PGet2 v))
      end
  | PGet2 v => Some (set_pc (put_store s i (SOps (Some v))) i (PGet3 v))
  | PGet3 v =>
      match s_tab s with
      | TTab w => if w =? v then Some (set_pc s i (POp v)) else Some (set_pc s i PGet4)
      | _ => Some (set_pc s i PGet4)
      end
  | PGet4 => Some (set_pc (put_store s i (SOps None)) i PGet1)
  | POp v => Some (set_pc s i (PRls None))
  | PRls w =>
      Some (set_pc (put_store s i (SOps None)) i
              (match w with Some v => PGrow1 v | None => PIdle end))
  | PGrow1 v =>
      if v <? s_epoch s then Some (set_pc s i PIdle) else Some (set_pc s i (PGrow2 v (s_epoch s)))
  | PGrow2 v e =>
      locked s i (if s_epoch s =? e then set_pc (set_epoch s (v + 1)) i (PGrow3 v) else set_pc s i PIdle)
  | PGrow3 v =>
      match s_tab s with
      | TTab w => Some (set_pc s i (PGrow4 w))
      | _ => Some (set_pc s i PIdle)
      end
  | PGrow4 v =>
      locked s i
        match s_tab s with
        | TTab w => if w =? v then set_pc (set_tab s (TMarked v)) i (PGrow5 v) else set_pc s i PIdle
        | _ => set_pc s i PIdle
        end
  | PGrow5 v => Some (set_pc s i (PWaitOps v (s_last s) 0))
  | PWaitOps v e j =>
      if j <? e then
        match s_ops s j with
        | Some w => if w =? v then Some s else Some (set_pc s i (PWaitOps v e (j + 1)))
        | None => Some (set_pc s i (PWaitOps v e (j + 1)))
        end
      else Some (set_pc s i (PGrow7 v))
  | PGrow7 v => locked s i (set_pc (set_next s v) i (PMig1 (KOrg v)))
  | PGrow9 v => locked s i (set_pc (set_tab s TNull) i (PWaitStart v))
  | PWaitStart v => Some (set_pc s i (PWaitMig v (s_last s) 0))
  | PWaitMig v e j =>
      if j <? e then
        match s_mig s j with
        | Some _ => Some s
        | None => Some (set_pc s i (PWaitMig v e (j + 1)))
        end
      else Some (set_pc s i (PPublish v))
  | PPublish v => locked s i (set_pc (set_tab s (TTab (v + 1))) i (PDelete v))
  | PDelete v => Some (set_pc (set_deleted s v) i PIdle)
  | PMig1 k =>
      match s_tab s with
      | TMarked v => Some (set_pc s i (PMig2 k v))
      | _ => Some (set_pc s i (mig_return k))
      end
  | PMig2 k v =>
      (* [g]: the table is still the one being grown (not tested by the code) *)
      Some (set_pc (put_store s i (SMig (Some v))) i
              (PMig3 k v (match s_tab s with TMarked w => w =? v | _ => false end)))
  | PMig3 k v g =>
      if s_deleted s v then Some (set_pc s i (PFault v))
      else if s_next s v then Some (set_pc s i (PMig4 k v g)) else Some s
  | PMig4 k v g =>
      locked s i
        (if s_deleted s v then set_pc s i (PFault v)
         else let b := s_block s v in
              set_pc (set_block s v (b + 1)) i
                (if b <? nblocks v then PMig5 k v b g else PMig6 k v g))
  | PMig5 k v b g =>
      if s_deleted s v || s_deleted s (v + 1) then Some (set_pc s i (PFault v))
      else Some (set_pc (set_moved s v b) i (PMig4 k v g))
  | PMig6 k v g =>
      if s_deleted s (v + 1) then Some (set_pc s i (PFault (v + 1)))
      else Some (set_pc (put_store s i (SMig None)) i (mig_return k))
  | PHelpWait =>
      match s_tab s with
      | TTab _ => Some (set_pc s i PGet1)
      | _ => Some s
      end
  | PFault _ => None
  end.

(** A thread makes its next access; its operation asks for a growth step; its
    handle is destroyed (259-263, a sequentially consistent store); a store leaves
    its buffer. *)
Inductive slabel := SGo (i : N) | SWant (i : N) | SDestroy (i : N) | SFlush (i : N).

Definition sync_run1 (s : sst) (l : slabel) : option sst :=
  match l with
  | SGo i => sync_go s i
  | SWant i =>
      match s_pc s i with
      | POp v => Some (set_pc s i (PRls (Some v)))
      | _ => None
      end
  | SDestroy i =>
      match s_pc s i with
      | PIdle => locked s i (set_pc s i PUnreg)
      | _ => None
      end
  | SFlush i =>
      match s_buf s i with
      | [] => None
      | x :: l => Some (commit (set_buf s i l) (slot i) x)
      end
  end.

Definition sync_step (s s' : sst) : Prop := exists l, sync_run1 s l = Some s'.

Inductive sync_reachable : sst -> Prop :=
| sr_init : sync_reachable sync_init
| sr_step s s' : sync_reachable s -> sync_step s s' -> sync_reachable s'.

Fixpoint sync_run (s : sst) (ls : list slabel) : option sst :=
  match ls with
  | [] => Some s
  | l :: ls => match sync_run1 s l with Some s' => sync_run s' ls | None => None end
  end.

End Sync.
