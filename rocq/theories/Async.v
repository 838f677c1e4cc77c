(** The asynchronous growing strategy: strategies/estrat_async.hpp with user threads
    as workers (strategies/wstrat_user.hpp) and the calls of migration_table.hpp
    that lead into it.

    Tables are named by their version: the successor of [v] is [v+1].  Tables are
    kept alive by the reclamation of the utils submodule, which is not part of the
    repository: a protected table is assumed to exist, and deletion is not modelled.
    What operations do on a table and how a block is moved is left out here (see
    Base.v and Migrate.v): an operation is a period in which a thread uses a
    table, a migration moves numbered blocks.  Accesses are atomic. *)
From Coq Require Import NArith Bool List.
From Verif Require Import Words.
Import ListNotations.
Open Scope N_scope.

(** Where the thread of a handle is.  The comments name the access that comes next
    (lines of estrat_async.hpp). *)
Inductive apc :=
| AUnreg                         (* no handle *)
| AInit                          (* init: 200 protect(_global._table) *)
| AIdle                          (* between operations: 210 load _epoch *)
| ALoad (op : bool)              (* load: 314 protect(_global._table); [op]: then use it *)
| AWait (op : bool)              (* 201, 315: while (_table->_version != _epoch) *)
| AOp                            (* an operation uses the cached table *)
| AGrow                          (* grow: 222-229 CAS of next_table *)
| AMig1                          (* migrate: 251 ++_n_helper *)
| AMig2                          (* 256 protect(_global._table) *)
| AMig3 (v : N)                  (* 263 load next_table of table v *)
| AMigNo (v : N)                 (* 265 --_n_helper *)
| AMig4 (v : N)                  (* 297, 305 fetch_add on table v *)
| AMig5 (v b : N)                (* 300-304 block [b] is moved *)
| AMig6 (v : N)                  (* 280 --_n_helper *)
| AEnd1                          (* end_grow: 325 load _n_helper *)
| AEnd2                          (* 330 load next_table of the cached table *)
| AEnd3                          (* 332 CAS of _global._table *)
| AEnd4.                         (* 344 store _epoch *)

(** [y_tab]: version of _global._table.  [y_epoch]: _global._epoch.  [y_help]:
    _n_helper.  [y_next v]: next_table of [v] is set.  [y_block v]: blocks of [v]
    handed out.  [y_moved]: blocks moved.  For each thread its program counter, the
    version of its cached table [y_loc] and its cached epoch [y_lep]. *)
Record ast_ := ASt {
  y_tab : N; y_epoch : N; y_help : N;
  y_next : N -> bool; y_block : N -> N; y_moved : N -> N -> bool;
  y_pc : N -> apc; y_loc : N -> N; y_lep : N -> N }.

(** 106-113: one table of version 0. *)
Definition async_init : ast_ :=
  ASt 0 0 0 (fun _ => false) (fun _ => 0) (fun _ _ => false) (fun _ => AUnreg) (fun _ => 0) (fun _ => 0).

Definition with_pc (s : ast_) (i : N) (p : apc) : ast_ :=
  ASt (y_tab s) (y_epoch s) (y_help s) (y_next s) (y_block s) (y_moved s) (fupd (y_pc s) i p) (y_loc s) (y_lep s).

Section Async.
Context (nblocks : N -> N).
(** [nblocks v]: number of blocks of table [v]. *)

(** The next access of thread [i]. *)
Definition async_go (s : ast_) (i : N) : option ast_ :=
  let '(ASt tb ep hp nx bl mv pc lo le) := s in
  match pc i with
  | AUnreg => Some (ASt tb ep hp nx bl mv (fupd pc i AInit) lo le)
  | AInit => Some (ASt tb ep hp nx bl mv (fupd pc i (AWait false)) (fupd lo i tb) le)
  | AIdle =>
      if le i <? ep then Some (ASt tb ep hp nx bl mv (fupd pc i (ALoad true)) lo le)
      else Some (ASt tb ep hp nx bl mv (fupd pc i AOp) lo le)
  | ALoad o => Some (ASt tb ep hp nx bl mv (fupd pc i (AWait o)) (fupd lo i tb) le)
  | AWait o =>
      if lo i =? ep
      then Some (ASt tb ep hp nx bl mv (fupd pc i (if o then AOp else AIdle)) lo (fupd le i (lo i)))
      else Some s
  | AOp => Some (ASt tb ep hp nx bl mv (fupd pc i AIdle) lo le)
  | AGrow => Some (ASt tb ep hp (fupd nx (lo i) true) bl mv (fupd pc i AMig1) lo le)
  | AMig1 => Some (ASt tb ep (hp + 1) nx bl mv (fupd pc i AMig2) lo le)
  | AMig2 => Some (ASt tb ep hp nx bl mv (fupd pc i (AMig3 tb)) lo le)
  | AMig3 v => Some (ASt tb ep hp nx bl mv (fupd pc i (if nx v then AMig4 v else AMigNo v)) lo le)
  | AMigNo v => Some (ASt tb ep (hp - 1) nx bl mv (fupd pc i AEnd1) lo le)
  | AMig4 v =>
      let b := bl v in
      Some (ASt tb ep hp nx (fupd bl v (b + 1)) mv
              (fupd pc i (if b <? nblocks v then AMig5 v b else AMig6 v)) lo le)
  | AMig5 v b =>
      Some (ASt tb ep hp nx bl (fupd mv v (fupd (mv v) b true)) (fupd pc i (AMig4 v)) lo le)
  | AMig6 v => Some (ASt tb ep (hp - 1) nx bl mv (fupd pc i AEnd1) lo le)
  | AEnd1 => if hp =? 0 then Some (ASt tb ep hp nx bl mv (fupd pc i AEnd2) lo le) else Some s
  | AEnd2 =>
      (* a null pointer would be installed by the CAS; shown not to happen *)
      if nx (lo i) then Some (ASt tb ep hp nx bl mv (fupd pc i AEnd3) lo le) else None
  | AEnd3 =>
      if tb =? lo i then Some (ASt (lo i + 1) ep hp nx bl mv (fupd pc i AEnd4) lo le)
      else Some (ASt tb ep hp nx bl mv (fupd pc i (ALoad false)) lo le)
  | AEnd4 => Some (ASt tb (lo i + 1) hp nx bl mv (fupd pc i (ALoad false)) lo le)
  end.

(** A thread makes its next access; its operation finds the table full or the fill
    limit passed and calls grow; its operation meets a marked cell and calls
    help_grow (marks are made by helpers only, so a migration has begun); its
    handle is destroyed. *)
Inductive alabel := YGo (i : N) | YWant (i : N) | YInvalid (i : N) | YDestroy (i : N).

Definition async_run1 (s : ast_) (l : alabel) : option ast_ :=
  match l with
  | YGo i => async_go s i
  | YWant i => match y_pc s i with AOp => Some (with_pc s i AGrow) | _ => None end
  | YInvalid i =>
      match y_pc s i with
      | AOp => if y_next s (y_loc s i) then Some (with_pc s i AMig1) else None
      | _ => None
      end
  | YDestroy i => match y_pc s i with AIdle => Some (with_pc s i AUnreg) | _ => None end
  end.

Definition async_step (s s' : ast_) : Prop := exists l, async_run1 s l = Some s'.

Inductive async_reachable : ast_ -> Prop :=
| ar_init : async_reachable async_init
| ar_step s s' : async_reachable s -> async_step s s' -> async_reachable s'.

Fixpoint async_run (s : ast_) (ls : list alabel) : option ast_ :=
  match ls with
  | [] => Some s
  | l :: ls => match async_run1 s l with Some s' => async_run s' ls | None => None end
  end.

End Async.
