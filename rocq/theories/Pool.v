(** The asynchronous growing strategy with pool threads as workers:
    strategies/wstrat_pool.hpp, strategies/counting_wait.hpp and
    strategies/estrat_async.hpp.

    As in Async.v tables are named by their version, protected tables exist, moving
    a block is one step and accesses are atomic.  A futex wait compares and falls
    asleep in one step; a wake wakes every sleeper of that futex (the code asks for
    9999).  Spurious wake-ups are not modelled: there are none besides the calls of
    wake.  Handles are not moved. *)
From Coq Require Import NArith Bool List.
From Verif Require Import Words.
Import ListNotations.
Open Scope N_scope.

(** What follows the wait for a version. *)
Inductive after := ToSpawn | ToOp | ToIdle.

(** The thread of a handle; the comments name the access that comes next. *)
Inductive upc :=
| UUnreg                       (* no handle *)
| UInit                        (* estrat_async.hpp 200 protect(_global._table) *)
| ULoad (k : after)            (* 313 protect(_global._table) *)
| UWait (k : after)            (* 201, 314: while (_table->_version != _epoch) *)
| USpawn                       (* wstrat_pool.hpp 170-172 the pool thread is started *)
| UIdle                        (* estrat_async.hpp 210 load _epoch *)
| UOp                          (* an operation uses the cached table *)
| UGrow                        (* 222-229 CAS of next_table *)
| UInc                         (* wstrat_pool.hpp 198 _grow_wait.inc_if *)
| UWake                        (* 198 _grow_wait.wake *)
| UCheck                       (* 200 _user_wait.wait_if: compare *)
| UAsleep                      (* 200 asleep *)
| UEnd1                        (* estrat_async.hpp 325 load _n_helper *)
| UEnd2                        (* 330 load next_table of the cached table *)
| UEnd3                        (* 332 CAS of _global._table *)
| UEnd4                        (* 344 store _epoch *)
| UFin1                        (* wstrat_pool.hpp 182 _finished->store(1) *)
| UFin2                        (* 184 load _finished; 187 join *)
| UFin3.                       (* 185 _grow_wait.wake *)

(** The pool thread of a handle. *)
Inductive ppc :=
| PNone                        (* no thread *)
| PWait                        (* wstrat_pool.hpp 119 _grow_wait.wait_if: compare *)
| PAsleep                      (* 119 asleep *)
| PFin                         (* 120 load finished *)
| PMig1                        (* estrat_async.hpp 251 ++_n_helper *)
| PMig2                        (* 256 protect(_global._table) *)
| PMig3 (v : N)                (* 263 load next_table of table v *)
| PMigNo (v : N)               (* 265 --_n_helper *)
| PMig4 (v : N)                (* 297, 305 fetch_add on table v *)
| PMig5 (v b : N)              (* 300-304 block [b] is moved *)
| PMig6 (v : N)                (* 280 --_n_helper *)
| PInc (n : N)                 (* wstrat_pool.hpp 124 _user_wait.inc_if; migrate returned n *)
| PWake (n : N)                (* 125 _user_wait.wake; 126 epoch = n *)
| PStop                        (* 128 finished.store(2) *)
| PDone.

(** [p_tab] ... [p_moved], [p_loc], [p_lep] as in Async.v.  [p_gw], [p_uw]: the
    counters of _grow_wait and _user_wait.  [p_pep i]: the variable epoch of the pool
    thread of handle [i].  [p_fin i]: its flag finished. *)
Record pst := PSt {
  p_tab : N; p_epoch : N; p_help : N;
  p_next : N -> bool; p_block : N -> N; p_moved : N -> N -> bool;
  p_gw : N; p_uw : N;
  p_upc : N -> upc; p_loc : N -> N; p_lep : N -> N;
  p_ppc : N -> ppc; p_pep : N -> N; p_fin : N -> N }.

(** wstrat_pool.hpp 52: both counters are 0. *)
Definition pool_init : pst :=
  PSt 0 0 0 (fun _ => false) (fun _ => 0) (fun _ _ => false) 0 0
      (fun _ => UUnreg) (fun _ => 0) (fun _ => 0) (fun _ => PNone) (fun _ => 0) (fun _ => 0).

(** counting_wait.hpp 64-68 wake. *)
Definition wake_users (u : N -> upc) : N -> upc :=
  fun i => match u i with UAsleep => UEnd1 | p => p end.
Definition wake_pool (u : N -> ppc) : N -> ppc :=
  fun i => match u i with PAsleep => PFin | p => p end.

Section Pool.
Context (nblocks : N -> N).

(** The next access of the thread of handle [i]. *)
Definition user_go (s : pst) (i : N) : option pst :=
  let '(PSt tb ep hp nx bl mv gw uw up lo le pp pe fi) := s in
  let stay p := Some (PSt tb ep hp nx bl mv gw uw (fupd up i p) lo le pp pe fi) in
  match up i with
  | UUnreg => stay UInit
  | UInit => Some (PSt tb ep hp nx bl mv gw uw (fupd up i (UWait ToSpawn)) (fupd lo i tb) le pp pe fi)
  | ULoad k => Some (PSt tb ep hp nx bl mv gw uw (fupd up i (UWait k)) (fupd lo i tb) le pp pe fi)
  | UWait k =>
      if lo i =? ep
      then Some (PSt tb ep hp nx bl mv gw uw
                  (fupd up i (match k with ToSpawn => USpawn | ToOp => UOp | ToIdle => UIdle end))
                  lo (fupd le i (lo i)) pp pe fi)
      else Some s
  | USpawn =>
      (* 116: epoch = 0 *)
      Some (PSt tb ep hp nx bl mv gw uw (fupd up i UIdle) lo le
                (fupd pp i PWait) (fupd pe i 0) (fupd fi i 0))
  | UIdle => stay (if le i <? ep then ULoad ToOp else UOp)
  | UOp => stay UIdle
  | UGrow => Some (PSt tb ep hp (fupd nx (lo i) true) bl mv gw uw (fupd up i UInc) lo le pp pe fi)
  | UInc =>
      if gw =? le i
      then Some (PSt tb ep hp nx bl mv (le i + 1) uw (fupd up i UWake) lo le pp pe fi)
      else stay UCheck
  | UWake => Some (PSt tb ep hp nx bl mv gw uw (fupd up i UCheck) lo le (wake_pool pp) pe fi)
  | UCheck => stay (if uw =? le i then UAsleep else UEnd1)
  | UAsleep => None
  | UEnd1 => if hp =? 0 then stay UEnd2 else Some s
  | UEnd2 => if nx (lo i) then stay UEnd3 else None
  | UEnd3 =>
      if tb =? lo i
      then Some (PSt (lo i + 1) ep hp nx bl mv gw uw (fupd up i UEnd4) lo le pp pe fi)
      else stay (ULoad ToIdle)
  | UEnd4 => Some (PSt tb (lo i + 1) hp nx bl mv gw uw (fupd up i (ULoad ToIdle)) lo le pp pe fi)
  | UFin1 => Some (PSt tb ep hp nx bl mv gw uw (fupd up i UFin2) lo le pp pe (fupd fi i 1))
  | UFin2 => stay (if fi i <? 2 then UFin3 else UUnreg)
  | UFin3 => Some (PSt tb ep hp nx bl mv gw uw (fupd up i UFin2) lo le (wake_pool pp) pe fi)
  end.

(** The next access of the pool thread of handle [i]. *)
Definition pool_go (s : pst) (i : N) : option pst :=
  let '(PSt tb ep hp nx bl mv gw uw up lo le pp pe fi) := s in
  let stay p := Some (PSt tb ep hp nx bl mv gw uw up lo le (fupd pp i p) pe fi) in
  match pp i with
  | PNone => None
  | PWait => stay (if gw =? pe i then PAsleep else PFin)
  | PAsleep => None
  | PFin => stay (if fi i =? 0 then PMig1 else PStop)
  | PMig1 => Some (PSt tb ep (hp + 1) nx bl mv gw uw up lo le (fupd pp i PMig2) pe fi)
  | PMig2 => stay (PMig3 tb)
  | PMig3 v => stay (if nx v then PMig4 v else PMigNo v)
  | PMigNo v => Some (PSt tb ep (hp - 1) nx bl mv gw uw up lo le (fupd pp i (PInc v)) pe fi)
  | PMig4 v =>
      let b := bl v in
      Some (PSt tb ep hp nx (fupd bl v (b + 1)) mv gw uw up lo le
              (fupd pp i (if b <? nblocks v then PMig5 v b else PMig6 v)) pe fi)
  | PMig5 v b =>
      Some (PSt tb ep hp nx bl (fupd mv v (fupd (mv v) b true)) gw uw up lo le (fupd pp i (PMig4 v)) pe fi)
  | PMig6 v => Some (PSt tb ep (hp - 1) nx bl mv gw uw up lo le (fupd pp i (PInc (v + 1))) pe fi)
  | PInc n =>
      Some (PSt tb ep hp nx bl mv gw (if uw =? pe i then uw + 1 else uw) up lo le
              (fupd pp i (PWake n)) pe fi)
  | PWake n =>
      Some (PSt tb ep hp nx bl mv gw uw (wake_users up) lo le (fupd pp i PWait) (fupd pe i n) fi)
  | PStop => Some (PSt tb ep hp nx bl mv gw uw up lo le (fupd pp i PDone) pe (fupd fi i 2))
  | PDone => None
  end.

Definition with_upc (s : pst) (i : N) (p : upc) : pst :=
  PSt (p_tab s) (p_epoch s) (p_help s) (p_next s) (p_block s) (p_moved s) (p_gw s) (p_uw s)
      (fupd (p_upc s) i p) (p_loc s) (p_lep s) (p_ppc s) (p_pep s) (p_fin s).

(** [ZUser], [ZPool]: next access.  [ZWant]: an operation calls grow.  [ZInvalid]: an
    operation meets a marked cell and calls help_grow (only after a block of its
    table was handed out).  [ZDestroy]: the destructor of a handle. *)
Inductive zlabel := ZUser (i : N) | ZPool (i : N) | ZWant (i : N) | ZInvalid (i : N) | ZDestroy (i : N).

Definition pool_run1 (s : pst) (l : zlabel) : option pst :=
  match l with
  | ZUser i => user_go s i
  | ZPool i => pool_go s i
  | ZWant i => match p_upc s i with UOp => Some (with_upc s i UGrow) | _ => None end
  | ZInvalid i =>
      match p_upc s i with
      | UOp => if 0 <? p_block s (p_loc s i) then Some (with_upc s i UInc) else None
      | _ => None
      end
  | ZDestroy i => match p_upc s i with UIdle => Some (with_upc s i UFin1) | _ => None end
  end.

Definition pool_step (s s' : pst) : Prop := exists l, pool_run1 s l = Some s'.

Inductive pool_reachable : pst -> Prop :=
| pr_init : pool_reachable pool_init
| pr_step s s' : pool_reachable s -> pool_step s s' -> pool_reachable s'.

Fixpoint pool_run (s : pst) (ls : list zlabel) : option pst :=
  match ls with
  | [] => Some s
  | l :: ls => match pool_run1 s l with Some s' => pool_run s' ls | None => None end
  end.

End Pool.
