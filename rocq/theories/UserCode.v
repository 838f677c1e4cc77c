(** Code of the user that runs inside of a call: the hash and comparison functions,
    and the functions passed to update and insert_or_update.  migration_table.hpp:328-351
    (execute, cexecute) calls get_table, runs the operation, and calls rls_table; there is
    no guard object, and nothing catches an exception. *)
From Coq Require Import NArith Bool List.
From Verif Require Import Words Sync Async.
Import ListNotations.
Open Scope N_scope.

(** ** The function throws

    The exception leaves execute between get_table and rls_table: the thread is outside
    of the call, and what get_table has announced stays.  (rls_table of the asynchronous
    strategy does nothing, estrat_async.hpp:180.) *)
Definition sync_throw (s : sst) (i : N) : option sst :=
  match s_pc s i with
  | POp _ => Some (set_pc s i PIdle)
  | _ => None
  end.
Definition async_throw (s : ast_) (i : N) : option ast_ :=
  match y_pc s i with
  | AOp => Some (with_pc s i AIdle)
  | _ => None
  end.

(** Steps of thread [i] with the synchronised strategy when functions may throw. *)
Definition sync_step_thr (tso : bool) (nblocks slot : N -> N) (i : N) (s s' : sst) : Prop :=
  (exists l, match l with SGo j | SWant j | SDestroy j | SFlush j => j = i end /\
     sync_run1 tso nblocks slot s l = Some s') \/
  sync_throw s i = Some s'.

(** [sync_after P s s']: from [s] to [s'] by steps of threads that satisfy [P]. *)
Inductive sync_after (tso : bool) (nblocks slot : N -> N) (P : N -> Prop) (s : sst) : sst -> Prop :=
| sf_here : sync_after tso nblocks slot P s s
| sf_step s1 i s2 : sync_after tso nblocks slot P s s1 -> P i -> sync_step_thr tso nblocks slot i s1 s2 ->
    sync_after tso nblocks slot P s s2.

Definition anybody (_ : N) : Prop := True.
Definition sync_reachable_thr (tso : bool) (nblocks slot : N -> N) : sst -> Prop :=
  sync_after tso nblocks slot anybody sync_init.

Inductive async_reachable_thr (nblocks : N -> N) : ast_ -> Prop :=
| at_init : async_reachable_thr nblocks async_init
| at_step s s' : async_reachable_thr nblocks s -> async_step nblocks s s' -> async_reachable_thr nblocks s'
| at_throw s i s' : async_reachable_thr nblocks s -> async_throw s i = Some s' -> async_reachable_thr nblocks s'.

(** ** The function calls the table through the same handle

    [r_out i]: the tables used by the calls of thread [i] that are suspended, the
    innermost first. *)
Record rst := RSt { r_s : sst; r_out : N -> list N }.

(** An access; the function begins (first nested call) or goes on between calls to the
    table; it returns to the operation, which goes on with the table that get_table had
    returned to it. *)
Inductive rlabel := RStep (l : slabel) | REnter (i : N) | RLeave (i : N).

Definition sync_nest1 (tso : bool) (nblocks slot : N -> N) (r : rst) (l : rlabel) : option rst :=
  let '(RSt s out) := r in
  match l with
  | RStep (SDestroy i) =>
      match out i with
      | [] => option_map (fun s' => RSt s' out) (sync_run1 tso nblocks slot s (SDestroy i))
      | _ => None
      end
  | RStep l => option_map (fun s' => RSt s' out) (sync_run1 tso nblocks slot s l)
  | REnter i =>
      match s_pc s i with
      | POp v => Some (RSt (set_pc s i PIdle) (fupd out i (v :: out i)))
      | _ => None
      end
  | RLeave i =>
      match s_pc s i, out i with
      | PIdle, v :: o => Some (RSt (set_pc s i (POp v)) (fupd out i o))
      | _, _ => None
      end
  end.

Fixpoint sync_nest (tso : bool) (nblocks slot : N -> N) (r : rst) (ls : list rlabel) : option rst :=
  match ls with
  | [] => Some r
  | l :: ls => match sync_nest1 tso nblocks slot r l with Some r' => sync_nest tso nblocks slot r' ls | None => None end
  end.
Definition sync_nest_init : rst := RSt sync_init (fun _ => []).

(** The same for the asynchronous strategy.  [n_use i]: the table the operation of thread
    [i] works on; get_table sets it to the table cached by the handle (208-213).  load
    (311-318) gives up the protection of the table cached before. *)
Record nst := NSt { n_s : ast_; n_out : N -> list N; n_use : N -> N }.

(** [NInvalid i]: the operation meets a marked cell in the table it works on and calls
    help_grow (migration_table.hpp:664-668); it replaces [YInvalid i]. *)
Inductive nlabel := NStep (l : alabel) | NInvalid (i : N) | NEnter (i : N) | NLeave (i : N).

Definition label_of (l : alabel) : N := match l with YGo i | YWant i | YInvalid i | YDestroy i => i end.

(** get_table has returned to thread [i]. *)
Definition got_table (s s' : ast_) (i : N) : bool :=
  match y_pc s i, y_pc s' i with
  | AOp, _ => false
  | _, AOp => true
  | _, _ => false
  end.

Definition async_nest1 (nblocks : N -> N) (n : nst) (l : nlabel) : option nst :=
  let '(NSt s out use) := n in
  match l with
  | NStep l =>
      let i := label_of l in
      match l, out i with
      | YDestroy _, _ :: _ => None
      | YInvalid _, _ => None
      | _, _ =>
          match async_run1 nblocks s l with
          | Some s' => Some (NSt s' out (if got_table s s' i then fupd use i (y_loc s' i) else use))
          | None => None
          end
      end
  | NInvalid i =>
      match y_pc s i with
      | AOp => if y_next s (use i) then Some (NSt (with_pc s i AMig1) out use) else None
      | _ => None
      end
  | NEnter i =>
      match y_pc s i with
      | AOp => Some (NSt (with_pc s i AIdle) (fupd out i (use i :: out i)) use)
      | _ => None
      end
  | NLeave i =>
      match y_pc s i, out i with
      | AIdle, v :: o => Some (NSt (with_pc s i AOp) (fupd out i o) (fupd use i v))
      | _, _ => None
      end
  end.

Fixpoint async_nest (nblocks : N -> N) (n : nst) (ls : list nlabel) : option nst :=
  match ls with
  | [] => Some n
  | l :: ls => match async_nest1 nblocks n l with Some n' => async_nest nblocks n' ls | None => None end
  end.
Definition async_nest_init : nst := NSt async_init (fun _ => []) (fun _ => 0).

(** Executions all of whose steps satisfy [P]. *)
Inductive async_nested (nblocks : N -> N) (P : nst -> nlabel -> Prop) : nst -> Prop :=
| an_init : async_nested nblocks P async_nest_init
| an_step n l n' : async_nested nblocks P n -> P n l -> async_nest1 nblocks n l = Some n' -> async_nested nblocks P n'.

(** ** Vocabulary *)

(** The thread has announced, or is about to withdraw, the table it uses. *)
Definition announced (p : spc) : Prop := match p with PGet3 _ | PGet4 | POp _ | PRls _ => True | _ => False end.

(** The function returns to an operation on the table its handle has cached. *)
Definition same_table (n : nst) (l : nlabel) : Prop :=
  match l with
  | NLeave i => forall v, hd_error (n_out n i) = Some v -> v = y_loc (n_s n) i
  | _ => True
  end.

(** The handle of thread [i] keeps table [v] alive: it has cached it, or helps to migrate
    it (256, 282). *)
Definition keeps (s : ast_) (i v : N) : Prop :=
  match y_pc s i with
  | AUnreg | AInit => False
  | AMig3 w | AMigNo w | AMig4 w | AMig5 w _ | AMig6 w => y_loc s i = v \/ w = v
  | _ => y_loc s i = v
  end.
(** Table [v] has been replaced and given to safe_delete (346), and nobody keeps it. *)
Definition gone (s : ast_) (v : N) : Prop := v < y_epoch s /\ forall i, ~ keeps s i v.
