(** The pool allocator: allocator/poolallocator.hpp.

    Every instantiation BasePoolAllocator<T, AS> has static members of its own
    ([initialized], [pool]: lines 81-86, 228-235), so that the state is a function of
    the type, a number here.  The pool itself is tbb's and not modelled: [Some n] is a
    live pool of [n] bytes.  Accesses are atomic ([initialized] is a sequentially
    consistent std::atomic; [pool] is written before it is announced). *)
From Coq Require Import NArith Bool List.
From Verif Require Import Words.
Import ListNotations.
Open Scope N_scope.

(** GROWT_MEMPOOL_SIZE without growt_config.h (37, 229). *)
Definition default_pool_size : N := 2 ^ 31.

(** Where a thread is; the comments name the next access.  [c]: within a constructor
    (143-150), otherwise within a direct call of init (123-140). *)
Inductive qpc :=
| QIdle                                  (* no allocator *)
| QCtor (t n : N)                        (* 145 load initialized *)
| QInit1 (c : bool) (t n : N)            (* 125 load initialized *)
| QInit2 (c : bool) (t n : N)            (* 128 CAS 0 -> 1 *)
| QInit3 (c : bool) (t n : N)            (* 130-131 AS().alloc *)
| QInit4 (c : bool) (t n : N)            (* 134 new tbb::fixed_pool *)
| QInit5 (c : bool) (t n : N)            (* 135 store initialized *)
| QSpin (t : N)                          (* 149 while (initialized.load() < 2) *)
| QHas (t : N)                           (* the thread has an allocator for type t *)
| QReset1 (t : N)                        (* 114 load initialized *)
| QReset2 (t : N)                        (* 116-117 delete pool, free its memory *)
| QReset3 (t : N)                        (* 118 store 0 *)
| QThrown                                (* std::bad_alloc left the allocator *)
| QNullPool (t : N).                     (* allocate has used a null or deleted pool *)

(** [q_made t]: pools made for type [t] so far (history only). *)
Record qst := QSt { q_init : N -> N; q_pool : N -> option N; q_made : N -> N; q_pc : N -> qpc }.

Definition pool_init : qst := QSt (fun _ => 0) (fun _ => None) (fun _ => 0) (fun _ => QIdle).

Definition q_at (s : qst) (i : N) (p : qpc) : qst := QSt (q_init s) (q_pool s) (q_made s) (fupd (q_pc s) i p).

(** What the thread does, or which call it begins.  [QGo i ok]: the next access of [i];
    [ok]: an allocation succeeds. *)
Inductive qlabel :=
| QGo (i : N) (ok : bool)
| QNew (i t n : N)                       (* BasePoolAllocator(n) *)
| QInitCall (i t n : N)                  (* init(n) *)
| QConvert (i t : N)                     (* 153-154: from an allocator of another type; does nothing *)
| QAllocate (i : N)                      (* 160-166 allocate *)
| QDrop (i : N)                          (* ~BasePoolAllocator *)
| QResetCall (i t : N).                  (* reset(), also called at exit *)

Definition after_init (c : bool) (t : N) : qpc := if c then QSpin t else QIdle.
Definition pool_size (n : N) : N := if n =? 0 then default_pool_size else n.

Definition pool_go (s : qst) (i : N) (ok : bool) : option qst :=
  match q_pc s i with
  | QCtor t n => Some (q_at s i (if 2 <=? q_init s t then QHas t else QInit1 true t n))
  | QInit1 c t n => Some (q_at s i (if q_init s t =? 0 then QInit2 c t n else after_init c t))
  | QInit2 c t n =>
      if q_init s t =? 0
      then Some (QSt (fupd (q_init s) t 1) (q_pool s) (q_made s) (fupd (q_pc s) i (QInit3 c t n)))
      else Some (q_at s i (after_init c t))
  | QInit3 c t n => Some (q_at s i (if ok then QInit4 c t n else QThrown))
  | QInit4 c t n =>
      Some (QSt (q_init s) (fupd (q_pool s) t (Some (pool_size n))) (fupd (q_made s) t (q_made s t + 1))
              (fupd (q_pc s) i (QInit5 c t n)))
  | QInit5 c t n =>
      Some (QSt (fupd (q_init s) t (pool_size n)) (q_pool s) (q_made s) (fupd (q_pc s) i (after_init c t)))
  | QSpin t => if q_init s t <? 2 then Some s else Some (q_at s i (QHas t))
  | QReset1 t => Some (q_at s i (if 2 <=? q_init s t then QReset2 t else QIdle))
  | QReset2 t => Some (QSt (q_init s) (fupd (q_pool s) t None) (q_made s) (fupd (q_pc s) i (QReset3 t)))
  | QReset3 t => Some (QSt (fupd (q_init s) t 0) (q_pool s) (q_made s) (fupd (q_pc s) i QIdle))
  | QIdle | QHas _ | QThrown | QNullPool _ => None
  end.

Definition pool_run1 (s : qst) (l : qlabel) : option qst :=
  match l with
  | QGo i ok => pool_go s i ok
  | QNew i t n => match q_pc s i with QIdle => Some (q_at s i (QCtor t n)) | _ => None end
  | QInitCall i t n => match q_pc s i with QIdle => Some (q_at s i (QInit1 false t n)) | _ => None end
  | QConvert i t => match q_pc s i with QIdle => Some (q_at s i (QHas t)) | _ => None end
  | QAllocate i =>
      match q_pc s i with
      | QHas t => match q_pool s t with Some _ => Some s | None => Some (q_at s i (QNullPool t)) end
      | _ => None
      end
  | QDrop i => match q_pc s i with QHas _ => Some (q_at s i QIdle) | _ => None end
  | QResetCall i t => match q_pc s i with QIdle => Some (q_at s i (QReset1 t)) | _ => None end
  end.

(** [pool_runs P s s']: from [s] to [s'] by steps of which each satisfies [P]. *)
Inductive pool_runs (P : qlabel -> Prop) (s : qst) : qst -> Prop :=
| pr_here : pool_runs P s s
| pr_step s1 l s2 : pool_runs P s s1 -> P l -> pool_run1 s1 l = Some s2 -> pool_runs P s s2.

Fixpoint pool_list (s : qst) (ls : list qlabel) : option qst :=
  match ls with
  | [] => Some s
  | l :: ls => match pool_run1 s l with Some s' => pool_list s' ls | None => None end
  end.

(** The use that works: allocations of the pool succeed, sizes differ from 1, allocators
    are not converted from other types, and the pool is not reset. *)
Definition proper (l : qlabel) : Prop :=
  match l with
  | QGo _ ok => ok = true
  | QNew _ _ n | QInitCall _ _ n => n <> 1
  | QConvert _ _ | QResetCall _ _ => False
  | QAllocate _ | QDrop _ => True
  end.
Definition steps_of (j : N) (ls : list qlabel) : N :=
  N.of_nat (length (filter (fun l => match l with QGo i _ => i =? j | _ => false end) ls)).
