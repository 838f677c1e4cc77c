(** Model: tables of fixed size on a processor with store buffers (x86).

    Nearly every write to a cell is a locked instruction: simple_slot.hpp:332-345 [cas],
    347-352 [atomic_delete], 403-423 the update of a function without member [atomic].
    The exception is a function whose member [atomic] is a plain assignment, such as
    example/update_fcts.hpp:32-53 [Overwrite], which simple_slot.hpp:387-402 calls on the
    mapped value inside the cell if cells cannot be marked.  Such a store sits in the store
    buffer of its core for a while.

    Simplified: threads stay on their cores; compilers translate the assignment into one store
    (the language calls it a data race); a member [atomic] that reads the value before it
    assigns does both in one step (its store may be buffered as early as its read). *)
From Coq Require Import NArith Bool List.
From Verif Require Import Words Slot Mapper ReturnCode MapSpec LinSpec Base.
Import ListNotations.
Open Scope N_scope.

(** A buffered store: cell and new mapped value. *)
Definition write := (N * N)%type.

(** The mapped value of a cell is replaced, its key stays. *)
Definition store_word (t : mem) (w : write) : mem :=
  match t (fst w) with
  | Some s => fupd t (fst w) (Some (Slot (skey s) (snd w)))
  | None => t
  end.

(** What a thread sees: memory behind its own buffered stores. *)
Definition view (t : mem) (q : list write) : mem := fold_left store_word q t.

(** Memory, the store buffer of every thread (oldest first), calls in progress. *)
Record tsys := TSys { xmem : mem; xbuf : N -> list write; xthr : N -> option (op * bpc) }.

(** The next instruction of the call is a plain store; [plain f]: the member [atomic] of
    [f] assigns instead of using an atomic instruction (update_fcts.hpp:44-49). *)
Definition plain_store (c : tcfg) (plain : functor -> bool) (o : op) (pc : bpc) : bool :=
  match pc with
  | PUpd _ _ =>
      negb (sc_mark (tsc c)) && match fat (op_fun o) with Some _ => plain (op_fun o) | None => false end
  | _ => false
  end.

(** simple_slot.hpp:394-401: [f.atomic(temp->second, args...)], a store into the buffer. *)
Definition put (c : tcfg) (m : mapper) (t : mem) (q : list write) (o : op) (i : N) (curr : slot)
  : list write * bpc :=
  let p := remap (tmc c) m i in
  match rd c m (view t q) p, fat (op_fun o) with
  | Some cell, Some g =>
      let '(d, r) := g (sdata cell) in
      (q ++ [(p, d)], PDone (BRet RC_SUCCESS_UP (Slot (get_key (tsc c) curr) r) (Some p)))
  | _, _ => (q, PBad)
  end.

Inductive tso_step (c : tcfg) (m : mapper) (plain : functor -> bool) (client : op -> Prop)
  : tsys -> option (event mop mres) -> tsys -> Prop :=
| ts_inv t q th u o :
    th u = None -> client o ->
    tso_step c m plain client (TSys t q th) (Some (EInv u (spec_op (tsc c) o)))
      (TSys t q (fupd th u (Some (o, start c m o))))
(** a load (simple_slot.hpp:311-321): own buffered stores are seen, those of others are not *)
| ts_load t q th u o i b t' pc' :
    th u = Some (o, PLoad i) -> bstep c m (view t (q u)) b o (PLoad i) = (t', pc') ->
    tso_step c m plain client (TSys t q th) None (TSys t q (fupd th u (Some (o, pc'))))
(** a plain store *)
| ts_store t q th u o i curr q' pc' :
    th u = Some (o, PUpd i curr) -> plain_store c plain o (PUpd i curr) = true ->
    put c m t (q u) o i curr = (q', pc') ->
    tso_step c m plain client (TSys t q th) None (TSys t (fupd q u q') (fupd th u (Some (o, pc'))))
(** a locked instruction: waits until the own buffer is empty, acts on memory *)
| ts_lock t q th u o pc b t' pc' :
    th u = Some (o, pc) -> (forall i, pc <> PLoad i) -> (forall r, pc <> PDone r) ->
    plain_store c plain o pc = false -> q u = [] ->
    bstep c m t b o pc = (t', pc') ->
    tso_step c m plain client (TSys t q th) None (TSys t' q (fupd th u (Some (o, pc'))))
(** the oldest buffered store of a thread reaches memory *)
| ts_drain t q th u w l :
    q u = w :: l ->
    tso_step c m plain client (TSys t q th) None (TSys (store_word t w) (fupd q u l) th)
(** a migrating thread marks a cell *)
| ts_mark t q th p s :
    sc_mark (tsc c) = true -> p < total_slots (tmc c) m -> t p = Some s ->
    tso_step c m plain client (TSys t q th) None
      (TSys (fupd t p (Some (mark_slot (tsc c) s))) q th)
| ts_ret t q th u o r :
    th u = Some (o, PDone r) ->
    tso_step c m plain client (TSys t q th) (Some (ERet u (obs o r)))
      (TSys t q (fupd th u None)).

(** A fresh table, empty buffers, no call in progress. *)
Definition tso_init (c : tcfg) (m : mapper) : tsys :=
  TSys (fresh_mem c m) (fun _ => []) (fun _ => None).

(** Clients that wait after every call until their buffer is empty (a fence instruction,
    which the table does not issue itself): a call responds with an empty buffer only. *)
Definition tso_fenced (c : tcfg) (m : mapper) (plain : functor -> bool) (client : op -> Prop)
  (s : tsys) (l : option (event mop mres)) (s' : tsys) : Prop :=
  tso_step c m plain client s l s' /\ forall u r, l = Some (ERet u r) -> xbuf s u = [].
