(** Model: the calls that update without atomic instructions.

    base_linear.hpp:685-721 [update_unsafe_intern] and 775-822 [insert_or_update_unsafe_intern]
    are copies of 604-640 [update_intern] and 724-773 [insert_or_update_intern] that call
    [non_atomic_update] (simple_slot.hpp:451-465, single_word_slot.hpp:460-474): the function
    works on the mapped value inside the cell, by a load and a later store.  Nothing is
    compared, and the call always succeeds.  On growing tables the handles call the same
    functions (migration_table.hpp:724-762, 845-922).

    base_linear.hpp:1061,1080 ask for [slot_type::needs_cleanup], which no slot type has
    (it is a member of [slot_config]): the fixed-size insert_or_update_unsafe and
    emplace_or_update_unsafe do not compile; the model gives them their evident meaning.

    Not modelled here: tables of pointers, where complex_slot.hpp:608-617 [non_atomic_update]
    calls the member [atomic] as [atomic_update] does. *)
From Coq Require Import NArith Bool List.
From Verif Require Import Words Slot Mapper ReturnCode MapSpec LinSpec Base Migrate GrowSpec Tso.
Import ListNotations.
Open Scope N_scope.

(** Calls: those of Base.v and the two unsafe ones.  emplace_or_update_unsafe
    (base_linear.hpp:1066-1085) is insert_or_update_unsafe. *)
Inductive call :=
| Safe (o : op)
| UpdateUnsafe (k : N) (f : N -> N)        (* update_unsafe *)
| IouUnsafe (k d : N) (f : N -> N).        (* insert_or_update_unsafe *)

Definition unsafe (q : call) : Prop := match q with Safe _ => False | _ => True end.

(** The call whose search for the cell is the same (base_linear.hpp:685-707 and 604-626,
    775-804 and 724-753). *)
Definition as_safe (q : call) : op :=
  match q with
  | Safe o => o
  | UpdateUnsafe k f => OUpdate k (Functor f None)
  | IouUnsafe k d f => OIou k d (Functor f None)
  end.

Definition call_key (q : call) : N := op_key (as_safe q).

(** Program points: those of Base.v, and an unsafe update that has loaded the cell. *)
Inductive upc :=
| UAt (pc : bpc)
| UStore (i : N) (curr : slot).

Record usys := USys { umem : mem; uthr : N -> option (call * upc) }.

(** Steps of the calls. *)
Inductive call_step (c : tcfg) (m : mapper) (client : call -> Prop)
  : usys -> option (event mop mres) -> usys -> Prop :=
| us_inv t th u q :
    th u = None -> client q ->
    call_step c m client (USys t th) (Some (EInv u (spec_op (tsc c) (as_safe q))))
      (USys t (fupd th u (Some (q, UAt (start c m (as_safe q))))))
| us_run t th u q pc b t' pc' :
    th u = Some (q, UAt pc) -> (forall r, pc <> PDone r) ->
    (unsafe q -> forall i s, pc <> PUpd i s) ->
    bstep c m t b (as_safe q) pc = (t', pc') ->
    call_step c m client (USys t th) None (USys t' (fupd th u (Some (q, UAt pc'))))
(** simple_slot.hpp:459-460: "curr = this->load()"; 462: the function reads the value (in the
    model together with [curr], of which only the key is used) *)
| us_read t th u q i s curr :
    th u = Some (q, UAt (PUpd i s)) -> unsafe q ->
    rd c m t (remap (tmc c) m i) = Some curr ->
    call_step c m client (USys t th) None (USys t (fupd th u (Some (q, UStore i curr))))
(** simple_slot.hpp:461-464: the function writes the value; the call reports it *)
| us_store t th u q i curr :
    th u = Some (q, UStore i curr) ->
    call_step c m client (USys t th) None
      (USys (store_word t (remap (tmc c) m i, fn (op_fun (as_safe q)) (sdata curr)))
            (fupd th u (Some (q, UAt (PDone (BRet RC_SUCCESS_UP
               (fst (non_atomic_update (tsc c) curr (op_fun (as_safe q)))) (Some (remap (tmc c) m i))))))))
| us_ret t th u q r :
    th u = Some (q, UAt (PDone r)) ->
    call_step c m client (USys t th) (Some (ERet u (obs (as_safe q) r))) (USys t (fupd th u None)).

(** One table: calls, and a migrating thread that marks a cell (as in Base.v). *)
Inductive u_step (c : tcfg) (m : mapper) (client : call -> Prop)
  : usys -> option (event mop mres) -> usys -> Prop :=
| u_call s l s' : call_step c m client s l s' -> u_step c m client s l s'
| u_mark t th p s :
    sc_mark (tsc c) = true -> p < total_slots (tmc c) m -> t p = Some s ->
    u_step c m client (USys t th) None (USys (fupd t p (Some (mark_slot (tsc c) s))) th).

Definition usys_init (c : tcfg) (m : mapper) : usys := USys (fresh_mem c m) (fun _ => None).

(** A table that is migrated (Migrate.v) while calls run on it, as on asynchronously growing
    tables. *)
Inductive um_step (c : tcfg) (ms mt : mapper) (B : N) (client : call -> Prop)
  : msys * (N -> option (call * upc)) -> option (event mop mres) ->
    msys * (N -> option (call * upc)) -> Prop :=
| um_help x th x' :
    msys_step c ms mt B nobody x None x' -> um_step c ms mt B client (x, th) None (x', th)
| um_call x th l t' th' :
    call_step c ms client (USys (msrc x) th) l (USys t' th') ->
    um_step c ms mt B client (x, th) l
      (MSys t' (mtgt x) (mctr x) (mhlp x) (mthr x), th').
