(** Creation and destruction of handles: strategies/estrat_sync.hpp, register_handle
    and local_data_type. *)
From Coq Require Import NArith Bool List.
From Verif Require Import Words.
Import ListNotations.
Open Scope N_scope.

(** 64 max_sim_threads. *)
Definition max_handles : N := 256.

(** A handle object: not alive; register_handle at the test of slot [i] (206);
    register_handle at the exchange of slot [i] (208, 106-109); alive with flags
    [i]; alive with the index -1 (225, 233: the flags lie outside of the array). *)
Inductive hstate := HNone | HScan (i : N) | HTry (i : N) | HHas (i : N) | HBad.

(** [h_used i]: the flag [used] of slot [i]. *)
Record hsys := HSys { h_used : N -> bool; h_obj : N -> hstate }.

Definition hsys_init : hsys := HSys (fun _ => false) (fun _ => HNone).

(** The constructor starts (228-234); its next access; the destructor (259-263); the
    move constructor (236-247), which makes a new handle [u] out of [t]; [t] keeps
    no flags to release. *)
Inductive hlabel := HCreate (t : N) | HGo (t : N) | HDestroy (t : N) | HMove (t u : N).

Definition put (s : hsys) (t : N) (x : hstate) : hsys := HSys (h_used s) (fupd (h_obj s) t x).

Definition hsys_run1 (s : hsys) (l : hlabel) : option hsys :=
  match l with
  | HCreate t => match h_obj s t with HNone => Some (put s t (HScan 0)) | _ => None end
  | HGo t =>
      match h_obj s t with
      | HScan i =>
          (* 204-206; 222-225: the length_error is constructed but not thrown *)
          if i <? max_handles
          then Some (put s t (if h_used s i then HScan (i + 1) else HTry i))
          else Some (put s t HBad)
      | HTry i =>
          (* 208-218: on failure --i and ++i of the loop *)
          if h_used s i then Some (put s t (HScan i))
          else Some (put (HSys (fupd (h_used s) i true) (h_obj s)) t (HHas i))
      | _ => None
      end
  | HDestroy t =>
      match h_obj s t with
      | HHas i => Some (put (HSys (fupd (h_used s) i false) (h_obj s)) t HNone)
      | HBad => Some (put s t HNone)
      | _ => None
      end
  | HMove t u =>
      match h_obj s t, h_obj s u with
      | HHas i, HNone => Some (put (put s t HNone) u (HHas i))
      | HBad, HNone => Some (put (put s t HNone) u HBad)
      | _, _ => None
      end
  end.

Fixpoint hsys_run (s : hsys) (ls : list hlabel) : option hsys :=
  match ls with
  | [] => Some s
  | l :: ls => match hsys_run1 s l with Some s' => hsys_run s' ls | None => None end
  end.

Definition hsys_reachable (s : hsys) : Prop := exists ls, hsys_run hsys_init ls = Some s.
