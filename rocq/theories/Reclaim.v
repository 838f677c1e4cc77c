(** How replaced tables are freed: strategies/estrat_async.hpp with the counting
    reclamation of the utils submodule.  The submodule is not part of the repository; from
    its use this is assumed: every table has a counter of protections, protect(p) raises the
    counter of the table that p points to (as one step with the load of p), unprotect
    lowers it, safe_delete marks the table, and the table is freed when it is marked and
    its counter is 0, by whoever brings that about. *)
From Coq Require Import NArith Bool List.
From Verif Require Import Words Async.
Import ListNotations.
Open Scope N_scope.

(** What a thread still has to do before its next access of [Async]. *)
Inductive todo :=
| DProt (v : N)      (* 270 protect(curr->next_table) *)
| DUnprot (v : N)    (* 267, 284-285, 313 unprotect *)
| DDelete (v : N).   (* 346 safe_delete *)

(** [q_cnt], [q_mark]: counter and mark of each table.  [q_frees v]: how often [v] has
    been freed.  [q_todo i]: see above.  [q_lost v] is history only: how many handles have
    been destroyed while [v] was their cached table. *)
Record qst := QSt {
  q_s : ast_; q_cnt : N -> N; q_mark : N -> bool; q_frees : N -> N;
  q_todo : N -> list todo; q_lost : N -> N }.

Definition q_init : qst := QSt async_init (fun _ => 0) (fun _ => false) (fun _ => 0) (fun _ => []) (fun _ => 0).

(** One call of the reclamation. *)
Definition q_do (q : qst) (t : todo) : qst :=
  let '(QSt s c m f td lo) := q in
  match t with
  | DProt v => QSt s (fupd c v (c v + 1)) m f td lo
  | DUnprot v =>
      let c' := c v - 1 in
      QSt s (fupd c v c') m (if (c' =? 0) && m v then fupd f v (f v + 1) else f) td lo
  | DDelete v => QSt s c (fupd m v true) (if c v =? 0 then fupd f v (f v + 1) else f) td lo
  end.

(** The protection that is part of the next access: init 200, load 314, migrate 256. *)
Definition prot_now (s : ast_) (i : N) : option N :=
  match y_pc s i with
  | AInit | ALoad _ | AMig2 => Some (y_tab s)
  | _ => None
  end.

(** What the thread has to do after its next access. *)
Definition todo_after (s : ast_) (i : N) : list todo :=
  match y_pc s i with
  | AIdle => if y_lep s i <? y_epoch s then [DUnprot (y_loc s i)] else []     (* 211 load: 313 *)
  | AMig3 v => if y_next s v then [DProt (v + 1)] else []                      (* 270 *)
  | AMigNo v => [DUnprot v]                                                    (* 267 *)
  | AMig6 v => [DUnprot v; DUnprot (v + 1)]                                    (* 284-285 *)
  | AEnd3 => if y_tab s =? y_loc s i then [] else [DUnprot (y_loc s i)]        (* 349 load: 313 *)
  | AEnd4 => [DDelete (y_loc s i); DUnprot (y_loc s i)]                        (* 346, 349 load: 313 *)
  | _ => []
  end.

Section Reclaim.
Context (nblocks : N -> N).

(** A destroyed handle does not unprotect its cached table: deinit (167) is empty and the
    destructor (164) is the default one. *)
Definition q_run1 (q : qst) (l : alabel) : option qst :=
  let '(QSt s c m f td lo) := q in
  match l with
  | YGo i =>
      match td i with
      | t :: ts => Some (q_do (QSt s c m f (fupd td i ts) lo) t)
      | [] =>
          match async_go nblocks s i with
          | None => None
          | Some s' =>
              let q' := QSt s' c m f (fupd td i (todo_after s i)) lo in
              Some (match prot_now s i with Some v => q_do q' (DProt v) | None => q' end)
          end
      end
  | YDestroy i =>
      match async_run1 nblocks s l with
      | Some s' => Some (QSt s' c m f td (fupd lo (y_loc s i) (lo (y_loc s i) + 1)))
      | None => None
      end
  | _ =>
      match async_run1 nblocks s l with
      | Some s' => Some (QSt s' c m f td lo)
      | None => None
      end
  end.

Fixpoint q_run (q : qst) (ls : list alabel) : option qst :=
  match ls with
  | [] => Some q
  | l :: ls => match q_run1 q l with Some q' => q_run q' ls | None => None end
  end.

(** [q_after q q']: some execution leads from [q] to [q']. *)
Definition q_after (q q' : qst) : Prop := exists ls, q_run q ls = Some q'.
Definition q_reachable : qst -> Prop := q_after q_init.

End Reclaim.

(** ** Vocabulary *)

(** The tables that the next step of thread [i] reads or writes. *)
Definition accesses (q : qst) (i v : N) : Prop :=
  match q_todo q i with
  | DProt w :: _ | DUnprot w :: _ | DDelete w :: _ => v = w     (* the counter is part of the table *)
  | [] =>
      match y_pc (q_s q) i with
      | AInit | ALoad _ | AMig2 => v = y_tab (q_s q)
      | AWait _ | AOp | AGrow | AEnd2 => v = y_loc (q_s q) i
      | AMig3 w | AMigNo w => v = w                              (* 263, 266 *)
      | AMig4 w | AMig5 w _ | AMig6 w => v = w \/ v = w + 1      (* 297-305, 282 *)
      | AEnd4 => v = y_loc (q_s q) i + 1                         (* 344 next->_version *)
      | _ => False
      end
  end.

(** No call and no construction of a handle is in progress. *)
Definition all_rest (q : qst) : Prop :=
  forall i, y_pc (q_s q) i = AUnreg \/ y_pc (q_s q) i = AIdle.

(** Handle [i] exists and has cached table [v]. *)
Definition has_cached (q : qst) (i v : N) : Prop := y_pc (q_s q) i = AIdle /\ y_loc (q_s q) i = v.
