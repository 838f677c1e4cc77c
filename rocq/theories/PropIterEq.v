(** C88: comparing iterators. *)
From Coq Require Import NArith Bool List Lia.
From Verif Require Import Words Slot SlotFacts Mapper MapperFacts ReturnCode MapSpec LinSpec
  Base BaseExec BaseLin TableSpec BaseFacts Migrate MigrateExec GrowSpec GrowFacts MigrateFacts
  Iter IterSpec IterFacts IterGrow IterGrowFacts IterEqSpec IterEq IterEqFacts
  PropBase PropMigrate PropIter PropIterGrow.
Import ListNotations.
Open Scope N_scope.

(** Two iterators, the first returned by a call of some thread at some time of an
    execution and the second by any call at the same or any later time.  The second
    equals end() iff its call showed no element.  If they are equal and not end(),
    their calls were for the same key, whatever was done to the table in between.
    If their calls were for the same key, they are equal as long as their elements
    are stored, and always if clients do not erase. *)
Theorem C88_iterator_equality :
  forall sc mc hash lg gh (client : op -> Prop) s1 tr s2 t1 t2 o1 o2 r1 r2,
    cell_type sc -> 1 <= lg <= 63 -> fair sc client ->
    table_reachable (TCfg sc mc hash) (sized mc lg gh) client s1 ->
    lts_steps (bsys_step (TCfg sc mc hash) (sized mc lg gh) client) s1 tr s2 ->
    bthr s1 t1 = Some (o1, PDone r1) -> bthr s2 t2 = Some (o2, PDone r2) ->
    let it1 := ret_iter (TCfg sc mc hash) (sized mc lg gh) r1 in
    let it2 := ret_iter (TCfg sc mc hash) (sized mc lg gh) r2 in
    let still_there it k := exists p d, it_ptr it = PCell p /\ holds sc (cells_of mc lg) (bmem s2) p k d in
    (it_eqb it2 it_end = true <-> ~ shows_element (obs o2 r2)) /\
    (it_eqb it1 it2 = true -> it_eqb it1 it_end = false -> op_key o1 = op_key o2) /\
    (op_key o1 = op_key o2 -> still_there it1 (op_key o1) -> still_there it2 (op_key o2) ->
       it_eqb it1 it2 = true) /\
    (op_key o1 = op_key o2 -> (forall o, client o -> ~ erasing o) ->
       it_eqb it1 it_end = false -> it_eqb it2 it_end = false -> it_eqb it1 it2 = true).
Proof.
  intros sc mc hash lg gh client s1 tr s2 t1 t2 o1 o2 r1 r2 CT LG F R1 R2 D1 D2 it1 it2 still_there.
  split; [exact (end_iff sc mc hash lg gh LG client s1 s2 tr R1 R2 t2 o2 r2 D2)|].
  pose proof (two_issued sc mc hash lg gh CT LG client F s1 s2 tr R1 R2 t1 t2 o1 o2 r1 r2 D1 D2) as TI.
  unfold still_there, it1, it2, ret_iter.
  destruct (rpos r1) as [p1|]; [destruct (rpos r2) as [p2|]|]; cbn [it_eqb it_ptr make_iterator iptr_eqb it_end];
    unfold it_eqb; cbn [it_ptr make_iterator iptr_eqb it_end].
  - destruct (TI p1 p2 eq_refl eq_refl) as [T1 T2]. split; [|split].
    + intros E _. apply N.eqb_eq in E. auto.
    + intros EK (q1 & d1 & [= <-] & H1) (q2 & d2 & [= <-] & H2). apply N.eqb_eq. apply T2; [exact EK|left; eauto].
    + intros EK NE _ _. apply N.eqb_eq. apply T2; auto.
  - split; [discriminate|]. split; [intros _ _ (q & d & [=] & _)|discriminate].
  - split; [discriminate|]. split; [intros _ (q & d & [=] & _)|discriminate].
Qed.
Print Assumptions C88_iterator_equality.

(** Iterators to a key pending in some thread after a schedule. *)
Definition iterator_after (ls : list blabel) (tid : N) : option iter :=
  match exec ex_mig m9 (bsys_init ex_mig m9) ls with
  | Some (_, s) =>
      match bthr s tid with
      | Some (o, PDone r) => Some (ret_iter ex_mig m9 r)
      | _ => None
      end
  | None => None
  end.

(** Threads 1 and 2 look for 8; 3 and 4 look for 9 (same home slot) and for 12. *)
Definition ops88 : list blabel :=
  call 1 (OInsert 8 40) 2 ++ call 1 (OInsert 9 50) 3 ++
  [LInv 1 (OFind 8); LRun 1 true; LInv 3 (OFind 9); LRun 3 true; LRun 3 true].
Definition ops88' : list blabel :=
  ops88 ++ [LInv 2 (OFind 8); LRun 2 true; LInv 4 (OFind 12); LRun 4 true; LRun 4 true].
(** Erased and inserted again. *)
Definition ops88'' : list blabel :=
  ops88 ++ call 2 (OErase 8) 2 ++ [LInv 2 (OInsert 8 41); LRun 2 true; LRun 2 true; LRun 2 true; LRun 2 true].

Example C88_case :
  match iterator_after ops88 1, iterator_after ops88 3, iterator_after ops88' 2,
        iterator_after ops88' 4, iterator_after ops88'' 2 with
  | Some a8, Some a9, Some b8, Some b12, Some c8 =>
      (it_eqb a8 b8, it_eqb a8 a9, it_eqb a9 b8) = (true, false, false) /\
      (it_eqb b12 it_end, it_eqb a8 it_end) = (true, false) /\
      it_eqb a8 c8 = false
  | _, _, _, _, _ => False
  end.
Proof. vm_compute. repeat split; reflexivity. Qed.

(** On growing tables an iterator obtained before the table was replaced and one
    obtained afterwards differ although both come from find(k), k has been stored
    all the time and with the same value, and refreshing the first one yields the
    second. *)
Theorem C88_replaced_table_refuted :
  forall sc mc hash (client : op -> Prop) base size lg lg' g g' n k d a a' b b',
    cell_type sc -> fair sc client -> (cmap mc = false \/ cprob mc = true) ->
    life (TCfg sc mc hash) client lg (g_map g) (g_mem g) ->
    life (TCfg sc mc hash) client lg' (g_map g') (g_mem g') ->
    g_ver g < g_ver g' ->
    disjoint_memory base size (g_ver g) (cells_of mc lg) (g_ver g') (cells_of mc lg') ->
    stored sc (cells_of mc lg) (g_mem g) a -> stored sc (cells_of mc lg') (g_mem g') a' ->
    user_key sc k -> a k = Some d -> a' k = Some d ->
    find_it (TCfg sc mc hash) n g k = ItOk b -> find_it (TCfg sc mc hash) n g' k = ItOk b' ->
    let it := MIter (g_ver g) b in let it' := MIter (g_ver g') b' in
    mit_eqb base size it it' = false /\
    (it_first b, it_second b) = (k, d) /\ (it_first b', it_second b') = (k, d) /\
    refresh_ptr (TCfg sc mc hash) n g' it = Some it'.
Proof.
  intros sc mc hash client base size lg lg' g g' n k d a a' b b' CT F CF L L' V D S S' U A A' B B' it it'.
  destruct (find_present sc mc hash client lg g CT F CF L a k d n S U A ltac:(congruence)) as (p & E & _ & _ & Lp).
  destruct (find_present sc mc hash client lg' g' CT F CF L' a' k d n S' U A' ltac:(congruence)) as (p' & E' & _ & _ & Lp').
  assert (X : b = Iter (Slot k d) (PCell p) (PCell (cells_of mc lg))) by congruence.
  assert (X' : b' = Iter (Slot k d) (PCell p') (PCell (cells_of mc lg'))) by congruence.
  unfold it, it'. split; [|split; [|split]].
  - unfold mit_eqb. cbn [mi_it mi_ver]. rewrite X, X'. cbn [it_ptr]. apply N.eqb_neq. now apply D.
  - now rewrite X.
  - now rewrite X'.
  - unfold refresh_ptr. cbn [mi_ver mi_it]. destruct (N.eqb_spec (g_ver g') (g_ver g)) as [Q|_]; [lia|].
    rewrite X. cbn [it_copy tsc].
    assert (GK : get_key sc (Slot k d) = k).
    { pose proof (cell_type_wf _ CT) as W. change (Slot k d) with (enc sc (CLive k d) false).
      rewrite (enc_get_key sc W); [reflexivity|]. split; [discriminate|now apply user_key_valid]. }
    rewrite GK, B'. reflexivity.
Qed.
Print Assumptions C88_replaced_table_refuted.

(** The history of C56_case: both tables store 8 with the value 41; their cells lie
    at addresses 2^20 and 2^21. *)
Example C88_replaced_table_case :
  let g := GTab 0 m9 t56b in
  life ex_mig client56 9 (g_map g) (g_mem g) /\
  life ex_mig client56 10 (g_map g56) (g_mem g56) /\
  g_ver g < g_ver g56 /\
  disjoint_memory (fun v => 2 ^ (20 + v)) 16 (g_ver g) (cells_of (MCfg false false) 9)
    (g_ver g56) (cells_of (MCfg false false) 10) /\
  exists b b', find_it ex_mig 3 g 8 = ItOk b /\ find_it ex_mig 3 g56 8 = ItOk b' /\
    (it_first b, it_second b) = (8, 41) /\ (it_first b', it_second b') = (8, 41) /\
    mit_eqb (fun v => 2 ^ (20 + v)) 16 (MIter 0 b) (MIter 1 b') = false.
Proof.
  cbn zeta. split; [|split; [exact life56|split; [reflexivity|split]]].
  - apply exec_life; [|unfold client56, ops56a, ops56b; intros o H; cbn in *; tauto|vm_compute; reflexivity].
    apply exec_life; [apply (life_new ex_mig _ 9); lia|unfold client56, ops56a, ops56b; intros o H; cbn in *; tauto|vm_compute; reflexivity].
  - intros p q Lp Lq. cbn in *. lia.
  - eexists _, _. split; [vm_compute; reflexivity|]. split; [vm_compute; reflexivity|].
    split; [reflexivity|]. split; vm_compute; reflexivity.
Qed.

(** The memory of a table that is no longer used is given to a later table (iterators
    do not keep a table alive, migration_table_iterator.hpp:264-269 only copies the
    reference to the handle's table, the version and the base iterator).  8 slots; 8
    and 9 have the same home slot. *)
Definition c88 : tcfg := TCfg (simple_slot true) (MCfg true true) (fun k => k / 4).
Definition m88 : mapper := sized (MCfg true true) 3 0.
Definition m88' : mapper := resize (MCfg true true) m88 1 1.
Definition m88'' : mapper := resize (MCfg true true) m88' 1 0.
Definition ops88a : list blabel := call 1 (OInsert 8 40) 2.
Definition ops88b : list blabel := call 1 (OInsert 9 50) 3 ++ call 1 (OErase 8) 2.
Definition client88 (o : op) : Prop := In o (ops_of (ops88a ++ ops88b)).
Definition ls88 : list mlabel := [MJoin 1; MHelp 1 60].
Definition t88a : mem := mem_after c88 m88 (fresh_mem c88 m88) ops88a.
Definition t88b : mem := mem_after c88 m88 t88a ops88b.
Definition t88c : mem := mtgt (moved c88 m88 m88' 64 t88b ls88).
Definition t88d : mem := mtgt (moved c88 m88' m88'' 64 t88c ls88).

Lemma life88a : life c88 client88 3 m88 t88a.
Proof.
  apply exec_life; [apply (life_new c88 _ 3); lia|unfold client88, ops88a, ops88b; intros o H; cbn in *; tauto|vm_compute; reflexivity].
Qed.
Lemma life88b : life c88 client88 3 m88 t88b.
Proof.
  apply exec_life; [exact life88a|unfold client88, ops88a, ops88b; intros o H; cbn in *; tauto|vm_compute; reflexivity].
Qed.
Lemma life88c : life c88 client88 3 m88' t88c.
Proof.
  assert (C : completes c88 m88 m88' 64 t88b ls88 = true) by (vm_compute; reflexivity).
  assert (N : forall o, In o (mops_of ls88) -> nobody o) by (intros o []).
  destruct (moved_steps c88 m88 m88' 64 t88b ls88 nobody C N) as [S FI].
  refine (life_move c88 client88 3 3 m88 t88b 1 1 64 _ _ life88b ltac:(lia) ltac:(lia) eq_refl S FI _).
  intros _. exists 0. split; [reflexivity|]. eexists. split; [vm_compute; reflexivity|vm_compute; auto].
Qed.
Lemma life88d : life c88 client88 3 m88'' t88d.
Proof.
  assert (C : completes c88 m88' m88'' 64 t88c ls88 = true) by (vm_compute; reflexivity).
  assert (N : forall o, In o (mops_of ls88) -> nobody o) by (intros o []).
  destruct (moved_steps c88 m88' m88'' 64 t88c ls88 nobody C N) as [S FI].
  refine (life_move c88 client88 3 3 m88' t88c 1 0 64 _ _ life88c ltac:(lia) ltac:(lia) eq_refl S FI _).
  intros _. exists 0. split; [reflexivity|]. eexists. split; [vm_compute; reflexivity|vm_compute; auto].
Qed.

(** Version 0 contains 8 and is used: 9 is inserted and 8 erased.  It is replaced by
    version 1, and that by version 2, which lies where version 0 was; tables that exist
    at the same time lie apart.  An iterator to 8 from version 0 equals one to 9 from
    version 2, where 8 is not stored. *)
Theorem C88_reused_memory_refuted :
  let base v := 2 ^ 20 * (1 + v mod 2) in
  life c88 client88 3 m88 t88a /\ life c88 client88 3 m88 t88b /\
  life c88 client88 3 m88' t88c /\ life c88 client88 3 m88'' t88d /\
  disjoint_memory base 16 0 8 1 8 /\ disjoint_memory base 16 1 8 2 8 /\
  exists b b',
    find_it c88 3 (GTab 0 m88 t88a) 8 = ItOk b /\ (it_first b, it_second b) = (8, 40) /\
    find_it c88 3 (GTab 2 m88'' t88d) 9 = ItOk b' /\ (it_first b', it_second b') = (9, 50) /\
    find_it c88 3 (GTab 2 m88'' t88d) 8 = ItOk it_end /\
    mit_eqb base 16 (MIter 0 b) (MIter 2 b') = true.
Proof.
  cbv zeta. split; [exact life88a|]. split; [exact life88b|]. split; [exact life88c|]. split; [exact life88d|].
  split; [intros p q Lp Lq; cbn; lia|]. split; [intros p q Lp Lq; cbn; lia|].
  eexists _, _. split; [vm_compute; reflexivity|]. split; [reflexivity|]. split; [vm_compute; reflexivity|].
  split; [reflexivity|]. split; vm_compute; reflexivity.
Qed.
Print Assumptions C88_reused_memory_refuted.

(** On one table the iterators of growing tables are compared like those above. *)
Theorem C88_growing_same_table :
  forall base size a b, 0 < size -> mi_ver a = mi_ver b ->
    mit_eqb base size a b = it_eqb (mi_it a) (mi_it b).
Proof.
  intros base size a b S E. unfold mit_eqb, it_eqb. rewrite E.
  destruct (it_ptr (mi_it a)) as [p|p], (it_ptr (mi_it b)) as [q|q]; try reflexivity. cbn [iptr_eqb].
  destruct (N.eqb_spec p q) as [->|NE]; [apply N.eqb_refl|]. apply N.eqb_neq. nia.
Qed.
Print Assumptions C88_growing_same_table.
