(** C35-C37, C50: tables of pointer cells. *)
From Coq Require Import NArith Bool List Lia.
From Verif Require Import Words Mapper MapperFacts ReturnCode MapSpec LinSpec HistSpec LinCheck Base BaseInv Migrate
  Ptr PtrSpec PtrWords PtrInv PtrSys PtrFacts.
Import ListNotations.
Open Scope N_scope.

(** *** C35: the packed word *)

(** A pointer below 2^48, a fingerprint of 15 (markable) or 16 bits and a mark are
    read back from the 64-bit word made of them, and every word is made of what is
    read from it. *)
Theorem C35_packing_is_lossless :
  forall markable : bool,
    (forall mark fp ptr, fp < 2 ^ (if markable then 15 else 16) -> ptr < 2 ^ 48 ->
       let w := pack markable mark fp ptr in
       w < 2 ^ 64 /\ w_ptr w = ptr /\ w_fp markable w = fp /\ w_mark markable w = markable && mark) /\
    (forall w, w < 2 ^ 64 -> pack markable (w_mark markable w) (w_fp markable w) (w_ptr w) = w).
Proof.
  intros mk. split.
  - intros mark fp ptr F P. assert (F' : fp < 2 ^ fp_bits mk) by (destruct mk; exact F). cbv zeta.
    rewrite pack_ptr, pack_fp, pack_mark by assumption. auto using pack_lt.
  - intros w. apply pack_eta.
Qed.
Print Assumptions C35_packing_is_lossless.
Example C35_packing_case : pack true true 77 (2 ^ 47 + 16) < 2 ^ 64 /\ w_ptr (pack true true 77 (2 ^ 47 + 16)) = 2 ^ 47 + 16.
Proof. split; reflexivity. Qed.

(** The cell of an element added with the hash of its key matches a lookup of [k']
    with the hash of [k'] iff the keys are equal. *)
Theorem C35_lookup_is_key_equality :
  forall (markable : bool) (hash : N -> N) (hp : heap) a k d k',
    0 < a < 2 ^ 48 -> hp a = Some (k, d) ->
    exists r, w_compare markable hp (slot_hash markable a (hash k)) k' (hash k') = Some r /\
              (r = true <-> k = k').
Proof.
  intros mk hash hp a k d k' A H. destruct (hash_word mk a (hash k) A) as (_ & P & F & _).
  unfold w_compare. rewrite P, F, H.
  destruct (N.eqb_spec (fingerprint mk (hash k')) (fingerprint mk (hash k))) as [E|NE]; cbn [negb].
  - destruct (N.eqb_spec a 0); [lia|]. exists (k =? k'). split; auto. apply N.eqb_eq.
  - exists false. split; auto. split; [discriminate|]. intros ->. congruence.
Qed.
Print Assumptions C35_lookup_is_key_equality.
Example C35_lookup_case :
  let hp := fupd (fun _ => None) 4096 (Some (5, 50)) : heap in
  w_compare true hp (slot_hash true 4096 (5 * 2 ^ 20 + 3)) 6 (6 * 2 ^ 20 + 3) = Some false /\
  w_compare true hp (slot_hash true 4096 (5 * 2 ^ 20 + 3)) 5 (5 * 2 ^ 20 + 3) = Some true.
Proof. split; vm_compute; reflexivity. Qed.

(** Marking sets the mark and changes neither the element nor the emptiness nor any
    lookup. *)
Theorem C35_marking_keeps_key_and_emptiness :
  forall w, w < 2 ^ 64 ->
    let v := w_set_mark w in
    v < 2 ^ 64 /\ w_mark true v = true /\ w_ptr v = w_ptr w /\ w_empty true v = w_empty true w /\
    forall hp k h, w_compare true hp v k h = w_compare true hp w k h.
Proof.
  intros w L. destruct (set_mark_word w L) as (X1 & X2 & X3 & X4). cbv zeta.
  unfold w_empty, w_compare. rewrite X2, X3. auto.
Qed.
Print Assumptions C35_marking_keeps_key_and_emptiness.
Example C35_marking_case : w_set_mark (pack true false 9 4096) = pack true true 9 4096.
Proof. vm_compute. reflexivity. Qed.

(** A word reads as deleted iff it is unmarked, its pointer is 2^32 and its fingerprint
    is 0; no other element does. *)
Theorem C35_deleted_is_one_word :
  forall (markable : bool) w, w < 2 ^ 64 ->
    (w_deleted w = true <-> w_ptr w = 2 ^ 32 /\ w_fp markable w = 0 /\ w_mark markable w = false).
Proof.
  intros mk w L. unfold w_deleted. rewrite N.eqb_eq. split.
  - intros ->. destruct mk; vm_compute; auto.
  - intros (P & F & M). rewrite <- (pack_eta mk w L), P, F, M. destruct mk; reflexivity.
Qed.
Print Assumptions C35_deleted_is_one_word.
Example C35_deleted_case : w_deleted (slot_hash true (2 ^ 32) (2 ^ 20)) = true.
Proof. vm_compute. reflexivity. Qed.

(** Setting the fingerprint keeps the element and the mark; afterwards the cell of an
    element matches a lookup iff the keys are equal, whatever fingerprint it had. *)
Theorem C35_set_fingerprint :
  forall (markable : bool) w h,
    let v := set_fingerprint markable w h in
    v < 2 ^ 64 /\ w_ptr v = w_ptr w /\ w_mark markable v = w_mark markable w /\
    forall (hash : N -> N) (hp : heap) k d k',
      h = hash k -> w_ptr w <> 0 -> hp (w_ptr w) = Some (k, d) ->
      exists r, w_compare markable hp v k' (hash k') = Some r /\ (r = true <-> k = k').
Proof.
  intros mk w h v. unfold v, set_fingerprint.
  assert (F : fingerprint mk h < 2 ^ fp_bits mk).
  { unfold fingerprint. rewrite N.sub_1_r, <- N.ones_equiv, N.land_ones. apply N.mod_lt. now destruct mk. }
  assert (P : w_ptr w < 2 ^ 48) by (apply N.mod_lt; discriminate).
  rewrite pack_ptr, pack_mark by assumption. split; [auto using pack_lt|]. split; [reflexivity|]. split.
  { unfold w_mark. now destruct mk. }
  intros hash hp k d k' -> NZ H. unfold w_compare. rewrite pack_ptr, pack_fp, H by assumption.
  destruct (N.eqb_spec (fingerprint mk (hash k')) (fingerprint mk (hash k))) as [E|NE]; cbn [negb].
  - destruct (N.eqb_spec (w_ptr w) 0); [lia|]. exists (k =? k'). split; auto. apply N.eqb_eq.
  - exists false. split; auto. split; [discriminate|]. intros ->. congruence.
Qed.
Print Assumptions C35_set_fingerprint.
Example C35_set_fingerprint_case :
  set_fingerprint true (pack true true 9 4096) (5 * 2 ^ 20 + 3) = pack true true 3 4096.
Proof. vm_compute. reflexivity. Qed.

(** *** C50: linearizability *)

(** A fixed-size table of pointer cells is a linearizable map.  Calls fail with
    RInvalid only if cells are markable, with RFull only under linear probing
    without wrap-around.  Emplace: see C36. *)
Theorem C50_fixed_size_linearizable :
  forall c lg, pgrow c = false -> 1 <= lg <= 63 ->
    linearizable (mspec (pmk c) (negb (cprob (pmc c))))
      (psys_step c addr48 (print_ok c)) (psys_init c lg) amap_empty.
Proof.
  intros c lg PG L.
  pose proof (reach_lin c addr48 (print_ok c) (fun a H => H)) as X.
  unfold pspec in X. rewrite PG in X. cbn [negb] in X. rewrite !andb_true_r in X.
  apply X; auto. discriminate.
Qed.
Print Assumptions C50_fixed_size_linearizable.

(** A growing table of pointer cells, replaced while no call is looking at its
    cells, is a linearizable map; no call ever fails. *)
Theorem C50_growing_linearizable :
  forall c lg, pgrow c = true -> grows_ok (pmc c) -> 1 <= lg <= 63 ->
    linearizable (mspec false false) (psys_step c addr_live any_call) (psys_init c lg) amap_empty.
Proof.
  intros c lg PG GO L.
  pose proof (reach_lin c addr_live any_call (fun a H => proj1 H)) as X.
  unfold pspec in X. rewrite PG in X. cbn [negb] in X. rewrite !andb_false_r in X.
  apply X; auto.
  - intros _. split; [intros a H; apply H|exact GO].
  - intros o _. destruct o; cbn; auto.
Qed.
Print Assumptions C50_growing_linearizable.

(** A growing table of four slots, keys with the same hash. *)
Definition gcfg : pcfg := PCfg true (MCfg false true) (fun k => 3 * 2 ^ 32) true.
Definition grow_case : list plabel :=
  pcall (QInsert 5 50) 4096 4 ++ pcall (QEmplace 6 60) 8192 5 ++ [PGrow 3 0 2 60].
Definition after_growth : list plabel :=
  pcall (QInsert 5 51) 64 5 ++ pcall (QIou 6 0 (fun x => x + 1)) 64 6 ++ pcall (QFind 6) 1 4.
Example C50_growing_case :
  option_map fst (pexec gcfg (psys_init gcfg 2) (grow_case ++ after_growth)) =
  Some [EInv 0 (MInsert 5 50); ERet 0 RInserted; EInv 0 (MInsert 6 60); ERet 0 RInserted;
        EInv 0 (MInsert 5 51); ERet 0 (RPresent 50);
        EInv 0 (MInsertOrUpdate 6 0 (fun x => x + 1) (fun _ => 0)); ERet 0 (RUpdated 0);
        EInv 0 (MFind 6); ERet 0 (RFound 61)] /\
  option_map (fun x => total_slots (pmc gcfg) (pmap (snd x))) (pexec gcfg (psys_init gcfg 2) grow_case) = Some 8.
Proof. split; vm_compute; reflexivity. Qed.

(** *** C36: emplace *)

(** Fixed-size tables: for every key whose fingerprint is not 0 and every hash
    function, emplace on a new table succeeds and the next find does not find the
    key, although its element is in the table. *)
Theorem C36_fixed_size_emplace_refuted :
  forall c lg k d a, pgrow c = false -> 1 <= lg <= 63 -> addr48 a ->
    fingerprint (pmk c) (phk c k) <> 0 ->
    exists s, lts_steps (psys_step c addr48 any_call) (psys_init c lg)
        [EInv 0 (MInsert k d); ERet 0 RInserted; EInv 0 (MFind k); ERet 0 RAbsent] s /\
      pheap s a = Some (k, d) /\ (exists p, points_to c s p a) /\ quiescent s.
Proof. intros c lg k d a PG L A F. apply emplace_lost; auto; exact Logic.I. Qed.
Print Assumptions C36_fixed_size_emplace_refuted.

(** The key can be added a second time; this is not a history of a map. *)
Definition fcfg : pcfg := PCfg false (MCfg false true) (fun k => 3 * 2 ^ 32 + 1) false.
Definition lost_case : list plabel :=
  pcall (QEmplace 5 50) 4096 3 ++ pcall (QFind 5) 1 2 ++ pcall (QInsert 5 51) 8192 4.
Theorem C36_added_twice_refuted :
  exists tr s, lts_steps (psys_step fcfg addr48 any_call) (psys_init fcfg 2) tr s /\
    pheap s 4096 = Some (5, 50) /\ pheap s 8192 = Some (5, 51) /\
    (exists p, points_to fcfg s p 4096) /\ (exists p, points_to fcfg s p 8192) /\
    ~ linearizable_trace (mspec false false) amap_empty tr.
Proof.
  destruct (pexec fcfg (psys_init fcfg 2) lost_case) as [[tr s]|] eqn:E; [|vm_compute in E; discriminate].
  exists tr, s. split.
  { apply (pexec_sound fcfg addr48 any_call lost_case); [|exact E].
    repeat constructor. }
  vm_compute in E. injection E as <- <-. split; [reflexivity|]. split; [reflexivity|].
  split; [|split].
  - exists 0. split; [reflexivity|]. eexists. split; [reflexivity|]. split; [reflexivity|discriminate].
  - exists 1. split; [reflexivity|]. eexists. split; [reflexivity|]. split; [reflexivity|discriminate].
  - apply not_linearizable. vm_compute. reflexivity.
Qed.
Print Assumptions C36_added_twice_refuted.

(** Growing tables, and fixed-size tables if all emplaced keys have fingerprint 0:
    after a call added the key (with emplace, insert or insert_or_update), a later find
    finds it and no later call adds it again.  Missing: other keys emplaced into a
    fixed-size table, for which it is false. *)
Theorem C36_emplaced_is_found_partial :
  forall c lg s tr1 t o0 tr2 tr3 t' o1 tr4 r k d,
    (pgrow c = true -> grows_ok (pmc c)) -> 1 <= lg <= 63 ->
    lts_steps (psys_step c addr_live (print_ok c)) (psys_init c lg)
      (tr1 ++ [EInv t o0] ++ tr2 ++ [ERet t RInserted] ++ tr3 ++ [EInv t' o1] ++ tr4 ++ [ERet t' r]) s ->
    inserts k d o0 ->
    (forall e, In e tr2 -> ev_tid e <> t) -> (forall e, In e tr4 -> ev_tid e <> t') ->
    (o1 = MFind k -> exists v, r = RFound v) /\ (forall d', inserts k d' o1 -> r <> RInserted).
Proof.
  intros c lg s tr1 t o0 tr2 tr3 t' o1 tr4 r k d GO L ST INS T2 T4.
  assert (LIN : linearizable (pspec c) (psys_step c addr_live (print_ok c)) (psys_init c lg) amap_empty).
  { apply reach_lin; auto. intros a H. apply H. intros PG. split; [intros a H; apply H|now apply GO]. }
  split.
  - intros ->. eapply ptr_found; eauto.
  - intros d' INS'. eapply ptr_once; eauto.
Qed.
Print Assumptions C36_emplaced_is_found_partial.
Example C36_growing_case :
  exists s, lts_steps (psys_step gcfg addr_live (print_ok gcfg)) (psys_init gcfg 2)
    ([] ++ [EInv 0 (MInsert 6 60)] ++ [] ++ [ERet 0 RInserted] ++ [] ++ [EInv 0 (MFind 6)] ++ [] ++ [ERet 0 (RFound 60)]) s.
Proof.
  destruct (pexec gcfg (psys_init gcfg 2) (pcall (QEmplace 6 60) 8192 4 ++ pcall (QFind 6) 1 3)) as [[tr s]|] eqn:E;
    [|vm_compute in E; discriminate].
  exists s. pose proof E as E'. vm_compute in E'. injection E' as E' _. cbn [app]. rewrite E'.
  eapply pexec_sound; [|exact E]. repeat constructor; cbn; auto; discriminate.
Qed.

(** *** C37: every element is freed exactly once *)

(** In every execution, with any calls, no call uses or frees an element that is not
    allocated (so none is freed twice); no element is in two cells; and whenever no
    call is running the allocated elements are exactly those in the table. *)
Theorem C37_elements_accounted :
  forall c (alloc : N -> Prop) (client : pop -> Prop) lg s,
    (forall a, alloc a -> 0 < a < 2 ^ 48) ->
    (pgrow c = true -> grows_ok (pmc c) /\ forall a, alloc a -> a <> 2 ^ 32) ->
    1 <= lg <= 63 -> ptr_reach c alloc client lg s ->
    ~ bad_access s /\
    (forall p q a, points_to c s p a -> points_to c s q a -> p = q) /\
    (quiescent s -> forall a, pheap s a <> None <-> exists p, points_to c s p a).
Proof.
  intros c alloc client lg s HA HG L R.
  assert (HG' : pgrow c = true -> (forall a, alloc a -> a <> 2 ^ 32) /\ (cmap (pmc c) = false \/ cprob (pmc c) = true)).
  { intros PG. destruct (HG PG). auto. }
  split; [|split].
  - eapply reach_safe; eauto.
  - eapply reach_once; eauto.
  - eapply reach_cells; eauto.
Qed.
Print Assumptions C37_elements_accounted.

(** Destroying a fixed-size table, or a growing table with the asynchronous strategy,
    frees everything and nothing twice.  Missing: the synchronised strategy, moved-from
    tables and elements at address 2^32, for which it is false (below). *)
Theorem C37_destruction_frees_all_partial :
  forall c (alloc : N -> Prop) (client : pop -> Prop) lg s,
    (forall a, alloc a -> 0 < a < 2 ^ 48) ->
    (pgrow c = true -> grows_ok (pmc c) /\ forall a, alloc a -> a <> 2 ^ 32) ->
    1 <= lg <= 63 -> ptr_reach c alloc client lg s -> quiescent s ->
    exists hp, destroy c (pmap s) (ptab s) (pheap s) = Some hp /\ forall a, hp a = None.
Proof.
  intros c alloc client lg s HA HG L R. eapply reach_destroy; eauto.
  intros PG. destruct (HG PG). auto.
Qed.
Print Assumptions C37_destruction_frees_all_partial.

(** Two elements, a failed insert and a growth; then the table is destroyed. *)
Definition two_elements : list plabel :=
  pcall (QInsert 5 50) 4096 4 ++ pcall (QEmplace 6 60) 8192 5 ++ pcall (QInsert 5 51) 64 5.
Example C37_destruction_case :
  exists s, ptr_reach gcfg addr_live any_call 2 s /\ quiescent s /\ total_slots (pmc gcfg) (pmap s) = 8 /\ pheap s 4096 = Some (5, 50) /\ pheap s 8192 = Some (6, 60) /\ pheap s 64 = None.
Proof.
  destruct (pexec gcfg (psys_init gcfg 2) two_elements) as [[tr s0]|] eqn:E0; [|vm_compute in E0; discriminate].
  destruct (pexec1 gcfg s0 (PGrow 3 0 2 60)) as [[[e|] s]|] eqn:E1.
  2: { exists s. split.
    { eapply (reach_grow gcfg addr_live any_call 2 two_elements tr s0 3 0 2 60 2 s); auto.
      - repeat constructor; cbn; discriminate.
      - vm_compute in E0. injection E0 as _ <-. intros [|p]; reflexivity.
      - vm_compute in E0. injection E0 as _ <-. reflexivity.
      - lia.
      - lia.
      - vm_compute in E0. injection E0 as _ <-. exists 3, 0. repeat split. }
    vm_compute in E0. injection E0 as _ <-. vm_compute in E1. injection E1 as <-.
    split; [intros [|p]; reflexivity|]. repeat split. }
  all: vm_compute in E0; injection E0 as _ <-; vm_compute in E1; discriminate.
Qed.

(** The destructor of a growing table with the synchronised strategy frees no element. *)
Theorem C37_sync_destructor_leaks_refuted :
  exists c lg s, pgrow c = true /\ ptr_reach c addr_live any_call lg s /\ quiescent s /\
    exists hp a, destroy_sync (pheap s) = Some hp /\ hp a <> None.
Proof.
  exists gcfg, 2. destruct (pexec gcfg (psys_init gcfg 2) two_elements) as [[tr s]|] eqn:E; [|vm_compute in E; discriminate].
  exists s. split; [reflexivity|]. split.
  { exists tr. eapply pexec_sound; [|exact E]. repeat constructor; cbn; discriminate. }
  vm_compute in E. injection E as _ <-. split; [intros [|p]; reflexivity|].
  eexists. exists 4096. split; [reflexivity|]. vm_compute. discriminate.
Qed.
Print Assumptions C37_sync_destructor_leaks_refuted.

(** A moved-from table with wrap-around has one slot by its mapper but no memory:
    its destructor reads through a null pointer. *)
Theorem C37_moved_from_refuted :
  forall c hp, cprob (pmc c) = true -> destroy c moved_from_mapper moved_from_mem hp = None.
Proof. intros c hp CP. unfold destroy, total_slots. rewrite CP. reflexivity. Qed.
Print Assumptions C37_moved_from_refuted.
(** Without wrap-around there is nothing to do. *)
Theorem C37_moved_from_linear :
  forall c hp, cprob (pmc c) = false -> destroy c moved_from_mapper moved_from_mem hp = Some hp.
Proof. intros c hp CP. unfold destroy, total_slots. rewrite CP. reflexivity. Qed.
Print Assumptions C37_moved_from_linear.

(** An element whose address is 2^32 and whose fingerprint is 0 looks deleted: growth
    drops it.  It is not found any more and never freed. *)
Definition at_2_32 : list plabel := pcall (QInsert 5 50) (2 ^ 32) 4.
Theorem C37_address_dropped_refuted :
  exists c lg tr s tr' s',
    pgrow c = true /\ grows_ok (pmc c) /\
    lts_steps (psys_step c addr48 any_call) (psys_init c lg) tr s /\ quiescent s /\
    pheap s (2 ^ 32) = Some (5, 50) /\ (forall p, ~ points_to c s p (2 ^ 32)) /\
    (exists hp, destroy c (pmap s) (ptab s) (pheap s) = Some hp /\ hp (2 ^ 32) <> None) /\
    lts_steps (psys_step c addr48 any_call) s tr' s' /\
    ~ linearizable_trace (mspec false false) amap_empty (tr ++ tr').
Proof.
  destruct (pexec gcfg (psys_init gcfg 2) at_2_32) as [[tr s0]|] eqn:E0; [|vm_compute in E0; discriminate].
  destruct (pexec1 gcfg s0 (PGrow 3 0 2 60)) as [[[e|] s]|] eqn:E1.
  2: { destruct (pexec gcfg s (pcall (QFind 5) 1 2)) as [[tr' s']|] eqn:E2.
    - exists gcfg, 2, tr, s, tr', s'. split; [reflexivity|]. split; [now left|]. split.
      { eapply (reach_grow gcfg addr48 any_call 2 at_2_32 tr s0 3 0 2 60 2 s); auto.
        - repeat constructor.
        - vm_compute in E0. injection E0 as _ <-. intros [|p]; reflexivity.
        - vm_compute in E0. injection E0 as _ <-. reflexivity.
        - lia.
        - lia.
        - vm_compute in E0. injection E0 as _ <-. exists 3, 0. repeat split. }
      assert (ST : lts_steps (psys_step gcfg addr48 any_call) s tr' s').
      { eapply pexec_sound; [|exact E2]. repeat constructor. }
      vm_compute in E0. injection E0 as <- <-. vm_compute in E1. injection E1 as <-.
      vm_compute in E2. injection E2 as <- <-.
      split; [intros [|p]; reflexivity|]. split; [reflexivity|]. split.
      { intros p [L (w & Ew & Pw & _)]. change (total_slots (pmc gcfg) _) with 8 in L. cbn [ptab] in Ew.
        assert (X : p = 0 \/ p = 1 \/ p = 2 \/ p = 3 \/ p = 4 \/ p = 5 \/ p = 6 \/ p = 7) by lia.
        repeat (destruct X as [->|X]; [vm_compute in Ew; injection Ew as <-; discriminate|]).
        subst p. vm_compute in Ew. injection Ew as <-. discriminate. }
      split; [eexists; split; [vm_compute; reflexivity|vm_compute; discriminate]|].
      split; [exact ST|]. apply not_linearizable. vm_compute. reflexivity.
    - vm_compute in E0. injection E0 as <- <-. vm_compute in E1. injection E1 as <-. vm_compute in E2. discriminate. }
  all: vm_compute in E0; injection E0 as _ <-; vm_compute in E1; discriminate.
Qed.
Print Assumptions C37_address_dropped_refuted.
