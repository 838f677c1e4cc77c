(** C56, C57: iterators and references of a growing table after the table was
    replaced by a larger one. *)
From Coq Require Import NArith Bool List Lia.
From Verif Require Import Words Slot SlotFacts Mapper MapperFacts ReturnCode MapSpec LinSpec
  Base BaseInv BaseExec BaseLin TableSpec BaseFacts Migrate MigrateExec GrowSpec GrowFacts MigrateFacts
  Iter IterSpec IterFacts IterGrow IterGrowFacts PropBase PropMigrate.
Import ListNotations.
Open Scope N_scope.

(** ** C56 *)

(** erase_if_unchanged() through an iterator obtained before the table was
    replaced: if the key is no longer stored, the answer is false and the table is
    left as it is. *)
Theorem C56_absent_element_partial :
  forall sc mc hash (client : op -> Prop) lg g s it a,
    cell_type sc -> fair sc client -> (cmap mc = false \/ cprob mc = true) ->
    life (TCfg sc mc hash) client lg (g_map g) (g_mem g) ->
    stored sc (cells_of mc lg) (g_mem g) a ->
    g_ver g <> mi_ver it -> user_key sc (get_key sc (it_copy (mi_it it))) ->
    a (get_key sc (it_copy (mi_it it))) = None ->
    find_it (TCfg sc mc hash) s g (get_key sc (it_copy (mi_it it))) <> ItBad ->
    exists it', mit_erase_if (TCfg sc mc hash) s g it = Some (g, it', false).
Proof. intros. eexists. eapply erase_if_gone; eauto. Qed.
Print Assumptions C56_absent_element_partial.

(** Assigning through a reference obtained before the table was replaced stores the
    value, if the key is still stored. *)
Theorem C56_assignment_partial :
  forall sc mc hash (client : op -> Prop) lg g s r a d v,
    cell_type sc -> fair sc client -> (cmap mc = false \/ cprob mc = true) ->
    life (TCfg sc mc hash) client lg (g_map g) (g_mem g) ->
    stored sc (cells_of mc lg) (g_mem g) a ->
    g_ver g <> mr_ver r -> user_key sc (get_key sc (mr_copy r)) ->
    a (get_key sc (mr_copy r)) = Some d ->
    find_it (TCfg sc mc hash) s g (get_key sc (mr_copy r)) <> ItBad ->
    exists t' r', mref_assign (TCfg sc mc hash) s g r v = Returned (GTab (g_ver g) (g_map g) t', r') /\
      stored sc (cells_of mc lg) t' (fupd a (get_key sc (mr_copy r)) (Some v)).
Proof. intros. eapply mref_grown_assign; eauto. Qed.
Print Assumptions C56_assignment_partial.

(** erase_if_unchanged() through an iterator that shows another value than the
    stored one answers true and erases the element, once the table was replaced. *)
Theorem C56_changed_element_erased_refuted :
  forall sc mc hash (client : op -> Prop) lg g s it a d,
    cell_type sc -> fair sc client -> (cmap mc = false \/ cprob mc = true) ->
    life (TCfg sc mc hash) client lg (g_map g) (g_mem g) ->
    stored sc (cells_of mc lg) (g_mem g) a ->
    g_ver g <> mi_ver it -> user_key sc (get_key sc (it_copy (mi_it it))) ->
    a (get_key sc (it_copy (mi_it it))) = Some d -> d <> it_second (mi_it it) ->
    find_it (TCfg sc mc hash) s g (get_key sc (it_copy (mi_it it))) <> ItBad ->
    exists t' it', mit_erase_if (TCfg sc mc hash) s g it = Some (GTab (g_ver g) (g_map g) t', it', true) /\
      stored sc (cells_of mc lg) t' (fupd a (get_key sc (it_copy (mi_it it))) None).
Proof. intros. eapply erase_if_grown; eauto. Qed.
Print Assumptions C56_changed_element_erased_refuted.

(** compare_exchange(v) through a reference that shows another value than the stored
    one answers true and overwrites the value, once the table was replaced. *)
Theorem C56_changed_element_exchanged_refuted :
  forall sc mc hash (client : op -> Prop) lg g s r a d v,
    cell_type sc -> fair sc client -> (cmap mc = false \/ cprob mc = true) ->
    life (TCfg sc mc hash) client lg (g_map g) (g_mem g) ->
    stored sc (cells_of mc lg) (g_mem g) a ->
    g_ver g <> mr_ver r -> user_key sc (get_key sc (mr_copy r)) ->
    a (get_key sc (mr_copy r)) = Some d -> d <> sdata (mr_copy r) ->
    find_it (TCfg sc mc hash) s g (get_key sc (mr_copy r)) <> ItBad ->
    exists t' r', mref_exchange (TCfg sc mc hash) s g r v = Returned (GTab (g_ver g) (g_map g) t', r', true) /\
      stored sc (cells_of mc lg) t' (fupd a (get_key sc (mr_copy r)) (Some v)).
Proof. intros. eapply mref_grown_exchange; eauto. Qed.
Print Assumptions C56_changed_element_exchanged_refuted.

(** On a table that was not replaced since the iterator was obtained, compare_exchange
    through "*it" succeeds iff the cell still has the content the iterator shows; then
    the value is stored, otherwise the cell is left as it is.  No other cell changes,
    and nothing is looked up.  The reference then shows the new value; after a failure
    single-word cells leave the present content of the cell in it. *)
Theorem C56_same_table :
  forall c g n it p x v,
    g_ver g = mi_ver it -> it_ptr (mi_it it) = PCell p -> rd c (g_map g) (g_mem g) p = Some x ->
    exists t' r' b,
      mref_exchange c n g (mit_deref it) v = Returned (GTab (g_ver g) (g_map g) t', r', b) /\
      (b = true <-> x = it_copy (mi_it it)) /\
      mr_copy r' = (if b then Slot (skey x) v
                    else if sc_upd (tsc c) then x else it_copy (mi_it it)) /\
      t' p = Some (if b then Slot (get_key (tsc c) x) v else x) /\
      (forall q, q <> p -> t' q = g_mem g q).
Proof.
  intros c g n it p x v V P R. unfold mref_exchange, mref_refresh, mit_deref. cbn [mr_ver mr_pos mr_copy].
  rewrite V, N.eqb_refl. cbn [mr_ver mr_pos mr_copy]. rewrite P. unfold ref_exchange. rewrite R. unfold cas.
  destruct (slot_eqb x (it_copy (mi_it it))) eqn:E.
  - apply slot_eqb_eq in E. subst x. eexists _, _, true. split; [reflexivity|]. split; [tauto|]. split; [reflexivity|].
    split; [now rewrite fupd_eq|]. intros q NQ. now rewrite fupd_neq.
  - apply slot_eqb_neq in E. eexists _, _, false. split; [reflexivity|].
    split; [split; [discriminate|contradiction]|]. split; [reflexivity|].
    split; [now rewrite fupd_eq|]. intros q NQ. now rewrite fupd_neq.
Qed.
Print Assumptions C56_same_table.

(** compare_exchange and assignment through a reference whose element was erased
    before the table was replaced access a null pointer. *)
Theorem C56_erased_element_refuted :
  forall sc mc hash (client : op -> Prop) lg g s r a v,
    cell_type sc -> fair sc client -> (cmap mc = false \/ cprob mc = true) ->
    life (TCfg sc mc hash) client lg (g_map g) (g_mem g) ->
    stored sc (cells_of mc lg) (g_mem g) a ->
    g_ver g <> mr_ver r -> user_key sc (get_key sc (mr_copy r)) ->
    a (get_key sc (mr_copy r)) = None ->
    find_it (TCfg sc mc hash) s g (get_key sc (mr_copy r)) <> ItBad ->
    mref_exchange (TCfg sc mc hash) s g r v = BadAccess /\ mref_assign (TCfg sc mc hash) s g r v = BadAccess.
Proof. intros. eapply mref_gone; eauto. Qed.
Print Assumptions C56_erased_element_refuted.

(** A history: insert(8,40) and insert(12,50), iterators at both, then 8 gets the
    value 41, 12 is erased and the table is replaced. *)
Definition ops56a : list blabel := call 1 (OInsert 8 40) 2 ++ call 1 (OInsert 12 50) 2.
Definition ops56b : list blabel := call 2 (OUpdate 8 (overwrite 41)) 2 ++ call 2 (OErase 12) 2.
Definition t56a : mem := mem_after ex_mig m9 (fresh_mem ex_mig m9) ops56a.
Definition t56b : mem := mem_after ex_mig m9 t56a ops56b.
Definition g56 : gtab := GTab 1 mt9 (mtgt (moved ex_mig m9 mt9 64 t56b ls15)).
Definition client56 (o : op) : Prop := In o (ops_of (ops56a ++ ops56b)).

Lemma life56 : life ex_mig client56 10 mt9 (mtgt (moved ex_mig m9 mt9 64 t56b ls15)).
Proof.
  assert (C : completes ex_mig m9 mt9 64 t56b ls15 = true) by (vm_compute; reflexivity).
  assert (N : forall o, In o (mops_of ls15) -> nobody o) by (intros o []).
  destruct (moved_steps ex_mig m9 mt9 64 t56b ls15 nobody C N) as [S FI].
  refine (life_move ex_mig client56 9 10 m9 t56b 400 0 64 _ _ _ ltac:(lia) ltac:(lia) eq_refl S FI _).
  - apply exec_life; [|unfold client56, ops56a, ops56b; intros o H; cbn in *; tauto|vm_compute; reflexivity].
    apply exec_life; [apply (life_new ex_mig _ 9); lia|unfold client56, ops56a, ops56b; intros o H; cbn in *; tauto|vm_compute; reflexivity].
  - discriminate.
Qed.

Lemma fair56 : fair (simple_slot true) client56.
Proof.
  split; [|now left]. intros o H. unfold client56 in H. cbn in H.
  repeat destruct H as [<-|H]; try contradiction; (split; [apply key_ok_mark; cbn; lia|exact Logic.I || (intros gg x [= <-]; reflexivity)]).
Qed.

Example C56_case :
  exists it8 it12 a,
    it_begin ex_mig m9 t56a = ItOk it8 /\ it_next ex_mig m9 t56a it8 = ItOk it12 /\
    (it_first it8, it_second it8, (it_first it12, it_second it12)) = (8, 40, (12, 50)) /\
    stored (simple_slot true) (cells_of (MCfg false false) 10) (g_mem g56) a /\ a 8 = Some 41 /\ a 12 = None /\
    (exists g it, mit_erase_if ex_mig 3 g56 (MIter 0 it8) = Some (g, it, true) /\ g_mem g 4 = Some (deleted_slot (simple_slot true))) /\
    (exists it, mit_erase_if ex_mig 3 g56 (MIter 0 it12) = Some (g56, it, false)) /\
    (exists g r, mref_exchange ex_mig 3 g56 (mit_deref (MIter 0 it8)) 60 = Returned (g, r, true) /\ g_mem g 4 = Some (Slot 8 60)) /\
    mref_exchange ex_mig 3 g56 (mit_deref (MIter 0 it12)) 60 = BadAccess /\
    (exists t r, mref_exchange ex_mig 0 g56 (mit_deref (MIter 1 (Iter (Slot 8 41) (PCell 4) (PCell 1536)))) 60
       = Returned (GTab 1 mt9 t, r, true) /\ t 4 = Some (Slot 8 60)).
Proof.
  assert (CT : cell_type (simple_slot true)) by (exists true; now left).
  destruct (life_stored (simple_slot true) (MCfg false false) _ client56 CT fair56 (or_introl eq_refl) _ _ _ life56) as [a A].
  assert (F12 : find_it ex_mig 3 g56 12 = ItOk it_end) by (vm_compute; reflexivity).
  assert (A12 : a 12 = None).
  { destruct (a 12) as [d|] eqn:E; [|reflexivity]. exfalso.
    destruct (find_present (simple_slot true) (MCfg false false) _ client56 10 g56 CT fair56 (or_introl eq_refl) life56 a 12 d 3 A) as (p & X & _); auto.
    - split; reflexivity.
    - exact (fun B => ltac:(discriminate (eq_trans (eq_sym F12) B))).
    - discriminate (eq_trans (eq_sym F12) X). }
  eexists _, _, a. split; [vm_compute; reflexivity|]. split; [vm_compute; reflexivity|].
  split; [vm_compute; reflexivity|]. split; [exact A|].
  split; [apply A; split; [split; reflexivity|exists 4; split; [reflexivity|exists (Slot 8 41); split; [vm_compute; reflexivity|split; [now left|reflexivity]]]]|].
  split; [exact A12|].
  split; [eexists _, _; split; vm_compute; reflexivity|].
  split; [eexists; vm_compute; reflexivity|].
  split; [eexists _, _; split; vm_compute; reflexivity|]. split; [vm_compute; reflexivity|].
  eexists _, _. split; vm_compute; reflexivity.
Qed.

(** ** C57 *)

(** An iteration that goes on after the table was replaced (nobody else being
    active, the element it stands at still stored) ends; from then on it shows
    stored elements only, each at most once. *)
Theorem C57_rest_partial :
  forall sc mc hash (client : op -> Prop) lg g s it a d,
    cell_type sc -> fair sc client -> (cmap mc = false \/ cprob mc = true) ->
    life (TCfg sc mc hash) client lg (g_map g) (g_mem g) ->
    stored sc (cells_of mc lg) (g_mem g) a ->
    g_ver g <> mi_ver it -> user_key sc (get_key sc (it_copy (mi_it it))) ->
    a (get_key sc (it_copy (mi_it it))) = Some d ->
    find_it (TCfg sc mc hash) s g (get_key sc (it_copy (mi_it it))) <> ItBad ->
    exists it' n l, mit_next (TCfg sc mc hash) s g it = Some it' /\
      mwalk (TCfg sc mc hash) s g n it' = Walked l /\
      NoDup (get_key sc (it_copy (mi_it it)) :: map fst l) /\
      forall k' d', In (k', d') l -> a k' = Some d'.
Proof. intros. eapply grown_walk; eauto. Qed.
Print Assumptions C57_rest_partial.

(** Two elements, both stored all the time, and nobody active but the iterating
    thread and the growth of the table. *)
Definition ex57 : tcfg := TCfg (simple_slot true) (MCfg false false) (fun k => k * 2 ^ 54).
Definition ops57 : list blabel := call 1 (OInsert 9 90) 2 ++ call 1 (OInsert 8 80) 3.
Definition t57 : mem := mem_after ex57 m9 (fresh_mem ex57 m9) ops57.
Definition s57 : msys := moved ex57 m9 mt9 64 t57 ls15.
Definition client57 (o : op) : Prop := In o (ops_of ops57).

Lemma steps57 : life ex57 client57 9 m9 t57 /\ fair (simple_slot true) client57 /\
  lts_steps (msys_step ex57 m9 mt9 64 nobody) (msys_init ex57 mt9 t57 idle) (events_of ex57 m9 mt9 64 t57 ls15) s57 /\
  finished s57.
Proof.
  split; [apply exec_life; [apply (life_new ex57 _ 9); lia|auto|vm_compute; reflexivity]|].
  split.
  { split; [|now left]. intros o H. unfold client57 in H. cbn in H.
    repeat destruct H as [<-|H]; try contradiction; (split; [apply key_ok_mark; cbn; lia|exact Logic.I]). }
  assert (C : completes ex57 m9 mt9 64 t57 ls15 = true) by (vm_compute; reflexivity).
  assert (N : forall o, In o (mops_of ls15) -> nobody o) by (intros o []).
  exact (moved_steps ex57 m9 mt9 64 t57 ls15 nobody C N).
Qed.

(** The table is replaced after the first element was shown: the second one is
    never shown. *)
Theorem C57_skipped_element_refuted :
  exists c m mt B (client : op -> Prop) t tr s a it it',
    fair (tsc c) client /\ life c client 9 m t /\
    lts_steps (msys_step c m mt B nobody) (msys_init c mt t idle) tr s /\ finished s /\
    stored (tsc c) (cells_of (tmc c) 9) t a /\ stored (tsc c) (cells_of (tmc c) 10) (mtgt s) a /\
    a 8 = Some 80 /\
    it_begin c m t = ItOk it /\ it_first it = 9 /\
    mit_next c 3 (GTab 1 mt (mtgt s)) (MIter 0 it) = Some it' /\ mit_at_end it' = true.
Proof.
  destruct steps57 as (L & F & S & FI).
  assert (CT : cell_type (simple_slot true)) by (exists true; now left).
  destruct (life_stored (simple_slot true) (MCfg false false) _ client57 CT F (or_introl eq_refl) _ _ _ L) as [a A].
  destruct (move_quiet_ok (simple_slot true) (MCfg false false) _ client57 CT F (or_introl eq_refl) 9 10 m9 t57 a 400 0 64 _ s57
    L ltac:(lia) ltac:(lia) eq_refl A ltac:(discriminate) S FI) as (A' & _).
  exists ex57, m9, mt9, 64, client57, t57, (events_of ex57 m9 mt9 64 t57 ls15), s57, a.
  eexists _, _. split; [exact F|]. split; [exact L|]. split; [exact S|]. split; [exact FI|].
  split; [exact A|]. split; [exact A'|].
  split; [apply A; split; [split; reflexivity|exists 5; split; [reflexivity|exists (Slot 8 80); split; [vm_compute; reflexivity|split; [now left|reflexivity]]]]|].
  split; [vm_compute; reflexivity|]. split; [vm_compute; reflexivity|].
  split; vm_compute; reflexivity.
Qed.
Print Assumptions C57_skipped_element_refuted.

(** The table is replaced after both elements were shown: the first one is shown
    again. *)
Theorem C57_repeated_element_refuted :
  exists c m mt B (client : op -> Prop) t tr s it1 it2 it3,
    fair (tsc c) client /\ life c client 9 m t /\
    lts_steps (msys_step c m mt B nobody) (msys_init c mt t idle) tr s /\ finished s /\
    it_begin c m t = ItOk it1 /\ it_next c m t it1 = ItOk it2 /\
    mit_next c 3 (GTab 1 mt (mtgt s)) (MIter 0 it2) = Some it3 /\
    mit_at_end it3 = false /\
    (it_first it1, it_first it2, it_first (mi_it it3)) = (9, 8, 9).
Proof.
  destruct steps57 as (L & F & S & FI).
  exists ex57, m9, mt9, 64, client57, t57, (events_of ex57 m9 mt9 64 t57 ls15), s57.
  eexists _, _, _. split; [exact F|]. split; [exact L|]. split; [exact S|]. split; [exact FI|].
  split; [vm_compute; reflexivity|]. split; [vm_compute; reflexivity|].
  split; [vm_compute; reflexivity|]. split; vm_compute; reflexivity.
Qed.
Print Assumptions C57_repeated_element_refuted.

(** The table of C15_case is replaced after its first element, 8, was shown. *)
Example C57_case :
  let g := GTab 1 mt9 (mtgt (moved ex_mig m9 mt9 64 t15 ls15)) in
  exists it it', it_begin ex_mig m9 t15 = ItOk it /\ it_first it = 8 /\
    find_it ex_mig 3 g 8 <> ItBad /\ mit_next ex_mig 3 g (MIter 0 it) = Some it' /\
    mwalk ex_mig 3 g 2 it' = Walked [(252, 10); (254, 30)].
Proof.
  cbv zeta. eexists _, _. split; [vm_compute; reflexivity|]. split; [vm_compute; reflexivity|].
  split; [vm_compute; discriminate|]. split; [vm_compute; reflexivity|]. vm_compute. reflexivity.
Qed.
