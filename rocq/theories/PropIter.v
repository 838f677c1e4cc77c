(** C28 - C34: iterators. *)
From Coq Require Import NArith Bool List Lia Sorted.
From Verif Require Import Words Slot SlotFacts Mapper MapperFacts ReturnCode MapSpec LinSpec
  Base BaseExec BaseLin TableSpec BaseFacts Migrate MigrateExec GrowSpec GrowFacts MigrateFacts
  Iter IterSpec IterFacts PropBase PropMigrate.
Import ListNotations.
Open Scope N_scope.

(** ** C28 *)

(** Iterating over a table nobody changes, whatever was done to it before,
    terminates; it visits cells in ascending order and shows exactly the stored
    elements, each once. *)
Theorem C28_iteration :
  forall sc mc hash (client : op -> Prop) lg m t a,
    cell_type sc -> fair sc client -> (cmap mc = false \/ cprob mc = true) ->
    life (TCfg sc mc hash) client lg m t ->
    stored sc (cells_of mc lg) t a ->
    exists n l ps,
      walk (TCfg sc mc hash) m t n (it_begin (TCfg sc mc hash) m t) = Walked l /\
      StronglySorted N.lt ps /\
      Forall2 (fun p kd => user_key sc (fst kd) /\ holds sc (cells_of mc lg) t p (fst kd) (snd kd)) ps l /\
      NoDup (map fst l) /\
      forall k d, a k = Some d <-> In (k, d) l.
Proof. intros. eapply life_iteration; eauto. Qed.
Print Assumptions C28_iteration.

(** The table of C15_case: 252 and 254 with an erased cell between them, and 8. *)
Example C28_case :
  walk ex_mig m9 t15 3 (it_begin ex_mig m9 t15) = Walked [(8, 40); (252, 10); (254, 30)].
Proof. vm_compute. reflexivity. Qed.

(** ** C29 *)

(** Iterating over adjacent ranges that cover the table yields, one after the
    other, what one iteration over the whole table yields. *)
Theorem C29_ranges :
  forall sc mc hash (client : op -> Prop) lg m t rs e,
    cell_type sc -> fair sc client -> (cmap mc = false \/ cprob mc = true) ->
    life (TCfg sc mc hash) client lg m t ->
    ranges 0 rs e -> total_slots mc m <= e ->
    exists l,
      walked_all (TCfg sc mc hash) m t rs l /\
      (exists n, walk (TCfg sc mc hash) m t n (it_begin (TCfg sc mc hash) m t) = Walked l) /\
      forall l', walked_all (TCfg sc mc hash) m t rs l' -> l' = l.
Proof. intros. eapply life_ranges; eauto. Qed.
Print Assumptions C29_ranges.

(** An empty range, a split inside of a cluster and a range beyond the end. *)
Example C29_case :
  ranges 0 [(0, 0); (0, 64); (64, 65); (65, 5000)] 5000 /\ total_slots (MCfg false false) m9 = 1536 /\
  map (fun r => walk ex_mig m9 t15 3 (it_range ex_mig m9 t15 (fst r) (snd r)))
    [(0, 0); (0, 64); (64, 65); (65, 5000)] =
  [Walked []; Walked [(8, 40); (252, 10)]; Walked []; Walked [(254, 30)]].
Proof.
  split; [repeat (constructor; [lia|]); constructor|]. split; vm_compute; reflexivity.
Qed.

(** ** C30 *)

(** What the iterator returned by a call shows, for every call in every
    execution: key and value as required, except after an insertion of a new key
    by insert, and except that find may show the key with the mark bit set. *)
Theorem C30_returned_iterator_partial :
  forall sc mc hash lg gh (client : op -> Prop) s tid o r p,
    cell_type sc -> 1 <= lg <= 63 -> fair sc client ->
    table_reachable (TCfg sc mc hash) (sized mc lg gh) client s ->
    bthr s tid = Some (o, PDone r) -> rpos r = Some p ->
    let it := ret_iter (TCfg sc mc hash) (sized mc lg gh) r in
    (* insert of a new key: see C30_insert_refuted *)
    (exists k d, o = OInsert k d /\ obs o r = RInserted) \/
    (* insert_or_update of a new key *)
    (exists k d f, o = OIou k d f /\ obs o r = RInserted /\ it_first it = k /\ it_second it = d) \/
    (* otherwise the value is the one the call reports *)
    (it_first it = op_key o /\
     (obs o r = RFound (it_second it) \/ obs o r = RPresent (it_second it) \/ obs o r = RUpdated (it_second it))) \/
    (* find during a migration *)
    (exists k, o = OFind k /\ obs o r = RFound (it_second it) /\ is_marked sc (rslot r) = true /\
       it_first it = k + 2 ^ (sc_w sc - 1)).
Proof.
  intros sc mc hash lg gh client s tid o r p CT LG F R E RP it.
  pose proof (returned_shows sc mc hash lg gh client s tid o r p CT LG F R E RP) as RO.
  unfold ret_ok in RO. rewrite RP in RO. destruct RO as [_ RO].
  assert (X1 : it_first it = skey (rslot r)) by (unfold it, ret_iter; rewrite RP; reflexivity).
  assert (X2 : it_second it = sdata (rslot r)) by (unfold it, ret_iter; rewrite RP; reflexivity).
  rewrite X1, X2.
  destruct RO as [(k & d & -> & C & S)|[(k & d & f & -> & C & S)|[(U & C & S)|[(k & d & -> & C & S)|(k & -> & S)]]]].
  - left. exists k, d. split; auto. cbn. now rewrite C.
  - right. left. exists k, d, f. rewrite S. cbn. now rewrite C.
  - right. right. left. split; auto. right. right. destruct o; try contradiction; cbn; now rewrite C.
  - right. right. left. split; auto. right. left. cbn. now rewrite C.
  - right. right. destruct S as [S|(S1 & S2 & S3)].
    + left. split; auto. left. cbn. now rewrite RP.
    + right. exists k. cbn. rewrite RP. auto.
Qed.
Print Assumptions C30_returned_iterator_partial.

(** The iterator returned by a successful insert shows key 0 and value 0. *)
Theorem C30_insert_refuted :
  forall sc mc hash lg gh (client : op -> Prop) s tid k d r p,
    cell_type sc -> 1 <= lg <= 63 -> fair sc client ->
    table_reachable (TCfg sc mc hash) (sized mc lg gh) client s ->
    bthr s tid = Some (OInsert k d, PDone r) -> rpos r = Some p ->
    obs (OInsert k d) r = RInserted ->
    let it := ret_iter (TCfg sc mc hash) (sized mc lg gh) r in
    it_first it = 0 /\ it_second it = 0.
Proof.
  intros sc mc hash lg gh client s tid k d r p CT LG F R E RP OB it.
  pose proof (returned_shows sc mc hash lg gh client s tid _ r p CT LG F R E RP) as RO.
  unfold ret_ok in RO. rewrite RP in RO. destruct RO as [_ RO].
  unfold it, ret_iter. rewrite RP.
  destruct RO as [(k0 & d0 & _ & C & S)|[(k0 & d0 & f & X & _)|[(U & _)|[(k0 & d0 & _ & C & S)|(k0 & X & _)]]]].
  - cbn [it_first it_second make_iterator it_copy]. rewrite S. split; reflexivity.
  - discriminate.
  - contradiction.
  - cbn in OB. rewrite C in OB. discriminate.
  - discriminate.
Qed.
Print Assumptions C30_insert_refuted.

(** The return values pending after a schedule. *)
Definition pending (c : tcfg) (m : mapper) (ls : list blabel) (tid : N) : option (N * N * mres) :=
  match exec c m (bsys_init c m) ls with
  | Some (_, s) =>
      match bthr s tid with
      | Some (o, PDone r) => Some (it_first (ret_iter c m r), it_second (ret_iter c m r), obs o r)
      | _ => None
      end
  | None => None
  end.

(** insert(5,17) shows (0,0); insert_or_update, update and find show the element;
    find after its cell has been marked shows the key 5 + 2^63. *)
Example C30_case :
  pending ex_mig m9 [LInv 1 (OInsert 5 17); LRun 1 true; LRun 1 true] 1 = Some (0, 0, RInserted) /\
  pending ex_mig m9 [LInv 1 (OIou 5 17 (incr 1)); LRun 1 true; LRun 1 true] 1 = Some (5, 17, RInserted) /\
  pending ex_mig m9 (call 1 (OInsert 5 17) 2 ++ [LInv 1 (OUpdate 5 (incr 1)); LRun 1 true; LRun 1 true]) 1 =
    Some (5, 18, RUpdated 18) /\
  pending ex_mig m9 (call 1 (OInsert 5 17) 2 ++ [LInv 1 (OFind 5); LRun 1 true]) 1 = Some (5, 17, RFound 17).
Proof. repeat split; vm_compute; reflexivity. Qed.

Theorem C30_find_key_refuted :
  exists (client : op -> Prop) s r p,
    fair (simple_slot true) client /\ table_reachable ex_mig m9 client s /\
    bthr s 1 = Some (OFind 5, PDone r) /\ rpos r = Some p /\
    it_first (ret_iter ex_mig m9 r) = 5 + 2 ^ 63.
Proof.
  pose (ls := call 1 (OInsert 5 17) 2 ++ [LMark 1; LInv 1 (OFind 5); LRun 1 true]).
  exists (fun o => In o (ops_of ls)).
  destruct (exec ex_mig m9 (bsys_init ex_mig m9) ls) as [[tr s]|] eqn:E; [|vm_compute in E; discriminate].
  exists s, (BRet 0 (Slot (5 + 2 ^ 63) 17) (Some 1)), 1.
  split.
  { split; [|now left]. intros o H. cbn in H.
    repeat destruct H as [<-|H]; try contradiction; (split; [apply key_ok_mark; cbn; lia|exact Logic.I]). }
  split; [exists tr; eapply exec_sound; eauto|].
  split; [|split; [reflexivity|vm_compute; reflexivity]].
  vm_compute in E. injection E as _ <-. vm_compute. reflexivity.
Qed.
Print Assumptions C30_find_key_refuted.

(** ** C31 *)

(** "table[k] = v" by the only thread stores v, on non-marking cells always, on
    marking cells if the key was present. *)
Theorem C31_index_assignment_partial :
  forall sc mc hash (client : op -> Prop) lg m t a n k v t2,
    cell_type sc -> fair sc client -> (cmap mc = false \/ cprob mc = true) ->
    life (TCfg sc mc hash) client lg m t -> stored sc (cells_of mc lg) t a -> user_key sc k ->
    (sc_mark sc = false \/ a k <> None) ->
    index_assign (TCfg sc mc hash) m n t k v = Some t2 ->
    stored sc (cells_of mc lg) t2 (fupd a k (Some v)) /\
    (forall n' t3 r, solo (TCfg sc mc hash) m n' t2 (OFind k) (start (TCfg sc mc hash) m (OFind k)) = (t3, PDone r) ->
       obs (OFind k) r = RFound v) /\
    ((cprob mc = true -> exists p, vacant sc (cells_of mc lg) t2 p) ->
     exists n' t3 r, solo (TCfg sc mc hash) m n' t2 (OFind k) (start (TCfg sc mc hash) m (OFind k)) = (t3, PDone r)).
Proof.
  intros sc mc hash client lg m t a n k v t2 CT F CF L ST U G E.
  pose proof (life_index sc mc hash client lg m t CT F CF L n a k v t2 ST U E) as X. cbv zeta in X.
  destruct (sc_mark sc); [|exact X]. destruct G as [G|G]; [discriminate|].
  destruct (a k); [exact X|congruence].
Qed.
Print Assumptions C31_index_assignment_partial.

(** On marking cells the value assigned to a new key is lost: the key has the
    default value afterwards. *)
Theorem C31_new_key_refuted :
  forall sc mc hash (client : op -> Prop) lg m t a n k v t2,
    cell_type sc -> fair sc client -> (cmap mc = false \/ cprob mc = true) ->
    life (TCfg sc mc hash) client lg m t -> stored sc (cells_of mc lg) t a -> user_key sc k ->
    sc_mark sc = true -> a k = None ->
    index_assign (TCfg sc mc hash) m n t k v = Some t2 ->
    stored sc (cells_of mc lg) t2 (fupd a k (Some 0)).
Proof.
  intros sc mc hash client lg m t a n k v t2 CT F CF L ST U M AN E.
  pose proof (life_index sc mc hash client lg m t CT F CF L n a k v t2 ST U E) as X. cbv zeta in X.
  rewrite M, AN in X. apply X.
Qed.
Print Assumptions C31_new_key_refuted.

Definition look (t : option mem) (p : N) : option slot :=
  match t with Some t => t p | None => None end.
Definition ex_plain9 : tcfg := TCfg (simple_slot false) (MCfg false false) (fun k => k / 4 * 2 ^ 55).

(** table[12] = 99 on marking cells (12 is new: lost), table[8] = 99 (present), and
    table[12] = 99 on non-marking cells. *)
Example C31_case :
  look (index_assign ex_mig m9 2 t15 12 99) 3 = Some (Slot 12 0) /\
  look (index_assign ex_mig m9 2 t15 8 99) 2 = Some (Slot 8 99) /\
  look (index_assign ex_plain9 m9 2 (fresh_mem ex_plain9 m9) 12 99) 3 = Some (Slot 12 99).
Proof. repeat split; vm_compute; reflexivity. Qed.

(** ** C32 *)

(** compare_exchange and erase_if_unchanged through iterators that show unmarked
    elements, called by any number of threads together with all other calls, are
    linearizable: they succeed only if the key has the value shown, and a success
    takes effect on the map. *)
Theorem C32_iterator_calls_partial :
  forall sc mc hash lg gh (client : op -> Prop) (iclient : icall -> Prop),
    cell_type sc -> 1 <= lg <= 63 -> ifair sc client iclient ->
    linearizable (ispec (sc_mark sc) (negb (cprob mc)))
      (isys_step (TCfg sc mc hash) (sized mc lg gh) client iclient)
      (isys_init (TCfg sc mc hash) (sized mc lg gh)) amap_empty.
Proof.
  intros sc mc hash lg gh client iclient CT LG (F & IK & IM) tr s ST.
  pose proof (cell_type_wf _ CT) as W. pose proof (wfm mc lg gh LG) as WM.
  destruct (isim_trace (TCfg sc mc hash) (sized mc lg gh) lg W WM client iclient) with (s := isys_init (TCfg sc mc hash) (sized mc lg gh)) (tr := tr) (s' := s)
    (y := AObj amap_empty (fun _ : N => @AIdle (mop + icall) (mres + bool))) as (y & A & _); auto.
  - now apply fair_ok.
  - intros o H. apply user_key_valid; auto.
  - apply (iinit_rel (TCfg sc mc hash) (sized mc lg gh) lg W WM).
  - exists y. exact A.
Qed.
Print Assumptions C32_iterator_calls_partial.

(** An element that is unchanged since the iterator copied it is changed. *)
Theorem C32_unchanged_succeeds :
  forall c m t p x v,
    p < total_slots (tmc c) m -> t p = Some x ->
    (exists t' x', ref_exchange c m t p x v = Some (t', x', true) /\ t' p = Some (Slot (get_key (tsc c) x) v)) /\
    (exists t' x', it_erase_if c m t p x = Some (t', x', true) /\ t' p = Some (deleted_slot (tsc c))).
Proof.
  intros c m t p x v L E.
  assert (RD : rd c m t p = Some x) by (unfold rd; destruct (N.ltb_spec p (total_slots (tmc c) m)); [auto|lia]).
  unfold ref_exchange, it_erase_if, atomic_delete, cas. rewrite RD, slot_eqb_refl.
  split; eexists _, _; (split; [reflexivity|]); unfold fupd; rewrite N.eqb_refl; reflexivity.
Qed.
Print Assumptions C32_unchanged_succeeds.

(** A schedule: insert by thread 1, thread 2 exchanges through an iterator, thread
    3 erases with an outdated one. *)
Example C32_case :
  let c := ex_mig in
  ifair (simple_slot true) (fun o => o = OInsert 8 1) (fun o => o = IExchange 8 1 2 \/ o = IEraseIf 8 1) /\
  exists s, lts_steps (isys_step c m9 (fun o => o = OInsert 8 1) (fun o => o = IExchange 8 1 2 \/ o = IEraseIf 8 1))
     (isys_init c m9)
     [EInv 1 (inl (MInsert 8 1)); EInv 2 (inr (IExchange 8 1 2)); EInv 3 (inr (IEraseIf 8 1));
      ERet 2 (inr true); ERet 3 (inr false)] s /\
     bmem (ibase s) 2 = Some (Slot 8 2).
Proof.
  cbv zeta. split.
  - split; [split; [|now left]|split; [|now left]].
    + intros o ->. split; [apply key_ok_mark; cbn; lia|exact Logic.I].
    + intros o [-> | ->]; apply key_ok_mark; cbn; lia.
  - unfold isys_init, bsys_init. eexists. split.
    + eapply ls_vis; [eapply (is_base _ _ _ _ _ _ (Some (EInv 1 (MInsert 8 1)))); [eapply (bs_inv _ _ _ _ _ 1 (OInsert 8 1)); reflexivity|reflexivity]|].
      eapply ls_tau; [eapply (is_base _ _ _ _ _ _ None); [eapply (bs_run _ _ _ _ _ 1 _ _ true); [reflexivity|discriminate|reflexivity]|discriminate]|].
      eapply ls_tau; [eapply (is_base _ _ _ _ _ _ None); [eapply (bs_run _ _ _ _ _ 1 _ _ true); [reflexivity|vm_compute; discriminate|reflexivity]|discriminate]|].
      eapply ls_vis; [eapply (is_inv _ _ _ _ _ _ 2 _ 2); [reflexivity|reflexivity|now left|reflexivity|vm_compute; reflexivity]|].
      eapply ls_vis; [eapply (is_inv _ _ _ _ _ _ 3 _ 2); [reflexivity|reflexivity|now right|reflexivity|vm_compute; reflexivity]|].
      eapply ls_tau; [eapply (is_run _ _ _ _ _ _ 2); [reflexivity|reflexivity]|].
      eapply ls_tau; [eapply (is_run _ _ _ _ _ _ 3); [reflexivity|reflexivity]|].
      eapply ls_vis; [eapply (is_ret _ _ _ _ _ _ 2); reflexivity|].
      eapply ls_vis; [eapply (is_ret _ _ _ _ _ _ 3); reflexivity|].
      constructor.
    + vm_compute. reflexivity.
Qed.

(** While the table is being migrated (here: every cell has been copied, the new
    table is not published yet) find returns an iterator with a marked copy.
    compare_exchange and erase_if_unchanged through it answer true, but act on the
    old table only: the new table has the old value. *)
Theorem C32_during_migration_refuted :
  let c := ex_mig in
  let s := moved c m9 mt9 64 t15 ls15 in
  lts_steps (msys_step c m9 mt9 64 nobody) (msys_init c mt9 t15 idle) (events_of c m9 mt9 64 t15 ls15) s /\
  finished s /\
  exists it p,
    find_it c 1 (GTab 0 m9 (msrc s)) 8 = ItOk it /\ it_ptr it = PCell p /\ it_second it = 40 /\
    (exists t x, ref_exchange c m9 (msrc s) p (it_copy it) 99 = Some (t, x, true)) /\
    (exists t x, it_erase_if c m9 (msrc s) p (it_copy it) = Some (t, x, true)) /\
    holds (simple_slot true) (cells_of (MCfg false false) 10) (mtgt s) 4 8 40.
Proof.
  cbv zeta. destruct C15_case as (_ & _ & _ & S & F & _). split; [exact S|]. split; [exact F|].
  exists (Iter (Slot (8 + 2 ^ 63) 40) (PCell 2) (PCell 1536)), 2.
  split; [vm_compute; reflexivity|]. split; [reflexivity|]. split; [reflexivity|].
  split; [eexists _, _; vm_compute; reflexivity|]. split; [eexists _, _; vm_compute; reflexivity|].
  split; [vm_compute; reflexivity|]. exists (Slot 8 40). split; [vm_compute; reflexivity|]. split; [left; reflexivity|reflexivity].
Qed.
Print Assumptions C32_during_migration_refuted.

(** ** C33 *)

(** erase() of an iterator that shows its element as it is, nobody else being
    active, returns and removes the element. *)
Theorem C33_erase_partial :
  forall sc mc hash (client : op -> Prop) lg m t a p k d n,
    cell_type sc -> fair sc client -> (cmap mc = false \/ cprob mc = true) ->
    life (TCfg sc mc hash) client lg m t ->
    stored sc (cells_of mc lg) t a -> user_key sc k -> holds sc (cells_of mc lg) t p k d ->
    exists t' x', it_erase (TCfg sc mc hash) m (S n) t p (Slot k d) = Some (t', x', true) /\
      stored sc (cells_of mc lg) t' (fupd a k None).
Proof.
  intros sc mc hash client lg m t a p k d n CT F CF L ST U H.
  destruct (life_erase sc mc hash client lg m t CT F CF L a p k d n ST U H) as (t' & x' & E & S & _). eauto.
Qed.
Print Assumptions C33_erase_partial.

(** erase() of an iterator whose element has been changed since: on cells with a
    16-byte CAS that does not update the expected value the loop never ends,
    although nobody else is active. *)
Theorem C33_changed_element_refuted :
  forall sc mc hash (client : op -> Prop) lg m t a p k d d0 n,
    cell_type sc -> fair sc client -> (cmap mc = false \/ cprob mc = true) ->
    life (TCfg sc mc hash) client lg m t -> sc_upd sc = false ->
    stored sc (cells_of mc lg) t a -> user_key sc k -> holds sc (cells_of mc lg) t p k d -> d0 <> d ->
    exists t', it_erase (TCfg sc mc hash) m n t p (Slot k d0) = Some (t', Slot k d0, false) /\
      stored sc (cells_of mc lg) t' a.
Proof.
  intros sc mc hash client lg m t a p k d d0 n CT F CF L SU ST U H NE.
  eapply life_erase_hangs; eauto. congruence.
Qed.
Print Assumptions C33_changed_element_refuted.

(** erase() of the growing table's iterator never returns: it removes the element
    and then erases the empty place again and again. *)
Theorem C33_growing_erase_refuted :
  forall sc mc hash (client : op -> Prop) lg m t a p k d x e v steps,
    cell_type sc -> fair sc client -> (cmap mc = false \/ cprob mc = true) ->
    life (TCfg sc mc hash) client lg m t ->
    stored sc (cells_of mc lg) t a -> user_key sc k -> holds sc (cells_of mc lg) t p k d ->
    forall n, exists g it,
      mit_erase (TCfg sc mc hash) steps (S n) (GTab v m t) (MIter v (Iter x (PCell p) (PCell e))) = ErRunning g it /\
      g_map g = m /\ stored sc (cells_of mc lg) (g_mem g) (fupd a k None).
Proof. intros. eapply life_erase_loops; eauto. Qed.
Print Assumptions C33_growing_erase_refuted.

(** After the element is erased, refresh() does not yield end(): the iterator shows
    the reserved key. *)
Theorem C33_refresh_refuted :
  forall sc mc hash (client : op -> Prop) lg m t a p k d x e,
    cell_type sc -> fair sc client -> (cmap mc = false \/ cprob mc = true) ->
    life (TCfg sc mc hash) client lg m t ->
    stored sc (cells_of mc lg) t a -> user_key sc k -> holds sc (cells_of mc lg) t p k d ->
    exists t' x' it', it_erase (TCfg sc mc hash) m 1 t p (Slot k d) = Some (t', x', true) /\
      it_refresh (TCfg sc mc hash) m t' (Iter x (PCell p) e) = ItOk it' /\
      it_eqb it' it_end = false /\ ~ user_key sc (it_first it').
Proof.
  intros sc mc hash client lg m t a p k d x e CT F CF L ST U H.
  destruct (life_erase sc mc hash client lg m t CT F CF L a p k d 0 ST U H) as (t' & x' & E & S & TP).
  exists t', x', (Iter (deleted_slot sc) (PCell p) e). split; [exact E|].
  destruct (life_inv sc mc hash client CT F CF _ _ _ L) as (W & _).
  destruct H as (Lp & _). rewrite <- (tot_eq' mc lg m W) in Lp.
  unfold it_refresh, rd. cbn [it_ptr tmc it_eptr].
  destruct (N.ltb_spec p (total_slots mc m)); [|lia]. rewrite TP. split; [reflexivity|]. split; [reflexivity|].
  unfold it_first, get_key_ref, user_key. cbn [it_copy]. unfold deleted_slot, ddummy, mbit; cbn [skey]; destruct (sc_mark _); lia.
Qed.
Print Assumptions C33_refresh_refuted.

Example C33_case :
  holds (simple_slot true) (cells_of (MCfg false false) 9) t15 2 8 40 /\ sc_upd (simple_slot true) = false /\
  (exists t x, it_erase ex_mig m9 1 t15 2 (Slot 8 40) = Some (t, x, true) /\ t 2 = Some (deleted_slot (simple_slot true))) /\
  (exists t, it_erase ex_mig m9 100 t15 2 (Slot 8 39) = Some (t, Slot 8 39, false)) /\
  (exists g it, mit_erase ex_mig 1 100 (GTab 0 m9 t15) (MIter 0 (Iter (Slot 8 40) (PCell 2) (PCell 1536))) = ErRunning g it).
Proof.
  split; [split; [vm_compute; reflexivity|exists (Slot 8 40); split; [vm_compute; reflexivity|split; [left; reflexivity|reflexivity]]]|].
  split; [reflexivity|]. split; [eexists _, _; split; vm_compute; reflexivity|].
  split; [eexists; vm_compute; reflexivity|]. eexists _, _. vm_compute. reflexivity.
Qed.

(** ** C34 *)

(** Every element shown without the mark bit by an iteration that runs while other
    threads are active was stored, with that value, when its cell was loaded.  With
    the mark bit it is a stored element under a wrong key, or an erased cell. *)
Theorem C34_shown_elements_partial :
  forall sc mc hash lg gh (client : op -> Prop) (ss : nat -> bsys) j n p q x copy,
    cell_type sc -> 1 <= lg <= 63 -> fair sc client ->
    (forall i, table_reachable (TCfg sc mc hash) (sized mc lg gh) client (ss i)) ->
    cscan (TCfg sc mc hash) (sized mc lg gh) (fun i => bmem (ss i)) j n p copy = SHit q x ->
    exists i a, stored sc (cells_of mc lg) (bmem (ss i)) a /\
      ((is_marked sc x = false /\ a (skey x) = Some (sdata x)) \/
       (is_marked sc x = true /\ exists k, skey x = k + 2 ^ (sc_w sc - 1) /\
          (a k = Some (sdata x) \/ k = 2 ^ (sc_w sc - 1) - 1))).
Proof.
  intros sc mc hash lg gh client ss j n p q x copy CT LG F R H.
  apply cscan_hit in H. destruct H as (i & _ & _ & _ & RD & SH).
  destruct (shown_in_state sc mc hash lg gh client (ss i) q x CT LG F (R i) RD SH) as (a & A). eauto.
Qed.
Print Assumptions C34_shown_elements_partial.

(** The schedules of the refutations: a marked cell, and a marked erased cell. *)
Definition after (c : tcfg) (m : mapper) (ls : list blabel) : bsys :=
  match exec c m (bsys_init c m) ls with Some (_, s) => s | None => bsys_init c m end.

Lemma after_reachable c m ls (client : op -> Prop) :
  (forall o, In o (ops_of ls) -> client o) ->
  match exec c m (bsys_init c m) ls with Some _ => true | None => false end = true ->
  table_reachable c m client (after c m ls).
Proof.
  intros H E. unfold after. destruct (exec c m (bsys_init c m) ls) as [[tr s]|] eqn:X; [|discriminate].
  exists tr. eapply exec_sound; eauto.
Qed.

(** One insert(8,40), one cell marked: the iteration shows key 8 + 2^63. *)
Theorem C34_marked_key_refuted :
  exists (client : op -> Prop) s,
    fair (simple_slot true) client /\ table_reachable ex_mig m9 client s /\
    (forall o, client o -> o = OInsert 8 40) /\
    walk ex_mig m9 (bmem s) 1 (it_begin ex_mig m9 (bmem s)) = Walked [(8 + 2 ^ 63, 40)].
Proof.
  exists (fun o => In o [OInsert 8 40]), (after ex_mig m9 (call 1 (OInsert 8 40) 2 ++ [LMark 2])).
  split.
  { split; [|now left]. intros o H. cbn in H. destruct H as [<-|[]].
    split; [apply key_ok_mark; cbn; lia|exact Logic.I]. }
  split; [apply after_reachable; [auto|vm_compute; reflexivity]|].
  split; [intros o [<-|[]]; reflexivity|]. vm_compute. reflexivity.
Qed.
Print Assumptions C34_marked_key_refuted.

(** One insert(8,40), erase(8), the erased cell marked: the table is empty but the
    iteration shows an element with key 2^64 - 1. *)
Theorem C34_phantom_refuted :
  exists (client : op -> Prop) s,
    fair (simple_slot true) client /\ table_reachable ex_mig m9 client s /\
    stored (simple_slot true) (cells_of (MCfg false false) 9) (bmem s) amap_empty /\
    exists d, walk ex_mig m9 (bmem s) 1 (it_begin ex_mig m9 (bmem s)) = Walked [(2 ^ 64 - 1, d)].
Proof.
  exists (fun o => In o [OInsert 8 40; OErase 8]),
    (after ex_mig m9 (call 1 (OInsert 8 40) 2 ++ call 1 (OErase 8) 2 ++ [LMark 2])).
  assert (F : fair (simple_slot true) (fun o => In o [OInsert 8 40; OErase 8])).
  { split; [|now left]. intros o H. cbn in H. repeat destruct H as [<-|H]; try contradiction;
      (split; [apply key_ok_mark; cbn; lia|exact Logic.I]). }
  split; [exact F|].
  split; [apply after_reachable; [auto|vm_compute; reflexivity]|].
  split; [|eexists; vm_compute; reflexivity].
  intros k d. split; [discriminate|]. intros [[U1 U2] (p & Lp & x & E & H)]. exfalso.
  destruct (N.eq_dec p 2) as [->|NE].
  - assert (X : x = Slot (2 ^ 64 - 1) 0).
    { change (Some (Slot (2 ^ 64 - 1) 0) = Some x) in E. now injection E. }
    subst x. clear E Lp. cbn in U2. change (2 ^ (64 - 1)) with 9223372036854775808 in U2.
    destruct H as [[H|[_ H]] _]; cbn [skey sc_w simple_slot] in H;
      change (2 ^ (64 - 1)) with 9223372036854775808 in H; change (2 ^ 64) with 18446744073709551616 in H; lia.
  - assert (X : bmem (after ex_mig m9 (call 1 (OInsert 8 40) 2 ++ call 1 (OErase 8) 2 ++ [LMark 2])) p =
                fresh_mem ex_mig m9 p).
    { destruct p as [|[[p|p|]|[p|p|]|]]; try (vm_compute; reflexivity); congruence. }
    rewrite X in E. unfold fresh_mem in E. destruct (_ <? _); [|discriminate]. injection E as <-.
    clear X Lp. destruct H as [[H|[_ H]] _]; cbn in *; lia.
Qed.
Print Assumptions C34_phantom_refuted.

(** An iterator of the growing table whose element is erased before the table is
    replaced: after ++ it is past end(), the loop never ends and shows elements
    with key 0 and value 0. *)
Theorem C34_endless_refuted :
  forall sc mc hash (client : op -> Prop) lg g s it a,
    cell_type sc -> fair sc client -> (cmap mc = false \/ cprob mc = true) ->
    life (TCfg sc mc hash) client lg (g_map g) (g_mem g) ->
    stored sc (cells_of mc lg) (g_mem g) a ->
    g_ver g <> mi_ver it -> user_key sc (get_key sc (it_copy (mi_it it))) ->
    a (get_key sc (it_copy (mi_it it))) = None ->
    find_it (TCfg sc mc hash) s g (get_key sc (it_copy (mi_it it))) <> ItBad ->
    exists it', mit_next (TCfg sc mc hash) s g it = Some it' /\
      forall n, mwalk (TCfg sc mc hash) s g n it' = Walking (repeat (0, 0) n).
Proof. intros. eapply gone_walk; eauto. Qed.
Print Assumptions C34_endless_refuted.

(** The target of the migration of C15_case does not contain 253, which was erased
    before; an iterator that shows 253 in the old table. *)
Example C34_case :
  let g := GTab 1 mt9 (mtgt (moved ex_mig m9 mt9 64 t15 ls15)) in
  let it := MIter 0 (Iter (Slot 253 20) (PCell 64) (PCell 1536)) in
  find_it ex_mig 3 g 253 = ItOk it_end /\
  (exists it', mit_next ex_mig 3 g it = Some it' /\ mwalk ex_mig 3 g 4 it' = Walking [(0,0);(0,0);(0,0);(0,0)]).
Proof.
  cbv zeta. split; [vm_compute; reflexivity|]. eexists. split; vm_compute; reflexivity.
Qed.
