(** Theorems C46-C48 and C51: the growing table as a whole. *)
From Coq Require Import NArith Bool List Lia.
From Verif Require Import Words Slot SlotFacts Mapper MapperFacts ReturnCode MapSpec LinSpec
  Base BaseInv BaseLin TableSpec BaseFacts HistSpec Hist LinCheck Migrate Growing GrowingSpec GrowingInv
  GrowingFacts GrowingExec GrowingSolo GrowingRoom PropBase.
Import ListNotations.
Open Scope N_scope.

Ltac admits := let o := fresh in let H := fresh in
  intros o H; cbn in H; repeat destruct H as [<-|H]; try contradiction;
  (split; [first [apply key_ok_plain|apply key_ok_mark]; cbn; lia|
           first [exact Logic.I|intros ? ?; discriminate]]).

(** ** C47 *)

(** One thread makes calls one after the other; in between, and between two
    attempts of the same call, the table may grow any number of times, with any
    number of helpers.  Left out: circular mapping together with linear probing
    (C16_circular_mapping_refuted), circular tables without any vacant cell
    (C15_full_circular_refuted), and on non-marking cells clients that use both
    erase and update. *)
Theorem C47_one_thread_is_a_map_partial :
  forall sc mc hash lg B (client : op -> Prop) t l s,
    cell_type sc -> fair sc client -> (cmap mc = false \/ cprob mc = true) ->
    1 <= lg <= 63 -> 0 < B <= 2 ^ 31 ->
    lts_steps (sync_step (TCfg sc mc hash) B client) (gsys_init (TCfg sc mc hash) lg) (in_turn t l) s ->
    exists m, answers amap_empty l m.
Proof.
  intros sc mc hash lg B client t l s CT FR CF LG HB ST.
  destruct (sync_sim (TCfg sc mc hash) B client (cell_type_wf _ CT) (fair_ok _ _ (cell_type_wf _ CT) FR) CF HB _ _ _ _
    (init_exclusive _ lg) (ginit_rel (TCfg sc mc hash) B client (cell_type_wf _ CT) lg LG) ST) as (x & A & _).
  destruct (in_turn_answers _ _ _ _ _ (fun _ => eq_refl) A) as [AN _]. eauto.
Qed.
Print Assumptions C47_one_thread_is_a_map_partial.

Definition c47 : tcfg := TCfg (simple_slot true) (MCfg false false) (fun k => k * 2 ^ 62).
(** Four slots and two growth steps. *)
Definition l47 : list glabel :=
  gcall 1 (OInsert 1 10) 2 ++ gcall 1 (OInsert 3 30) 2 ++ gcall 1 (OInsert 5 50) 3 ++
  migrate_by 9 4 0 1000 ++ gcall 1 (OFind 5) 2 ++ gcall 1 (OUpdate 3 (incr 1)) 2 ++
  gcall 1 (OErase 1) 2 ++ migrate_by 9 8 0 1000 ++
  gcall 1 (OFind 1) 2 ++ gcall 1 (OInsert 3 0) 1 ++ gcall 1 (OIou 1 11 (incr 1)) 3 ++ gcall 1 (OEraseIf 5 51) 1.
Example C47_case :
  fair (simple_slot true) (fun o => In o (gops_of l47)) /\
  (exists s, lts_steps (sync_step c47 4096 (fun o => In o (gops_of l47))) (gsys_init c47 2)
    (in_turn 1
      [(MInsert 1 10, RInserted); (MInsert 3 30, RInserted); (MInsert 5 50, RInserted);
       (MFind 5, RFound 50); (spec_op (simple_slot true) (OUpdate 3 (incr 1)), RUpdated 31); (MErase 1, RErased);
       (MFind 1, RAbsent); (MInsert 3 0, RPresent 31);
       (spec_op (simple_slot true) (OIou 1 11 (incr 1)), RInserted); (MEraseIf 5 51, RAbsent)]) s /\
    gver s = 2).
Proof.
  split; [split; [admits|now left]|].
  exists (gfinal c47 4096 MSync 2 l47). split; [|vm_compute; reflexivity].
  pose proof (gruns_sound c47 4096 MSync 2 l47 eq_refl ltac:(vm_compute; reflexivity)) as S.
  exact S.
Qed.

(** ** C51 *)

(** Synchronised growing: calls run concurrently, growth steps exclude them
    (C22).  The calls are linearizable and none of them reports a full or a
    migrated table. *)
Theorem C51_synchronised_growing_linearizable_partial :
  forall sc mc hash lg B (client : op -> Prop),
    cell_type sc -> fair sc client -> (cmap mc = false \/ cprob mc = true) ->
    1 <= lg <= 63 -> 0 < B <= 2 ^ 31 ->
    linearizable (mspec false false)
      (sync_step (TCfg sc mc hash) B client) (gsys_init (TCfg sc mc hash) lg) amap_empty.
Proof. intros. apply sync_linearizable; auto using cell_type_wf, fair_ok. Qed.
Print Assumptions C51_synchronised_growing_linearizable_partial.

(** Threads 2 and 3 begin their calls before a growth step and get the new
    version; an erase by thread 1 overtakes the lookup. *)
Definition l51 : list glabel :=
  gcall 1 (OInsert 1 10) 2 ++ [GInv 2 (OInsert 1 20); GInv 3 (OFind 1)] ++
  migrate_by 9 4 0 1000 ++ [GGets 2; GGets 3; GRuns 2 1; GInv 1 (OErase 1); GGets 1; GRuns 1 2; GRuns 3 2; GRet 2; GRet 1; GRet 3].
Example C51_case :
  fair (simple_slot true) (fun o => In o (gops_of l51)) /\
  (exists s, lts_steps (sync_step c47 4096 (fun o => In o (gops_of l51))) (gsys_init c47 2)
    [EInv 1 (MInsert 1 10); ERet 1 RInserted; EInv 2 (MInsert 1 20); EInv 3 (MFind 1); EInv 1 (MErase 1);
     ERet 2 (RPresent 10); ERet 1 RErased; ERet 3 RAbsent] s /\ gver s = 1).
Proof.
  split; [split; [admits|now left]|].
  exists (gfinal c47 4096 MSync 2 l51). split; [|vm_compute; reflexivity].
  pose proof (gruns_sound c47 4096 MSync 2 l51 eq_refl ltac:(vm_compute; reflexivity)) as S.
  exact S.
Qed.

(** ** C48 *)

(** Asynchronous growing of marking cells: calls, in particular lookups, go on
    during migrations, and lookups that got the old version finish on it after the
    new one is published.  All calls are linearizable, as long as no call changes
    a cell between the load and the mark in a helper's second loop. *)
Theorem C48_asynchronous_growing_linearizable_partial :
  forall sc mc hash lg B (client : op -> Prop),
    cell_type sc -> fair sc client -> (cmap mc = false \/ cprob mc = true) -> sc_mark sc = true ->
    1 <= lg <= 63 -> 0 < B <= 2 ^ 31 ->
    linearizable (mspec false false)
      (async_step (TCfg sc mc hash) B client) (gsys_init (TCfg sc mc hash) lg) amap_empty.
Proof. intros. apply async_linearizable; auto using cell_type_wf, fair_ok. Qed.
Print Assumptions C48_asynchronous_growing_linearizable_partial.

(** Thread 2's lookup starts before the migration and reads the old version after
    thread 3 has erased the key from the new one; thread 4's update runs into the
    migration and starts over. *)
Definition l48 : list glabel :=
  gcall 1 (OInsert 1 10) 2 ++ gcall 1 (OInsert 2 20) 2 ++
  [GInv 2 (OFind 1); GGets 2; GInv 4 (OUpdate 2 (incr 1)); GGets 4; GGrow 4 0; GJoin 9; GHelps 9 200;
   GRuns 4 1; GPublish] ++
  gcall 3 (OErase 1) 2 ++ [GRuns 2 1; GRet 2; GRetry 4; GGets 4; GRuns 4 2; GRet 4].
Example C48_case :
  fair (simple_slot true) (fun o => In o (gops_of l48)) /\
  (exists s, lts_steps (async_step c47 4096 (fun o => In o (gops_of l48))) (gsys_init c47 2)
    [EInv 1 (MInsert 1 10); ERet 1 RInserted; EInv 1 (MInsert 2 20); ERet 1 RInserted;
     EInv 2 (MFind 1); EInv 4 (spec_op (simple_slot true) (OUpdate 2 (incr 1)));
     EInv 3 (MErase 1); ERet 3 RErased; ERet 2 (RFound 10); ERet 4 (RUpdated 21)] s /\ gver s = 1).
Proof.
  split; [split; [admits|now left]|].
  exists (gfinal c47 4096 MAsync 2 l48). split; [|vm_compute; reflexivity].
  pose proof (gruns_sound c47 4096 MAsync 2 l48 eq_refl ltac:(vm_compute; reflexivity)) as S.
  exact S.
Qed.

(** Without the restriction, a lookup that starts after an insert has reported
    success, and after the growth step, does not find the key. *)
Definition c48 : tcfg := TCfg (simple_slot true) (MCfg false false) (fun _ => 2 ^ 64 - 1).
Definition l48b : list glabel :=
  gcall 1 (OInsert 1 10) 2 ++
  [GInv 2 (OInsert 2 20); GGets 2; GRuns 2 1; GGrow 400 0; GJoin 9; GHelps 9 2054; GRuns 2 2; GRet 2;
   GHelps 9 2; GPublish] ++ gcall 3 (OFind 2) 2.
Theorem C48_lost_insert_refuted :
  exists sc mc hash lg (client : op -> Prop) tr s,
    cell_type sc /\ sc_mark sc = true /\ fair sc client /\ cmap mc = false /\ cprob mc = false /\ 1 <= lg <= 63 /\
    lts_steps (gsys_step (TCfg sc mc hash) migration_block_size client) (gsys_init (TCfg sc mc hash) lg) tr s /\
    (forall o, client o -> ~ erasing o) /\
    (exists k d t t' tr', tr = tr' ++ [EInv t' (MFind k); ERet t' RAbsent] /\
       In (EInv t (MInsert k d)) tr' /\ In (ERet t RInserted) tr') /\
    ~ linearizable_trace (mspec false false) amap_empty tr.
Proof.
  exists (simple_slot true), (MCfg false false), (fun _ => 2 ^ 64 - 1), 9, (fun o => In o (gops_of l48b)),
    (gtrace c48 4096 MAny 9 l48b), (gfinal c48 4096 MAny 9 l48b).
  split; [exists true; auto|]. split; [reflexivity|]. split; [split; [admits|now left]|].
  split; [reflexivity|]. split; [reflexivity|]. split; [lia|].
  split; [exact (gruns_sound c48 4096 MAny 9 l48b eq_refl ltac:(vm_compute; reflexivity))|].
  split. { intros o H; cbn in H; repeat destruct H as [<-|H]; try contradiction; cbn; auto. }
  assert (E : gtrace c48 4096 MAny 9 l48b =
    [EInv 1 (MInsert 1 10); ERet 1 RInserted; EInv 2 (MInsert 2 20); ERet 2 RInserted] ++
    [EInv 3 (MFind 2); ERet 3 RAbsent]) by (vm_compute; reflexivity).
  rewrite E. split.
  - exists 2, 20, 2, 3. eexists. split; [reflexivity|]. cbn. auto 10.
  - apply not_linearizable. vm_compute. reflexivity.
Qed.
Print Assumptions C48_lost_insert_refuted.

(** ** C46 *)

(** Linear probing, all keys with the largest hash value: no matter how often the
    table grows, a thread that inserts different keys one after the other never
    completes more than 302 calls; the next one runs forever. *)
Theorem C46_insert_terminates_refuted :
  forall sc hash lg B (client : op -> Prop) t l s,
    cell_type sc -> fair sc client -> 1 <= lg <= 63 -> 0 < B <= 2 ^ 31 ->
    lts_steps (sync_step (TCfg sc (MCfg false false) hash) B client)
      (gsys_init (TCfg sc (MCfg false false) hash) lg) (in_turn t l) s ->
    (forall o r, In (o, r) l -> exists k d, o = MInsert k d /\ hash k = 2 ^ 64 - 1) ->
    NoDup (map (fun x => mop_key (fst x)) l) ->
    (length l <= 302)%nat.
Proof.
  intros sc hash lg B client t l s CT FR LG HB ST F ND.
  eapply (top_hash_calls (TCfg sc (MCfg false false) hash) B client lg t l s); eauto.
  apply fair_ok; auto. now apply cell_type_wf.
Qed.
Print Assumptions C46_insert_terminates_refuted.

(** Comparing traces of inserts. *)
Fixpoint trace_is (a b : list (event mop mres)) : bool :=
  match a, b with
  | [], [] => true
  | EInv t (MInsert k d) :: a, EInv t' (MInsert k' d') :: b => (t =? t') && (k =? k') && (d =? d') && trace_is a b
  | ERet t RInserted :: a, ERet t' RInserted :: b => (t =? t') && trace_is a b
  | _, _ => false
  end.
Lemma trace_is_sound : forall a b, trace_is a b = true -> b = a.
Proof.
  induction a as [|x a IH]; intros [|y b]; cbn; try discriminate; auto.
  - destruct x as [? []|? []]; discriminate.
  - destruct x as [t o|t r], y as [t' o'|t' r']; try (destruct o; discriminate); try (destruct r; discriminate).
    + destruct o; try discriminate. destruct o'; try discriminate. rewrite !andb_true_iff, !N.eqb_eq. intros [[[-> ->] ->] H]. f_equal. auto.
    + destruct r; try discriminate. destruct r'; try discriminate. rewrite !andb_true_iff, !N.eqb_eq. intros [-> H]. f_equal. auto.
Qed.

(** 302 calls do complete, and the 303rd starts over before and after a growth
    step. *)
Definition keys (n : nat) : list N := map N.of_nat (seq 1 n).
Definition l46 : list glabel :=
  flat_map (fun k => gcall 1 (OInsert k 0) (k + 1)) (keys 302) ++
  [GInv 1 (OInsert 303 0); GGets 1; GRuns 1 303; GRetry 1] ++ migrate_by 1 302 0 50000 ++
  [GGets 1; GRuns 1 303; GRetry 1].
Example C46_case :
  fair (simple_slot true) (fun o => In o (gops_of l46)) /\
  (exists s, lts_steps (sync_step c48 4096 (fun o => In o (gops_of l46))) (gsys_init c48 8)
    (in_turn 1 (map (fun k => (MInsert k 0, RInserted)) (keys 302)) ++ [EInv 1 (MInsert 303 0)]) s /\
    gver s = 1 /\ gthr s 1 = Some (OInsert 303 0, GGet)).
Proof.
  split.
  { split; [|now left]. intros o H.
    assert (X : forallb (fun o => match o with OInsert k _ => (0 <? k) && (k <? 1000) | _ => false end) (gops_of l46) = true)
      by (vm_compute; reflexivity).
    rewrite forallb_forall in X. specialize (X o H). destruct o; try discriminate.
    apply andb_true_iff in X. destruct X as [X1 X2]. apply N.ltb_lt in X1, X2.
    split; [apply key_ok_mark; cbn; lia|exact Logic.I]. }
  assert (X : match gexec c48 4096 MSync (ginit c48 8) l46 with
              | Some (tr, x) => trace_is (in_turn 1 (map (fun k => (MInsert k 0, RInserted)) (keys 302)) ++ [EInv 1 (MInsert 303 0)]) tr &&
                  (gver (xs x) =? 1) && match gthr (xs x) 1 with Some (OInsert k d, GGet) => (k =? 303) && (d =? 0) | _ => false end
              | None => false end = true) by (vm_compute; reflexivity).
  destruct (gexec c48 4096 MSync (ginit c48 8) l46) as [[tr x]|] eqn:E; [|discriminate].
  apply (gexec_steps c48 4096 MSync 8 l46 tr x eq_refl) in E. rename E into S.
  apply andb_true_iff in X. destruct X as [X T]. apply andb_true_iff in X. destruct X as [X V].
  apply trace_is_sound in X. apply N.eqb_eq in V. subst tr.
  exists (xs x). split; [exact S|]. split; [exact V|].
  destruct (gthr (xs x) 1) as [[[k d| | | | | |] [|]]|]; try discriminate.
  apply andb_true_iff in T. rewrite !N.eqb_eq in T. now destruct T as [-> ->].
Qed.

(** What does hold: a call that runs alone completes, without any growth step, if
    there is a vacant cell between the position of its key and the end of the
    usable overflow area. *)
Theorem C46_call_completes_partial :
  forall sc hash lg B (client : op -> Prop) tr s tid o p,
    cell_type sc -> fair sc client -> 1 <= lg <= 63 -> 0 < B <= 2 ^ 31 ->
    lts_steps (sync_step (TCfg sc (MCfg false false) hash) B client)
      (gsys_init (TCfg sc (MCfg false false) hash) lg) tr s ->
    gmig s = None -> gthr s tid = None -> client o ->
    let m := gmap s (gver s) in
    let mc := MCfg false false in
    vacant sc (total_slots mc m) (gmem s (gver s)) p ->
    map_hash mc m (w64 (hash (op_key o))) <= p <= addressable_slots mc m + 300 ->
    exists r s',
      lts_steps (sync_step (TCfg sc (MCfg false false) hash) B client) s
        [EInv tid (spec_op sc o); ERet tid r] s' /\ gver s' = gver s.
Proof.
  intros sc hash lg B client tr s tid o p CT FR LG HB ST MG TH CL m mc VA RG.
  eapply (alone_completes (TCfg sc (MCfg false false) hash) B client lg tr s tid o p); eauto.
  apply fair_ok; auto. now apply cell_type_wf.
Qed.
Print Assumptions C46_call_completes_partial.

Example C46_completes_case :
  let s := gfinal c47 4096 MSync 2 l47 in
  gmig s = None /\ gthr s 1 = None /\ addressable_slots (MCfg false false) (gmap s (gver s)) = 16 /\
  vacant (simple_slot true) (total_slots (MCfg false false) (gmap s (gver s))) (gmem s (gver s)) 13 /\
  map_hash (MCfg false false) (gmap s (gver s)) (w64 (7 * 2 ^ 62)) <= 13.
Proof.
  cbv zeta. split; [vm_compute; reflexivity|]. split; [vm_compute; reflexivity|].
  split; [vm_compute; reflexivity|]. split; [|vm_compute; discriminate].
  split; [vm_compute; reflexivity|]. exists empty_slot. split; [vm_compute; reflexivity|now left].
Qed.

(** In terms of the keys: [ks] lists the keys the table holds besides that of the
    call, [rs] the cells whose element was erased since the last growth step.
    The call completes if for every position [a] up to that of its key, the keys
    with positions from [a] on and the erased cells together do not outnumber
    the usable cells from [a] on but one. *)
Theorem C46_spread_keys_complete_partial :
  forall sc hash lg B (client : op -> Prop) tr s tid o ks rs,
    cell_type sc -> fair sc client -> 1 <= lg <= 63 -> 0 < B <= 2 ^ 31 ->
    lts_steps (sync_step (TCfg sc (MCfg false false) hash) B client)
      (gsys_init (TCfg sc (MCfg false false) hash) lg) tr s ->
    gmig s = None -> gthr s tid = None -> client o ->
    let m := gmap s (gver s) in
    let mc := MCfg false false in
    let pos := fun k => map_hash mc m (w64 (hash k)) in
    (forall p k d, user_key sc k -> holds sc (total_slots mc m) (gmem s (gver s)) p k d ->
       k <> op_key o -> In k ks) ->
    (forall p x, p < total_slots mc m -> gmem s (gver s) p = Some x -> word_is sc x (2 ^ (sc_w sc - 1) - 1) -> In p rs) ->
    (forall a, a <= pos (op_key o) ->
       N.of_nat (length (filter (fun k => a <=? pos k) ks)) + N.of_nat (length rs)
         <= addressable_slots mc m + 300 - a) ->
    exists r s',
      lts_steps (sync_step (TCfg sc (MCfg false false) hash) B client) s
        [EInv tid (spec_op sc o); ERet tid r] s' /\ gver s' = gver s.
Proof.
  intros sc hash lg B client tr s tid o ks rs CT FR LG HB ST MG TH CL m mc pos HK HR HC.
  eapply (spread_completes (TCfg sc (MCfg false false) hash) B client lg tr s tid o ks rs); eauto.
  apply fair_ok; auto. now apply cell_type_wf.
Qed.
Print Assumptions C46_spread_keys_complete_partial.

(** Keys 1, 3 and 5 are inserted into 4 slots and 3 is erased; 7 comes next. *)
Definition l46c : list glabel :=
  gcall 1 (OInsert 1 10) 2 ++ gcall 1 (OInsert 3 30) 2 ++ gcall 1 (OInsert 5 50) 3 ++ gcall 1 (OErase 3) 2.
Example C46_spread_case :
  let s := gfinal c47 4096 MSync 2 l46c in
  let client := fun o => In o (OInsert 7 0 :: gops_of l46c) in
  fair (simple_slot true) client /\
  (exists tr, lts_steps (sync_step c47 4096 client) (gsys_init c47 2) tr s) /\
  gmig s = None /\ gthr s 1 = None /\
  (forall p k d, user_key (simple_slot true) k ->
     holds (simple_slot true) (total_slots (MCfg false false) (gmap s (gver s))) (gmem s (gver s)) p k d ->
     k <> 7 -> In k [1; 5]) /\
  (forall p x, p < total_slots (MCfg false false) (gmap s (gver s)) -> gmem s (gver s) p = Some x ->
     word_is (simple_slot true) x (2 ^ 63 - 1) -> In p [3]) /\
  (forall a, a <= map_hash (MCfg false false) (gmap s (gver s)) (w64 (7 * 2 ^ 62)) ->
     N.of_nat (length (filter (fun k => a <=? map_hash (MCfg false false) (gmap s (gver s)) (w64 (k * 2 ^ 62))) [1; 5]))
       + N.of_nat (length [3]) <= addressable_slots (MCfg false false) (gmap s (gver s)) + 300 - a).
Proof.
  cbv zeta. set (s := gfinal c47 4096 MSync 2 l46c).
  assert (CELL : forall p x, p < 1028 -> gmem s (gver s) p = Some x ->
     skey x = 0 \/ skey x = 1 \/ skey x = 5 \/ (skey x = 2 ^ 63 - 1 /\ p = 3)).
  { intros p x L E.
    assert (X : forallb (fun p => match gmem s (gver s) p with
        | Some x => (skey x =? 0) || (skey x =? 1) || (skey x =? 5) || ((skey x =? 2 ^ 63 - 1) && (p =? 3))
        | None => true end) (nrange 0 1028) = true) by (vm_compute; reflexivity).
    rewrite forallb_forall in X. specialize (X p). rewrite in_nrange in X. specialize (X ltac:(lia)).
    rewrite E in X. repeat rewrite orb_true_iff in X. rewrite andb_true_iff in X.
    repeat rewrite N.eqb_eq in X. tauto. }
  assert (TOT : total_slots (MCfg false false) (gmap s (gver s)) = 1028) by (vm_compute; reflexivity).
  split; [split; [admits|now left]|].
  split.
  { eexists. eapply lts_client; [|exact (gruns_sound c47 4096 MSync 2 l46c eq_refl ltac:(vm_compute; reflexivity))].
    intros o H. now right. }
  split; [vm_compute; reflexivity|]. split; [vm_compute; reflexivity|].
  rewrite TOT. split; [|split].
  - intros p k d U (L & x & E & W & _) NK. unfold user_key in U. cbn [sc_mark sc_w simple_slot] in U.
    change (64 - 1) with 63 in U. destruct W as [W|[_ W]]; cbn [sc_w simple_slot] in W;
      change (64 - 1) with 63 in *; destruct (CELL p x L E) as [C|[C|[C|[C ->]]]]; cbn [In]; lia.
  - intros p x L E W. unfold word_is in W. cbn [sc_mark sc_w simple_slot] in W. change (64 - 1) with 63 in W.
    destruct W as [W|[_ W]]; destruct (CELL p x L E) as [C|[C|[C|[C ->]]]]; cbn [In]; lia.
  - intros a Ha. replace (addressable_slots (MCfg false false) (gmap s (gver s))) with 4 by (vm_compute; reflexivity).
    replace (map_hash (MCfg false false) (gmap s (gver s)) (w64 (7 * 2 ^ 62))) with 3 in Ha by (vm_compute; reflexivity).
    pose proof (filter_len (fun k => a <=? map_hash (MCfg false false) (gmap s (gver s)) (w64 (k * 2 ^ 62))) [1; 5]) as F.
    cbn [length] in *. lia.
Qed.

(** When nothing is erased, it suffices to know which keys are ever inserted. *)
Theorem C46_inserted_keys_complete_partial :
  forall sc hash lg B (client : op -> Prop) tr s tid o ks,
    cell_type sc -> fair sc client -> 1 <= lg <= 63 -> 0 < B <= 2 ^ 31 ->
    (forall o, client o -> ~ erasing o) ->
    (forall o, client o -> inserting o -> In (op_key o) ks) ->
    lts_steps (sync_step (TCfg sc (MCfg false false) hash) B client)
      (gsys_init (TCfg sc (MCfg false false) hash) lg) tr s ->
    gmig s = None -> gthr s tid = None -> client o ->
    let m := gmap s (gver s) in
    let mc := MCfg false false in
    let pos := fun k => map_hash mc m (w64 (hash k)) in
    (forall a, a <= pos (op_key o) ->
       N.of_nat (length (filter (fun k => negb (k =? op_key o) && (a <=? pos k)) ks))
         <= addressable_slots mc m + 300 - a) ->
    exists r s',
      lts_steps (sync_step (TCfg sc (MCfg false false) hash) B client) s
        [EInv tid (spec_op sc o); ERet tid r] s' /\ gver s' = gver s.
Proof.
  intros sc hash lg B client tr s tid o ks CT FR LG HB NE KS ST MG TH CL m mc pos HC.
  eapply (inserted_completes (TCfg sc (MCfg false false) hash) B client lg tr s tid o ks); eauto.
  - apply fair_ok; auto. now apply cell_type_wf.
  - intros o1 C1. specialize (KS o1 C1).
    destruct o1; cbn [inserting] in KS; auto; right; intros k1 d1 f1; split; discriminate.
Qed.
Print Assumptions C46_inserted_keys_complete_partial.

(** Up to 302 different keys, for every hash function: calls always complete.
    C46_insert_terminates_refuted shows that 303 are too many. *)
Theorem C46_few_keys_complete_partial :
  forall sc hash lg B (client : op -> Prop) tr s tid o ks,
    cell_type sc -> fair sc client -> 1 <= lg <= 63 -> 0 < B <= 2 ^ 31 ->
    (forall o, client o -> ~ erasing o) ->
    (forall o, client o -> inserting o -> In (op_key o) ks) ->
    lts_steps (sync_step (TCfg sc (MCfg false false) hash) B client)
      (gsys_init (TCfg sc (MCfg false false) hash) lg) tr s ->
    gmig s = None -> gthr s tid = None -> client o ->
    (length (remove N.eq_dec (op_key o) ks) <= 301)%nat ->
    exists r s',
      lts_steps (sync_step (TCfg sc (MCfg false false) hash) B client) s
        [EInv tid (spec_op sc o); ERet tid r] s' /\ gver s' = gver s.
Proof.
  intros sc hash lg B client tr s tid o ks CT FR LG HB NE KS ST MG TH CL HL.
  eapply C46_inserted_keys_complete_partial; eauto. intros a Ha.
  assert (LT : map_hash (MCfg false false) (gmap s (gver s)) (w64 (hash (op_key o)))
               < addressable_slots (MCfg false false) (gmap s (gver s))).
  { destruct (sync_sim (TCfg sc (MCfg false false) hash) B client (cell_type_wf _ CT) (fair_ok _ _ (cell_type_wf _ CT) FR)
      (or_introl eq_refl) HB _ _ _ _ (init_exclusive _ lg)
      (ginit_rel (TCfg sc (MCfg false false) hash) B client (cell_type_wf _ CT) lg LG) ST) as (x & _ & R & _).
    destruct R as (ct & mk & l & CI & _). destruct (cur_wf _ B _ _ _ CI) as [lg' W].
    pose proof (hm_lt (TCfg sc (MCfg false false) hash) _ lg' W (op_key o)) as H.
    pose proof (addressable_val _ _ _ W) as EA. cbn [tmc] in EA. rewrite EA. exact H. }
  pose proof (filter_remove (fun k => a <=? map_hash (MCfg false false) (gmap s (gver s)) (w64 (hash k)))
    (op_key o) ks) as LE. cbv beta in LE.
  lia.
Qed.
Print Assumptions C46_few_keys_complete_partial.

(** 100 keys with the largest hash value are in the table of 256 slots; the call
    for the 101st is covered. *)
Definition l46b : list glabel := flat_map (fun k => gcall 1 (OInsert k 0) (k + 1)) (keys 100).
Definition client46 (o : op) : Prop := In o (map (fun k => OInsert k 0) (keys 101)).
Example C46_few_case :
  fair (simple_slot true) client46 /\ (forall o, client46 o -> ~ erasing o) /\
  (forall o, client46 o -> inserting o -> In (op_key o) (keys 101)) /\
  client46 (OInsert 101 0) /\ length (remove N.eq_dec 101 (keys 101)) = 100%nat /\
  exists s, lts_steps (sync_step c48 4096 client46) (gsys_init c48 8)
    (in_turn 1 (map (fun k => (MInsert k 0, RInserted)) (keys 100))) s /\
    gmig s = None /\ gthr s 1 = None /\ addressable_slots (MCfg false false) (gmap s (gver s)) = 256.
Proof.
  split.
  { split; [|now left]. intros o H. apply in_map_iff in H. destruct H as (k & <- & H).
    unfold keys in H. apply in_map_iff in H. destruct H as (n & <- & H). apply in_seq in H.
    split; [apply key_ok_mark; cbn; lia|exact Logic.I]. }
  split; [intros o H; apply in_map_iff in H; destruct H as (k & <- & H); cbn; auto|].
  split; [intros o H; apply in_map_iff in H; destruct H as (k & <- & H); cbn; auto|].
  split; [apply in_map_iff; exists 101; split; auto; vm_compute; tauto|].
  split; [vm_compute; reflexivity|].
  assert (X : match gexec c48 4096 MSync (ginit c48 8) l46b with
              | Some (tr, x) => trace_is (in_turn 1 (map (fun k => (MInsert k 0, RInserted)) (keys 100))) tr &&
                  match gmig (xs x), gthr (xs x) 1 with None, None => true | _, _ => false end &&
                  (addressable_slots (MCfg false false) (gmap (xs x) (gver (xs x))) =? 256)
              | None => false end = true) by (vm_compute; reflexivity).
  destruct (gexec c48 4096 MSync (ginit c48 8) l46b) as [[tr x]|] eqn:E; [|discriminate].
  apply (gexec_steps c48 4096 MSync 8 l46b tr x eq_refl) in E. rename E into S.
  apply andb_true_iff in X. destruct X as [X V]. apply andb_true_iff in X. destruct X as [X T].
  apply trace_is_sound in X. apply N.eqb_eq in V. subst tr. exists (xs x).
  destruct (gmig (xs x)); [discriminate|]. destruct (gthr (xs x) 1); [discriminate|]. split; [|auto]. clear V T.
  eapply lts_client; [|exact S].
  intros o H. unfold client46.
  assert (X : forallb (fun o => match o with OInsert k d => (0 <? k) && (k <? 101) && (d =? 0) | _ => false end) (gops_of l46b) = true)
    by (vm_compute; reflexivity).
  rewrite forallb_forall in X. specialize (X o H). destruct o; try discriminate.
  apply andb_true_iff in X. destruct X as [X X3]. apply andb_true_iff in X. destruct X as [X1 X2].
  apply N.ltb_lt in X1, X2. apply N.eqb_eq in X3. subst d. apply in_map_iff. exists k. split; auto.
  unfold keys. apply in_map_iff. exists (N.to_nat k). split; [lia|]. apply in_seq. lia.
Qed.
