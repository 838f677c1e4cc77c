(** C01 - C10: one table used by any number of threads. *)
From Coq Require Import NArith Bool List Lia.
From Verif Require Import Words Slot SlotFacts Mapper MapperFacts ReturnCode MapSpec LinSpec
  HistSpec Base BaseExec BaseFacts TableSpec LinCheck Hist HistCount BaseReport Raw.
Import ListNotations.
Open Scope N_scope.

(** ** Example configurations: 512 slots, identity hash. *)
Definition ex_hash : N -> N := fun k => k.
Definition ex_plain : tcfg := TCfg (simple_slot false) (MCfg false false) ex_hash.
Definition ex_mark : tcfg := TCfg (simple_slot true) (MCfg false false) ex_hash.
Definition ex_circ : tcfg := TCfg (simple_slot false) (MCfg true true) ex_hash.
Definition incr (n : N) : functor := Functor (fun x => (x + n) mod 2 ^ 64) None.
(** /repo/example/update_fcts.hpp Increment: [atomic] is fetch_and_add. *)
Definition incr_atomic (n : N) : functor :=
  Functor (fun x => (x + n) mod 2 ^ 64) (Some (fun x => ((x + n) mod 2 ^ 64, x))).
Definition rets (tr : list (event mop mres)) : list (N * mres) :=
  flat_map (fun e => match e with ERet t r => [(t, r)] | _ => [] end) tr.
Definition run (c : tcfg) (m : mapper) (ls : list blabel) : option (list (N * mres)) :=
  option_map (fun x => rets (fst x)) (exec c m (bsys_init c m) ls).

Lemma key_ok_plain k : 0 < k < 1000 -> user_key (simple_slot false) k.
Proof. intros H. unfold user_key. cbn. change (2 ^ (64 - 1)) with 9223372036854775808.
  change (2 ^ 64) with 18446744073709551616. lia. Qed.
Lemma key_ok_mark k : 0 < k < 1000 -> user_key (simple_slot true) k.
Proof. intros H. unfold user_key. cbn. change (2 ^ (64 - 1)) with 9223372036854775808. lia. Qed.

(** ** C01 *)
Theorem C01_no_erase_linearizable :
  forall sc mc hash lg gh (client : op -> Prop),
    cell_type sc -> sc_mark sc = false -> 1 <= lg <= 63 ->
    (forall o, client o -> admissible sc o /\ ~ erasing o) ->
    linearizable (mspec false (negb (cprob mc)))
      (bsys_step (TCfg sc mc hash) (sized mc lg gh) client)
      (bsys_init (TCfg sc mc hash) (sized mc lg gh)) amap_empty.
Proof.
  intros sc mc hash lg gh client CT M LG CL. rewrite <- M.
  apply linearizable_fair; auto. split; [intros o H; now apply CL|].
  right; left. intros o H. now apply CL.
Qed.
Print Assumptions C01_no_erase_linearizable.

(** Two threads insert the same key; one wins, the other updates, both finish. *)
Example C01_case :
  let client o := In o [OInsert 5 7; OIou 5 1 (incr 10); OFind 5] in
  (forall o, client o -> admissible (simple_slot false) o /\ ~ erasing o) /\
  run ex_plain (sized (MCfg false false) 9 0)
    ([LInv 1 (OInsert 5 7); LInv 2 (OIou 5 1 (incr 10)); LRun 1 true; LRun 2 true;
      LRun 2 true; LRun 1 true; LRun 1 true; LRet 2; LRet 1] ++ call 3 (OFind 5) 1)
  = Some [(2, RInserted); (1, RPresent 1); (3, RFound 1)].
Proof.
  split; [|vm_compute; reflexivity].
  intros o [<-|[<-|[<-|[]]]]; (split; [|cbn; tauto]); (split; [apply key_ok_plain; cbn; lia|]);
    cbn; auto. intros g x; discriminate.
Qed.

(** ** C02 *)
Theorem C02_no_update_linearizable :
  forall sc mc hash lg gh (client : op -> Prop),
    cell_type sc -> sc_mark sc = false -> 1 <= lg <= 63 ->
    (forall o, client o -> admissible sc o /\ ~ updating o) ->
    linearizable (mspec false (negb (cprob mc)))
      (bsys_step (TCfg sc mc hash) (sized mc lg gh) client)
      (bsys_init (TCfg sc mc hash) (sized mc lg gh)) amap_empty.
Proof.
  intros sc mc hash lg gh client CT M LG CL. rewrite <- M.
  apply linearizable_fair; auto. split; [intros o H; now apply CL|].
  right; right. intros o H. now apply CL.
Qed.
Print Assumptions C02_no_update_linearizable.

(** An erase races an erase_if; the key is inserted again afterwards. *)
Example C02_case :
  let client o := In o [OInsert 5 7; OErase 5; OEraseIf 5 7; OInsert 5 8; OFind 5] in
  (forall o, client o -> admissible (simple_slot false) o /\ ~ updating o) /\
  run ex_plain (sized (MCfg false false) 9 0)
    (call 1 (OInsert 5 7) 2 ++
     [LInv 1 (OErase 5); LInv 2 (OEraseIf 5 7); LRun 1 true; LRun 2 true;
      LRun 2 true; LRun 1 true; LRun 1 true; LRun 1 true; LRet 2; LRet 1] ++
     call 1 (OInsert 5 8) 3 ++ call 3 (OFind 5) 2)
  = Some [(1, RInserted); (2, RErased); (1, RAbsent); (1, RInserted); (3, RFound 8)].
Proof.
  split; [|vm_compute; reflexivity].
  intros o [<-|[<-|[<-|[<-|[<-|[]]]]]]; (split; [|cbn; tauto]);
    (split; [apply key_ok_plain; cbn; lia|exact Logic.I]).
Qed.

(** ** C03: on non-marking cells an update racing an erase_if is not atomic.
    The history below is produced by the table: erase_if removes the key because
    its value is 0, and the concurrent update, which reports success with value 1,
    fits neither before (erase_if would have found 1) nor after it. *)
Theorem C03_update_vs_erase_if_refuted :
  exists sc mc hash lg gh (client : op -> Prop) tr s,
    cell_type sc /\ sc_mark sc = false /\ 1 <= lg <= 63 /\
    (forall o, client o -> admissible sc o) /\
    lts_steps (bsys_step (TCfg sc mc hash) (sized mc lg gh) client)
      (bsys_init (TCfg sc mc hash) (sized mc lg gh)) tr s /\
    ~ linearizable_trace (mspec false (negb (cprob mc))) amap_empty tr.
Proof.
  pose (ops := [OInsert 5 0; OUpdate 5 (incr 1); OEraseIf 5 0]).
  pose (ls := call 1 (OInsert 5 0) 2 ++
     [LInv 2 (OUpdate 5 (incr 1)); LRun 2 true; LInv 3 (OEraseIf 5 0); LRun 3 true; LRun 3 true; LRet 3;
      LRun 2 true; LRet 2]).
  destruct (exec ex_plain (sized (MCfg false false) 9 0)
              (bsys_init ex_plain (sized (MCfg false false) 9 0)) ls) as [[tr s]|] eqn:E.
  2: { vm_compute in E. discriminate. }
  exists (simple_slot false), (MCfg false false), ex_hash, 9, 0, (fun o => In o ops), tr, s.
  split; [exists false; auto|]. split; [reflexivity|]. split; [lia|]. split.
  { intros o [<-|[<-|[<-|[]]]]; (split; [apply key_ok_plain; cbn; lia|]); cbn; auto. intros g x; discriminate. }
  split.
  - eapply exec_sound; [|exact E]. intros o H. cbn in H. unfold ops. cbn. tauto.
  - vm_compute in E. injection E as <- _. apply not_linearizable. vm_compute. reflexivity.
Qed.
Print Assumptions C03_update_vs_erase_if_refuted.

(** With a functor that offers [atomic], even plain erase is enough: the update
    reports an old value the key never had. *)
Theorem C03_atomic_update_vs_erase_refuted :
  exists sc mc hash lg gh (client : op -> Prop) tr s,
    cell_type sc /\ sc_mark sc = false /\ 1 <= lg <= 63 /\
    (forall o, client o -> admissible sc o) /\
    lts_steps (bsys_step (TCfg sc mc hash) (sized mc lg gh) client)
      (bsys_init (TCfg sc mc hash) (sized mc lg gh)) tr s /\
    ~ linearizable_trace (mspec false (negb (cprob mc))) amap_empty tr.
Proof.
  pose (ops := [OInsert 5 7; OUpdate 5 (incr_atomic 1); OErase 5]).
  pose (ls := call 1 (OInsert 5 7) 2 ++
     [LInv 2 (OUpdate 5 (incr_atomic 1)); LRun 2 true; LInv 3 (OErase 5); LRun 3 true; LRun 3 true; LRet 3;
      LRun 2 true; LRet 2]).
  destruct (exec ex_plain (sized (MCfg false false) 9 0)
              (bsys_init ex_plain (sized (MCfg false false) 9 0)) ls) as [[tr s]|] eqn:E.
  2: { vm_compute in E. discriminate. }
  exists (simple_slot false), (MCfg false false), ex_hash, 9, 0, (fun o => In o ops), tr, s.
  split; [exists false; auto|]. split; [reflexivity|]. split; [lia|]. split.
  { intros o [<-|[<-|[<-|[]]]]; (split; [apply key_ok_plain; cbn; lia|]); cbn; auto.
    intros g x [= <-]. reflexivity. }
  split.
  - eapply exec_sound; [|exact E]. intros o H. cbn in H. unfold ops. cbn. tauto.
  - vm_compute in E. injection E as <- _. apply not_linearizable. vm_compute. reflexivity.
Qed.
Print Assumptions C03_atomic_update_vs_erase_refuted.

(** ** C04 *)
Theorem C04_marking_cells_linearizable :
  forall sc mc hash lg gh (client : op -> Prop),
    cell_type sc -> sc_mark sc = true -> 1 <= lg <= 63 ->
    (forall o, client o -> admissible sc o) ->
    linearizable (mspec true (negb (cprob mc)))
      (bsys_step (TCfg sc mc hash) (sized mc lg gh) client)
      (bsys_init (TCfg sc mc hash) (sized mc lg gh)) amap_empty.
Proof.
  intros sc mc hash lg gh client CT M LG CL. rewrite <- M.
  apply linearizable_fair; auto. split; auto.
Qed.
Print Assumptions C04_marking_cells_linearizable.

(** The races of C03 on marking cells, and a cell marked under an update. *)
Example C04_case :
  let client o := In o [OInsert 5 0; OUpdate 5 (incr 1); OEraseIf 5 0; OFind 5] in
  (forall o, client o -> admissible (simple_slot true) o) /\
  run ex_mark (sized (MCfg false false) 9 0)
    (call 1 (OInsert 5 0) 2 ++
     [LInv 2 (OUpdate 5 (incr 1)); LRun 2 true; LInv 3 (OEraseIf 5 0); LRun 3 true; LRun 3 true; LRet 3;
      LRun 2 true; LRun 2 true; LRun 2 true; LRet 2] ++
     call 1 (OInsert 5 0) 3 ++
     [LInv 2 (OUpdate 5 (incr 1)); LRun 2 true; LRun 2 true; LMark 1; LRun 2 true; LRun 2 true; LRet 2] ++
     call 3 (OFind 5) 2)
  = Some [(1, RInserted); (3, RErased); (2, RAbsent); (1, RInserted); (2, RInvalid); (3, RFound 0)].
Proof.
  split; [|vm_compute; reflexivity].
  intros o [<-|[<-|[<-|[<-|[]]]]]; (split; [apply key_ok_mark; cbn; lia|]); cbn; auto.
  intros g x; discriminate.
Qed.

(** ** C05 *)
Theorem C05_keys_unique_and_reachable :
  forall sc mc hash lg gh (client : op -> Prop) s,
    cell_type sc -> 1 <= lg <= 63 -> fair sc client ->
    table_reachable (TCfg sc mc hash) (sized mc lg gh) client s ->
    (forall k p q d e, user_key sc k ->
       holds sc (cells_of mc lg) (bmem s) p k d -> holds sc (cells_of mc lg) (bmem s) q k e -> p = q) /\
    (forall k p d, user_key sc k -> holds sc (cells_of mc lg) (bmem s) p k d ->
       exists n, probe_of mc lg (w64 (hash k)) n = p /\
         forall j, j < n -> ~ vacant sc (cells_of mc lg) (bmem s) (probe_of mc lg (w64 (hash k)) j)).
Proof. intros. eapply unique_and_reachable; eauto. Qed.
Print Assumptions C05_keys_unique_and_reachable.

(** Two keys with the same home slot: the second one is displaced. *)
Example C05_case :
  exists s, table_reachable ex_plain (sized (MCfg false false) 9 0) (fun o => In o [OInsert 5 7; OInsert 6 8]) s /\
    holds (simple_slot false) 1536 (bmem s) 1 6 8 /\ holds (simple_slot false) 1536 (bmem s) 0 5 7.
Proof.
  pose (ls := call 1 (OInsert 5 7) 2 ++ call 1 (OInsert 6 8) 3).
  destruct (exec ex_plain (sized (MCfg false false) 9 0)
              (bsys_init ex_plain (sized (MCfg false false) 9 0)) ls) as [[tr s]|] eqn:E.
  2: { vm_compute in E. discriminate. }
  exists s. split; [exists tr; eapply exec_sound; [|exact E]; intros o H; cbn in *; tauto|].
  vm_compute in E. injection E as _ <-.
  split; (split; [reflexivity|eexists; split; [vm_compute; reflexivity|split; [left|]; reflexivity]]).
Qed.

(** ** C06 *)
Theorem C06_inserted_key_stays :
  forall sc mc hash lg gh (client : op -> Prop) s tr1 t o0 tr2 tr3 t' tr4 r k d,
    cell_type sc -> 1 <= lg <= 63 -> fair sc client ->
    lts_steps (bsys_step (TCfg sc mc hash) (sized mc lg gh) client)
      (bsys_init (TCfg sc mc hash) (sized mc lg gh))
      (tr1 ++ [EInv t o0] ++ tr2 ++ [ERet t RInserted] ++ tr3 ++
       [EInv t' (MFind k)] ++ tr4 ++ [ERet t' r]) s ->
    inserts k d o0 ->
    (forall u o, pending tr1 u = Some o -> ~ erases k o) ->
    (forall o, invoked (tr2 ++ tr3 ++ tr4) o -> ~ erases k o) ->
    (forall e, In e tr2 -> ev_tid e <> t) -> (forall e, In e tr4 -> ev_tid e <> t') ->
    exists v, r = RFound v.
Proof.
  intros sc mc hash lg gh client s tr1 t o0 tr2 tr3 t' tr4 r k d CT LG F ST.
  apply (inserted_stays (sc_mark sc) (negb (cprob mc)) k d).
  exact (linearizable_fair sc mc hash lg gh CT LG client F _ _ ST).
Qed.
Print Assumptions C06_inserted_key_stays.

Theorem C06_inserted_value_stays :
  forall sc mc hash lg gh (client : op -> Prop) s tr1 t tr2 tr3 t' tr4 r k d,
    cell_type sc -> 1 <= lg <= 63 -> fair sc client ->
    lts_steps (bsys_step (TCfg sc mc hash) (sized mc lg gh) client)
      (bsys_init (TCfg sc mc hash) (sized mc lg gh))
      (tr1 ++ [EInv t (MInsert k d)] ++ tr2 ++ [ERet t RInserted] ++ tr3 ++
       [EInv t' (MFind k)] ++ tr4 ++ [ERet t' r]) s ->
    (forall u o, pending tr1 u = Some o -> ~ (erases k o \/ updates k o)) ->
    (forall o, invoked (tr2 ++ tr3 ++ tr4) o -> ~ (erases k o \/ updates k o)) ->
    (forall e, In e tr2 -> ev_tid e <> t) -> (forall e, In e tr4 -> ev_tid e <> t') ->
    r = RFound d.
Proof.
  intros sc mc hash lg gh client s tr1 t tr2 tr3 t' tr4 r k d CT LG F ST.
  apply (inserted_value_stays (sc_mark sc) (negb (cprob mc)) k d tr1 t (MInsert k d)); auto.
  exact (linearizable_fair sc mc hash lg gh CT LG client F _ _ ST).
Qed.
Print Assumptions C06_inserted_value_stays.

(** A history of this shape: an insert of another key overlaps. *)
Example C06_case :
  option_map fst (exec ex_plain (sized (MCfg false false) 9 0)
    (bsys_init ex_plain (sized (MCfg false false) 9 0))
    ([LInv 2 (OInsert 6 1); LInv 1 (OInsert 5 7); LRun 2 true; LRun 1 true; LRun 1 true; LRet 1;
      LRun 2 true; LRun 2 true; LRun 2 true; LRun 2 true; LRet 2] ++ call 1 (OFind 5) 1))
  = Some ([EInv 2 (MInsert 6 1)] ++ [EInv 1 (MInsert 5 7)] ++ [] ++ [ERet 1 RInserted] ++
          [ERet 2 RInserted] ++ [EInv 1 (MFind 5)] ++ [] ++ [ERet 1 (RFound 7)]).
Proof. vm_compute. reflexivity. Qed.

(** ** C07 *)
Theorem C07_no_update_lost :
  forall sc mc hash lg gh (client : op -> Prop) s tr1 t tr2 r k,
    cell_type sc -> 1 <= lg <= 63 -> fair sc client ->
    lts_steps (bsys_step (TCfg sc mc hash) (sized mc lg gh) client)
      (bsys_init (TCfg sc mc hash) (sized mc lg gh))
      (tr1 ++ [EInv t (MFind k)] ++ tr2 ++ [ERet t r]) s ->
    (forall o, invoked tr1 o -> counting k o) ->
    (forall u o, pending tr1 u = Some o -> mop_key o = k -> o = MFind k) ->
    (forall o, invoked tr2 o -> mop_key o = k -> o = MFind k) ->
    (forall e, In e tr2 -> ev_tid e <> t) ->
    r = RFound (acked k tr1) \/ (r = RAbsent /\ acked k tr1 = 0).
Proof.
  intros sc mc hash lg gh client s tr1 t tr2 r k CT LG F ST.
  apply (count_exact (sc_mark sc) (negb (cprob mc))).
  exact (linearizable_fair sc mc hash lg gh CT LG client F _ _ ST).
Qed.
Print Assumptions C07_no_update_lost.

(** Three racing additions of 10, 20 and 30; the counter shows 60. *)
Definition add_to (n : N) : functor := Functor (fun x => x + n) None.
Example C07_case :
  (forall x, In x [(OIou 5 10 (add_to 10)); (OIou 5 20 (add_to 20)); (OIou 5 30 (add_to 30))] ->
     counting 5 (spec_op (simple_slot false) x)) /\
  run ex_plain (sized (MCfg false false) 9 0)
    ([LInv 1 (OIou 5 10 (add_to 10)); LInv 2 (OIou 5 20 (add_to 20)); LInv 3 (OIou 5 30 (add_to 30));
      LRun 1 true; LRun 2 true; LRun 3 true; LRun 3 true; LRun 2 true; LRun 1 true; LRun 1 true;
      LRun 2 true; LRun 2 true; LRun 1 true; LRun 1 true; LRun 1 true; LRet 1; LRet 2; LRet 3] ++ call 1 (OFind 5) 1)
  = Some [(1, RUpdated 60); (2, RUpdated 50); (3, RInserted); (1, RFound 60)].
Proof.
  split; [|vm_compute; reflexivity].
  intros x [<-|[<-|[<-|[]]]]; cbn; intros _; split; try reflexivity; intros v; lia.
Qed.

(** The value reported by an update is the value the key has right after it took
    effect, unless the functor's [atomic] member reports something else ... *)
Theorem C07_reported_value :
  forall sc mc hash lg gh (client : op -> Prop),
    cell_type sc -> 1 <= lg <= 63 -> fair sc client ->
    (forall k d f, client (OUpdate k f) \/ client (OUpdateB k f) \/ client (OIou k d f) ->
       reports_new sc f) ->
    linearizable
      (fun m o m' r => mspec (sc_mark sc) (negb (cprob mc)) m o m' r /\
                       forall v, r = RUpdated v -> m' (mop_key o) = Some v)
      (bsys_step (TCfg sc mc hash) (sized mc lg gh) client)
      (bsys_init (TCfg sc mc hash) (sized mc lg gh)) amap_empty.
Proof. exact reported_value. Qed.
Print Assumptions C07_reported_value.

(** ... as the Increment functor of the examples does on non-marking cells: here
    update(5, +3) on value 7 reports 7, and the value is 10 afterwards. *)
Theorem C07_reported_value_refuted :
  run ex_plain (sized (MCfg false false) 9 0)
    (call 1 (OInsert 5 7) 2 ++ call 1 (OUpdate 5 (incr_atomic 3)) 2 ++ call 1 (OFind 5) 1)
  = Some [(1, RInserted); (1, RUpdated 7); (1, RFound 10)].
Proof. vm_compute. reflexivity. Qed.
Print Assumptions C07_reported_value_refuted.

(** ** C08 *)
Theorem C08_accesses_in_bounds :
  forall sc mc hash lg gh (client : op -> Prop) s tid o pc,
    cell_type sc -> 1 <= lg <= 63 ->
    table_reachable (TCfg sc mc hash) (sized mc lg gh) client s ->
    bthr s tid = Some (o, pc) ->
    pc <> PBad /\
    forall i, next_access pc = Some i ->
      remap mc (sized mc lg gh) i < cells_of mc lg /\ bmem s (remap mc (sized mc lg gh) i) <> None.
Proof. intros. eapply raw_bounds; eauto. Qed.
Print Assumptions C08_accesses_in_bounds.

(** A call in the middle of its probe sequence. *)
Example C08_case :
  option_map (fun x => bthr (snd x) 2)
    (exec ex_plain (sized (MCfg false false) 9 0) (bsys_init ex_plain (sized (MCfg false false) 9 0))
       (call 1 (OInsert 5 7) 2 ++ [LInv 2 (OErase 6); LRun 2 true]))
  = Some (Some (OErase 6, PLoad 1)).
Proof. vm_compute. reflexivity. Qed.

(** ** C09 *)
Theorem C09_solo_call_terminates :
  forall sc mc hash lg gh (client : op -> Prop) s tid o pc,
    cell_type sc -> 1 <= lg <= 63 -> fair sc client ->
    table_reachable (TCfg sc mc hash) (sized mc lg gh) client s ->
    bthr s tid = Some (o, pc) -> (forall r, pc <> PDone r) ->
    (cprob mc = true -> exists p, vacant sc (cells_of mc lg) (bmem s) p) ->
    exists n t' r a a',
      solo (TCfg sc mc hash) (sized mc lg gh) n (bmem s) o pc = (t', PDone r) /\
      stored sc (cells_of mc lg) (bmem s) a /\ stored sc (cells_of mc lg) t' a' /\
      mspec (sc_mark sc) (negb (cprob mc)) a (spec_op sc o) a' (obs o r).
Proof. intros. eapply solo_result; eauto. Qed.
Print Assumptions C09_solo_call_terminates.

(** For every client, also one that mixes update and erase on non-marking cells
    or uses reserved keys: a call running alone returns. *)
Theorem C09_any_client_returns :
  forall sc mc hash lg gh (client : op -> Prop) s tid o pc,
    cell_type sc -> 1 <= lg <= 63 ->
    table_reachable (TCfg sc mc hash) (sized mc lg gh) client s ->
    bthr s tid = Some (o, pc) ->
    (cprob mc = true -> exists p, vacant sc (cells_of mc lg) (bmem s) p) ->
    exists n t' r, solo (TCfg sc mc hash) (sized mc lg gh) n (bmem s) o pc = (t', PDone r).
Proof. intros. eapply raw_solo; eauto. Qed.
Print Assumptions C09_any_client_returns.

Example C09_case :
  exists s, table_reachable ex_circ (sized (MCfg true true) 9 0) (fun o => o = OInsert 5 7) s /\
    bthr s 1 = Some (OInsert 5 7, PLoad 5) /\ vacant (simple_slot false) 512 (bmem s) 3.
Proof.
  destruct (exec ex_circ (sized (MCfg true true) 9 0)
              (bsys_init ex_circ (sized (MCfg true true) 9 0)) [LInv 1 (OInsert 5 7)]) as [[tr s]|] eqn:E.
  2: { vm_compute in E. discriminate. }
  exists s. split; [exists tr; eapply exec_sound; [|exact E]; intros o H; cbn in *; intuition|].
  vm_compute in E. injection E as _ <-. split; [reflexivity|].
  split; [reflexivity|]. eexists. split; [vm_compute; reflexivity|]. left. reflexivity.
Qed.

(** ** C10: with circular probing and a full table, neither find of an absent key
    nor insert of a new key ever returns. *)
Definition fill (n : nat) : list blabel :=
  flat_map (fun i => call 1 (OInsert (N.of_nat i) 1) 2) (seq 1 n).

Theorem C10_full_circular_table_refuted :
  exists sc mc hash lg gh (client : op -> Prop) s,
    cell_type sc /\ 1 <= lg <= 63 /\ fair sc client /\ cprob mc = true /\
    table_reachable (TCfg sc mc hash) (sized mc lg gh) client s /\ (forall t, bthr s t = None) /\
    exists k, user_key sc k /\
      forall o, o = OFind k \/ (exists d, o = OInsert k d) ->
      forall n, exists i, solo (TCfg sc mc hash) (sized mc lg gh) n (bmem s) o
                            (start (TCfg sc mc hash) (sized mc lg gh) o) = (bmem s, PLoad i).
Proof.
  pose (mc := MCfg true true). pose (m := sized mc 9 0).
  destruct (exec ex_circ m (bsys_init ex_circ m) (fill 512)) as [[tr s]|] eqn:E.
  2: { vm_compute in E. discriminate. }
  exists (simple_slot false), mc, ex_hash, 9, 0, (fun o => exists k, 0 < k < 600 /\ o = OInsert k 1), s.
  split; [exists false; auto|]. split; [lia|]. split.
  { split; [|right; left; intros o (k & _ & ->); cbn; tauto].
    intros o (k & H & ->). split; [apply key_ok_plain; cbn; lia|exact Logic.I]. }
  split; [reflexivity|]. split.
  { exists tr. eapply exec_sound; [|exact E]. intros o H.
    assert (forall l, (forall i, In i l -> (1 <= i < 600)%nat) ->
      In o (ops_of (flat_map (fun i => call 1 (OInsert (N.of_nat i) 1) 2) l)) ->
      exists k, 0 < k < 600 /\ o = OInsert k 1) as X.
    { induction l as [|i l IH]; cbn; [tauto|]. intros B [<-|J].
      - exists (N.of_nat i). split; auto. specialize (B i (or_introl eq_refl)). lia.
      - apply IH; auto. }
    apply (X (seq 1 512)); auto. intros i I. apply in_seq in I. lia. }
  assert (FULL : forallb (fun p => match bmem s (N.of_nat p) with
                          | Some x => negb (is_empty (simple_slot false) x) &&
                                      negb (compare_key (simple_slot false) x 600)
                          | None => false end) (seq 0 512) = true /\
                 bthr s = bthr s).
  { split; [|reflexivity].
    assert (option_map (fun x => forallb (fun p => match bmem (snd x) (N.of_nat p) with
                          | Some x => negb (is_empty (simple_slot false) x) &&
                                      negb (compare_key (simple_slot false) x 600)
                          | None => false end) (seq 0 512))
             (exec ex_circ m (bsys_init ex_circ m) (fill 512)) = Some true) as X
      by (vm_compute; reflexivity).
    rewrite E in X. cbn [option_map snd] in X. now injection X. }
  destruct FULL as [FULL _].
  split.
  { intros t.
    assert (IDLE : forall ls s0 tr0 s1, (forall u, u <> 1 -> bthr s0 u = None) ->
       (forall l, In l ls -> match l with LInv u _ | LRun u _ | LRet u => u = 1 | LMark _ => True end) ->
       exec ex_circ m s0 ls = Some (tr0, s1) -> forall u, u <> 1 -> bthr s1 u = None).
    { induction ls as [|l ls IH]; cbn [exec]; intros s0 tr0 s1 H0 HL EX u NU.
      - injection EX as _ <-. auto.
      - destruct (exec1 ex_circ m s0 l) as [[e s2]|] eqn:E1; [|discriminate].
        destruct (exec ex_circ m s2 ls) as [[tr2 s3]|] eqn:E2; [|discriminate].
        injection EX as _ <-. eapply (IH s2); eauto; [|intros l' I; apply HL; now right].
        specialize (HL l (or_introl eq_refl)). clear - E1 H0 HL.
        intros v NV. destruct l as [u o|u b|p|u]; cbn in E1; try subst u.
        + destruct (bthr s0 1); [discriminate|]. injection E1 as _ <-. cbn. unfold fupd.
          destruct (N.eqb_spec v 1); [congruence|auto].
        + destruct (bthr s0 1) as [[o pc]|]; [|discriminate].
          destruct pc; try discriminate;
            match type of E1 with context [let '(_, _) := ?e in _] => destruct e as [t' pc'] end;
            injection E1 as _ <-; cbn; unfold fupd; (destruct (N.eqb_spec v 1); [congruence|auto]).
        + destruct (p <? total_slots (MCfg true true) m); discriminate.
        + destruct (bthr s0 1) as [[o pc]|]; [|discriminate]. destruct pc; try discriminate.
          injection E1 as _ <-. cbn. unfold fupd. destruct (N.eqb_spec v 1); [congruence|auto]. }
    destruct (N.eq_dec t 1) as [->|NT].
    - assert (option_map (fun x => match bthr (snd x) 1 with None => true | _ => false end)
                (exec ex_circ m (bsys_init ex_circ m) (fill 512)) = Some true) as X
        by (vm_compute; reflexivity).
      rewrite E in X. cbn [option_map snd] in X. destruct (bthr s 1); [discriminate|reflexivity].
    - eapply IDLE; [| |exact E|exact NT].
      + intros; reflexivity.
      + intros l I. unfold fill in I. apply in_flat_map in I as (i & _ & I).
        cbn in I. destruct I as [<-|[<-|[<-|[<-|[]]]]]; reflexivity. }
  exists 600. split; [apply key_ok_plain; lia|].
  intros o Ho n. eexists. eapply find_spins with (k := 600); auto.
  - intros p Hp. rewrite forallb_forall in FULL.
    specialize (FULL (N.to_nat p)). rewrite N2Nat.id in FULL.
    assert (L : p < 512) by exact Hp.
    destruct (bmem s p) as [x|].
    + exists x. split; auto. assert (T : In (N.to_nat p) (seq 0 512)) by (apply in_seq; lia).
      specialize (FULL T). apply andb_true_iff in FULL as [F1 F2].
      split; now apply negb_true_iff.
    + exfalso. assert (T : In (N.to_nat p) (seq 0 512)) by (apply in_seq; lia).
      specialize (FULL T). discriminate.
  - intros i. eapply remap_lt with (lg := 9); [apply wf_mk; lia|reflexivity].
Qed.
Print Assumptions C10_full_circular_table_refuted.

(** ** C52: an insertion is refused only if every cell it may use is in use. *)
Theorem C52_full_means_used :
  forall sc mc hash lg gh (client : op -> Prop) s tid o r,
    cell_type sc -> 1 <= lg <= 63 ->
    table_reachable (TCfg sc mc hash) (sized mc lg gh) client s ->
    bthr s tid = Some (o, PDone r) -> obs o r = RFull ->
    cprob mc = false /\
    forall p, home_of mc lg (w64 (hash (op_key o))) <= p <= 2 ^ lg + 300 ->
      ~ vacant sc (cells_of mc lg) (bmem s) p.
Proof. intros. eapply raw_full; eauto. Qed.
Print Assumptions C52_full_means_used.

(** Up to 302 insertions are never refused, whatever the hash function and the
    interleaving. *)
Theorem C52_no_early_full :
  forall sc mc hash lg gh (client : op -> Prop) tr s t,
    cell_type sc -> 1 <= lg <= 63 ->
    lts_steps (bsys_step (TCfg sc mc hash) (sized mc lg gh) client)
      (bsys_init (TCfg sc mc hash) (sized mc lg gh)) tr s ->
    (adds tr <= 302)%nat -> ~ In (ERet t RFull) tr.
Proof. intros. eapply raw_adds; eauto. Qed.
Print Assumptions C52_no_early_full.

(** 302 cannot be improved: with all keys at the last position, the 303rd
    insertion is refused. *)
Example C52_case :
  let hash := fun _ => 2 ^ 64 - 1 in
  let mc := MCfg false false in
  let c := TCfg (simple_slot false) mc hash in
  let m := sized mc 3 0 in
  option_map (fun l => (length l, count_occ N.eq_dec (map (fun x => match snd x with RInserted => 1 | RFull => 2 | _ => 0 end) l) 1,
                        match last l (0, RAbsent) with (_, RFull) => true | _ => false end))
    (run c m (flat_map (fun i => LInv 1 (OInsert (N.of_nat i) 1) :: repeat (LRun 1 true) (i + 1) ++ [LRet 1]) (seq 1 302)
              ++ [LInv 1 (OInsert 303 1)] ++ repeat (LRun 1 true) 303 ++ [LRet 1]))
  = Some (303%nat, 302%nat, true).
Proof. vm_compute. reflexivity. Qed.
