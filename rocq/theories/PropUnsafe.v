(** Theorems C87: updates without atomic instructions. *)
From Coq Require Import NArith Bool List Lia.
From Verif Require Import Words Slot SlotFacts Mapper MapperFacts ReturnCode MapSpec LinSpec
  Base BaseExec BaseInv BaseLin TableSpec BaseFacts LinCheck PropBase Migrate MigrateExec GrowSpec GrowFacts
  PropMigrate BufSpec Tso Unsafe UnsafeSpec UnsafeFacts UnsafeExec UnsafeKeys.
Import ListNotations.
Open Scope N_scope.

(** While an unsafe update of a key runs, nobody else updates or erases that key: all calls
    are atomic, on all tables of fixed size, together with lookups and inserts of that key
    and with anything on other keys. *)
Theorem C87_careful_linearizable :
  forall sc mc hash lg gh (client : call -> Prop),
    cell_type sc -> 1 <= lg <= 63 -> fair_calls sc client ->
    linearizable (mspec (sc_mark sc) (negb (cprob mc)))
      (careful (u_step (TCfg sc mc hash) (sized mc lg gh) client))
      (usys_init (TCfg sc mc hash) (sized mc lg gh)) amap_empty.
Proof.
  intros sc mc hash lg gh client CT LG F. pose proof (cell_type_wf _ CT) as W.
  apply (careful_linearizable (TCfg sc mc hash) (sized mc lg gh) lg W (wf_mk mc lg gh LG)).
  now apply fair_calls_ok.
Qed.
Print Assumptions C87_careful_linearizable.

(** The same on tables that are migrated while nobody uses them, for their whole life; the
    table stores the map that the calls produce. *)
Theorem C87_growing_in_phases :
  forall sc mc hash (client : call -> Prop) lg m t tr,
    cell_type sc -> fair_calls sc client -> (cmap mc = false \/ cprob mc = true) ->
    phases (TCfg sc mc hash) client lg m t tr ->
    exists x, asteps (mspec (sc_mark sc) (negb (cprob mc))) (AObj amap_empty (fun _ => AIdle)) tr x /\
      stored sc (cells_of mc lg) t (ast x).
Proof.
  intros sc mc hash client lg m t tr CT F CF P.
  exact (proj2 (phases_linearizable sc mc hash client CT F CF lg m t tr P)).
Qed.
Print Assumptions C87_growing_in_phases.

(** Without that care, but with nothing erased: up to the values reported calls are atomic.
    No key is lost, inserted twice or updated while absent. *)
Theorem C87_keys_are_atomic :
  forall sc mc hash lg gh (client : call -> Prop) tr s,
    cell_type sc -> 1 <= lg <= 63 ->
    (forall q, client q -> admissible sc (as_safe q) /\ ~ erasing (as_safe q)) ->
    lts_steps (u_step (TCfg sc mc hash) (sized mc lg gh) client)
      (usys_init (TCfg sc mc hash) (sized mc lg gh)) tr s ->
    atomic_but_values (mspec (sc_mark sc) (negb (cprob mc))) tr.
Proof.
  intros sc mc hash lg gh client tr s CT LG CL ST. pose proof (cell_type_wf _ CT) as W.
  eapply (unsafe_keys (TCfg sc mc hash) (sized mc lg gh) lg W (wf_mk mc lg gh LG) client); eauto.
  - intros q C. destruct (CL q C) as [[K F] _]. split; [now apply user_key_valid|].
    destruct (as_safe q); cbn in *; try (intros g x; discriminate); exact F.
  - intros q C X. apply (CL q C). destruct (as_safe q); auto.
Qed.
Print Assumptions C87_keys_are_atomic.

(** The operations in these histories are those that the clients called: update_unsafe
    updates, insert_or_update_unsafe inserts or updates. *)
Theorem C87_calls :
  forall c m (client : call -> Prop) s u e s',
    u_step c m client s (Some (EInv u e)) s' ->
    exists q, client q /\
      match q with
      | Safe o => e = spec_op (tsc c) o
      | UpdateUnsafe k f => exists r, e = MUpdate k f r
      | IouUnsafe k d f => exists r, e = MInsertOrUpdate k d f r
      end.
Proof.
  intros c m client s u e s' H. inversion H as [? ? ? C|]; subst. inversion C as [? ? ? q T K| | | |]; subst.
  exists q. split; [exact K|]. destruct q; cbn; eauto.
Qed.
Print Assumptions C87_calls.

Definition vcall (u : N) (q : call) (n : nat) : list vlabel := VInv u q :: repeat (VRun u true) n ++ [VRet u].
Definition v9 := sized (MCfg false false) 9 0.
Definition unsf := vexec ex_plain v9 (usys_init ex_plain v9).
Definition vresults (ls : list vlabel) : option (list (N * mres)) :=
  option_map (fun x => flat_map (fun e => match e with ERet t r => [(t, r)] | EInv _ _ => [] end) (fst x)) (unsf ls).
Definition inc (x : N) : N := w64 (x + 1).

(** Two threads increment; both calls report success and the value 8, and one increment is gone. *)
Definition l87 : list vlabel :=
  vcall 1 (Safe (OInsert 5 7)) 2 ++
  [VInv 1 (UpdateUnsafe 5 inc); VInv 2 (UpdateUnsafe 5 inc); VRun 1 true; VRun 2 true; VRun 1 true; VRun 2 true;
   VRun 1 true; VRun 2 true; VRet 1; VRet 2] ++ vcall 1 (Safe (OFind 5)) 1.
Theorem C87_overlap_refuted :
  ~ (forall sc mc hash lg gh (client : call -> Prop),
       cell_type sc -> 1 <= lg <= 63 -> fair_calls sc client ->
       linearizable (mspec (sc_mark sc) (negb (cprob mc)))
         (u_step (TCfg sc mc hash) (sized mc lg gh) client)
         (usys_init (TCfg sc mc hash) (sized mc lg gh)) amap_empty).
Proof.
  intros H.
  specialize (H (simple_slot false) (MCfg false false) ex_hash 9 0 (fun q => In q (flat_map calls_of l87))).
  destruct (unsf l87) as [[tr s]|] eqn:E; [|vm_compute in E; discriminate].
  assert (X : linearizable_trace (mspec false true) amap_empty tr).
  { eapply H.
    - exists false. now left.
    - lia.
    - split.
      + intros q Q. cbn in Q. destruct Q as [<-|[<-|[<-|[<-|[]]]]]; (split; [apply key_ok_plain; cbn; lia|]); cbn; auto.
        all: intros g x; discriminate.
      + right; left. intros q Q. cbn in Q. destruct Q as [<-|[<-|[<-|[<-|[]]]]]; cbn; tauto.
    - eapply vexec_sound; [|exact E]. auto. }
  assert (T : option_map fst (unsf l87) = Some tr) by (rewrite E; reflexivity).
  vm_compute in T. injection T as <-.
  revert X. apply not_linearizable. vm_compute. reflexivity.
Qed.
Print Assumptions C87_overlap_refuted.

(** An unsafe update also undoes the update of somebody who calls [update]: thread 2 has set
    the value to 107 and its call has returned; the value becomes 8. *)
Example C87_case_safe_update_gone :
  vresults (vcall 1 (Safe (OInsert 5 7)) 2 ++ [VInv 1 (UpdateUnsafe 5 inc); VRun 1 true; VRun 1 true] ++
            vcall 2 (Safe (OUpdate 5 (Functor (fun x => x + 100) None))) 2 ++ vcall 2 (Safe (OFind 5)) 1 ++
            [VRun 1 true; VRet 1] ++ vcall 2 (Safe (OFind 5)) 1)
  = Some [(1, RInserted); (2, RUpdated 107); (2, RFound 107); (1, RUpdated 8); (2, RFound 8)].
Proof. vm_compute. reflexivity. Qed.

Lemma some_inj {A} (a b : A) : Some a = Some b -> a = b.
Proof. now intros [= ->]. Qed.

(** One thread, one call, no other user of the table: the table migrates between the load and
    the store of the unsafe update (asynchronous growing).  The call reports success; the
    successor holds the old value. *)
Definition ex8 : tcfg := TCfg (simple_slot true) (MCfg false true) (fun k => k * 2 ^ 61).
Definition m8 : mapper := sized (MCfg false true) 3 0.
Definition mt8 : mapper := resize (MCfg false true) m8 6 0.
Definition t87 : mem := mem_after ex8 m8 (fresh_mem ex8 m8) (BaseExec.call 1 (OInsert 5 10) 2).
Definition l87m : list vlabel :=
  [VInv 1 (UpdateUnsafe 5 inc); VRun 1 true; VRun 1 true; VHelp (MJoin 9); VHelp (MHelp 9 60); VRun 1 true; VRet 1].
Theorem C87_migration_refuted :
  ~ (forall sc mc hash (client : op -> Prop) lg lg' m t a ins del B k f v w tr s th,
       cell_type sc -> fair sc client -> cmap mc = false -> sc_mark sc = true ->
       life (TCfg sc mc hash) client lg m t -> lg <= 31 -> 0 < B <= 2 ^ 31 ->
       addressable_slots mc (resize mc m ins del) = 2 ^ lg' ->
       (cprob mc = true -> exists p, vacant sc (cells_of mc lg) t p) ->
       stored sc (cells_of mc lg) t a -> a k = Some v ->
       lts_steps (um_step (TCfg sc mc hash) m (resize mc m ins del) B (fun q => q = UpdateUnsafe k f))
         (msys_init (TCfg sc mc hash) (resize mc m ins del) t idle, idle) tr (s, th) ->
       finished s ->
       tr = [EInv 1 (spec_op sc (OUpdate k (Functor f None))); ERet 1 (RUpdated w)] ->
       w = f v /\ exists p, holds sc (cells_of mc lg') (mtgt s) p k (f v)).
Proof.
  intros H.
  assert (LF : life ex8 (fun o => In o (ops_of (BaseExec.call 1 (OInsert 5 10) 2))) 3 m8 t87).
  { apply exec_life; [apply (life_new ex8 _ 3); lia|auto|vm_compute; reflexivity]. }
  assert (FA : fair (simple_slot true) (fun o => In o (ops_of (BaseExec.call 1 (OInsert 5 10) 2)))).
  { split; [|now left]. intros o O. cbn in O. destruct O as [<-|[]]. split; [apply key_ok_mark; cbn; lia|exact Logic.I]. }
  assert (CT : cell_type (simple_slot true)) by (exists true; now left).
  destruct (life_stored (simple_slot true) (MCfg false true) (fun k => k * 2 ^ 61) _ CT FA (or_introl eq_refl) _ _ _ LF) as [a SA].
  assert (VA : cprob (MCfg false true) = true -> exists p, vacant (simple_slot true) (cells_of (MCfg false true) 3) t87 p).
  { intros _. exists 0. split; [reflexivity|]. exists (Slot 0 0). vm_compute. auto. }
  assert (AV : a 5 = Some 10).
  { apply SA. split; [apply key_ok_mark; lia|]. exists 5. split; [reflexivity|]. exists (Slot 5 10).
    split; [vm_compute; reflexivity|]. split; [now left|reflexivity]. }
  destruct (wexec ex8 m8 mt8 4 (msys_init ex8 mt8 t87 idle, idle) l87m) as [[tr [s th]]|] eqn:E.
  2:{ assert (X : option_map (fun _ => tt) (wexec ex8 m8 mt8 4 (msys_init ex8 mt8 t87 idle, idle) l87m) = None)
        by (rewrite E; reflexivity). vm_compute in X. discriminate. }
  assert (FIN : finished s).
  { apply (wexec_finished ex8 m8 mt8 4 t87 idle l87m tr (s, th) E); [discriminate|].
    assert (X : option_map (fun x => forallb (at_end (fst (snd x))) (wjoined l87m))
      (wexec ex8 m8 mt8 4 (msys_init ex8 mt8 t87 idle, idle) l87m) = Some true) by (vm_compute; reflexivity).
    rewrite E in X. cbn [option_map snd fst] in X. apply some_inj in X. exact X. }
  assert (ST : lts_steps (um_step ex8 m8 mt8 4 (fun q => q = UpdateUnsafe 5 inc))
                 (msys_init ex8 mt8 t87 idle, idle) tr (s, th)).
  { apply (wexec_sound ex8 m8 mt8 4 _ _ l87m); [|exact E]. intros q Q. cbn in Q. destruct Q as [<-|[]]. reflexivity. }
  assert (TR : tr = [EInv 1 (spec_op (simple_slot true) (OUpdate 5 (Functor inc None))); ERet 1 (RUpdated 11)]).
  { assert (X : option_map (fun x => fst x) (wexec ex8 m8 mt8 4 (msys_init ex8 mt8 t87 idle, idle) l87m)
      = Some [EInv 1 (spec_op (simple_slot true) (OUpdate 5 (Functor inc None))); ERet 1 (RUpdated 11)]) by (vm_compute; reflexivity).
    rewrite E in X. cbn [option_map fst] in X. apply some_inj in X. exact X. }
  destruct (H (simple_slot true) (MCfg false true) (fun k => k * 2 ^ 61) _ 3 4 m8 t87 a 6 0 4 5 inc 10 11 tr s th
    CT FA eq_refl eq_refl LF ltac:(lia) ltac:(lia) eq_refl VA SA AV ST FIN TR) as (_ & p & L & x & Ex & W & D).
  assert (X : option_map (fun y => forallb (fun p => match mtgt (fst (snd y)) p with
       | Some x => negb ((skey x =? 5) || (skey x =? 5 + 2 ^ 63)) || (sdata x =? 10) | None => true end)
       (nseq 0 (N.to_nat (cells_of (MCfg false true) 4))))
     (wexec ex8 m8 mt8 4 (msys_init ex8 mt8 t87 idle, idle) l87m) = Some true) by (vm_compute; reflexivity).
  rewrite E in X. cbn [option_map snd fst] in X. apply some_inj in X. rewrite forallb_forall in X.
  specialize (X p (in_nseq0 _ _ L)). rewrite Ex in X. apply orb_true_iff in X. destruct X as [X|X].
  - apply negb_true_iff, orb_false_iff in X. destruct X as [X1 X2]. apply N.eqb_neq in X1, X2.
    destruct W as [W|[_ W]]; [congruence|]. apply X2. exact W.
  - apply N.eqb_eq in X. rewrite X in D. vm_compute in D. discriminate.
Qed.
Print Assumptions C87_migration_refuted.

(** Careful use: threads 1 and 2 increment the same key one after the other without atomic
    instructions, while thread 3 looks it up and inserts it, and thread 2 updates another key. *)
Definition l87c : list vlabel :=
  vcall 1 (IouUnsafe 5 7 inc) 2 ++
  [VInv 1 (IouUnsafe 5 7 inc); VRun 1 true; VRun 1 true; VInv 3 (Safe (OFind 5)); VRun 3 true; VRet 3;
   VInv 2 (IouUnsafe 6 1 inc); VRun 2 true; VRun 1 true; VInv 3 (Safe (OInsert 5 1)); VRun 2 true; VRun 3 true; VRet 1;
   VRet 3; VRun 2 true; VRet 2; VInv 2 (UpdateUnsafe 5 inc); VRun 2 true; VRun 2 true; VRun 2 true; VRet 2] ++
  vcall 3 (Safe (OFind 5)) 1.
Example C87_case_careful :
  fair_calls (simple_slot false) (fun q => In q (flat_map calls_of l87c)) /\
  vresults l87c = Some [(1, RInserted); (3, RFound 7); (1, RUpdated 8); (3, RPresent 8); (2, RInserted); (2, RUpdated 9); (3, RFound 9)] /\
  exists tr s, unsf l87c = Some (tr, s) /\
    lts_steps (careful (u_step ex_plain v9 (fun q => In q (flat_map calls_of l87c)))) (usys_init ex_plain v9) tr s.
Proof.
  split; [|split; [vm_compute; reflexivity|]].
  - split; [|right; left]; intros q Q; cbn in Q;
      repeat (destruct Q as [<-|Q]; [first [cbn; tauto|split; [apply key_ok_plain; cbn; lia|cbn; auto; try (intros g x; discriminate)]]|]);
      contradiction.
  - destruct (unsf l87c) as [[tr s]|] eqn:E; [|vm_compute in E; discriminate].
    exists tr, s. split; auto. eapply (vexec_careful ex_plain v9 _ [1; 2; 3] (usys_init ex_plain v9) l87c); auto.
Qed.

(** A table that is used with care, migrated, and used again. *)
Definition ls87p : list vlabel := vcall 1 (IouUnsafe 5 10 inc) 2 ++ vcall 1 (UpdateUnsafe 5 inc) 3.
Example C87_case_phases :
  exists t tr, phases ex8 (fun q => In q (flat_map calls_of ls87p)) 4 mt8 t tr /\ tr <> [] /\ t 10 = Some (Slot 5 11).
Proof.
  destruct (vexec ex8 m8 (usys_init ex8 m8) ls87p) as [[tr s]|] eqn:E.
  2:{ assert (X : option_map (fun _ => tt) (vexec ex8 m8 (usys_init ex8 m8) ls87p) = None) by (rewrite E; reflexivity).
      vm_compute in X. discriminate. }
  set (hs := [MJoin 9; MHelp 9 60]).
  assert (X : match vexec ex8 m8 (usys_init ex8 m8) ls87p with
    | Some (tr, s) => uthr s 1 = None /\ completes ex8 m8 mt8 4 (umem s) hs = true /\
        forallb (fun p => match umem s p with Some x => negb (is_marked (simple_slot true) x) | None => true end) (nseq 0 8) = true /\
        umem s 0 = Some (Slot 0 0) /\ match tr with [] => true | _ => false end = false /\
        mtgt (moved ex8 m8 mt8 4 (umem s) hs) 10 = Some (Slot 5 11)
    | None => False end) by (vm_compute; repeat split).
  rewrite E in X. destruct X as (X1 & X2 & X3 & X4 & X5 & X6).
  destruct (vexec_careful ex8 m8 (fun q => In q (flat_map calls_of ls87p)) [1] (usys_init ex8 m8) ls87p tr s) as [ST D]; auto.
  destruct (moved_steps ex8 m8 mt8 4 (umem s) hs nobody X2) as [S F]; [intros o []|].
  exists (mtgt (moved ex8 m8 mt8 4 (umem s) hs)), ([] ++ tr). split; [|split].
  - eapply (ph_move ex8 _ 3 4 m8 (umem s) ([] ++ tr) 6 0 4 _ _); [|lia|lia|reflexivity|exact S|exact F|].
    + apply (ph_use ex8 _ 3 m8 (fresh_mem ex8 m8) [] tr s); auto.
      * apply (ph_new ex8 _ 3). lia.
      * intros u. destruct (N.eq_dec u 1) as [->|X]; auto. apply D. intros [Y|[]]. congruence.
      * intros p x L Ex. rewrite forallb_forall in X3. specialize (X3 p (in_nseq0 _ _ L)). rewrite Ex in X3.
        now apply negb_true_iff in X3.
    + intros _. exists 0. split; [reflexivity|]. exists (Slot 0 0). split; [exact X4|]. vm_compute. auto.
  - cbn [app]. destruct tr; discriminate.
  - exact X6.
Qed.
