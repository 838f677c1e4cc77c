(** C66: calls on a table of fixed size are lock-free. *)
From Coq Require Import NArith Bool List Lia.
From Verif Require Import Words Slot SlotFacts Mapper MapperFacts ReturnCode MapSpec LinSpec
  Base BaseInv BaseExec TableSpec BaseFacts Raw LockFreeSpec LockFree PropBase.
Import ListNotations.
Open Scope N_scope.

(** Whatever the threads in [L] do: among any so many turns of their calls there is one that
    gives a call its result.  Cells may be marked meanwhile, calls may begin and return. *)
Theorem C66_somebody_finishes :
  forall sc mc hash lg gh (client : op -> Prop) s L ls tr s',
    cell_type sc -> 1 <= lg <= 63 ->
    table_reachable (TCfg sc mc hash) (sized mc lg gh) client s ->
    (cprob mc = true -> exists p, vacant sc (cells_of mc lg) (bmem s) p) ->
    (forall tid, In tid (turns ls) -> In tid L) ->
    exec (TCfg sc mc hash) (sized mc lg gh) s ls = Some (tr, s') ->
    N.of_nat (length L) * (cells_of mc lg + 6) < N.of_nat (length (turns ls)) ->
    some_call_finishes (TCfg sc mc hash) (sized mc lg gh) s ls.
Proof. intros. eapply somebody_finishes; eauto. Qed.
Print Assumptions C66_somebody_finishes.

(** If no further calls begin, the calls in progress need a bounded number of turns. *)
Theorem C66_work_bounded :
  forall sc mc hash lg gh (client : op -> Prop) s L ls tr s',
    cell_type sc -> 1 <= lg <= 63 ->
    table_reachable (TCfg sc mc hash) (sized mc lg gh) client s ->
    (forall tid, unfinished s tid -> In tid L) -> ops_of ls = [] ->
    exec (TCfg sc mc hash) (sized mc lg gh) s ls = Some (tr, s') ->
    (cprob mc = true -> exists p, vacant sc (cells_of mc lg) (bmem s') p) ->
    N.of_nat (length (turns ls))
      <= (N.of_nat (length L) + 1) * (N.of_nat (length L) * (cells_of mc lg + 6) + 1).
Proof. intros. eapply calls_bounded; eauto. Qed.
Print Assumptions C66_work_bounded.

(** A call that gets enough turns returns, in whatever order and however often the other calls
    in progress have theirs. *)
Theorem C66_enough_turns :
  forall sc mc hash lg gh (client : op -> Prop) s L ls tid,
    cell_type sc -> 1 <= lg <= 63 ->
    table_reachable (TCfg sc mc hash) (sized mc lg gh) client s ->
    (forall u, unfinished s u -> In u L) ->
    (cprob mc = true ->
       exists p, vacant sc (cells_of mc lg) (bmem (take_turns (TCfg sc mc hash) (sized mc lg gh) ls s)) p) ->
    (N.of_nat (length L) + 1) * (N.of_nat (length L) * (cells_of mc lg + 6) + 1)
      < N.of_nat (count_occ N.eq_dec (turns ls) tid) ->
    ~ unfinished (take_turns (TCfg sc mc hash) (sized mc lg gh) ls s) tid.
Proof. intros. eapply enough_turns; eauto. Qed.
Print Assumptions C66_enough_turns.

(** Two updates and an erase of one key have loaded the same cell; the erase comes last, has to
    load again and finishes.  (Thread 2 uses the value it has loaded in vain, too.) *)
Definition lf_m := sized (MCfg false false) 9 0.
Definition lf_start : list blabel :=
  call 1 (OInsert 5 7) 2 ++
  [LInv 1 (OUpdate 5 (incr 1)); LInv 2 (OUpdate 5 (incr 1)); LInv 3 (OErase 5);
   LRun 1 true; LRun 2 true; LRun 3 true].
Definition lf_client (o : op) : Prop := In o [OInsert 5 7; OUpdate 5 (incr 1); OErase 5].
Example C66_case :
  exists tr s, exec ex_mark lf_m (bsys_init ex_mark lf_m) lf_start = Some (tr, s) /\
    table_reachable ex_mark lf_m lf_client s /\
    (forall u, unfinished s u -> In u [1; 2; 3]) /\
    bthr s 2 = Some (OUpdate 5 (incr 1), PUpd 0 (Slot 5 7)) /\
    option_map (fun x => rets (fst x))
      (exec ex_mark lf_m s
         [LRun 1 true; LRun 2 true; LRun 3 true; LRun 2 true; LRun 2 true; LRun 3 true; LRun 3 true;
          LRet 1; LRet 2; LRet 3])
    = Some [(1, RUpdated 8); (2, RUpdated 9); (3, RErased)].
Proof.
  destruct (exec ex_mark lf_m (bsys_init ex_mark lf_m) lf_start) as [[tr s]|] eqn:X.
  2: { vm_compute in X. discriminate. }
  exists tr, s. split; auto. split.
  { exists tr. eapply exec_sound; [|exact X]. intros o H. cbn in H. unfold lf_client. cbn. tauto. }
  vm_compute in X. injection X as _ <-. split; [|split; vm_compute; reflexivity].
  intros u (o & pc & E & _). destruct u as [|[[|[]|]|[|[]|]|]]; cbn in E; cbn; auto; discriminate.
Qed.

(** There is no such bound for a single call if others keep beginning: an update can be kept
    from returning for ever by updates of another thread. *)
Definition lf_flip : functor := Functor (fun x => N.lxor x 1) None.
Definition lf_round : list blabel := LRun 1 true :: call 2 (OUpdate 5 lf_flip) 2 ++ [LRun 1 true].


Lemma lf_again s d :
  bmem s 0 = Some (Slot 5 d) -> bthr s 1 = Some (OUpdate 5 lf_flip, PLoad 0) -> bthr s 2 = None ->
  exists tr s', exec ex_mark lf_m s lf_round = Some (tr, s') /\ bmem s' 0 = Some (Slot 5 (N.lxor d 1)) /\
    bthr s' 1 = Some (OUpdate 5 lf_flip, PLoad 0) /\ bthr s' 2 = None /\ ~ In 1 (map fst (rets tr)).
Proof.
  intros E1 E2 E3.
  assert (NE : N.lxor d 1 =? d = false).
  { apply N.eqb_neq. intros Q. assert (Z : N.testbit (N.lxor d 1) 0 = N.testbit d 0) by now rewrite Q.
    rewrite N.lxor_spec in Z. destruct (N.testbit d 0); discriminate. }
  assert (L1 : forall b t, t 0 = Some (Slot 5 d) ->
    bstep ex_mark lf_m t b (OUpdate 5 lf_flip) (PLoad 0) = (t, PUpd 0 (Slot 5 d))).
  { intros b t Q. cbn [bstep]. replace (rd ex_mark lf_m t (remap (tmc ex_mark) lf_m 0)) with (Some (Slot 5 d)) by (now rewrite <- Q).
    reflexivity. }
  assert (U1 : forall b t e, t 0 = Some (Slot 5 e) ->
    bstep ex_mark lf_m t b (OUpdate 5 lf_flip) (PUpd 0 (Slot 5 d)) =
    (fupd t 0 (Some (if e =? d then Slot 5 (N.lxor d 1) else Slot 5 e)),
     if e =? d then PDone (BRet RC_SUCCESS_UP (Slot 5 (N.lxor d 1)) (Some 0)) else PLoad 0)).
  { intros b t e Q. cbn [bstep]. replace (rd ex_mark lf_m t (remap (tmc ex_mark) lf_m 0)) with (Some (Slot 5 e)) by (now rewrite <- Q).
    change (remap (tmc ex_mark) lf_m 0) with 0. unfold atomic_update, cas, slot_eqb. cbn [ex_mark tsc simple_slot sc_mark skey sdata].
    destruct (e =? d); reflexivity. }
  do 2 eexists. unfold lf_round, call. cbn [app repeat exec exec1].
  rewrite E2. cbn iota. rewrite (L1 true _ E1). cbn [bthr bmem].
  rewrite fupd_neq, E3 by discriminate. cbn [bthr bmem].
  rewrite fupd_eq. change (start ex_mark lf_m (OUpdate 5 lf_flip)) with (PLoad 0). cbn iota. rewrite (L1 true _ E1). cbn [bthr bmem].
  rewrite fupd_eq. cbn iota. rewrite (U1 true _ d E1), N.eqb_refl. cbn [bthr bmem].
  rewrite fupd_eq. cbn iota. cbn [bthr bmem].
  rewrite fupd_neq by discriminate. rewrite fupd_neq by discriminate. rewrite fupd_neq by discriminate.
  rewrite fupd_neq by discriminate. rewrite fupd_eq. cbn iota.
  rewrite (U1 true _ (N.lxor d 1)) by apply fupd_eq. rewrite NE. cbn [bthr bmem].
  split; [reflexivity|]. cbn [bthr bmem]. split; [apply fupd_eq|]. split; [apply fupd_eq|].
  split; [rewrite fupd_neq by discriminate; apply fupd_eq|].
  cbn. intros [Q|[]]. discriminate.
Qed.

Lemma lf_app ls1 ls2 s tr1 s1 tr2 s2 :
  exec ex_mark lf_m s ls1 = Some (tr1, s1) -> exec ex_mark lf_m s1 ls2 = Some (tr2, s2) ->
  exec ex_mark lf_m s (ls1 ++ ls2) = Some (tr1 ++ tr2, s2).
Proof.
  revert s tr1. induction ls1 as [|l ls1 IH]; intros s tr1; cbn [exec app].
  - intros [= <- <-] ->. reflexivity.
  - destruct (exec1 ex_mark lf_m s l) as [[e s']|]; [|discriminate].
    destruct (exec ex_mark lf_m s' ls1) as [[tr' s3]|] eqn:Q; [|discriminate]. intros [= <- <-] X.
    rewrite (IH _ _ Q X). destruct e; reflexivity.
Qed.

Theorem C66_single_call_starves :
  forall n, exists ls tr s,
    exec ex_mark lf_m (bsys_init ex_mark lf_m) ls = Some (tr, s) /\
    (n <= count_occ N.eq_dec (turns ls) 1%N)%nat /\
    (forall o, In o (ops_of ls) -> o = OInsert 5 7 \/ o = OUpdate 5 lf_flip) /\
    unfinished s 1 /\ ~ In 1 (map fst (rets tr)).
Proof.
  intros n.
  assert (K : exists ls tr s d,
    exec ex_mark lf_m (bsys_init ex_mark lf_m) ls = Some (tr, s) /\
    (n <= count_occ N.eq_dec (turns ls) 1%N)%nat /\
    (forall o, In o (ops_of ls) -> o = OInsert 5 7 \/ o = OUpdate 5 lf_flip) /\
    ~ In 1 (map fst (rets tr)) /\
    bmem s 0 = Some (Slot 5 d) /\ bthr s 1 = Some (OUpdate 5 lf_flip, PLoad 0) /\ bthr s 2 = None).
  { induction n as [|n (ls & tr & s & d & X & C & O & NR & E1 & E2 & E3)].
    - destruct (exec ex_mark lf_m (bsys_init ex_mark lf_m) (call 2 (OInsert 5 7) 2 ++ [LInv 1 (OUpdate 5 lf_flip)]))
        as [[tr s]|] eqn:X; [|vm_compute in X; discriminate].
      do 4 eexists. split; [exact X|]. vm_compute in X. injection X as <- <-.
      split; [cbn; lia|]. split; [cbn; intuition|]. split; [cbn; intros [Q|[]]; discriminate|].
      split; [vm_compute; reflexivity|]. split; vm_compute; reflexivity.
    - destruct (lf_again s d E1 E2 E3) as (tr' & s' & Y & F1 & F2 & F3 & F4).
      exists (ls ++ lf_round), (tr ++ tr'), s', (N.lxor d 1). split; [eapply lf_app; eauto|].
      split; [rewrite turns_app, count_occ_app; cbn; lia|]. split.
      + intros o. rewrite ops_app, in_app_iff. intros [H|H]; auto. cbn in H. destruct H as [<-|[]]; auto.
      + split; auto. unfold rets in *. rewrite flat_map_app, map_app, in_app_iff. tauto. }
  destruct K as (ls & tr & s & d & X & C & O & NR & E1 & E2 & E3). exists ls, tr, s. repeat (split; auto).
  exists (OUpdate 5 lf_flip), (PLoad 0). split; auto. discriminate.
Qed.
Print Assumptions C66_single_call_starves.
