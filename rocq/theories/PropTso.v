(** Theorems C86: plain stores on a processor with store buffers. *)
From Coq Require Import NArith Bool List Lia.
From Verif Require Import Words Slot SlotFacts Mapper MapperFacts ReturnCode MapSpec LinSpec HistSpec
  Base BaseInv BaseLin TableSpec BaseFacts LinCheck PropBase BufSpec BufFacts Tso TsoFacts TsoExec.
Import ListNotations.
Open Scope N_scope.

(** Every function changes the value by an atomic instruction, or cells can be marked: calls
    are atomic behind store buffers as well. *)
Theorem C86_atomic_functions_linearizable :
  forall sc mc hash lg gh plain (client : op -> Prop),
    cell_type sc -> 1 <= lg <= 63 -> fair sc client ->
    (sc_mark sc = true \/ forall o, client o -> updating o -> plain (op_fun o) = false) ->
    linearizable (mspec (sc_mark sc) (negb (cprob mc)))
      (tso_step (TCfg sc mc hash) (sized mc lg gh) plain client)
      (tso_init (TCfg sc mc hash) (sized mc lg gh)) amap_empty.
Proof.
  intros sc mc hash lg gh plain client CT LG FA NP tr s ST.
  destruct (locked_steps (TCfg sc mc hash) (sized mc lg gh) plain client) with (s := tso_init (TCfg sc mc hash) (sized mc lg gh))
    (b := bsys_init (TCfg sc mc hash) (sized mc lg gh)) (tr := tr) (s' := s) as (b & L & _); auto.
  - intros o i x C. cbn. destruct NP as [M|NP]; [rewrite M; reflexivity|].
    destruct o; cbn; rewrite ?andb_false_r; auto;
      (specialize (NP _ C Logic.I); cbn in NP; rewrite NP; destruct (fat f); apply andb_false_r).
  - apply locked_init.
  - exact (linearizable_fair sc mc hash lg gh CT LG client FA tr b L).
Qed.
Print Assumptions C86_atomic_functions_linearizable.

(** example/update_fcts.hpp:32-53 [Overwrite] and 12-30 [Increment] with their members [atomic]. *)
Definition assign (v : N) : functor := Functor (fun _ => v) (Some (fun _ => (v, v))).
Definition add_atomic (n : N) : functor :=
  Functor (fun x => w64 (x + n)) (Some (fun x => (w64 (x + n), x))).
(** Which of the two [f] is. *)
Definition assigns (f : functor) : bool := fn f 0 =? fn f 1.

Definition xcall (u : N) (o : op) (n : nat) : list xlabel := XInv u o :: repeat (XRun u true) n ++ [XRet u].
Definition x86 := xexec ex_plain (sized (MCfg false false) 9 0) assigns
  (tso_init ex_plain (sized (MCfg false false) 9 0)).
Definition xresults (ls : list xlabel) : option (list (N * mres)) :=
  option_map (fun x => flat_map (fun e => match e with ERet t r => [(t, r)] | EInv _ _ => [] end) (fst x)) (x86 ls).

(** Thread 1 assigns and its call returns; thread 2 still finds the old value. *)
Definition l86 : list xlabel :=
  xcall 1 (OInsert 5 7) 2 ++ xcall 1 (OUpdate 5 (assign 9)) 2 ++ xcall 2 (OFind 5) 1.
Theorem C86_assignment_refuted :
  ~ (forall sc mc hash lg gh plain (client : op -> Prop),
       cell_type sc -> 1 <= lg <= 63 -> fair sc client ->
       linearizable (mspec (sc_mark sc) (negb (cprob mc)))
         (tso_step (TCfg sc mc hash) (sized mc lg gh) plain client)
         (tso_init (TCfg sc mc hash) (sized mc lg gh)) amap_empty).
Proof.
  intros H.
  specialize (H (simple_slot false) (MCfg false false) ex_hash 9 0 assigns (fun o => In o (xops_of l86))).
  destruct (x86 l86) as [[tr s]|] eqn:E; [|vm_compute in E; discriminate].
  assert (X : linearizable_trace (mspec false true) amap_empty tr).
  { eapply H.
    - exists false. now left.
    - lia.
    - split.
      + intros o O. cbn in O. destruct O as [<-|[<-|[<-|[]]]]; (split; [apply key_ok_plain; cbn; lia|]); cbn; auto.
        intros g x [= <-]. reflexivity.
      + right; left. intros o O. cbn in O. destruct O as [<-|[<-|[<-|[]]]]; cbn; tauto.
    - eapply xexec_sound; [|exact E]. auto. }
  assert (T : option_map fst (x86 l86) = Some tr) by (rewrite E; reflexivity).
  vm_compute in T. injection T as <-.
  revert X. apply not_linearizable. vm_compute. reflexivity.
Qed.
Print Assumptions C86_assignment_refuted.

(** Thread 1 assigns and its call returns; thread 2 then increments (the call reports the old
    value) and finds its own result; later the increment is gone: the assignment arrives. *)
Example C86_case_increment_gone :
  xresults (xcall 1 (OInsert 5 7) 2 ++ xcall 1 (OUpdate 5 (assign 9)) 2 ++
            xcall 2 (OUpdate 5 (add_atomic 1)) 2 ++ xcall 2 (OFind 5) 1 ++ [XDrain 1] ++ xcall 2 (OFind 5) 1)
  = Some [(1, RInserted); (1, RUpdated 9); (2, RUpdated 7); (2, RFound 8); (2, RFound 9)].
Proof. vm_compute. reflexivity. Qed.

(** Nothing is erased: the table is a map behind store buffers, whatever the functions. *)
Theorem C86_buffered :
  forall sc mc hash lg gh plain (client : op -> Prop) tr s,
    cell_type sc -> sc_mark sc = false -> 1 <= lg <= 63 ->
    (forall o, client o -> admissible sc o /\ ~ erasing o) ->
    lts_steps (tso_step (TCfg sc mc hash) (sized mc lg gh) plain client)
      (tso_init (TCfg sc mc hash) (sized mc lg gh)) tr s ->
    buffered (mspec false (negb (cprob mc)))
      (fun o => exists o', client o' /\ o = spec_op sc o' /\ updating o' /\ plain (op_fun o') = true) tr.
Proof.
  intros sc mc hash lg gh plain client tr s CT SM LG CL ST. pose proof (cell_type_wf _ CT) as W.
  eapply (tso_buffered (TCfg sc mc hash) (sized mc lg gh) lg W (wf_mk mc lg gh LG) SM plain client); eauto.
  - intros o C. destruct (CL o C) as [[K F] _]. split; [now apply user_key_valid|].
    destruct o; cbn; try (intros g x; discriminate); exact F.
  - intros o C X. apply (CL o C). destruct o; auto.
Qed.
Print Assumptions C86_buffered.

(** Up to the values they report, calls are atomic: nobody misses a key that another thread
    inserted, no two threads insert the same key, nobody updates an absent key. *)
Theorem C86_keys_are_atomic :
  forall sc mc hash lg gh plain (client : op -> Prop) tr s,
    cell_type sc -> sc_mark sc = false -> 1 <= lg <= 63 ->
    (forall o, client o -> admissible sc o /\ ~ erasing o) ->
    lts_steps (tso_step (TCfg sc mc hash) (sized mc lg gh) plain client)
      (tso_init (TCfg sc mc hash) (sized mc lg gh)) tr s ->
    atomic_but_values (mspec false (negb (cprob mc))) tr.
Proof.
  intros sc mc hash lg gh plain client tr s CT SM LG CL ST. pose proof (cell_type_wf _ CT) as W.
  eapply (tso_keys (TCfg sc mc hash) (sized mc lg gh) lg W (wf_mk mc lg gh LG) SM plain client); eauto.
  - intros o C. destruct (CL o C) as [[K F] _]. split; [now apply user_key_valid|].
    destruct o; cbn; try (intros g x; discriminate); exact F.
  - intros o C X. apply (CL o C). destruct o; auto.
Qed.
Print Assumptions C86_keys_are_atomic.

(** Assignments of constants whose thread waits for its buffer before it goes on: atomic. *)
Theorem C86_fenced_assignment_linearizable :
  forall sc mc hash lg gh plain (client : op -> Prop),
    cell_type sc -> sc_mark sc = false -> 1 <= lg <= 63 ->
    (forall o, client o -> admissible sc o /\ ~ erasing o) ->
    (forall o, client o -> updating o -> plain (op_fun o) = true ->
       exists v, op_fun o = assign v) ->
    linearizable (mspec false (negb (cprob mc)))
      (tso_fenced (TCfg sc mc hash) (sized mc lg gh) plain client)
      (tso_init (TCfg sc mc hash) (sized mc lg gh)) amap_empty.
Proof.
  intros sc mc hash lg gh plain client CT SM LG CL AS tr s ST. pose proof (cell_type_wf _ CT) as W.
  eapply (tso_fenced_atomic (TCfg sc mc hash) (sized mc lg gh) lg W (wf_mk mc lg gh LG) SM plain client); eauto.
  - intros o C. destruct (CL o C) as [[K F] _]. split; [now apply user_key_valid|].
    destruct o; cbn; try (intros g x; discriminate); exact F.
  - intros o C X. apply (CL o C). destruct o; auto.
  - intros o C U P. destruct (AS o C U P) as [v ->]. exists v. intros x. cbn. split; auto.
    unfold fun_ret. rewrite SM. reflexivity.
Qed.
Print Assumptions C86_fenced_assignment_linearizable.

(** Two threads, two keys, assignments and increments; thread 1 sees its own assignment at
    once, thread 2 later.  With a fence between assignment and response both see it. *)
Example C86_case_mixed :
  let ls := xcall 1 (OInsert 5 7) 2 ++ xcall 2 (OIou 6 1 (assign 2)) 3 ++ xcall 1 (OIou 6 1 (assign 3)) 3 ++
            xcall 1 (OFind 6) 2 ++ xcall 2 (OFind 6) 2 ++ [XDrain 1] ++ xcall 2 (OFind 6) 2 ++
            xcall 2 (OUpdate 6 (add_atomic 4)) 3 ++ xcall 1 (OFind 6) 2 in
  (forall o, In o (xops_of ls) -> admissible (simple_slot false) o /\ ~ erasing o) /\
  (forall o, In o (xops_of ls) -> updating o -> assigns (op_fun o) = true -> exists v, op_fun o = assign v) /\
  xresults ls = Some [(1, RInserted); (2, RInserted); (1, RUpdated 3); (1, RFound 3); (2, RFound 1); (2, RFound 3);
                      (2, RUpdated 3); (1, RFound 7)].
Proof.
  cbv zeta. split; [|split; [|vm_compute; reflexivity]].
  - intros o O. cbn in O.
    repeat (destruct O as [<-|O]; [split; [split; [apply key_ok_plain; cbn; lia|cbn; auto; try (intros g x [= <-]; reflexivity)]|cbn; tauto]|]).
    contradiction.
  - intros o O U A. cbn in O.
    repeat (destruct O as [<-|O]; [cbn in U, A; try contradiction; try discriminate; eexists; reflexivity|]).
    contradiction.
Qed.

(** The same with a fence between assignment and response: thread 2 finds the new value. *)
Definition l86f : list xlabel :=
  xcall 1 (OInsert 5 7) 2 ++
  [XInv 1 (OUpdate 5 (assign 9)); XRun 1 true; XRun 1 true; XInv 2 (OFind 5); XRun 2 true; XRet 2;
   XDrain 1; XRet 1] ++ xcall 2 (OFind 5) 1.
Example C86_case_fenced :
  xresults l86f = Some [(1, RInserted); (2, RFound 7); (1, RUpdated 9); (2, RFound 9)] /\
  exists tr s, x86 l86f = Some (tr, s) /\
    lts_steps (tso_fenced ex_plain (sized (MCfg false false) 9 0) assigns (fun o => In o (xops_of l86f)))
      (tso_init ex_plain (sized (MCfg false false) 9 0)) tr s.
Proof.
  split; [vm_compute; reflexivity|].
  destruct (x86 l86f) as [[tr s]|] eqn:E; [|vm_compute in E; discriminate].
  exists tr, s. split; [reflexivity|]. apply xexec_fenced with (ls := l86f); [auto|vm_compute; reflexivity|exact E].
Qed.
