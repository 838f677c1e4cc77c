(** Theorems C68: cells loaded in two halves. *)
From Coq Require Import NArith Bool List Lia.
From Verif Require Import Words Slot SlotFacts Mapper ReturnCode MapSpec LinSpec
  Base TableSpec BaseFacts LinCheck PropBase Torn TornFacts.
Import ListNotations.
Open Scope N_scope.

(** The key word is loaded before the value word and nothing is erased: calls are
    atomic. *)
Theorem C68_key_first_linearizable_partial :
  forall sc mc hash lg gh (client : op -> Prop),
    cell_type sc -> 1 <= lg <= 63 ->
    (forall o, client o -> admissible sc o /\ ~ erasing o) ->
    linearizable (mspec (sc_mark sc) (negb (cprob mc)))
      (tsys_step (TCfg sc mc hash) (sized mc lg gh) true client)
      (tsys_init (TCfg sc mc hash) (sized mc lg gh)) amap_empty.
Proof.
  intros sc mc hash lg gh client CT LG CL tr s ST.
  destruct (halved_whole (TCfg sc mc hash) (sized mc lg gh) client) with (tr := tr) (s' := s) as (b & _ & S); auto.
  - intros o H. now apply CL.
  - intros o H. cbn [tsc]. pose proof (cell_type_wf _ CT) as W.
    destruct (CL o H) as [[U _] _]. apply user_key_valid in U; [|exact W].
    change (is_empty sc (enc sc (CLive (op_key o) 0) false) = false).
    rewrite (enc_is_empty sc W); [reflexivity|]. split; [discriminate|exact U].
  - refine (linearizable_fair sc mc hash lg gh CT LG client _ tr b S).
    split; [intros o H; now apply CL|]. right; left. intros o H. now apply CL.
Qed.
Print Assumptions C68_key_first_linearizable_partial.

(** A find loads the key word of a cell; before it loads the value word, another
    thread changes the value: it sees the new one.  Then a second one loads an
    empty key word, and an insert comes in between: it reports absence. *)
Definition tcall (tid : N) (o : op) (n : nat) : list tlabel :=
  TInv tid o :: repeat (TRun tid) n ++ [TRet tid].
Definition ttrace (c : tcfg) (m : mapper) (kf : bool) (ls : list tlabel) : option (list (event mop mres)) :=
  option_map fst (texec c m kf (tsys_init c m) ls).
Definition tresults (c : tcfg) (m : mapper) (kf : bool) (ls : list tlabel) : option (list (N * mres)) :=
  option_map (flat_map (fun e => match e with ERet t r => [(t, r)] | EInv _ _ => [] end)) (ttrace c m kf ls).
Definition m68 : mapper := sized (MCfg false false) 9 0.
Example C68_key_first_case :
  let client := fun o => In o [OInsert 5 7; OUpdate 5 (incr 10); OFind 5; OFind 6; OInsert 6 60] in
  (forall o, client o -> admissible (simple_slot false) o /\ ~ erasing o) /\
  tresults ex_plain m68 true
    (tcall 1 (OInsert 5 7) 3 ++
     [TInv 1 (OFind 5); TRun 1] ++ tcall 2 (OUpdate 5 (incr 10)) 3 ++ [TRun 1; TRet 1] ++
     [TInv 1 (OFind 6); TRun 1; TRun 1; TRun 1] ++ tcall 2 (OInsert 6 60) 5 ++ [TRun 1; TRet 1])
  = Some [(1, RInserted); (2, RUpdated 17); (1, RFound 17); (2, RInserted); (1, RAbsent)].
Proof.
  split; [|vm_compute; reflexivity].
  intros o H. cbn in H. destruct H as [<-|[<-|[<-|[<-|[<-|[]]]]]]; (split; [|cbn; tauto]);
    (split; [apply key_ok_plain; cbn; lia|]); cbn; auto. intros g x; discriminate.
Qed.

(** With erase, a find can report the value 0 for a key that never had it. *)
Definition l68e : list tlabel :=
  tcall 1 (OInsert 5 50) 3 ++ [TInv 2 (OFind 5); TRun 2] ++ tcall 1 (OErase 5) 3 ++ [TRun 2; TRet 2].
Theorem C68_erase_refuted :
  ~ (forall sc mc hash lg gh (client : op -> Prop),
       cell_type sc -> 1 <= lg <= 63 ->
       (forall o, client o -> admissible sc o /\ ~ updating o) ->
       linearizable (mspec (sc_mark sc) (negb (cprob mc)))
         (tsys_step (TCfg sc mc hash) (sized mc lg gh) true client)
         (tsys_init (TCfg sc mc hash) (sized mc lg gh)) amap_empty).
Proof.
  intros H.
  specialize (H (simple_slot false) (MCfg false false) (fun k => k) 9 0 (fun o => In o (tops_of l68e))).
  assert (X : linearizable_trace (mspec false true) amap_empty
    [EInv 1 (MInsert 5 50); ERet 1 RInserted; EInv 2 (MFind 5); EInv 1 (MErase 5); ERet 1 RErased;
     ERet 2 (RFound 0)]).
  { eapply H.
    - exists false. now left.
    - lia.
    - intros o O. cbn in O. destruct O as [<-|[<-|[<-|[]]]]; (split; [|cbn; tauto]);
        (split; [apply key_ok_plain; cbn; lia|exact Logic.I]).
    - eapply texec_sound with (ls := l68e); [auto|]. vm_compute. reflexivity. }
  revert X. apply not_linearizable. vm_compute. reflexivity.
Qed.
Print Assumptions C68_erase_refuted.

(** When the value word is loaded first, inserts suffice for that. *)
Definition l68d : list tlabel :=
  [TInv 2 (OFind 5); TRun 2] ++ tcall 1 (OInsert 5 50) 3 ++ [TRun 2; TRet 2].
Theorem C68_value_first_refuted :
  ~ (forall sc mc hash lg gh (client : op -> Prop),
       cell_type sc -> 1 <= lg <= 63 ->
       (forall o, client o -> admissible sc o /\ ~ erasing o /\ ~ updating o) ->
       linearizable (mspec (sc_mark sc) (negb (cprob mc)))
         (tsys_step (TCfg sc mc hash) (sized mc lg gh) false client)
         (tsys_init (TCfg sc mc hash) (sized mc lg gh)) amap_empty).
Proof.
  intros H.
  specialize (H (simple_slot false) (MCfg false false) (fun k => k) 9 0 (fun o => In o (tops_of l68d))).
  assert (X : linearizable_trace (mspec false true) amap_empty
    [EInv 2 (MFind 5); EInv 1 (MInsert 5 50); ERet 1 RInserted; ERet 2 (RFound 0)]).
  { eapply H.
    - exists false. now left.
    - lia.
    - intros o O. cbn in O. destruct O as [<-|[<-|[]]]; (split; [|cbn; tauto]);
        (split; [apply key_ok_plain; cbn; lia|exact Logic.I]).
    - eapply texec_sound with (ls := l68d); [auto|]. vm_compute. reflexivity. }
  revert X. apply not_linearizable. vm_compute. reflexivity.
Qed.
Print Assumptions C68_value_first_refuted.
