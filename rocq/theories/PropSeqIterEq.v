(** C90: comparing iterators of the sequential table. *)
From Coq Require Import NArith Bool List Lia.
From Verif Require Import Words Slot Mapper MapperFacts MapSpec TableSpec Migrate Seq SeqSpec SeqFacts
  SeqIter SeqIterSpec SeqIterFacts IterEqSpec SeqIterEq SeqIterEqFacts PropSeqIter.
Import ListNotations.
Open Scope N_scope.

(** Histories as in C89.  In the end every iterator kept in a variable of the client
    equals end() iff its call found nothing, and two iterators whose elements were not
    erased and that were obtained, or used for the last time, without a growth step in
    between are equal iff they stand for the same key or both are end(). *)
Theorem C90_iterator_equality_partial :
  forall mc hash lg gh base size l w rs,
    cprob mc = true -> 9 <= lg <= 52 -> 0 < size ->
    (forall c, In c l -> storable c) -> N.of_nat (length l) <= 2 ^ 48 ->
    itame mc hash (isys_init mc (sized mc lg gh)) l ->
    icmd_spec_all ispec_init l = Some (w, rs) ->
    exists y, icmd_all mc hash (isys_init mc (sized mc lg gh)) l = ROk (y, rs) /\
      forall x x',
        (si_eqb base size (i_var y x) (si_end mc (i_tab y)) = true <-> is_var w x = VEnd) /\
        (is_var w x <> VGone -> is_var w x' <> VGone -> si_ver (i_var y x) = si_ver (i_var y x') ->
           (si_eqb base size (i_var y x) (i_var y x') = true <-> is_var w x = is_var w x')).
Proof.
  intros mc hash lg gh base size l w rs CP LG SZ KE N TM S.
  assert (R : irel mc hash (isys_init mc (sized mc lg gh)) ispec_init).
  { split; [|intros x; reflexivity]. exists 0, lg. split; [|lia]. apply fresh_inv; [apply wf_mk; lia|lia]. }
  destruct (icmd_all_pairs mc hash l _ _ w rs R) as [[CF E]|(y & E & R1 & PA)]; auto; [|congruence|].
  { intros u v _ p q k k' P. discriminate. }
  exists y. split; [exact E|]. eapply equal_iff; eauto.
Qed.
Print Assumptions C90_iterator_equality_partial.

(** With linear probing, as long as no search leaves the table (C43). *)
Theorem C90_linear_probing_partial :
  forall mc hash lg gh base size l w rs y rs',
    9 <= lg <= 52 -> 0 < size ->
    (forall c, In c l -> storable c) -> N.of_nat (length l) <= 2 ^ 48 ->
    itame mc hash (isys_init mc (sized mc lg gh)) l ->
    icmd_spec_all ispec_init l = Some (w, rs) ->
    icmd_all mc hash (isys_init mc (sized mc lg gh)) l = ROk (y, rs') ->
    forall x x',
      (si_eqb base size (i_var y x) (si_end mc (i_tab y)) = true <-> is_var w x = VEnd) /\
      (is_var w x <> VGone -> is_var w x' <> VGone -> si_ver (i_var y x) = si_ver (i_var y x') ->
         (si_eqb base size (i_var y x) (i_var y x') = true <-> is_var w x = is_var w x')).
Proof.
  intros mc hash lg gh base size l w rs y rs' LG SZ KE N TM S RUN.
  assert (R : irel mc hash (isys_init mc (sized mc lg gh)) ispec_init).
  { split; [|intros x; reflexivity]. exists 0, lg. split; [|lia]. apply fresh_inv; [apply wf_mk; lia|lia]. }
  destruct (icmd_all_pairs mc hash l _ _ w rs R) as [[CF E]|(y1 & E & R1 & PA)]; auto; [|congruence|].
  { intros u v _ p q k k' P. discriminate. }
  assert (y1 = y) by congruence. subst y1. eapply equal_iff; eauto.
Qed.
Print Assumptions C90_linear_probing_partial.

(** The history of C89_case: variables 1 and 5 hold iterators to 7, both used after the
    growth step; 2 one to 8. *)
Example C90_case :
  match icmd_spec_all ispec_init ops89,
        icmd_all (MCfg false true) (fun k => k * 2 ^ 54) (isys_init (MCfg false true) (sized (MCfg false true) 9 0)) ops89 with
  | Some (w, _), ROk (y, _) =>
      let eq x x' := si_eqb (fun v => 2 ^ 20 * v) 16 (i_var y x) (i_var y x') in
      (is_var w 1, is_var w 5, is_var w 2, is_var w 3) = (VKey 7, VKey 7, VKey 8, VEnd) /\
      (si_ver (i_var y 1), si_ver (i_var y 5), si_ver (i_var y 2)) = (1024, 1024, 1024) /\
      (eq 1 5, eq 1 2, eq 2 3) = (true, false, false) /\
      si_eqb (fun v => 2 ^ 20 * v) 16 (i_var y 3) (si_end (MCfg false true) (i_tab y)) = true
  | _, _ => False
  end.
Proof. vm_compute. repeat split; reflexivity. Qed.

(** Iterators from before and after a growth step differ, although both come from calls
    for the same key, which has been stored all the time with the same value, and both
    show it.  Dereferencing the older one makes them equal. *)
Definition ops90 : list icmd :=
  ICall 1 (SInsert 7 70) :: map (fun k => ICall 4 (SInsert k 0)) (nseq 10 8) ++ [ICall 5 (SFind 7)].

Theorem C90_grown_table_refuted :
  exists mc hash lg base size,
    cprob mc = true /\ 0 < size /\
    disjoint_memory base size (2 ^ lg) (2 ^ lg) (2 ^ (lg + 1)) (2 ^ (lg + 1)) /\
    (forall c, In c ops90 -> storable c /\ no_erase c) /\
    match icmd_spec_all ispec_init ops90 with
    | Some (w, _) => is_var w 1 = VKey 7 /\ is_var w 5 = VKey 7 /\ is_map w 7 = Some 70
    | None => False
    end /\
    match icmd_all mc hash (isys_init mc (sized mc lg 0)) ops90,
          icmd_all mc hash (isys_init mc (sized mc lg 0)) (ops90 ++ [IShow 5; IShow 1]) with
    | ROk (y, _), ROk (y', rs') =>
        (si_ver (i_var y 1), si_ver (i_var y 5)) = (2 ^ lg, 2 ^ (lg + 1)) /\
        si_eqb base size (i_var y 1) (i_var y 5) = false /\
        skipn 10 rs' = [UShow 7 70; UShow 7 70] /\
        si_eqb base size (i_var y' 1) (i_var y' 5) = true
    | _, _ => False
    end.
Proof.
  exists (MCfg true true), (fun k => k), 3, (fun v => 2 ^ 20 * v), 16.
  split; [reflexivity|]. split; [lia|]. split; [intros p q Lp Lq; cbn in *; lia|]. split.
  { intros c H. cbn in H. repeat destruct H as [<-|H]; try contradiction; cbn; split; (discriminate || tauto). }
  split; vm_compute; repeat split; reflexivity.
Qed.
Print Assumptions C90_grown_table_refuted.

(** ** C91: begin() of the sequential table *)

(** After every history of calls in which erase meets its key in front of a free cell
    (C42), begin() is end() iff the map is empty, and shows an element of the map
    otherwise. *)
Theorem C91_begin_partial :
  forall mc hash lg gh l,
    cprob mc = true -> 9 <= lg <= 52 ->
    (forall o, In o l -> sop_key o <> 0) -> N.of_nat (length l) <= 2 ^ 48 ->
    tame mc hash (q_fresh mc (sized mc lg gh)) l ->
    let a := fst (sq_spec_all amap_empty l) in
    exists s rs it, srun_all mc hash (q_fresh mc (sized mc lg gh)) l = ROk (s, rs) /\
      q_begin mc s = ROk it /\
      ((si_ptr it = None /\ forall k, a k = None) \/
       (exists p k d, si_ptr it = Some p /\ a k = Some d /\ si_deref mc hash s it = ROk (it, p, Slot k d))).
Proof.
  intros mc hash lg gh l CP LG K N TM a.
  assert (GD : good mc hash (q_fresh mc (sized mc lg gh)) amap_empty 0).
  { exists lg. split; [|lia]. apply fresh_inv; [apply wf_mk; lia|lia]. }
  pose proof (srun_all_spec mc hash l _ _ _ GD K) as P. cbn [q_n q_fresh] in P.
  specialize (P ltac:(lia) TM).
  destruct (srun_all _ _ _ l) as [[s rs]| |]; [|congruence|contradiction].
  destruct P as ((z & G & _) & _). destruct (begin_spec mc hash s _ z G) as (it & B & H).
  exists s, rs, it. split; [reflexivity|]. split; [exact B|].
  destruct (si_ptr it) as [p|]; [right|left; auto]. destruct H as (k & d & A & D). exists p, k, d. auto.
Qed.
Print Assumptions C91_begin_partial.

(** The same after histories that also assign through iterators (C89), with circular or
    linear probing, as long as no search leaves the table. *)
Theorem C91_after_assignments_partial :
  forall mc hash lg gh l w rs y rs',
    9 <= lg <= 52 ->
    (forall c, In c l -> storable c) -> N.of_nat (length l) <= 2 ^ 48 ->
    itame mc hash (isys_init mc (sized mc lg gh)) l ->
    icmd_spec_all ispec_init l = Some (w, rs) ->
    icmd_all mc hash (isys_init mc (sized mc lg gh)) l = ROk (y, rs') ->
    exists it, q_begin mc (i_tab y) = ROk it /\
      ((si_ptr it = None /\ forall k, is_map w k = None) \/
       (exists p k d, si_ptr it = Some p /\ is_map w k = Some d /\
          si_deref mc hash (i_tab y) it = ROk (it, p, Slot k d))).
Proof.
  intros mc hash lg gh l w rs y rs' LG KE N TM S RUN.
  assert (R : irel mc hash (isys_init mc (sized mc lg gh)) ispec_init).
  { split; [|intros x; reflexivity]. exists 0, lg. split; [|lia]. apply fresh_inv; [apply wf_mk; lia|lia]. }
  destruct (icmd_all_ok mc hash l _ _ w rs R KE) as [[CF E]|(y1 & E & [[z G] _])]; auto; [congruence|].
  assert (y1 = y) by congruence. subst y1.
  destruct (begin_spec mc hash _ _ z G) as (it & B & H). exists it. split; [exact B|].
  destruct (si_ptr it) as [p|]; [right|left; auto]. destruct H as (k & d & A & D). exists p, k, d. auto.
Qed.
Print Assumptions C91_after_assignments_partial.

(** After the history of C89_linear_probing_case begin() shows 7 with the assigned value. *)
Example C91_after_assignments_case :
  let mc := MCfg false false in
  match icmd_all mc (fun _ => 2 ^ 62) (isys_init mc (sized mc 9 0)) ops89l with
  | ROk (y, _) => exists it p, q_begin mc (i_tab y) = ROk it /\ si_deref mc (fun _ => 2 ^ 62) (i_tab y) it = ROk (it, p, Slot 7 71)
  | _ => False
  end.
Proof. vm_compute. eexists _, _. split; reflexivity. Qed.

Definition ops91 : list sop := [SInsert 9 90; SInsert 7 70; SErase 7].

Example C91_case :
  let mc := MCfg true true in
  (forall o, In o ops91 -> sop_key o <> 0) /\
  tame mc (fun k => k) (q_fresh mc (sized mc 9 0)) ops91 /\
  match srun_all mc (fun k => k) (q_fresh mc (sized mc 9 0)) ops91,
        srun_all mc (fun k => k) (q_fresh mc (sized mc 9 0)) (ops91 ++ [SErase 9]) with
  | ROk (s, _), ROk (s', _) =>
      q_begin mc s = ROk (SIter (Some 9) (Slot 9 90) 512) /\ q_begin mc s' = ROk (si_end mc s')
  | _, _ => False
  end.
Proof.
  cbv zeta. split; [|split].
  - intros o H. cbn in H. repeat destruct H as [<-|H]; try contradiction; discriminate.
  - apply tameb_ok; vm_compute; reflexivity.
  - vm_compute. repeat split; reflexivity.
Qed.

(** Without the restriction on erase: 2 is stored, inserted again because the first
    erase hides it, and erased; no key is left, but begin() shows 2. *)
Theorem C91_begin_refuted :
  exists mc hash lg l, cprob mc = true /\ (forall o, In o l -> sop_key o <> 0) /\
    (forall k, fst (sq_spec_all amap_empty l) k = None) /\
    match srun_all mc hash (q_fresh mc (sized mc lg 0)) l with
    | ROk (s, rs) =>
        rs = [(Some (1, 10), true); (Some (2, 20), true); (None, true); (Some (2, 21), true); (None, true)] /\
        exists it p, q_begin mc s = ROk it /\ si_deref mc hash s it = ROk (it, p, Slot 2 20)
    | _ => False
    end.
Proof.
  exists (MCfg false true), (fun _ => 2 ^ 62), 9, [SInsert 1 10; SInsert 2 20; SErase 1; SInsert 2 21; SErase 2].
  split; [reflexivity|]. split; [intros o H; cbn in H; repeat destruct H as [<-|H]; try contradiction; discriminate|].
  split.
  - intros [|[[p|p|]|[p|p|]|]]; reflexivity.
  - vm_compute. split; [reflexivity|]. eexists _, _. split; reflexivity.
Qed.
Print Assumptions C91_begin_refuted.
