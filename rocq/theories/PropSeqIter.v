(** C89: iterators of the sequential table that are kept while the table is used. *)
From Coq Require Import NArith Bool List Lia.
From Verif Require Import Words Slot Mapper MapperFacts MapSpec TableSpec Migrate Seq SeqSpec SeqFacts
  SeqIter SeqIterSpec SeqIterFacts.
Import ListNotations.
Open Scope N_scope.

(** Histories of insert, find, update, insert_or_update and erase, mixed with
    dereferencing and assigning through any iterators returned so far whose elements
    were not erased since, and comparing any iterators with end(): every iterator shows
    the key of its call with the value stored now, across any number of growth steps,
    and assigning through it changes that value.  As in C42 every erase has to meet its
    key in front of a free cell. *)
Theorem C89_kept_iterators_partial :
  forall mc hash lg gh l w rs,
    cprob mc = true -> 9 <= lg <= 52 ->
    (forall c, In c l -> storable c) -> N.of_nat (length l) <= 2 ^ 48 ->
    itame mc hash (isys_init mc (sized mc lg gh)) l ->
    icmd_spec_all ispec_init l = Some (w, rs) ->
    exists y, icmd_all mc hash (isys_init mc (sized mc lg gh)) l = ROk (y, rs).
Proof.
  intros mc hash lg gh l w rs CP LG KE N TM S.
  assert (R : irel mc hash (isys_init mc (sized mc lg gh)) ispec_init).
  { split; [|intros x; reflexivity]. exists 0, lg. split; [|lia]. apply fresh_inv; [apply wf_mk; lia|lia]. }
  destruct (icmd_all_ok mc hash l _ _ w rs R KE) as [[CF _]|(y & E & _)]; eauto. congruence.
Qed.
Print Assumptions C89_kept_iterators_partial.

(** With linear probing a search may leave the table (C43); as long as none does, all
    answers are right. *)
Theorem C89_linear_probing_partial :
  forall mc hash lg gh l w rs,
    9 <= lg <= 52 ->
    (forall c, In c l -> storable c) -> N.of_nat (length l) <= 2 ^ 48 ->
    itame mc hash (isys_init mc (sized mc lg gh)) l ->
    icmd_spec_all ispec_init l = Some (w, rs) ->
    match icmd_all mc hash (isys_init mc (sized mc lg gh)) l with
    | ROk (_, rs') => rs' = rs
    | RBad => cprob mc = false
    | RLoop => False
    end.
Proof.
  intros mc hash lg gh l w rs LG KE N TM S.
  assert (R : irel mc hash (isys_init mc (sized mc lg gh)) ispec_init).
  { split; [|intros x; reflexivity]. exists 0, lg. split; [|lia]. apply fresh_inv; [apply wf_mk; lia|lia]. }
  destruct (icmd_all_ok mc hash l _ _ w rs R KE) as [[CF ->]|(y & -> & _)]; auto.
Qed.
Print Assumptions C89_linear_probing_partial.

(** Linear probing; 7, 8 and 9 collide. *)
Definition ops89l : list icmd :=
  [ICall 1 (SInsert 7 70); ICall 2 (SInsert 8 80); ICall 3 (SInsert 9 90); IAssign 1 71; ICall 4 (SErase 9);
   IShow 2; ICall 5 (SFind 7); IShow 5; ICall 6 (SFind 9); IIsEnd 6].

Example C89_linear_probing_case :
  let mc := MCfg false false in let hash := fun _ => 2 ^ 62 in
  (forall c, In c ops89l -> storable c) /\
  itame mc hash (isys_init mc (sized mc 9 0)) ops89l /\
  match icmd_spec_all ispec_init ops89l with
  | Some (_, rs) => rs = [UCall true; UCall true; UCall true; UDone; UCall true; UShow 8 80; UCall true; UShow 7 71;
                          UCall false; UEnd true]
  | None => False
  end.
Proof.
  cbv zeta. split; [|split].
  - apply Forall_forall. repeat (apply Forall_cons; [discriminate || exact I|]). apply Forall_nil.
  - apply itameb_ok. vm_compute. reflexivity.
  - vm_compute. reflexivity.
Qed.

(** Without erase no further condition is needed. *)
Theorem C89_kept_iterators_no_erase_partial :
  forall mc hash lg gh l w rs,
    cprob mc = true -> 9 <= lg <= 52 ->
    (forall c, In c l -> storable c /\ no_erase c) -> N.of_nat (length l) <= 2 ^ 48 ->
    icmd_spec_all ispec_init l = Some (w, rs) ->
    exists y, icmd_all mc hash (isys_init mc (sized mc lg gh)) l = ROk (y, rs).
Proof.
  intros mc hash lg gh l w rs CP LG KE N S.
  eapply C89_kept_iterators_partial; eauto; [intros c H; now apply KE|].
  apply no_erase_itame. intros c H. now apply KE.
Qed.
Print Assumptions C89_kept_iterators_no_erase_partial.

(** In variable 1 an iterator to key 7, in variable 2 one to 8 and in variable 3 the
    answer of an unsuccessful find; 340 more keys are inserted, so that the table of
    512 cells grows. *)
Definition ops89 : list icmd :=
  [ICall 1 (SInsert 7 70); ICall 2 (SInsert 8 80); ICall 3 (SFind 9); IIsEnd 3; IShow 1] ++
  map (fun k => ICall 4 (SInsert k 0)) (nseq 10 340) ++
  [IShow 1; IAssign 1 71; ICall 5 (SUpdate 7 (N.add 1)); IShow 1; IShow 5; IIsEnd 2; IShow 2].

Example C89_case :
  (forall c, In c ops89 -> storable c /\ no_erase c) /\
  match icmd_spec_all ispec_init ops89,
        icmd_all (MCfg false true) (fun k => k * 2 ^ 54) (isys_init (MCfg false true) (sized (MCfg false true) 9 0)) ops89 with
  | Some (_, rs), ROk (y, rs') =>
      (firstn 5 rs, skipn 345 rs) =
        ([UCall true; UCall true; UCall false; UEnd true; UShow 7 70],
         [UShow 7 70; UDone; UCall true; UShow 7 72; UShow 7 72; UEnd false; UShow 8 80]) /\
      firstn 5 rs' = firstn 5 rs /\ skipn 345 rs' = skipn 345 rs /\
      total_slots (MCfg false true) (q_map (i_tab y)) = 1024
  | _, _ => False
  end.
Proof.
  split.
  - intros c H. unfold ops89 in H. apply in_app_or in H. destruct H as [H|H].
    + cbn in H. repeat destruct H as [<-|H]; try contradiction; cbn; auto; split; (discriminate || tauto).
    + apply in_app_or in H. destruct H as [H|H].
      * apply in_map_iff in H as (k & <- & H). cbn. split; [|tauto]. intros ->. revert H. clear.
        assert (G : forall n i, In 0 (nseq i n) -> i = 0).
        { induction n as [|n IH]; intros i; cbn; [tauto|]. intros [H|H]; [exact H|]. apply IH in H. lia. }
        intros H. apply G in H. discriminate.
      * cbn in H. repeat destruct H as [<-|H]; try contradiction; cbn; auto; split; (discriminate || tauto).
  - vm_compute. repeat split; reflexivity.
Qed.

(** Erasing 9, which stands in front of a free cell, leaves the iterators to 7 and 8
    alone; the one to 9 is only compared with end() afterwards.  340 further keys make
    the table grow, and 9 is inserted again. *)
Definition ops89e : list icmd :=
  [ICall 1 (SInsert 7 70); ICall 2 (SInsert 8 80); ICall 3 (SInsert 9 90); IShow 3; ICall 4 (SErase 9); IIsEnd 3;
   IShow 1; IAssign 2 81] ++
  map (fun k => ICall 4 (SInsert k 0)) (nseq 10 340) ++
  [IShow 1; IShow 2; ICall 4 (SErase 2); ICall 5 (SInsert 9 91); IShow 5; IIsEnd 3].

Example C89_erase_case :
  let mc := MCfg false true in let hash := fun k => k * 2 ^ 54 in
  (forall c, In c ops89e -> storable c) /\
  itame mc hash (isys_init mc (sized mc 9 0)) ops89e /\
  match icmd_spec_all ispec_init ops89e with
  | Some (w, rs) =>
      (is_var w 1, is_var w 2, is_var w 3, is_var w 5) = (VKey 7, VKey 8, VGone, VKey 9) /\
      (firstn 8 rs, skipn 348 rs) =
        ([UCall true; UCall true; UCall true; UShow 9 90; UCall true; UEnd false; UShow 7 70; UDone],
         [UShow 7 70; UShow 8 81; UCall false; UCall true; UShow 9 91; UEnd false])
  | None => False
  end.
Proof.
  cbv zeta. split; [|split].
  - apply Forall_forall. vm_compute. repeat (apply Forall_cons; [discriminate || exact I|]). apply Forall_nil.
  - apply itameb_ok. vm_compute. reflexivity.
  - vm_compute. split; reflexivity.
Qed.

(** Erasing another key moves elements without the iterators' knowledge.  Keys 1 and 2
    have the same home cell, 3 the next one.  After erase(1) the iterator to 2 shows
    key 0; after insert(3) it shows 3, and assigning through it changes the value of
    3, not of 2. *)
Theorem C89_erase_of_another_key_refuted :
  exists mc hash lg, cprob mc = true /\
    match icmd_all mc hash (isys_init mc (sized mc lg 0))
            [ICall 1 (SInsert 1 10); ICall 2 (SInsert 2 20); IShow 2; ICall 4 (SErase 1); IShow 2;
             ICall 3 (SInsert 3 30); IShow 2; IAssign 2 21;
             ICall 5 (SFind 2); IShow 5; ICall 5 (SFind 3); IShow 5] with
    | ROk (_, rs) =>
        rs = [UCall true; UCall true; UShow 2 20; UCall true; UShow 0 0;
              UCall true; UShow 3 30; UDone; UCall true; UShow 2 20; UCall true; UShow 3 21]
    | _ => False
    end.
Proof.
  exists (MCfg true true), (fun k => if k <? 3 then 5 else 6), 9. split; [reflexivity|].
  vm_compute. reflexivity.
Qed.
Print Assumptions C89_erase_of_another_key_refuted.
