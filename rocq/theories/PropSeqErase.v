(** C42 and C91 for hash values that are cell numbers. *)
From Coq Require Import NArith Bool List Lia.
From Verif Require Import Words Slot Mapper MapperFacts MapSpec TableSpec Migrate Seq SeqSpec SeqFacts
  SeqIter SeqIterFacts SeqIterEq SeqIterEqFacts SeqErase SeqLin.
Import ListNotations.
Open Scope N_scope.

(** Circular mapping, and only keys whose hash value is below a quarter of the initial
    size: all histories of insert, find, update, insert_or_update and erase, without any
    condition on where erase meets its key, return what a map returns, over any number of
    growth steps.  Then begin() shows an element of the map, or is end() if there is none.
    With linear probing no search leaves the table either. *)
Theorem C42_small_hash_values_partial :
  forall mc hash lg gh l,
    cmap mc = true -> 9 <= lg <= 52 ->
    (forall o, In o l -> sop_key o <> 0 /\ 4 * hash (sop_key o) < 2 ^ lg) ->
    N.of_nat (length l) <= 2 ^ 48 ->
    exists s, srun_all mc hash (q_fresh mc (sized mc lg gh)) l = ROk (s, snd (sq_spec_all amap_empty l)).
Proof.
  intros mc hash lg gh l CM LG K N.
  assert (GD : good mc hash (q_fresh mc (sized mc lg gh)) amap_empty 0).
  { exists lg. split; [|lia]. apply fresh_inv; [apply wf_mk; lia|lia]. }
  pose proof (srun_all_small mc hash lg CM l _ _ _ GD) as P.
  assert (T : total_slots mc (mk_mapper mc (2 ^ lg) 0) <= total_slots mc (q_map (q_fresh mc (sized mc lg gh)))).
  { cbn [q_fresh q_map]. rewrite (total_val _ _ _ (wf_mk mc lg 0 ltac:(lia))).
    rewrite (total_val mc (sized mc lg gh) lg) by (apply wf_mk; lia). lia. }
  specialize (P T ltac:(lia) K ltac:(intros k H; now contradiction H) ltac:(cbn; lia)).
  destruct (srun_all mc hash (q_fresh mc (sized mc lg gh)) l) as [[s rs]| |] eqn:E; [|exfalso|contradiction].
  - exists s. f_equal. f_equal. apply P.
  - destruct (g_srun_all mc hash P lg (low mc hash lg) (room_low mc hash P lg) l (q_fresh mc (sized mc lg gh)) lg)
      as [r E2]; [| |cbn [q_n q_fresh]; lia|congruence].
    + apply (g_fresh mc hash); [apply wf_mk; lia|lia|lia].
    + unfold low. rewrite CM. exact K.
Qed.
Print Assumptions C42_small_hash_values_partial.

Theorem C91_small_hash_values_partial :
  forall mc hash lg gh l,
    cmap mc = true -> 9 <= lg <= 52 ->
    (forall o, In o l -> sop_key o <> 0 /\ 4 * hash (sop_key o) < 2 ^ lg) ->
    N.of_nat (length l) <= 2 ^ 48 ->
    let a := fst (sq_spec_all amap_empty l) in
    exists s rs it, srun_all mc hash (q_fresh mc (sized mc lg gh)) l = ROk (s, rs) /\ q_begin mc s = ROk it /\
      ((si_ptr it = None /\ forall k, a k = None) \/
       (exists p k d, si_ptr it = Some p /\ a k = Some d /\ si_deref mc hash s it = ROk (it, p, Slot k d))).
Proof.
  intros mc hash lg gh l CM LG K N a.
  destruct (C42_small_hash_values_partial mc hash lg gh l CM LG K N) as (s & RUN).
  exists s. eexists.
  assert (GD : good mc hash (q_fresh mc (sized mc lg gh)) amap_empty 0).
  { exists lg. split; [|lia]. apply fresh_inv; [apply wf_mk; lia|lia]. }
  pose proof (srun_all_small mc hash lg CM l _ _ _ GD) as P.
  assert (T : total_slots mc (mk_mapper mc (2 ^ lg) 0) <= total_slots mc (q_map (q_fresh mc (sized mc lg gh)))).
  { cbn [q_fresh q_map]. rewrite (total_val _ _ _ (wf_mk mc lg 0 ltac:(lia))).
    rewrite (total_val mc (sized mc lg gh) lg) by (apply wf_mk; lia). lia. }
  specialize (P T ltac:(lia) K ltac:(intros k H; now contradiction H) ltac:(cbn; lia)).
  rewrite RUN in P. destruct P as ((z & G) & _).
  destruct (begin_spec mc hash s _ z G) as (it & B & H). exists it. split; [exact RUN|]. split; [exact B|].
  destruct (si_ptr it) as [p|]; [right|left; auto]. destruct H as (k & d & A & D). exists p, k, d. auto.
Qed.
Print Assumptions C91_small_hash_values_partial.

(** 10, 11, 12 and 13 have hash value 1, 20 and 21 have 2.  Erasing 11 moves 12, 13, 20
    and 21 back; everything else is found, and erasing works again. *)
Definition hash42 (k : N) : N := k / 10.
Definition ops42 : list sop :=
  [SInsert 10 1; SInsert 11 2; SInsert 12 3; SInsert 20 4; SInsert 13 5; SInsert 21 6; SErase 11;
   SFind 10; SFind 11; SFind 12; SFind 20; SFind 13; SFind 21; SInsert 12 7; SErase 10; SErase 20; SFind 21; SFind 13].

Example C42_small_hash_values_case :
  let mc := MCfg true true in
  (forall o, In o ops42 -> sop_key o <> 0 /\ 4 * hash42 (sop_key o) < 2 ^ 9) /\
  match srun_all mc hash42 (q_fresh mc (sized mc 9 0)) ops42 with
  | ROk (s, rs) =>
      skipn 6 rs = [(None, true); (Some (10, 1), true); (None, false); (Some (12, 3), true); (Some (20, 4), true);
                    (Some (13, 5), true); (Some (21, 6), true); (Some (12, 3), false); (None, true); (None, true);
                    (Some (21, 6), true); (Some (13, 5), true)] /\
      map (q_get mc s) [1; 2; 3; 4] = [Some (Slot 12 3); Some (Slot 13 5); Some (Slot 21 6); Some empty_slot]
  | _ => False
  end.
Proof.
  cbv zeta. split.
  - apply Forall_forall. repeat (apply Forall_cons; [split; [discriminate|reflexivity]|]). apply Forall_nil.
  - vm_compute. split; reflexivity.
Qed.

(** Hash values below the size are not enough: 1, 2 and 3 have the last cell as home, so 2
    and 3 are stored in cells 0 and 1.  After erase(2) the key 3 is not found. *)
Theorem C42_wrap_around_refuted :
  exists mc hash lg,
    cmap mc = true /\ cprob mc = true /\ (forall k, hash k < 2 ^ lg) /\
    match srun_all mc hash (q_fresh mc (sized mc lg 0)) [SInsert 1 10; SInsert 2 20; SInsert 3 30; SErase 2; SFind 3] with
    | ROk (s, rs) => skipn 3 rs = [(None, true); (None, false)] /\ q_get mc s 1 = Some (Slot 3 30)
    | _ => False
    end.
Proof.
  exists (MCfg true true), (fun _ => 511), 9. split; [reflexivity|]. split; [reflexivity|]. split; [intros k; reflexivity|].
  vm_compute. split; reflexivity.
Qed.
Print Assumptions C42_wrap_around_refuted.
