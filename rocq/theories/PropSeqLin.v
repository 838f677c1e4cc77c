(** C41 - C43 for linear probing: at most 1024 calls that may insert. *)
From Coq Require Import NArith Bool List Lia.
From Verif Require Import Words Slot Mapper MapperFacts MapSpec Migrate TableSpec Seq SeqSpec SeqFacts SeqLin.
Import ListNotations.
Open Scope N_scope.

(** [adds]: the call is insert or insert_or_update.  Every hash function, every number of
    other calls, and erase without any condition: no call leaves the table and every
    call ends.  C43_linear_probing_refuted has 1026 such calls. *)
Theorem C43_linear_probing_partial :
  forall mc hash lg gh l,
    cprob mc = false -> 10 <= lg <= 52 ->
    (forall o, In o l -> sop_key o <> 0) ->
    (length (filter (fun o => match o with SInsert _ _ | SIou _ _ _ => true | _ => false end) l) <= 1024)%nat ->
    exists s rs, srun_all mc hash (q_fresh mc (sized mc lg gh)) l = ROk (s, rs).
Proof.
  intros mc hash lg gh l CP LG K N. change (fun o => _) with adds in N.
  assert (W : winv mc (q_fresh mc (sized mc lg gh)) lg).
  { apply (w_fresh mc hash); [apply wf_mk; lia|lia]. }
  destruct (l_srun_all mc hash CP l _ lg W) as [[s rs] E]; [lia|auto| |eauto].
  change (q_n (q_fresh mc (sized mc lg gh))) with 0. lia.
Qed.
Print Assumptions C43_linear_probing_partial.

(** The same histories return what a map returns, if every erased key stands in front of
    a free cell. *)
Theorem C42_linear_probing_partial :
  forall mc hash lg gh l,
    cprob mc = false -> 10 <= lg <= 52 ->
    (forall o, In o l -> sop_key o <> 0) -> N.of_nat (length l) <= 2 ^ 48 ->
    (length (filter (fun o => match o with SInsert _ _ | SIou _ _ _ => true | _ => false end) l) <= 1024)%nat ->
    tame mc hash (q_fresh mc (sized mc lg gh)) l ->
    exists s, srun_all mc hash (q_fresh mc (sized mc lg gh)) l = ROk (s, snd (sq_spec_all amap_empty l)).
Proof.
  intros mc hash lg gh l CP LG K NL N TM.
  destruct (C43_linear_probing_partial mc hash lg gh l CP LG K N) as (s & rs & E).
  assert (GD : good mc hash (q_fresh mc (sized mc lg gh)) amap_empty 0).
  { exists lg. split; [|lia]. apply fresh_inv; [apply wf_mk; lia|lia]. }
  pose proof (srun_all_spec mc hash l _ _ _ GD K) as P. cbn [q_n q_fresh] in P.
  specialize (P ltac:(lia) TM). rewrite E in P. destruct P as (_ & ->). eauto.
Qed.
Print Assumptions C42_linear_probing_partial.

(** Without erase nothing else is asked for, and the counter is the number of keys. *)
Theorem C41_linear_probing_few_insertions :
  forall mc hash lg gh l,
    cprob mc = false -> 10 <= lg <= 52 ->
    (forall o, In o l -> sop_key o <> 0) -> (forall o, In o l -> ~ is_erase o) ->
    N.of_nat (length l) <= 2 ^ 48 ->
    (length (filter (fun o => match o with SInsert _ _ | SIou _ _ _ => true | _ => false end) l) <= 1024)%nat ->
    exists s, srun_all mc hash (q_fresh mc (sized mc lg gh)) l = ROk (s, snd (sq_spec_all amap_empty l)) /\
      has_size (fst (sq_spec_all amap_empty l)) (q_n s).
Proof.
  intros mc hash lg gh l CP LG K NE NL N.
  destruct (C43_linear_probing_partial mc hash lg gh l CP LG K N) as (s & rs & E).
  assert (GD : good mc hash (q_fresh mc (sized mc lg gh)) amap_empty 0).
  { exists lg. split; [|lia]. apply fresh_inv; [apply wf_mk; lia|lia]. }
  pose proof (srun_all_spec mc hash l _ _ _ GD K) as P. cbn [q_n q_fresh] in P.
  specialize (P ltac:(lia) (no_erase_tame mc hash l _ NE)). rewrite E in P.
  destruct P as ((z & G & Z) & ->). exists s. split; auto.
  rewrite (Z NE) in G. apply good_size in G. now rewrite N.sub_0_r in G.
Qed.
Print Assumptions C41_linear_probing_few_insertions.

(** Any number of insertions: hash values in the first quarter of their range (of the
    initial size with circular mapping, of 2^64 otherwise) never make a probe leave the
    table, over any number of growth steps and with arbitrary erases. *)
Theorem C43_low_hash_values_partial :
  forall mc hash lg gh l,
    cprob mc = false -> 9 <= lg <= 52 ->
    (forall o, In o l -> sop_key o <> 0 /\ 4 * hash (sop_key o) < if cmap mc then 2 ^ lg else 2 ^ 64) ->
    N.of_nat (length l) <= 2 ^ 48 ->
    exists s rs, srun_all mc hash (q_fresh mc (sized mc lg gh)) l = ROk (s, rs).
Proof.
  intros mc hash lg gh l CP LG K N.
  destruct (g_srun_all mc hash CP lg (low mc hash lg) (room_low mc hash CP lg) l (q_fresh mc (sized mc lg gh)) lg)
    as [[s rs] E]; [|exact K|cbn [q_n q_fresh]; lia|eauto].
  apply (g_fresh mc hash); [apply wf_mk; lia|lia|lia].
Qed.
Print Assumptions C43_low_hash_values_partial.

(** Hence such histories without erase return what a map returns. *)
Theorem C41_linear_probing_low_hash_values :
  forall mc hash lg gh l,
    cprob mc = false -> 9 <= lg <= 52 ->
    (forall o, In o l -> sop_key o <> 0 /\ 4 * hash (sop_key o) < if cmap mc then 2 ^ lg else 2 ^ 64) ->
    (forall o, In o l -> ~ is_erase o) -> N.of_nat (length l) <= 2 ^ 48 ->
    exists s, srun_all mc hash (q_fresh mc (sized mc lg gh)) l = ROk (s, snd (sq_spec_all amap_empty l)) /\
      has_size (fst (sq_spec_all amap_empty l)) (q_n s).
Proof.
  intros mc hash lg gh l CP LG K NE N.
  destruct (C43_low_hash_values_partial mc hash lg gh l CP LG K N) as (s & rs & E).
  assert (GD : good mc hash (q_fresh mc (sized mc lg gh)) amap_empty 0).
  { exists lg. split; [|lia]. apply fresh_inv; [apply wf_mk; lia|lia]. }
  pose proof (srun_all_spec mc hash l _ _ _ GD (fun o H => proj1 (K o H))) as P. cbn [q_n q_fresh] in P.
  specialize (P ltac:(lia) (no_erase_tame mc hash l _ NE)). rewrite E in P.
  destruct P as ((z & G & Z) & ->). exists s. split; auto.
  rewrite (Z NE) in G. apply good_size in G. now rewrite N.sub_0_r in G.
Qed.
Print Assumptions C41_linear_probing_low_hash_values.

(** 1100 insertions into a table of 512 + 1024 cells, whose limit is 1022: the table grows. *)
Definition ops43b : list sop := map (fun k => SInsert k (k + 5)) (nseq 1 1100) ++ [SFind 1; SFind 1100; SFind 1101].
Lemma ops43b_keys o : In o ops43b -> 1 <= sop_key o <= 1101.
Proof.
  intros H. apply in_app_or in H. destruct H as [H|H].
  - apply in_map_iff in H. destruct H as (k & <- & H). apply MigrateGeo.in_nseq in H. cbn [sop_key]. lia.
  - repeat (destruct H as [<-|H]; [cbn [sop_key]; lia|]). contradiction.
Qed.
Example C43_low_hash_values_case :
  let h := fun k => k * 2 ^ 48 in
  (forall o, In o ops43b -> sop_key o <> 0 /\ 4 * h (sop_key o) < 2 ^ 64) /\
  (forall o, In o ops43b -> ~ is_erase o).
Proof.
  cbv zeta. split.
  - intros o H. apply ops43b_keys in H.
    change (2 ^ 48) with 281474976710656. change (2 ^ 64) with 18446744073709551616. lia.
  - intros o H. apply in_app_or in H. destruct H as [H|H].
    + apply in_map_iff in H. destruct H as (k & <- & _). auto.
    + repeat (destruct H as [<-|H]; [auto|]). contradiction.
Qed.

(** Four keys whose home is the last of 1024 home cells: they stand in cells 1023 to 1026.
    The last one is erased in front of a free cell; erasing the second loses the third,
    but stays in the table. *)
Definition ops43 : list sop :=
  [SInsert 1 10; SInsert 2 20; SInsert 3 30; SIou 4 40 (fun d => d); SErase 4; SFind 3; SFind 4].

Example C43_linear_probing_case :
  let mc := MCfg true false in let h := fun _ => 2 ^ 64 - 1 in
  let t0 := q_fresh mc (sized mc 10 0) in
  (forall o, In o (ops43 ++ [SErase 2; SFind 3]) -> sop_key o <> 0) /\
  tame mc h t0 ops43 /\
  match srun_all mc h t0 (ops43 ++ [SErase 2; SFind 3]) with
  | ROk (s, rs) => skipn 4 rs = [(None, true); (Some (3, 30), true); (None, false); (None, true); (None, false)] /\
                   q_get mc s 1025 = Some (Slot 3 30)
  | _ => False
  end.
Proof.
  cbv zeta. split; [|split].
  - apply Forall_forall. repeat (apply Forall_cons; [discriminate|]). apply Forall_nil.
  - apply tameb_ok. vm_compute. reflexivity.
  - vm_compute. split; reflexivity.
Qed.
