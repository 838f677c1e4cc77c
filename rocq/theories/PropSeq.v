(** C41 - C43: the sequential growing table. *)
From Coq Require Import NArith Bool List Lia.
From Verif Require Import Words Slot Mapper MapperFacts MapSpec Migrate TableSpec Seq SeqSpec SeqFacts.
Import ListNotations.
Open Scope N_scope.

(** ** C41 *)

(** With circular probing (the default) every history of insert, find, update and
    insert_or_update returns what a map returns, across any number of growth
    steps, and the element counter is the number of keys. *)
Theorem C41_sequential_map :
  forall mc hash lg gh l,
    cprob mc = true -> 9 <= lg <= 52 ->
    (forall o, In o l -> sop_key o <> 0) -> (forall o, In o l -> ~ is_erase o) ->
    N.of_nat (length l) <= 2 ^ 48 ->
    exists s, srun_all mc hash (q_fresh mc (sized mc lg gh)) l = ROk (s, snd (sq_spec_all amap_empty l)) /\
      has_size (fst (sq_spec_all amap_empty l)) (q_n s).
Proof.
  intros mc hash lg gh l CP LG K NE N.
  assert (GD : good mc hash (q_fresh mc (sized mc lg gh)) amap_empty 0).
  { exists lg. split; [|lia]. apply fresh_inv; [apply wf_mk; lia|lia]. }
  pose proof (srun_all_spec mc hash l _ _ _ GD K) as P. cbn [q_n q_fresh] in P.
  specialize (P ltac:(lia) (no_erase_tame mc hash l _ NE)).
  destruct (srun_all _ _ _ l) as [[s rs]| |]; [|congruence|contradiction].
  destruct P as ((z & G & Z) & ->). exists s. split; auto.
  rewrite (Z NE) in G. apply good_size in G. now rewrite N.sub_0_r in G.
Qed.
Print Assumptions C41_sequential_map.

(** With linear probing the same holds unless a call leaves the table. *)
Theorem C41_linear_probing :
  forall mc hash lg gh l,
    9 <= lg <= 52 ->
    (forall o, In o l -> sop_key o <> 0) -> (forall o, In o l -> ~ is_erase o) ->
    N.of_nat (length l) <= 2 ^ 48 ->
    match srun_all mc hash (q_fresh mc (sized mc lg gh)) l with
    | ROk (s, rs) => rs = snd (sq_spec_all amap_empty l) /\
                     has_size (fst (sq_spec_all amap_empty l)) (q_n s)
    | RBad => cprob mc = false
    | RLoop => False
    end.
Proof.
  intros mc hash lg gh l LG K NE N.
  assert (GD : good mc hash (q_fresh mc (sized mc lg gh)) amap_empty 0).
  { exists lg. split; [|lia]. apply fresh_inv; [apply wf_mk; lia|lia]. }
  pose proof (srun_all_spec mc hash l _ _ _ GD K) as P. cbn [q_n q_fresh] in P.
  specialize (P ltac:(lia) (no_erase_tame mc hash l _ NE)).
  destruct (srun_all _ _ _ l) as [[s rs]| |]; auto.
  destruct P as ((z & G & Z) & ->). split; auto.
  rewrite (Z NE) in G. apply good_size in G. now rewrite N.sub_0_r in G.
Qed.
Print Assumptions C41_linear_probing.

(** Keys 1 .. 345 in a table of 512 cells: the limit is 340, so the table grows to
    1024 cells on the way.  Two keys share each home cell. *)
Definition ops41 : list sop :=
  map (fun k => SInsert k (k + 7)) (nseq 1 345) ++
  [SFind 3; SFind 345; SFind 400; SInsert 3 1; SUpdate 3 (fun d => d * 2); SUpdate 500 (fun d => d * 2);
   SIou 4 9 (fun d => d + 1); SIou 600 9 (fun d => d + 1); SFind 600].
Definition hash41 : N -> N := fun k => k / 2 * 2 ^ 55.
Definition seen (n : nat) (r : outcome (stab * list (option (N * N) * bool))) :=
  match r with
  | ROk (s, rs) => Some (total_slots (MCfg false true) (q_map s), q_n s, skipn n rs)
  | _ => None
  end.
Definition run41 : outcome (stab * list (option (N * N) * bool)) :=
  srun_all (MCfg false true) hash41 (q_fresh (MCfg false true) (sized (MCfg false true) 9 0)) ops41.
Example C41_case :
  (forall o, In o ops41 -> sop_key o <> 0 /\ ~ is_erase o) /\
  seen 345 run41 =
    Some (1024, 346, [(Some (3, 10), true); (Some (345, 352), true); (None, false); (Some (3, 10), false);
                      (Some (3, 20), true); (None, false); (Some (4, 12), false); (Some (600, 9), true);
                      (Some (600, 9), true)]).
Proof.
  split.
  - intros o H. unfold ops41 in H. apply in_app_iff in H as [H|H].
    + apply in_map_iff in H as (k & <- & H). apply MigrateGeo.in_nseq in H. cbn. split; [lia|auto].
    + cbn [In] in H. repeat (destruct H as [<-|H]; [cbn; split; [lia|auto]|]). destruct H.
  - vm_compute. reflexivity.
Qed.

(** ** C42 *)

(** Keys 1, 2, 3 share a home cell.  Erasing 1 makes 2 and 3 unreachable, and
    inserting 2 again stores it twice; erasing also leaves the counter unchanged. *)
Theorem C42_erase_loses_keys_refuted :
  exists mc hash lg,
    cprob mc = true /\
    let s0 := q_fresh mc (sized mc lg 0) in
    match srun_all mc hash s0 [SInsert 1 10; SInsert 2 20; SInsert 3 30; SErase 1; SFind 2; SFind 3;
                               SInsert 2 21; SErase 2; SFind 2] with
    | ROk (s, rs) =>
        skipn 3 rs = [(None, true); (None, false); (None, false); (Some (2, 21), true); (None, true); (None, false)] /\
        q_n s = 4 /\ (exists p d, q_get mc s p = Some (Slot 2 d))
    | _ => False
    end.
Proof.
  exists (MCfg false true), (fun _ => 2 ^ 62), 9. split; [reflexivity|]. cbv zeta.
  vm_compute. repeat split. exists 129, 20. reflexivity.
Qed.
Print Assumptions C42_erase_loses_keys_refuted.

(** In general: in every table filled by a history without erase, if the hash
    values of its keys are at least 2^52 (an index is smaller), then of any two
    keys with the same hash value one is lost by erasing the other. *)
Theorem C42_erase_loses_colliding_key_refuted :
  forall mc hash lg gh l k1 k2 s rs,
    cprob mc = true -> 9 <= lg <= 52 ->
    (forall o, In o l -> sop_key o <> 0) -> (forall o, In o l -> ~ is_erase o) ->
    N.of_nat (length l) <= 2 ^ 48 ->
    srun_all mc hash (q_fresh mc (sized mc lg gh)) l = ROk (s, rs) ->
    let a := fst (sq_spec_all amap_empty l) in
    a k1 <> None -> a k2 <> None -> k1 <> k2 -> hash k1 = hash k2 ->
    (forall k, a k <> None -> 2 ^ 52 <= hash k < 2 ^ 64) ->
    exists ka kb s', ((ka = k1 /\ kb = k2) \/ (ka = k2 /\ kb = k1)) /\
      srun mc hash s (SErase ka) = ROk (s', (None, true)) /\
      srun mc hash s' (SFind kb) = ROk (s', (None, false)).
Proof.
  intros mc hash lg gh l k1 k2 s rs CP LG K NE N R a A1 A2 NK HH HB.
  assert (GD : good mc hash (q_fresh mc (sized mc lg gh)) amap_empty 0).
  { exists lg. split; [|lia]. apply fresh_inv; [apply wf_mk; lia|lia]. }
  pose proof (srun_all_spec mc hash l _ _ _ GD K) as P. cbn [q_n q_fresh] in P.
  specialize (P ltac:(lia) (no_erase_tame mc hash l _ NE)). rewrite R in P.
  destruct P as ((z & G & Z) & _). fold a in G.
  destruct (a k1) as [d1|] eqn:E1; [|congruence]. destruct (a k2) as [d2|] eqn:E2; [|congruence].
  apply (erase_loses mc hash CP s a z k1 k2 d1 d2 G NK E1 E2); auto.
  intros k Hk. specialize (HB k Hk). unfold w64. rewrite N.mod_small by apply HB.
  pose proof (good_total mc hash CP s a z G). lia.
Qed.
Print Assumptions C42_erase_loses_colliding_key_refuted.

(** Histories in which every erased key stands in front of a free cell: every call
    returns what a map returns. *)
Theorem C42_erase_partial :
  forall mc hash lg gh l,
    cprob mc = true -> 9 <= lg <= 52 ->
    (forall o, In o l -> sop_key o <> 0) -> N.of_nat (length l) <= 2 ^ 48 ->
    tame mc hash (q_fresh mc (sized mc lg gh)) l ->
    exists s, srun_all mc hash (q_fresh mc (sized mc lg gh)) l = ROk (s, snd (sq_spec_all amap_empty l)).
Proof.
  intros mc hash lg gh l CP LG K N TM.
  assert (GD : good mc hash (q_fresh mc (sized mc lg gh)) amap_empty 0).
  { exists lg. split; [|lia]. apply fresh_inv; [apply wf_mk; lia|lia]. }
  pose proof (srun_all_spec mc hash l _ _ _ GD K) as P. cbn [q_n q_fresh] in P.
  specialize (P ltac:(lia) TM).
  destruct (srun_all _ _ _ l) as [[s rs]| |]; [|congruence|contradiction].
  destruct P as (_ & ->). eauto.
Qed.
Print Assumptions C42_erase_partial.

(** Two keys with the same home cell, one erased in front of a free cell, then both
    found correctly. *)
Definition ops42 : list sop :=
  [SInsert 1 10; SInsert 2 20; SErase 2; SFind 1; SFind 2; SErase 2; SInsert 2 21; SFind 2].
Example C42_case :
  tame (MCfg false true) (fun _ => 2 ^ 62) (q_fresh (MCfg false true) (sized (MCfg false true) 9 0)) ops42 /\
  match srun_all (MCfg false true) (fun _ => 2 ^ 62)
          (q_fresh (MCfg false true) (sized (MCfg false true) 9 0)) ops42 with
  | ROk (_, rs) => skipn 2 rs = [(None, true); (Some (1, 10), true); (None, false); (None, false);
                                 (Some (2, 21), true); (Some (2, 21), true)]
  | _ => False
  end.
Proof.
  split; [apply tameb_ok; vm_compute; reflexivity|vm_compute; reflexivity].
Qed.

(** ** C43 *)

(** Circular probing: no call leaves the table and every call ends, whatever the
    hash function and whatever is erased. *)
Theorem C43_in_bounds_partial :
  forall mc hash lg gh l,
    cprob mc = true -> 9 <= lg <= 52 ->
    (forall o, In o l -> sop_key o <> 0) -> N.of_nat (length l) <= 2 ^ 48 ->
    exists s rs, srun_all mc hash (q_fresh mc (sized mc lg gh)) l = ROk (s, rs).
Proof.
  intros mc hash lg gh l CP LG K N.
  assert (W : winv mc (q_fresh mc (sized mc lg gh)) lg).
  { apply (w_fresh mc hash); [apply wf_mk; lia|lia]. }
  destruct (w_srun_all mc hash CP l _ lg W K) as [[s rs] E]; [cbn; lia|eauto].
Qed.
Print Assumptions C43_in_bounds_partial.

(** Linear probing: with a hash function that sends every key to the last of 1024
    home cells, inserting 1 .. 1026 leaves the table, whichever mapping is used:
    the 1025 cells from there on are full long before the growth limit 1363. *)
Theorem C43_linear_probing_refuted :
  forall mc, cprob mc = false ->
    srun_all mc (fun _ => 2 ^ 64 - 1) (q_fresh mc (sized mc 10 0))
      (map (fun k => SInsert k 0) (nseq 1 1026)) = RBad.
Proof.
  intros mc LP.
  apply (overflow10 mc LP 1026 (q_fresh mc (m10 mc)) 0); [apply run10_fresh; auto|lia|reflexivity].
Qed.
Print Assumptions C43_linear_probing_refuted.
