(** Facts about capacity, mapping, cell encoding and configuration. *)
From Coq Require Import NArith Bool List Lia.
From Verif Require Import Words Slot SlotFacts Mapper MapperFacts ReturnCode MapSpec Base BaseExec
  TableSpec BaseFacts Config.
Import ListNotations.
Open Scope N_scope.

Lemma log2_cap j : N.log2 (2 ^ j) = j.
Proof. apply N.log2_pow2. lia. Qed.

Lemma capacity_ok :
  forall mc n, n <= 2 ^ 30 ->
    exists m lg, mapper_of_size mc 40 n = Some m /\ addressable_slots mc m = 2 ^ lg /\
      2 * n <= 2 ^ lg /\ 512 <= 2 ^ lg /\ 2 ^ lg <= N.max 512 (4 * n).
Proof.
  intros mc n Hn. unfold mapper_of_size, compute_capacity.
  assert (2 ^ 30 < 2 ^ 31) by (apply pow2_lt; lia).
  destruct (cc_loop_some n 8 40) as (j & E & J & L & B); try lia.
  change (2 ^ 8) with 256 in E. rewrite E. cbn [option_map].
  assert (J' : j <= 30).
  { destruct B as [B| ->]; [|lia]. destruct (N.le_gt_cases j 30); [assumption|].
    assert (2 ^ 30 <= 2 ^ (j - 1)) by (apply pow2_le; lia). lia. }
  assert (P : 2 ^ j * 2 = 2 ^ (j + 1)) by (rewrite N.pow_add_r; lia).
  rewrite P. rewrite N.mod_small by (apply pow2_lt; lia).
  eexists. exists (j + 1). split; [reflexivity|].
  assert (WF : wf_mapper mc (mk_mapper mc (2 ^ (j + 1)) 0) (j + 1)) by (apply wf_mk; lia).
  rewrite (addressable_val _ _ _ WF). split; [reflexivity|]. rewrite <- P.
  pose proof (pow2_le 8 j ltac:(lia)) as G. change (2 ^ 8) with 256 in G.
  split; [lia|]. split; [lia|].
  destruct B as [B| ->].
  - assert (2 ^ j = 2 * 2 ^ (j - 1)).
    { rewrite <- N.pow_succ_r'. f_equal. lia. } lia.
  - change (2 ^ 8) with 256. lia.
Qed.

Lemma capacity_bad :
  (forall mc n, 2 ^ 30 < n <= 2 ^ 31 ->
     exists m, mapper_of_size mc 40 n = Some m /\ probe_helper m = probe_helper (mk_mapper mc 0 0)) /\
  (forall mc n fuel, 2 ^ 31 < n -> mapper_of_size mc fuel n = None).
Proof.
  split.
  - intros mc n Hn. unfold mapper_of_size, compute_capacity.
    destruct (cc_loop_some n 8 40) as (j & E & J & L & B); try lia.
    change (2 ^ 8) with 256 in E. rewrite E. cbn [option_map].
    assert (j = 31) as ->.
    { destruct (N.le_gt_cases j 30) as [G|G]; [|lia].
      pose proof (pow2_le j 30 G). lia. }
    eexists. split; [reflexivity|]. reflexivity.
  - intros mc n fuel Hn. unfold mapper_of_size, compute_capacity.
    change 256 with (2 ^ 8). rewrite cc_loop_diverges by (try exact Hn; lia). reflexivity.
Qed.

Lemma home_slot :
  forall mc lg gh gh' h i, 9 <= lg <= 62 -> h < 2 ^ 64 ->
    let m := sized mc lg gh in
    let m' := sized mc (lg + 1) gh' in
    addressable_slots mc m = 2 ^ lg /\
    map_hash mc m h < 2 ^ lg /\
    (if cmap mc
     then map_hash mc m' h = map_hash mc m h \/ map_hash mc m' h = map_hash mc m h + 2 ^ lg
     else map_hash mc m' h = 2 * map_hash mc m h \/ map_hash mc m' h = 2 * map_hash mc m h + 1) /\
    (cprob mc = true -> remap mc m i < addressable_slots mc m /\ remap mc m i = i mod 2 ^ lg) /\
    (cprob mc = false -> remap mc m i = i /\ total_slots mc m = 2 ^ lg + 1024).
Proof.
  intros mc lg gh gh' h i LG H m m'.
  assert (W : wf_mapper mc m lg) by (apply wf_mk; lia).
  assert (W' : wf_mapper mc m' (lg + 1)) by (apply wf_mk; lia).
  split; [now apply addressable_val|]. split; [now apply map_lt|].
  split; [now apply map_double|]. split; intros CP.
  - rewrite (addressable_val _ _ _ W), (remap_val _ _ _ W), CP. split; auto.
    apply N.mod_lt. pose proof (pow2_pos lg). lia.
  - rewrite (remap_val _ _ _ W), (total_val _ _ _ W), CP. auto.
Qed.

Lemma cell_encoding :
  forall sc k d, cell_type sc -> user_key sc k ->
    forall x, x = Slot k d \/ (sc_mark sc = true /\ x = mark_slot sc (Slot k d)) ->
    is_empty sc x = false /\ is_deleted sc x = false /\
    get_key sc x = k /\ get_mapped x = d /\
    (forall k', user_key sc k' -> (compare_key sc x k' = true <-> k' = k)) /\
    (is_marked sc x = true <-> x <> Slot k d) /\
    (* a writer that saw the unmarked cell fails on the marked one, and reports so *)
    (is_marked sc x = true -> forall goal, fst (fst (cas sc x (Slot k d) goal)) = false) /\
    (is_marked sc x = true -> forall c m o i p, tsc c = sc -> (forall k', o <> OFind k') ->
       after_load c m o i p x = PDone (ret_end RC_INVALID)).
Proof.
  intros sc k d CT U x Hx. pose proof (cell_type_wf sc CT) as W.
  apply user_key_valid in U; [|exact W].
  assert (exists b, x = enc sc (CLive k d) b /\ ok_content sc (CLive k d) b) as (b & -> & O).
  { destruct Hx as [->|[M ->]]; [exists false|exists true]; (split; [reflexivity|split; auto]). discriminate. }
  split; [now rewrite enc_is_empty|]. split.
  { destruct b; [now rewrite enc_is_deleted_marked|now rewrite enc_is_deleted_unmarked]. }
  split; [now rewrite enc_get_key|]. split; [unfold get_mapped; now rewrite sdata_enc|].
  split.
  { intros k' U'. apply user_key_valid in U'; [|exact W]. rewrite enc_compare_key by auto.
    rewrite N.eqb_eq. split; congruence. }
  split.
  { rewrite enc_is_marked by auto. change (Slot k d) with (enc sc (CLive k d) false).
    destruct b; split; try congruence. intros _ E.
    apply (enc_inj sc W) in E; auto; [destruct E; discriminate|]. split; [discriminate|apply O]. }
  rewrite enc_is_marked by auto. split.
  - intros -> goal. unfold cas. destruct (slot_eqb (enc sc (CLive k d) true) (Slot k d)) eqn:E; [|reflexivity].
    apply slot_eqb_eq in E. change (Slot k d) with (enc sc (CLive k d) false) in E.
    apply (enc_inj sc W) in E; auto; [destruct E; discriminate|]. split; [discriminate|apply O].
  - intros -> c m o i p TC NF. unfold after_load. rewrite TC.
    destruct o; rewrite ?enc_is_marked by auto; try reflexivity. exfalso. eapply NF; reflexivity.
Qed.

Lemma special_cells :
  forall sc, cell_type sc ->
    is_empty sc empty_slot = true /\ is_deleted sc (deleted_slot sc) = true /\
    is_empty sc (deleted_slot sc) = false /\ is_deleted sc empty_slot = false /\
    (sc_mark sc = true -> is_empty sc (mark_slot sc empty_slot) = true /\
                          is_marked sc (mark_slot sc empty_slot) = true) /\
    is_marked sc empty_slot = false /\ is_marked sc (deleted_slot sc) = false /\
    forall k, user_key sc k -> compare_key sc empty_slot k = false /\
                               compare_key sc (deleted_slot sc) k = false.
Proof.
  intros sc CT. pose proof (cell_type_wf sc CT) as W.
  assert (OE : ok_content sc CEmpty false) by (split; [discriminate|exact I]).
  assert (OD : ok_content sc CTomb false) by (split; [discriminate|exact I]).
  change empty_slot with (enc sc CEmpty false). change (deleted_slot sc) with (enc sc CTomb false).
  rewrite !enc_is_empty, !enc_is_deleted_unmarked, !enc_is_marked by auto.
  repeat (split; [reflexivity|]). split.
  { intros M. assert (OM : ok_content sc CEmpty true) by (split; [auto|exact I]).
    rewrite mark_enc. rewrite enc_is_empty, enc_is_marked by auto. auto. }
  repeat (split; [reflexivity|]). intros k U. apply user_key_valid in U; [|exact W].
  rewrite !enc_compare_key by auto. auto.
Qed.

Lemma storable_keys :
  forall m k d, k < 2 ^ 64 ->
    let sc := simple_slot m in
    user_key sc k <->
    (is_empty sc (Slot k d) = false /\ is_deleted sc (Slot k d) = false /\ is_marked sc (Slot k d) = false).
Proof.
  intros m k d Hk sc. assert (W : wf_scfg sc) by (unfold wf_scfg; cbn; lia). split.
  - intros U. assert (CT : cell_type sc) by (exists m; auto).
    destruct (cell_encoding sc k d CT U (Slot k d) (or_introl eq_refl)) as (A & B & _ & _ & _ & C & _).
    split; auto. split; auto. destruct (is_marked sc (Slot k d)); auto. exfalso. apply C; auto.
  - intros (A & B & C). apply user_key_valid; auto. unfold valid_key.
    unfold is_empty in A. rewrite land_bmask in A. cbn [skey] in A. apply N.eqb_neq in A.
    unfold is_deleted in B. cbn [skey] in B. apply N.eqb_neq in B.
    split; [exact Hk|]. split; [exact A|]. split; [exact B|].
    intros M. unfold is_marked in C. rewrite M in C. apply negb_false_iff, N.eqb_eq in C. cbn [skey] in C.
    change (2 ^ (sc_w sc - 1)) with (mbit sc). destruct (N.lt_ge_cases k (mbit sc)) as [|G]; auto. exfalso.
    assert (E : N.testbit (N.land k (mbit sc)) 63 = true).
    { rewrite N.land_spec. apply andb_true_iff. split.
      - replace k with (k - mbit sc + 1 * mbit sc) by lia.
        change (mbit sc) with (2 ^ 63). rewrite <- N.shiftl_mul_pow2.
        assert (k - 2 ^ 63 < 2 ^ 63) by (change (2 ^ 64) with (2 * 2 ^ 63) in Hk; change (mbit sc) with (2 ^ 63) in G; lia).
        rewrite N.shiftl_mul_pow2. rewrite N.testbit_eqb.
        rewrite N.div_add by (apply N.pow_nonzero; lia). rewrite N.div_small by assumption. reflexivity.
      - change (mbit sc) with (2 ^ 63). apply N.pow2_bits_true. }
    rewrite C in E. rewrite N.bits_0 in E. discriminate.
Qed.

Lemma single_word_keys :
  forall m k d, k < 2 ^ 32 ->
    let sc := single_word_slot m in
    (is_empty sc (Slot k d) = false /\ is_deleted sc (Slot k d) = false /\ is_marked sc (Slot k d) = false) <->
    (k <> 0 /\ k <> 2147483647 /\ k <> 2147483648 /\ (m = true -> k < 2147483648)).
Proof.
  intros m k d Hk sc. unfold is_empty, is_deleted, is_marked. rewrite land_bmask. cbn [skey].
  change (mbit sc) with 2147483648. change (ddummy sc) with 2147483647. change (2 ^ 32) with 4294967296 in Hk.
  assert (M : N.land k 2147483648 = 0 <-> k < 2147483648).
  { assert (T : N.testbit k 31 = negb (k <? 2147483648)).
    { rewrite N.testbit_eqb. change (2 ^ 31) with 2147483648. destruct (N.ltb_spec k 2147483648) as [L|L].
      - now rewrite N.div_small.
      - replace k with (k - 2147483648 + 1 * 2147483648) by lia.
        rewrite N.div_add, N.div_small by lia. reflexivity. }
    split.
    - intros E. destruct (N.ltb_spec k 2147483648) as [L|L]; auto. cbn in T.
      assert (X : N.testbit (N.land k 2147483648) 31 = true) by (rewrite N.land_spec, T; reflexivity).
      rewrite E in X. discriminate.
    - intros L. apply N.bits_inj_0. intros n. rewrite N.land_spec. change 2147483648 with (2 ^ 31).
      rewrite N.pow2_bits_eqb. destruct (N.eqb_spec 31 n) as [<-|]; [|apply andb_false_r].
      rewrite T. apply N.ltb_lt in L. now rewrite L. }
  rewrite !N.eqb_neq.
  assert (Z : k mod 2147483648 = 0 <-> k = 0 \/ k = 2147483648).
  { pose proof (N.div_mod k 2147483648 ltac:(lia)) as DM.
    pose proof (N.mod_lt k 2147483648 ltac:(lia)). assert (k / 2147483648 < 2) by (apply N.div_lt_upper_bound; lia). nia. }
  cbn [sc_mark sc single_word_slot]. destruct m.
  - rewrite negb_false_iff, N.eqb_eq, M. rewrite Z. split; [intros (A & B & C)|intros (A & B & C & D)]; repeat split; auto; try lia.
  - rewrite Z. split; [intros (A & B & C)|intros (A & B & C & D)]; repeat split; auto; try lia; discriminate.
Qed.

(** Two calls by one thread on a fresh table. *)
Definition two_calls (c : tcfg) (m : mapper) (o1 o2 : op) : option (mem * bret * mem * bret) :=
  match solo c m 10 (fresh_mem c m) o1 (start c m o1) with
  | (t1, PDone r1) =>
      match solo c m 10 t1 o2 (start c m o2) with
      | (t2, PDone r2) => Some (t1, r1, t2, r2)
      | _ => None
      end
  | _ => None
  end.

Lemma lost_keys :
  exists sc mc hash lg,
    cell_type sc /\ 1 <= lg <= 63 /\
    let c := TCfg sc mc hash in let m := sized mc lg 0 in
    (exists t1 t2 r1 r2,
       two_calls c m (OInsert 0 1) (OFind 0) = Some (t1, r1, t2, r2) /\
       obs (OInsert 0 1) r1 = RInserted /\ obs (OFind 0) r2 = RAbsent) /\
    (exists t1 t2 r1 r2,
       two_calls c m (OInsert (2 ^ 63) 1) (OInsert (2 ^ 63) 1) = Some (t1, r1, t2, r2) /\
       obs (OInsert (2 ^ 63) 1) r1 = RInserted /\ obs (OInsert (2 ^ 63) 1) r2 = RInserted).
Proof.
  exists (simple_slot false), (MCfg false false), (fun k => k), 9.
  split; [exists false; auto|]. split; [lia|]. cbv zeta.
  split; do 4 eexists; (split; [vm_compute; reflexivity|]); split; reflexivity.
Qed.

Definition table_codes : list N :=
  [RC_SUCCESS_IN; RC_SUCCESS_UP; RC_SUCCESS_DEL; RC_NOT_FOUND; RC_ALREADY_USED; RC_FULL; RC_INVALID; RC_BACKOFF].

Lemma return_codes :
  NoDup all_codes /\
  (forall code, In code all_codes ->
     (successful code = true <-> In code [RC_SUCCESS_IN; RC_SUCCESS_UP; RC_SUCCESS_DEL;
                                          RC_TSX_SUCCESS_IN; RC_TSX_SUCCESS_UP; RC_TSX_SUCCESS_DEL])) /\
  (forall o r, In (rcode r) table_codes -> (forall k, o <> OFind k) ->
     (ret_success (rcode r) = true <->
        obs o r = RInserted \/ (exists v, obs o r = RUpdated v) \/ obs o r = RErased) /\
     (ret_inserted (rcode r) = true <-> obs o r = RInserted) /\
     (ret_count (rcode r) = 1 <-> ret_success (rcode r) = true)).
Proof.
  split; [|split].
  - repeat (constructor; [cbn; intuition discriminate|]). constructor.
  - intros code I.
    assert (B : forallb (fun code => Bool.eqb (successful code)
       (existsb (N.eqb code) [RC_SUCCESS_IN; RC_SUCCESS_UP; RC_SUCCESS_DEL;
                     RC_TSX_SUCCESS_IN; RC_TSX_SUCCESS_UP; RC_TSX_SUCCESS_DEL])) all_codes = true)
      by (vm_compute; reflexivity).
    rewrite forallb_forall in B. specialize (B code I). apply eqb_prop in B. rewrite B.
    rewrite existsb_exists. split.
    + intros (x & J & E). apply N.eqb_eq in E. now subst.
    + intros J. exists code. split; auto. apply N.eqb_refl.
  - intros o [code sl ps] I NF. cbn in I.
    assert (OB : obs o (BRet code sl ps) = obs (OErase 0) (BRet code sl ps)).
    { destruct o; try reflexivity. exfalso. eapply NF; reflexivity. }
    rewrite OB. cbn [rcode].
    destruct I as [<-|[<-|[<-|[<-|[<-|[<-|[<-|[<-|[]]]]]]]]]; vm_compute;
      (split; [|split]); split; intros; try discriminate; eauto;
      try (match goal with H : _ \/ _ |- _ => destruct H as [H|[[v H]|H]]; discriminate end).
Qed.

Lemma descriptor_bit mods n :
  N.testbit (mod_descriptor mods) n = existsb (fun m => N.testbit (hmod_val m) n) mods.
Proof.
  unfold mod_descriptor.
  assert (G : forall acc, N.testbit (fold_left (fun acc m => N.lor acc (hmod_val m)) mods acc) n =
              N.testbit acc n || existsb (fun m => N.testbit (hmod_val m) n) mods).
  { induction mods as [|m mods IH]; intros acc; cbn; [now rewrite orb_false_r|].
    rewrite IH, N.lor_spec, orb_assoc. reflexivity. }
  rewrite G. now rewrite N.bits_0.
Qed.

Definition hmod_bit (m : hmod) : N := N.log2 (hmod_val m).

Lemma mods_is_iff :
  forall mods m, m <> neutral -> (mods_is mods m = true <-> In m mods).
Proof.
  intros mods m NM.
  assert (V : hmod_val m = 2 ^ hmod_bit m) by (destruct m; try congruence; reflexivity).
  assert (B : forall m', N.testbit (hmod_val m') (hmod_bit m) = true <-> m' = m)
    by (intros m'; destruct m, m'; try congruence; vm_compute; split; congruence).
  assert (E : mods_is mods m = N.testbit (mod_descriptor mods) (hmod_bit m)).
  { unfold mods_is. rewrite V. destruct (N.testbit (mod_descriptor mods) (hmod_bit m)) eqn:T.
    - apply negb_true_iff, N.eqb_neq. intros Z.
      assert (X : N.testbit (N.land (mod_descriptor mods) (2 ^ hmod_bit m)) (hmod_bit m) = true)
        by (rewrite N.land_spec, T, N.pow2_bits_true; reflexivity).
      rewrite Z, N.bits_0 in X. discriminate.
    - apply negb_false_iff, N.eqb_eq. apply N.bits_inj. intros n. rewrite N.land_spec, N.bits_0.
      rewrite N.pow2_bits_eqb. destruct (N.eqb_spec (hmod_bit m) n) as [<-|]; [now rewrite T|apply andb_false_r]. }
  rewrite E, descriptor_bit, existsb_exists. split.
  - intros (x & I & T). apply B in T. now subst.
  - intros I. exists m. split; auto. now apply B.
Qed.

Lemma mods_all_bad :
  (forall mods asks, mods_all mods asks = true) /\
  exists mods asks, mods_all mods asks = true /\ exists m, In m asks /\ ~ In m mods.
Proof.
  assert (T : forall mods asks, mods_all mods asks = true).
  { intros. unfold mods_all. rewrite N.land_diag. apply N.eqb_refl. }
  split; auto. exists [growable], [deletion]. split; auto. exists deletion. cbn. split; auto.
  intros [H|[]]. discriminate.
Qed.

Lemma mods_is_dec mods m : m <> neutral ->
  (mods_is mods m = true /\ In m mods) \/ (mods_is mods m = false /\ ~ In m mods).
Proof.
  intros NM. destruct (mods_is mods m) eqn:E.
  - left. split; auto. now apply mods_is_iff.
  - right. split; auto. intros I. apply (mods_is_iff mods m NM) in I. congruence.
Qed.

Lemma selection_ok :
  forall mods vsize ksize,
    let s := table_config mods vsize ksize in
    (sel_table s = MigrationTable <-> In growable mods \/ In deletion mods) /\
    (In growable mods -> (sel_marking s = true <-> sel_excl s = EAsync)) /\
    (sel_excl s = ESync <-> In sync mods) /\ (sel_worker s = WPool <-> In pool mods) /\
    (sel_cmap s = true <-> In circular_map mods) /\ (sel_cprob s = true <-> In circular_prob mods) /\
    (sel_slot s = SimpleSlot <->
       vsize = 16 /\ ksize = 8 /\ ~ (In ref_integrity mods /\ In growable mods)) /\
    (sel_slot s = SingleWordSlot <->
       vsize = 8 /\ ksize = 4 /\ ~ (In ref_integrity mods /\ In growable mods)) /\
    (sel_cleanup s = true <-> ~ In growable mods) /\
    (In growable mods -> compiles s = true) /\
    (~ In growable mods -> ~ In deletion mods -> compiles s = true).
Proof.
  intros mods vsize ksize s. unfold s, table_config, compiles.
  cbn [sel_table sel_slot sel_marking sel_cmap sel_cprob sel_cleanup sel_worker sel_excl].
  pose proof (mods_is_iff mods growable ltac:(discriminate)) as G.
  pose proof (mods_is_iff mods sync ltac:(discriminate)) as S.
  pose proof (mods_is_iff mods deletion ltac:(discriminate)) as D.
  pose proof (mods_is_iff mods pool ltac:(discriminate)) as P.
  pose proof (mods_is_iff mods ref_integrity ltac:(discriminate)) as R.
  pose proof (mods_is_iff mods circular_map ltac:(discriminate)) as M.
  pose proof (mods_is_iff mods circular_prob ltac:(discriminate)) as Q.
  rewrite <- G, <- S, <- D, <- P, <- R, <- M, <- Q. clear G S D P R M Q.
  destruct (mods_is mods growable), (mods_is mods sync), (mods_is mods deletion); cbn;
  (split; [intuition congruence|]); (split; [intuition congruence|]); (split; [intuition congruence|]);
  (split; [destruct (mods_is mods pool); cbn; intuition congruence|]);
  (split; [reflexivity|]); (split; [reflexivity|]);
  (split; [|split; [|intuition congruence]]); unfold slot_config;
  destruct (mods_is mods ref_integrity), (N.eqb_spec vsize 16), (N.eqb_spec ksize 8), (N.eqb_spec vsize 8), (N.eqb_spec ksize 4);
  cbn; subst; try discriminate; split; intros H; try discriminate H; try (split; [reflexivity|split; [reflexivity|]]); try (intros [X Y]; discriminate);
  try reflexivity; exfalso; destruct H as (A & B & C); try congruence; try (apply C; split; reflexivity).
Qed.

Lemma compiles_iff :
  forall mods vsize ksize,
    compiles (table_config mods vsize ksize) = false <->
    (In deletion mods /\ ~ In growable mods /\ ~ In sync mods).
Proof.
  intros mods vsize ksize. unfold table_config, compiles. cbn.
  destruct (mods_is_dec mods growable) as [[-> G]|[-> G]]; [discriminate| |];
  destruct (mods_is_dec mods sync) as [[-> S]|[-> S]]; try discriminate;
  destruct (mods_is_dec mods deletion) as [[-> D]|[-> D]]; try discriminate; cbn; intuition discriminate.
Qed.

Lemma deletion_only :
  exists mods, forall vsize ksize, compiles (table_config mods vsize ksize) = false.
Proof. exists [deletion]. intros. reflexivity. Qed.
