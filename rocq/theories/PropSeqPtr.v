(** C67: the sequential growing table with pointer cells. *)
From Coq Require Import NArith Bool List Lia.
From Verif Require Import Words Slot Mapper MapperFacts MapSpec Migrate MigrateGeo TableSpec Seq SeqSpec SeqFacts
  PropSeq SeqPtr SeqPtrSpec SeqPtrFacts.
Import ListNotations.
Open Scope N_scope.

Lemma bump_ok : allocator_ok bump.
Proof.
  intros h. unfold bump. split; [lia|].
  set (a := 16 + fold_right N.max 0 (map fst h)).
  assert (B : fold_right N.max 0 (map fst h) < a) by (unfold a; lia). clearbody a.
  induction h as [|[b v] h IH]; cbn in *; auto.
  destruct (N.eqb_spec b a); [lia|]. apply IH. lia.
Qed.

(** ** What is broken *)

(** In every table filled by inserts, finds, updates and erases (any number, across
    growth steps), a key whose hash value has a nonzero low half word is not found
    and cannot be updated or erased, even right after it was inserted, and an insert
    of a key that is there succeeds again. *)
Theorem C67_inserted_key_is_found_refuted :
  forall mc hash al lg gh l c rs k,
    (forall o, In o l -> ~ is_iou o) -> low16 hash k <> 0 ->
    crun_all mc hash al (c_fresh mc (sized mc lg gh) []) l = ROk (c, rs) ->
    (forall c' r, crun mc hash al c (SFind k) = ROk (c', r) -> r = (None, false)) /\
    (forall f c' r, crun mc hash al c (SUpdate k f) = ROk (c', r) -> r = (None, false)) /\
    (forall c' r, crun mc hash al c (SErase k) = ROk (c', r) -> r = (None, false)) /\
    (forall d c' r, crun mc hash al c (SInsert k d) = ROk (c', r) -> snd r = true).
Proof.
  intros mc hash al lg gh l c rs k NI NZ E.
  assert (F : fp0 c).
  { eapply fp0_run_all; [exact E| |apply fp0_fresh]. intros o H k0 d f X. apply (NI o H). now subst. }
  assert (Z : fingerprint (w64 (hash k)) <> 0) by exact NZ.
  repeat split.
  - intros c' r X. cbn [crun] in X. apply bind_ok in X as ((i & b) & X1 & X).
    rewrite (fp0_find _ _ _ _ _ _ F Z X1) in X. cbn in X. congruence.
  - intros f c' r X. cbn [crun] in X. apply bind_ok in X as ((i & b) & X1 & X).
    rewrite (fp0_find _ _ _ _ _ _ F Z X1) in X. cbn in X. congruence.
  - intros c' r X. cbn [crun] in X. apply bind_ok in X as ((c1 & b) & X1 & X). unfold c_erase in X1.
    apply bind_ok in X1 as ((i & b0) & X0 & X1). rewrite (fp0_find _ _ _ _ _ _ F Z X0) in X1. cbn in X1.
    injection X1 as <- <-. congruence.
  - intros d c' r X. cbn [crun] in X. apply bind_ok in X as (((c1 & p) & b) & X1 & X).
    injection X as <- <-. unfold c_insert in X1. cbn [c_new] in X1.
    apply bind_ok in X1 as (((c2 & q) & b2) & X0 & X1).
    apply fp0_insert_true in X0; [|exact F|exact Z]. subst b2. now injection X1 as _ _ <-.
Qed.
Print Assumptions C67_inserted_key_is_found_refuted.

(** Key 3 with hash value 3: inserted twice, found never; the key whose hash value
    is 2^16 is handled correctly. *)
Example C67_not_found_case :
  match crun_all (MCfg false true) (fun k => k) bump (c_fresh (MCfg false true) (sized (MCfg false true) 9 0) [])
          [SInsert 3 30; SFind 3; SInsert 3 31; SInsert 65536 7; SFind 65536; SInsert 65536 8] with
  | ROk (c, rs) =>
    rs = [(Some (3, 30), true); (None, false); (Some (3, 31), true);
          (Some (65536, 7), true); (Some (65536, 7), true); (Some (65536, 7), false)] /\
    low16 (fun k => k) 3 <> 0 /\ low16 (fun k => k) 65536 = 0
  | _ => False
  end.
Proof. vm_compute. repeat split. discriminate. Qed.

(** A key stored by insert_or_update is found until the table grows. *)
Definition ops67 : list sop := SIou 3 30 (fun d => d + 1) :: SFind 3 :: map (fun k => SInsert (2 * k) 0) (nseq 2 340).
Definition hash67 : N -> N := fun k => k * 2 ^ 54 + k mod 2.
Theorem C67_lost_by_growth_refuted :
  match crun_all (MCfg false true) hash67 bump
          (c_fresh (MCfg false true) (sized (MCfg false true) 9 0) []) (ops67 ++ [SFind 3]) with
  | ROk (c, rs) => nth_error rs 1 = Some (Some (3, 30), true) /\ last rs (None, true) = (None, false) /\
                   total_slots (MCfg false true) (c_map c) = 1024
  | _ => False
  end.
Proof. vm_compute. repeat split. Qed.
Print Assumptions C67_lost_by_growth_refuted.

(** Every insert leaks an element: after any history, and after the table has been
    destroyed, at least as many elements are still allocated as inserts were
    called. *)
Theorem C67_elements_are_freed_refuted :
  forall mc hash al lg gh l c rs h,
    allocator_ok al ->
    crun_all mc hash al (c_fresh mc (sized mc lg gh) []) l = ROk (c, rs) ->
    c_destroy mc c = ROk h ->
    exists leaks, NoDup leaks /\ length leaks = inserts l /\ forall a, In a leaks -> h_get h a <> None.
Proof.
  intros mc hash al lg gh l c rs h AL E D.
  destruct (run_all_leaks mc hash al AL l _ _ _ [] E (ok_fresh _ _ _)) as (_ & L & LK & N).
  { split; [constructor|intros a []]. }
  exists L. split; [apply LK|]. split; [rewrite N; cbn; unfold inserts, is_insert; lia|].
  intros a H. destruct (leaked_destroy _ _ _ _ LK D a H) as (v & ->). discriminate.
Qed.
Print Assumptions C67_elements_are_freed_refuted.
Example C67_leak_case :
  match crun_all (MCfg false true) (fun k => 65536 * k) bump
          (c_fresh (MCfg false true) (sized (MCfg false true) 9 0) []) [SInsert 3 30; SInsert 3 31; SErase 3] with
  | ROk (c, rs) => rs = [(Some (3, 30), true); (Some (3, 30), false); (None, true)] /\
                   option_map (@length _) (match c_destroy (MCfg false true) c with ROk h => Some h | _ => None end) = Some 3%nat
  | _ => False
  end.
Proof. vm_compute. split; reflexivity. Qed.

(** Growing frees every element of the table, so references to elements do not stay
    valid although the cells promise it. *)
Theorem C67_references_stay_refuted :
  forall mc hash al n c c' p w,
    c_grow mc (c_insert hash al (c_insert_intern mc hash al n)) c = ROk c' ->
    c_get mc c p = Some w -> w_ptr w <> 0 -> h_get (c_heap c') (w_ptr w) = None.
Proof.
  intros mc hash al n c c' p w E G NZ. unfold c_grow in E. apply bind_ok in E as (t & _ & E).
  apply bind_ok in E as (h & E & X). injection X as <-. cbn [c_heap].
  eapply cleanup_all_frees; eauto. apply MigrateGeo.in_nseq. unfold c_get in G.
  destruct (N.ltb_spec p (total_slots mc (c_map c))); [lia|discriminate].
Qed.
Print Assumptions C67_references_stay_refuted.
Definition grown67 (c : ctab) := c_grow (MCfg false true) (c_insert (fun k => k * 2 ^ 55) bump
  (c_insert_intern (MCfg false true) (fun k => k * 2 ^ 55) bump 3)) c.
Example C67_references_case :
  match crun_all (MCfg false true) (fun k => k * 2 ^ 55) bump (c_fresh (MCfg false true) (sized (MCfg false true) 9 0) [])
          (map (fun k => SInsert k 0) (nseq 1 5)) with
  | ROk (c, _) => option_map w_ptr (c_get (MCfg false true) c 1) = Some 32 /\
                  match grown67 c with
                  | ROk c' => h_get (c_heap c) 32 = Some (1, 0) /\ h_get (c_heap c') 32 = None
                  | _ => False
                  end
  | _ => False
  end.
Proof. vm_compute. repeat split. Qed.

(** With 4 byte keys and values, the iterator that the first insert returns shows
    the same pair whatever was inserted. *)
Theorem C67_iterator_shows_element_refuted :
  forall k d,
    match c_insert (fun _ => 0) bump (c_insert_intern (MCfg false true) (fun _ => 0) bump depth)
            (c_fresh (MCfg false true) (sized (MCfg false true) 9 0) []) k d with
    | ROk (c, p, b) => b = true /\ c_shows (MCfg false true) c p = Some (k, d) /\
                       c_star32 (MCfg false true) c p = Some (2097152, 0)
    | _ => False
    end.
Proof. intros k d. vm_compute. repeat split. Qed.
Print Assumptions C67_iterator_shows_element_refuted.

(** ** What holds *)

(** If the low half words of all hash values used are zero, every history of
    insert, find, update and insert_or_update returns what a map returns; no
    element is used after it was freed and none is freed twice. *)
Theorem C67_map_partial :
  forall mc hash al lg gh l,
    allocator_ok al -> cprob mc = true -> 9 <= lg <= 52 ->
    (forall o, In o l -> low16 hash (sop_key o) = 0) -> (forall o, In o l -> ~ is_erase o) ->
    N.of_nat (length l) <= 2 ^ 48 ->
    exists c, crun_all mc hash al (c_fresh mc (sized mc lg gh) []) l = ROk (c, snd (sq_spec_all amap_empty l)).
Proof.
  intros mc hash al lg gh l AL CP LG Z NE N.
  destruct (C41_sequential_map mc (hash1 hash) lg gh (map sop1 l) CP LG) as (s & E & _).
  - intros o H. apply in_map_iff in H as (o' & <- & _). destruct o'; cbn; lia.
  - intros o H. apply in_map_iff in H as (o' & <- & H). specialize (NE o' H). destruct o'; auto.
  - now rewrite map_length.
  - pose proof (sim_run_all mc hash al AL l (c_fresh mc (sized mc lg gh) []) _
                  (sim_fresh mc hash (sized mc lg gh) []) Z) as S.
    rewrite E in S. destruct (crun_all mc hash al _ l) as [[c rs]| |]; cbn in S; try contradiction.
    destruct S as (_ & R). destruct (spec_all_shift l amap_empty amap_empty (fun _ => eq_refl)) as (_ & R2).
    rewrite R2 in R. apply map_res1_inj in R. subst. eauto.
Qed.
Print Assumptions C67_map_partial.

(** With erase in the history the calls may return wrong answers (C42), but still
    no call leaves the table, uses or frees an element that is gone, or runs
    forever. *)
Theorem C67_memory_safe_partial :
  forall mc hash al lg gh l,
    allocator_ok al -> cprob mc = true -> 9 <= lg <= 52 ->
    (forall o, In o l -> low16 hash (sop_key o) = 0) -> N.of_nat (length l) <= 2 ^ 48 ->
    exists c rs, crun_all mc hash al (c_fresh mc (sized mc lg gh) []) l = ROk (c, rs).
Proof.
  intros mc hash al lg gh l AL CP LG Z N.
  destruct (C43_in_bounds_partial mc (hash1 hash) lg gh (map sop1 l) CP LG) as (s & rs & E).
  - intros o H. apply in_map_iff in H as (o' & <- & _). destruct o'; cbn; lia.
  - now rewrite map_length.
  - pose proof (sim_run_all mc hash al AL l (c_fresh mc (sized mc lg gh) []) _
                  (sim_fresh mc hash (sized mc lg gh) []) Z) as S.
    rewrite E in S. destruct (crun_all mc hash al _ l) as [[c rs']| |]; cbn in S; try contradiction. eauto.
Qed.
Print Assumptions C67_memory_safe_partial.

(** insert_or_update, update and find do not leak: as long as the table does not
    grow (here: no more calls than it takes to fill it), destroying it frees
    everything, whatever the hash values are. *)
Theorem C67_no_leak_partial :
  forall mc hash al lg gh l c rs,
    allocator_ok al ->
    N.of_nat (length l) <= fill_limit (total_slots mc (sized mc lg gh)) ->
    inserts l = 0%nat -> (forall o, In o l -> ~ is_erase o) ->
    crun_all mc hash al (c_fresh mc (sized mc lg gh) []) l = ROk (c, rs) ->
    c_destroy mc c = ROk [].
Proof.
  intros mc hash al lg gh l c rs AL NL NI NE E.
  assert (X : exact mc (sized mc lg gh) (0 + N.of_nat (length l)) c).
  { apply (exact_run_all mc hash al AL (sized mc lg gh) l 0 _ c rs (exact_fresh mc hash (sized mc lg gh))); auto.
    intros o H. destruct (is_insert o) eqn:I; auto. exfalso. unfold inserts in NI.
    apply length_zero_iff_nil in NI.
    assert (X : In o (filter is_insert l)) by (apply filter_In; auto). unfold is_insert in X. now rewrite NI in X. }
  exact (exact_destroy mc hash _ _ _ X).
Qed.
Print Assumptions C67_no_leak_partial.
Example C67_no_leak_case :
  match crun_all (MCfg false true) (fun k => k) bump (c_fresh (MCfg false true) (sized (MCfg false true) 9 0) [])
          [SIou 1 10 (fun d => d + 1); SIou 2 20 (fun d => d + 1); SIou 1 10 (fun d => d + 1); SFind 1;
           SUpdate 2 (fun d => d * 2)] with
  | ROk (c, rs) => rs = [(Some (1, 10), true); (Some (2, 20), true); (Some (1, 11), false); (Some (1, 11), true);
                         (Some (2, 40), true)] /\
                   length (c_heap c) = 2%nat /\ 5 <= fill_limit (total_slots (MCfg false true) (c_map c))
  | _ => False
  end.
Proof. vm_compute. repeat split. discriminate. Qed.

(** Key 0 is an ordinary key here; 345 keys, growth from 512 to 1024 cells. *)
Definition ops67b : list sop :=
  map (fun k => SInsert k (k + 7)) (nseq 0 345) ++ [SFind 0; SFind 400; SIou 0 1 (fun d => d * 3); SUpdate 344 (fun d => d + 1)].
Definition seenc (n : nat) (r : outcome (ctab * list (option (N * N) * bool))) :=
  match r with
  | ROk (c, rs) => Some (total_slots (MCfg false true) (c_map c), skipn n rs)
  | _ => None
  end.
Definition hash67b (k : N) : N := (if k <? 20 then k / 2 else k) * 2 ^ 55.
Definition run67 : outcome (ctab * list (option (N * N) * bool)) :=
  crun_all (MCfg false true) hash67b bump
    (c_fresh (MCfg false true) (sized (MCfg false true) 9 0) []) ops67b.
Example C67_case :
  (forall o, In o ops67b -> low16 hash67b (sop_key o) = 0) /\
  seenc 345 run67 =
    Some (1024, [(Some (0, 7), true); (None, false); (Some (0, 21), false); (Some (344, 352), true)]).
Proof.
  split.
  - intros o _. unfold low16, hash67b. generalize (if sop_key o <? 20 then sop_key o / 2 else sop_key o). intros x.
    change (2 ^ 55) with 36028797018963968. change (2 ^ 64) with 18446744073709551616. change (2 ^ 16) with 65536.
    pose proof (N.div_mod (x * 36028797018963968) 18446744073709551616 ltac:(discriminate)) as E.
    set (r := (x * 36028797018963968) mod 18446744073709551616) in *.
    set (q := x * 36028797018963968 / 18446744073709551616) in *. clearbody r q.
    replace r with ((x * 549755813888 - q * 281474976710656) * 65536) by lia. apply N.mod_mul. discriminate.
  - vm_compute. reflexivity.
Qed.
