(** Growing tables: how many keys a growing table holds without growing, by
    their positions, and which keys its cells can hold. *)
From Coq Require Import NArith Bool List Lia.
From Verif Require Import Words Slot SlotFacts Mapper MapperFacts ReturnCode MapSpec LinSpec
  Base BaseInv BaseLin BaseExec TableSpec BaseFacts Migrate GrowFacts Growing GrowingSpec GrowingInv
  GrowingFacts GrowingSolo.
Import ListNotations.
Open Scope N_scope.

(** *** The run of used cells that ends at the last usable one *)

Lemma run_start (u : N -> bool) (b : N) : forall n : nat, N.of_nat n <= b ->
  (forall p, b - N.of_nat n <= p <= b -> u p = true) ->
  exists q, q <= b - N.of_nat n /\ (forall p, q <= p <= b -> u p = true) /\
            (0 < q -> u (q - 1) = false).
Proof.
  intros n Hn. remember (b - N.of_nat n) as a eqn:Ea. assert (La : a <= b) by lia. clear Hn Ea n.
  revert La. induction a as [|a IH] using N.peano_ind; intros La H.
  - exists 0. split; [lia|]. split; [exact H|lia].
  - destruct (u a) eqn:E.
    + destruct IH as (q & Lq & Hq & Q); [lia| |].
      * intros p Hp. destruct (N.eq_dec p a) as [->|NE]; [exact E|apply H; lia].
      * exists q. split; [lia|auto].
    + exists (N.succ a). split; [lia|]. split; [exact H|]. intros _.
      replace (N.succ a - 1) with a by lia. exact E.
Qed.

Lemma nrange_nodup : forall n a, NoDup (nrange a n).
Proof. induction n as [|n IH]; intros a; cbn; constructor; auto. rewrite in_nrange. lia. Qed.

Lemma split_len {A} (f : A -> bool) l :
  length l = (length (filter f l) + length (filter (fun x => negb (f x)) l))%nat.
Proof. induction l as [|x l IH]; cbn; [reflexivity|]. destruct (f x); cbn; lia. Qed.

Section S.
Context (c : tcfg) (m : mapper) (lg : N).
Context (Hsc : wf_scfg (tsc c)) (Hm : wf_mapper (tmc c) m lg) (CP : cprob (tmc c) = false).
Notation sc := (tsc c).
Notation mc := (tmc c).
Notation addr := (addressable_slots mc m).

Definition usedb (ct : N -> content) (p : N) : bool := match ct p with CEmpty => false | _ => true end.
Definition tombb (ct : N -> content) (p : N) : bool := match ct p with CTomb => true | _ => false end.
Definition key_at (ct : N -> content) (p : N) : N := match ct p with CLive k _ => k | _ => 0 end.

(** A vacant cell, or the key itself, is on the path, when not too many keys
    compete for the last cells. *)
Lemma parking t ct mk k (ks rs : list N) :
  tinv c m t ct mk ->
  (forall p k' d, p < total_slots mc m -> ct p = CLive k' d -> k' <> k -> In k' ks) ->
  (forall p, p < total_slots mc m -> ct p = CTomb -> In p rs) ->
  (forall a, a <= home c m k ->
     N.of_nat (length (filter (fun k' => a <=? home c m k') ks)) + N.of_nat (length rs) <= addr + 300 - a) ->
  exists p, home c m k <= p <= addr + 300 /\ (ct p = CEmpty \/ exists d, ct p = CLive k d).
Proof.
  intros I HK HR HC.
  pose proof (hm_lt c m lg Hm k) as HL. pose proof (addressable_val _ _ _ Hm) as EA.
  pose proof (total_val _ _ _ Hm) as ET. rewrite CP in ET.
  set (P := fun p => match ct p with CEmpty => true | CLive k' _ => k' =? k | CTomb => false end).
  destruct (existsb P (nrange (home c m k) (N.to_nat (addr + 301 - home c m k)))) eqn:X.
  { apply existsb_exists in X. destruct X as (p & Hp & Pp). apply in_nrange in Hp.
    exists p. split; [lia|]. unfold P in Pp. destruct (ct p) as [| |k' d]; auto; [discriminate|].
    apply N.eqb_eq in Pp. subst k'. eauto. }
  exfalso.
  assert (F : forall p, home c m k <= p <= addr + 300 -> P p = false).
  { intros p Hp. destruct (P p) eqn:E; auto.
    rewrite <- X. symmetry. apply existsb_exists. exists p. split; [apply in_nrange; lia|exact E]. }
  destruct (run_start (usedb ct) (addr + 300) (N.to_nat (addr + 300 - home c m k))) as (q & Lq & Hq & Q).
  { lia. }
  { intros p Hp. assert (G := F p ltac:(lia)). unfold usedb, P in *. now destruct (ct p). }
  set (l := nrange q (N.to_nat (addr + 301 - q))).
  assert (IL : forall p, In p l <-> q <= p <= addr + 300). { intros p. unfold l. rewrite in_nrange. lia. }
  assert (ND : NoDup l).
  { apply nrange_nodup. }
  assert (LL : N.of_nat (length l) = addr + 301 - q). { unfold l. rewrite nrange_length. lia. }
  pose proof (split_len (tombb ct) l) as SL.
  assert (L1 : (length (filter (tombb ct) l) <= length rs)%nat).
  { apply NoDup_incl_length; [now apply NoDup_filter|]. intros p Hp. apply filter_In in Hp.
    destruct Hp as [Hp E]. apply IL in Hp. apply HR; [lia|]. unfold tombb in E. now destruct (ct p). }
  set (lv := filter (fun p => negb (tombb ct p)) l) in *.
  assert (LV : forall p, In p lv -> exists k' d, ct p = CLive k' d /\ q <= p <= addr + 300).
  { intros p Hp. apply filter_In in Hp. destruct Hp as [Hp E]. apply IL in Hp.
    pose proof (Hq p Hp) as U. unfold usedb, tombb in *. destruct (ct p) as [| |k' d]; try discriminate. eauto. }
  assert (L2 : (length lv <= length (filter (fun k' => (q <=? home c m k')%N) ks))%nat).
  { rewrite <- (map_length (key_at ct)). apply NoDup_incl_length.
    - assert (NV : NoDup lv) by now apply NoDup_filter. clear -NV LV I ET EA Hm CP HL Lq.
      clearbody lv. induction NV as [|p lv NI NV IH]; cbn; constructor.
      + rewrite in_map_iff. intros (p' & E & Hp'). apply NI.
        destruct (LV p (or_introl eq_refl)) as (k1 & d1 & E1 & B1).
        destruct (LV p' (or_intror Hp')) as (k2 & d2 & E2 & B2).
        unfold key_at in E. rewrite E1, E2 in E. subst k2.
        replace p with p'; [exact Hp'|]. eapply (live_unique c m); eauto; lia.
      + apply IH. intros p' Hp'. apply LV. now right.
    - intros k' Hk. apply in_map_iff in Hk. destruct Hk as (p & E & Hp).
      destruct (LV p Hp) as (k1 & d1 & E1 & B1). unfold key_at in E. rewrite E1 in E. subst k1.
      destruct (ti_reach _ _ _ _ _ I p k' d1 ltac:(lia) E1) as (n & En & Pn).
      rewrite (remap_val _ _ _ Hm), CP in En.
      apply filter_In. split.
      + apply (HK p k' d1); [lia|exact E1|]. intros ->. assert (G := F p ltac:(lia)). unfold P in G.
        rewrite E1, N.eqb_refl in G. discriminate.
      + apply N.leb_le. destruct (N.le_gt_cases q (home c m k')) as [|G]; [assumption|exfalso].
        assert (D : usedb ct (q - 1) = false) by (apply Q; lia).
        destruct (Pn (q - 1 - home c m k')) as [NE _]; [lia|].
        rewrite (remap_val _ _ _ Hm), CP in NE. replace (home c m k' + (q - 1 - home c m k')) with (q - 1) in NE by lia.
        unfold usedb in D. now destruct (ct (q - 1)). }
  specialize (HC q ltac:(lia)). lia.
Qed.

End S.

(** *** The keys cells can hold when nothing is erased *)

Section Keys.
Context (c : tcfg) (B : N) (client : op -> Prop) (P : N -> Prop).
Notation sc := (tsc c).
Notation mc := (tmc c).
Context (Hsc : wf_scfg sc).
Context (NE : forall o, client o -> ~ erasing o) (P0 : P 0)
        (PK : forall o, client o -> P (get_key sc (op_slot o))).

Definition okx (x : slot) : Prop := P (get_key sc x).
Definition okm (t : mem) : Prop := forall p x, t p = Some x -> okx x.
Definition okh (pc : hpc) : Prop :=
  match pc with
  | H0Mark _ _ x | H1Mark _ _ x | H2Mark _ x | HIns _ _ x _ | HSet _ _ x _ => okx x
  | _ => True
  end.
Definition okb (pc : bpc) : Prop :=
  match pc with PCas _ x | PUpd _ x => okx x | PDel _ _ => False | _ => True end.
Definition okt (y : op * gpc) : Prop :=
  client (fst y) /\ match snd y with GRun _ pc => okb pc | GGet => True end.
Definition keys_ok (s : gsys) : Prop :=
  (forall u, okm (gmem s u)) /\ (forall tid y, gthr s tid = Some y -> okt y) /\
  (forall k h, gmig s = Some (k, h) -> forall tid pc, h tid = Some pc -> okh pc).

Lemma okx_empty : okx empty_slot.
Proof. unfold okx, get_key, empty_slot. cbn. destruct (sc_mark sc); exact P0. Qed.

Lemma okm_upd t p x : okm t -> okx x -> okm (fupd t p (Some x)).
Proof.
  intros H X q y. unfold fupd. destruct (q =? p); [intros [= <-]; exact X|apply H].
Qed.

Lemma get_key_mark x : sc_mark sc = true -> get_key sc (mark_slot sc x) = get_key sc x.
Proof.
  intros M. unfold get_key, mark_slot. rewrite M. cbn [skey].
  rewrite N.land_lor_distr_l. unfold bmask.
  replace (N.land (mbit sc) (mbit sc - 1)) with 0; [apply N.lor_0_r|].
  unfold mbit. replace (2 ^ (sc_w sc - 1) - 1) with (N.ones (sc_w sc - 1)).
  - rewrite N.land_ones. symmetry. apply N.mod_same. apply N.pow_nonzero. lia.
  - rewrite N.ones_equiv. lia.
Qed.

Lemma okx_cas cell e n ok cell' e' : okx cell -> okx e -> okx n ->
  cas sc cell e n = (ok, cell', e') -> okx cell' /\ okx e'.
Proof.
  intros C1 C2 C3. unfold cas. destruct (slot_eqb cell e); [intros [= _ <- <-]; auto|].
  destruct (sc_upd sc); intros [= _ <- <-]; auto.
Qed.

Lemma okx_mark cell e ok cell' e' : okx cell -> okx e ->
  atomic_mark sc cell e = (ok, cell', e') -> okx cell' /\ okx e'.
Proof.
  intros C1 C2. unfold atomic_mark. destruct (sc_mark sc) eqn:M; [|intros [= _ <- <-]; auto].
  apply okx_cas; auto. unfold okx. rewrite get_key_mark; auto.
Qed.

Lemma okx_upd cell e f res ok cell' : okx cell -> okx e ->
  atomic_update sc cell e f = (res, ok, cell') -> okx cell'.
Proof.
  intros C1 C2. unfold atomic_update. destruct (sc_mark sc) eqn:M.
  - destruct (cas sc cell e _) as [[ok1 c1] e1] eqn:E. intros [= _ _ <-].
    refine (proj1 (okx_cas _ _ _ _ _ _ C1 C2 _ E)). unfold okx, get_key in *. rewrite M in *. exact C2.
  - destruct (fat f) as [g|].
    + destruct (g (sdata cell)) as [d r]. intros [= _ _ <-]. unfold okx, get_key in *. rewrite M in *. exact C1.
    + destruct (sdata cell =? sdata e); intros [= _ _ <-]; auto.
Qed.

Lemma rd_ok m t p x : okm t -> rd c m t p = Some x -> okx x.
Proof. intros H. unfold rd. destruct (p <? _); [apply H|discriminate]. Qed.

Lemma bstep_ok m t b o pc t' pc' :
  okm t -> client o -> okb pc -> bstep c m t b o pc = (t', pc') -> okm t' /\ okb pc'.
Proof.
  intros M CL PC. pose proof (NE o CL) as NO.
  destruct pc as [i|i x|i x|i x|r|]; cbn [bstep okb] in *; try (intros [= <- <-]; auto; fail); try contradiction;
    destruct (rd c m t (remap mc m i)) as [y|] eqn:R; try (intros [= <- <-]; cbn; auto; fail);
    apply (rd_ok _ _ _ _ M) in R.
  - intros [= <- <-]. split; auto.
    destruct o; cbn [after_load erasing] in *; try (now elim NO);
      repeat match goal with |- context [if ?b then _ else _] => destruct b end; cbn; auto.
  - destruct (cas sc y x (op_slot o)) as [[ok y'] x'] eqn:E. intros [= <- <-].
    destruct (okx_cas _ _ _ _ _ _ R PC (PK o CL) E) as [E1 E2]. split; [now apply okm_upd|]. destruct ok; cbn; auto.
  - destruct (atomic_update sc y x (op_fun o)) as [[res ok] y'] eqn:E. intros [= <- <-].
    pose proof (okx_upd _ _ _ _ _ _ R PC E) as E1. split; [now apply okm_upd|]. destruct ok; cbn; auto.
    destruct o; cbn; auto. destruct b; cbn; auto.
Qed.

Lemma okh_start2 ms mt i : okh (start2 c ms mt i).
Proof. unfold start2. destruct (init_one _ _ _); cbn; auto. Qed.
Lemma okh_next1 ms mt e i : okh (next1 c ms mt e i).
Proof. unfold next1. destruct (i <? e); cbn; auto using okh_start2. Qed.
Lemma okh_after0 ms mt e i : okh (after0 c ms mt e i).
Proof. unfold after0. destruct (i <? e); cbn; auto. destruct (init_range _ _ _ _); cbn; auto using okh_next1. Qed.
Lemma okh_enter ms mt a e : okh (enter c ms mt a e).
Proof. unfold enter. destruct (_ || _); [destruct (a <? e); cbn; auto|apply okh_after0]. Qed.
Lemma okh_after_insert ms mt ph i : okh (after_insert c ms mt ph i).
Proof. destruct ph; cbn; auto using okh_next1, okh_start2. Qed.

Lemma hstep_ok ms mt src tgt k pc src' tgt' k' pc' :
  okm src -> okm tgt -> okh pc -> hstep c ms mt B src tgt k pc = (src', tgt', k', pc') ->
  okm src' /\ okm tgt' /\ okh pc'.
Proof.
  intros M1 M2 H. destruct pc; cbn [hstep okh] in *.
  - intros [= <- <- _ <-]. split; [|split]; auto. destruct (k <? _); cbn; auto using okh_enter.
  - intros [= <- <- _ <-]. auto.
  - intros [= <- <- _ <-]. split; [|split]; auto. destruct (rd c ms src i) as [x|] eqn:R; cbn; auto.
    apply (rd_ok _ _ _ _ M1) in R. destruct (is_empty sc x); cbn; auto. destruct (i + 1 <? e); cbn; auto.
  - destruct (rd c ms src i) as [x|] eqn:R; [|intros [= <- <- _ <-]; cbn; auto].
    apply (rd_ok _ _ _ _ M1) in R. destruct (atomic_mark sc x curr) as [[ok x'] cu] eqn:E.
    intros [= <- <- _ <-]. destruct (okx_mark _ _ _ _ _ R H E) as [E1 E2].
    split; [now apply okm_upd|]. split; auto. destruct ok; cbn; auto using okh_after0.
  - destruct l as [|q l]; [intros [= <- <- _ <-]; auto using okh_next1|].
    destruct (q <? _); intros [= <- <- _ <-]; cbn; auto. split; [auto|]. split; [apply okm_upd; auto using okx_empty|].
    destruct l; cbn; auto using okh_next1.
  - intros [= <- <- _ <-]. split; [|split]; auto. destruct (rd c ms src i) as [x|] eqn:R; cbn; auto.
    now apply (rd_ok _ _ _ _ M1) in R.
  - destruct (rd c ms src i) as [x|] eqn:R; [|intros [= <- <- _ <-]; cbn; auto].
    apply (rd_ok _ _ _ _ M1) in R. destruct (atomic_mark sc x curr) as [[ok x'] cu] eqn:E.
    intros [= <- <- _ <-]. destruct (okx_mark _ _ _ _ _ R H E) as [E1 E2].
    split; [now apply okm_upd|]. split; auto. destruct ok; cbn; auto.
    destruct (negb _ && negb _); cbn; auto using okh_next1.
  - destruct l as [|q l]; [intros [= <- <- _ <-]; cbn; auto|].
    destruct (q <? _); intros [= <- <- _ <-]; cbn; auto. split; [auto|]. split; [apply okm_upd; auto using okx_empty|].
    destruct l; cbn; auto.
  - intros [= <- <- _ <-]. split; [|split]; auto. destruct (rd c ms src _) as [x|] eqn:R; cbn; auto.
    now apply (rd_ok _ _ _ _ M1) in R.
  - destruct (rd c ms src _) as [x|] eqn:R; [|intros [= <- <- _ <-]; cbn; auto].
    apply (rd_ok _ _ _ _ M1) in R. destruct (atomic_mark sc x curr) as [[ok x'] cu] eqn:E.
    intros [= <- <- _ <-]. destruct (okx_mark _ _ _ _ _ R H E) as [E1 E2].
    split; [now apply okm_upd|]. split; auto. destruct (is_empty sc cu); cbn; auto.
    destruct (is_deleted sc cu); cbn; auto using okh_start2.
  - intros [= <- <- _ <-]. split; [|split]; auto. destruct (rd c mt tgt _) as [x|] eqn:R; cbn; auto.
    destruct (is_empty sc x); cbn; auto.
  - destruct (_ <? _); intros [= <- <- _ <-]; cbn; auto. split; [auto|]. split; [now apply okm_upd|apply okh_after_insert].
  - intros [= <- <- _ <-]; auto.
Qed.

Lemma keys_ok_init lg : keys_ok (gsys_init c lg).
Proof.
  split; [|split]; cbn.
  - intros u p x. unfold fresh_mem. destruct (p <? _); [|discriminate]. intros [= <-]. exact okx_empty.
  - discriminate.
  - discriminate.
Qed.

Lemma thr_upd th tid y : (forall t z, th t = Some z -> okt z) -> (forall z, y = Some z -> okt z) ->
  forall t z, fupd th tid y t = Some z -> okt z.
Proof. intros H Y t z. unfold fupd. destruct (t =? tid); auto. apply H. Qed.

Lemma keys_ok_step s l s' : keys_ok s -> gsys_step c B client s l s' -> keys_ok s'.
Proof.
  intros (M & T & H) ST. destruct ST; cbn [gmem gthr gmig gver] in *; split; cbn [gmem gthr gmig gver]; auto; try split; auto;
    try (apply thr_upd; auto; intros z [= <-]; split; cbn; auto; try (apply (T _ _ ltac:(eassumption))); fail).
  - destruct (T _ _ H0) as [C1 C2]. cbn in *. destruct (bstep_ok _ _ _ _ _ _ _ (M u) C1 C2 H2) as [A1 A2].
    intros u'. unfold fupd. destruct (u' =? u); auto.
  - apply thr_upd; auto. intros z [= <-]. destruct (T _ _ H0) as [C1 C2]. cbn in *.
    destruct (bstep_ok _ _ _ _ _ _ _ (M u) C1 C2 H2) as [A1 A2]. split; cbn; auto.
  - intros u. unfold fupd. destruct (u =? v + 1); auto.
    intros p x. unfold target_mem. destruct (_ && _); [|discriminate]. intros [= <-]. exact okx_empty.
  - intros k h [= _ <-] tid pc [=].
  - intros k0 h0 [= _ <-] t pc. unfold fupd. destruct (t =? tid); [intros [= <-]; cbn; auto|]. eapply H; eauto.
  - specialize (H _ _ eq_refl). destruct (hstep_ok _ _ _ _ _ _ _ _ _ _ (M v) (M (v + 1)) (H _ _ H0) H1) as (A1 & A2 & A3).
    intros u. unfold fupd. destruct (u =? v + 1); auto. destruct (u =? v); auto.
  - specialize (H _ _ eq_refl). destruct (hstep_ok _ _ _ _ _ _ _ _ _ _ (M v) (M (v + 1)) (H _ _ H0) H1) as (A1 & A2 & A3).
    intros k0 h0 [= _ <-] t pc0. unfold fupd. destruct (t =? tid); [intros [= <-]; auto|]. apply H.
  - discriminate.
Qed.

Lemma keys_ok_steps s tr s' : keys_ok s -> lts_steps (sync_step c B client) s tr s' -> keys_ok s'.
Proof. intros K S. induction S as [|s1 s2 s3 tr S1 S2 IH|s1 e s2 s3 tr S1 S2 IH]; auto; apply IH; eapply keys_ok_step; eauto; apply S1. Qed.

End Keys.

(** *** Calls that run alone *)

Lemma spread_completes c B client lg tr s tid o ks rs :
  cell_type (tsc c) -> client_ok (tsc c) client -> cmap (tmc c) = false -> cprob (tmc c) = false ->
  0 < B <= 2 ^ 31 -> 1 <= lg <= 63 ->
  lts_steps (sync_step c B client) (gsys_init c lg) tr s ->
  gmig s = None -> gthr s tid = None -> client o ->
  let m := gmap s (gver s) in
  (forall p k d, user_key (tsc c) k -> holds (tsc c) (total_slots (tmc c) m) (gmem s (gver s)) p k d ->
     k <> op_key o -> In k ks) ->
  (forall p x, p < total_slots (tmc c) m -> gmem s (gver s) p = Some x -> word_is (tsc c) x (2 ^ (sc_w (tsc c) - 1) - 1) -> In p rs) ->
  (forall a, a <= home c m (op_key o) ->
     N.of_nat (length (filter (fun k => a <=? home c m k) ks)) + N.of_nat (length rs)
       <= addressable_slots (tmc c) m + 300 - a) ->
  exists r s', lts_steps (sync_step c B client) s [EInv tid (spec_op (tsc c) o); ERet tid r] s' /\
    gver s' = gver s.
Proof.
  intros CT CO CM CP HB LG ST MG TH CL m HK HR HC.
  eapply alone_completes_gen; eauto. intros lg' ct W I.
  pose proof (cell_type_wf _ CT) as Hsc. destruct c as [sc mc hash]. cbn [tsc tmc] in *.
  eapply (parking (TCfg sc mc hash) (gmap s (gver s)) lg' W CP (gmem s (gver s)) ct _ (op_key o) ks rs I); auto.
  - intros p k d Lp E NK. cbn [tmc] in Lp.
    assert (U : user_key sc k).
    { destruct (ti_cell _ _ _ _ _ I p Lp) as [_ [_ O]]. rewrite E in O. now apply user_key_valid in O. }
    apply (HK p k d); auto. fold m in Lp. unfold m in *. rewrite (total_val _ _ _ W) in Lp |- *.
    apply (holds_iff' sc mc hash lg' _ CT W _ ct _ p k d I U). auto.
  - intros p Lp E. cbn [tmc] in Lp. destruct (ti_cell _ _ _ _ _ I p Lp) as [E1 _]. cbn [tsc] in E1.
    rewrite E in E1. apply (HR p _ Lp E1). left. reflexivity.
Qed.

(** Nothing is erased and all keys come from a list. *)
Lemma inserted_completes c B client lg tr s tid o ks :
  cell_type (tsc c) -> client_ok (tsc c) client -> cmap (tmc c) = false -> cprob (tmc c) = false ->
  0 < B <= 2 ^ 31 -> 1 <= lg <= 63 ->
  (forall o, client o -> ~ erasing o) ->
  (forall o, client o -> In (op_key o) ks \/ forall k d f, o <> OInsert k d /\ o <> OIou k d f) ->
  lts_steps (sync_step c B client) (gsys_init c lg) tr s ->
  gmig s = None -> gthr s tid = None -> client o ->
  let m := gmap s (gver s) in
  (forall a, a <= home c m (op_key o) ->
     N.of_nat (length (filter (fun k => negb (k =? op_key o) && (a <=? home c m k)) ks))
       <= addressable_slots (tmc c) m + 300 - a) ->
  exists r s', lts_steps (sync_step c B client) s [EInv tid (spec_op (tsc c) o); ERet tid r] s' /\
    gver s' = gver s.
Proof.
  intros CT CO CM CP HB LG NE KS ST MG TH CL m HC.
  pose proof (cell_type_wf _ CT) as Hsc.
  assert (PK : forall o, client o -> get_key (tsc c) (op_slot o) = 0 \/
     (In (get_key (tsc c) (op_slot o)) ks /\ valid_key (tsc c) (get_key (tsc c) (op_slot o)))).
  { intros o1 C1. pose proof (proj1 (proj1 CO o1 C1)) as V.
    assert (G : forall k d, valid_key (tsc c) k -> get_key (tsc c) (Slot k d) = k).
    { intros k d V1. change (Slot k d) with (enc (tsc c) (CLive k d) false).
      rewrite (enc_get_key (tsc c) Hsc); [reflexivity|]. split; [discriminate|exact V1]. }
    destruct o1; cbn [op_slot op_key] in *; try (left; unfold get_key; cbn; now destruct (sc_mark (tsc c))); right;
      rewrite G by exact V; split; auto; destruct (KS _ C1) as [X|X]; auto.
    - now elim (proj1 (X k d (Functor (fun x => x) None))).
    - now elim (proj2 (X k d f)). }
  pose proof (keys_ok_steps c B client (fun k => k = 0 \/ (In k ks /\ valid_key (tsc c) k))
    NE (or_introl eq_refl) PK _ _ _
    (keys_ok_init c client _ (or_introl eq_refl) lg) ST) as (KO & _).
  specialize (KO (gver s)).
  eapply alone_completes_gen; eauto. intros lg' ct W I.
  eapply (parking c (gmap s (gver s)) lg' W CP (gmem s (gver s)) ct _ (op_key o)
    (filter (fun k => negb (k =? op_key o)) ks) [] I); auto.
  - intros p k d Lp E NK. destruct (ti_cell _ _ _ _ _ I p Lp) as [E1 O]. apply KO in E1. unfold okx in E1.
    rewrite (enc_get_key _ Hsc _ _ O), E in E1. cbn in E1.
    rewrite E in O. destruct O as [_ O].
    apply filter_In. split; [|apply negb_true_iff, N.eqb_neq; auto].
    destruct E1 as [->|[E1 _]]; auto. destruct O as (_ & O & _). elim O. apply N.mod_0_l. apply N.pow_nonzero. lia.
  - intros p Lp E. destruct (ti_cell _ _ _ _ _ I p Lp) as [E1 O]. apply KO in E1. unfold okx in E1.
    rewrite (enc_get_key _ Hsc _ _ O), E in E1. cbn in E1. exfalso. pose proof (mbit_pos _ Hsc) as MB.
    destruct E1 as [E1|[_ (_ & _ & V & _)]]; [unfold ddummy in *; lia|now elim V].
  - intros a Ha. specialize (HC a Ha). cbn [length]. rewrite N.add_0_r.
    replace (filter (fun k => a <=? home c (gmap s (gver s)) k) (filter (fun k => negb (k =? op_key o)) ks))
      with (filter (fun k => negb (k =? op_key o) && (a <=? home c m k)) ks); auto.
    fold m. clear. induction ks as [|k ks IH]; cbn; auto.
    destruct (negb (k =? op_key o)); cbn; [destruct (a <=? home c m k); cbn; congruence|auto].
Qed.

(** Executions with fewer calls are executions with more. *)
Lemma lts_client c B (cl cl' : op -> Prop) s tr s' :
  (forall o, cl o -> cl' o) -> lts_steps (sync_step c B cl) s tr s' -> lts_steps (sync_step c B cl') s tr s'.
Proof.
  intros H S.
  assert (G : forall s l s', sync_step c B cl s l s' -> sync_step c B cl' s l s').
  { intros x l y [X1 X2]. split; auto. destruct X1; econstructor; eauto. }
  induction S as [|s1 s2 s3 tr S1 S2 IH|s1 e s2 s3 tr S1 S2 IH].
  - constructor.
  - eapply ls_tau; eauto.
  - eapply ls_vis; eauto.
Qed.

Lemma filter_remove (f : N -> bool) x l :
  (length (filter (fun k => negb (k =? x) && f k) l) <= length (remove N.eq_dec x l))%nat.
Proof.
  induction l as [|k l IH]; cbn; auto.
  destruct (N.eq_dec x k) as [<-|NE]; [rewrite N.eqb_refl; exact IH|].
  destruct (N.eqb_spec k x); [congruence|]. cbn [negb andb]. destruct (f k); cbn; lia.
Qed.

Lemma filter_len (f : N -> bool) l : (length (filter f l) <= length l)%nat.
Proof. induction l as [|k l IH]; cbn; auto. destruct (f k); cbn; lia. Qed.
