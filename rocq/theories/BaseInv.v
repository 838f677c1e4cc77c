(** Invariant of the concurrent table and its relation to the abstract map. *)
From Coq Require Import NArith Bool List Lia.
From Verif Require Import Words Slot SlotFacts Mapper MapperFacts ReturnCode MapSpec LinSpec Base.
Open Scope N_scope.

Definition cmark := N -> bool.

Lemma fupd_eq {A} (f : N -> A) k v : fupd f k v k = v.
Proof. unfold fupd. now rewrite N.eqb_refl. Qed.
Lemma fupd_neq {A} (f : N -> A) k v x : x <> k -> fupd f k v x = f x.
Proof. unfold fupd. destruct (N.eqb_spec x k); congruence. Qed.

Section Inv.
Context (c : tcfg) (m : mapper) (lg : N).
Context (Hsc : wf_scfg (tsc c)) (Hm : wf_mapper (tmc c) m lg).
Notation sc := (tsc c).
Notation mc := (tmc c).
Notation tot := (total_slots mc m).
Notation addr := (addressable_slots mc m).
Notation rmp := (remap mc m).
Notation hm := (home c m).

(** All cells on the probe path of [k] before step [n] are in use by others. *)
Definition prefix (ct : N -> content) (k n : N) : Prop :=
  forall j, j < n -> ct (rmp (hm k + j)) <> CEmpty /\
                     forall d, ct (rmp (hm k + j)) <> CLive k d.

(** The table invariant, for contents [ct] and marks [mk]. *)
Record tinv (t : mem) (ct : N -> content) (mk : cmark) : Prop := {
  ti_cell : forall p, p < tot -> t p = Some (enc sc (ct p) (mk p)) /\ ok_content sc (ct p) (mk p);
  ti_reach : forall p k d, p < tot -> ct p = CLive k d ->
             exists n, rmp (hm k + n) = p /\ prefix ct k n;
  ti_over : cprob mc = false -> forall p, addr + 300 < p -> p < tot -> ct p = CEmpty
}.

(** The abstract map of a table. *)
Definition absr (ct : N -> content) (a : amap) : Prop :=
  forall k d, a k = Some d <-> exists p, p < tot /\ ct p = CLive k d.

(** How cells evolve. *)
Inductive trans : content -> content -> Prop :=
| t_same v : trans v v
| t_ins k d : trans CEmpty (CLive k d)
| t_upd k d d' : trans (CLive k d) (CLive k d')
| t_del k d : trans (CLive k d) CTomb.

Lemma hm_lt k : hm k < 2 ^ lg.
Proof.
  unfold home. eapply map_lt; eauto. unfold hashk, w64.
  apply N.mod_lt. apply N.pow_nonzero; lia.
Qed.

Lemma prefix_trans ct k n p v :
  prefix ct k n -> trans (ct p) v -> prefix (fupd ct p v) k n.
Proof.
  intros P T j Hj. specialize (P j Hj).
  destruct (N.eq_dec (rmp (hm k + j)) p) as [Ep|E].
  - rewrite Ep in *. rewrite fupd_eq. destruct P as [P1 P2].
    inversion T as [v0 E1 E2|k0 d0 E1 E2|k0 d0 d1 E1 E2|k0 d0 E1 E2].
    + split; [exact P1|exact P2].
    + congruence.
    + split; [discriminate|]. intros d2 E. apply (P2 d0). congruence.
    + split; [discriminate|]. intros d2 E. discriminate.
  - rewrite fupd_neq by exact E. exact P.
Qed.

(** Where a probe can be. *)
Lemma prefix_bound t ct mk k n :
  tinv t ct mk -> prefix ct k n -> rmp (hm k + n) < tot.
Proof.
  intros I P. destruct (cprob mc) eqn:CP.
  - eapply remap_lt; eauto.
  - rewrite (remap_val _ _ _ Hm), CP.
    rewrite (total_val _ _ _ Hm), CP.
    pose proof (hm_lt k) as HL.
    destruct (N.lt_ge_cases (hm k + n) (2 ^ lg + 1024)) as [|G]; [assumption|exfalso].
    pose (j := 2 ^ lg + 301 - hm k).
    assert (j < n) by (unfold j; lia).
    destruct (P j H) as [P1 _]. apply P1.
    rewrite (remap_val _ _ _ Hm), CP.
    replace (hm k + j) with (2 ^ lg + 301) by (unfold j; lia).
    apply (ti_over _ _ _ I CP).
    + rewrite (addressable_val _ _ _ Hm). lia.
    + rewrite (total_val _ _ _ Hm), CP. lia.
Qed.

(** Uniqueness of a live key. *)
Lemma live_unique t ct mk p q k d d' :
  tinv t ct mk -> p < tot -> q < tot -> ct p = CLive k d -> ct q = CLive k d' -> p = q.
Proof.
  intros I Hp Hq Ep Eq.
  destruct (ti_reach _ _ _ I p k d Hp Ep) as (n & En & Pn).
  destruct (ti_reach _ _ _ I q k d' Hq Eq) as (n' & En' & Pn').
  destruct (N.lt_trichotomy n n') as [L|[->|L]].
  - destruct (Pn' n L) as [_ F]. rewrite En in F. now elim (F d).
  - congruence.
  - destruct (Pn n' L) as [_ F]. rewrite En' in F. now elim (F d').
Qed.

(** An empty cell at the end of the path: the key is absent. *)
Lemma empty_absent t ct mk a k n :
  tinv t ct mk -> absr ct a -> prefix ct k n -> ct (rmp (hm k + n)) = CEmpty -> a k = None.
Proof.
  intros I A P E. destruct (a k) as [d|] eqn:Ak; [exfalso|reflexivity].
  apply A in Ak. destruct Ak as (q & Hq & Eq).
  destruct (ti_reach _ _ _ I q k d Hq Eq) as (n' & En' & Pn').
  destruct (N.lt_trichotomy n n') as [L|[->|L]].
  - destruct (Pn' n L) as [F _]. now elim F.
  - congruence.
  - destruct (P n' L) as [_ F]. rewrite En' in F. now elim (F d).
Qed.

Lemma live_present t ct mk a k d p :
  tinv t ct mk -> absr ct a -> p < tot -> ct p = CLive k d -> a k = Some d.
Proof. intros I A Hp E. apply A. eauto. Qed.

(** *** Preservation by cell updates *)

Lemma tinv_mark t ct mk p :
  tinv t ct mk -> sc_mark sc = true -> p < tot ->
  tinv (fupd t p (Some (mark_slot sc (enc sc (ct p) (mk p))))) ct (fupd mk p true).
Proof.
  intros I M Hp. split.
  - intros q Hq. destruct (N.eq_dec q p) as [->|E].
    + rewrite !fupd_eq. rewrite mark_enc. split; [reflexivity|].
      destruct (ti_cell _ _ _ I p Hp) as [_ [_ O]]. split; auto.
    + rewrite !fupd_neq by exact E. now apply I.
  - apply I.
  - apply I.
Qed.

Lemma tinv_write t ct mk p v :
  tinv t ct mk -> p < tot -> trans (ct p) v -> ok_content sc v (mk p) ->
  (forall k d, ct p = CEmpty -> v = CLive k d ->
     exists n, rmp (hm k + n) = p /\ prefix ct k n) ->
  (ct p = CEmpty -> v <> CEmpty -> cprob mc = false -> p <= addr + 300) ->
  tinv (fupd t p (Some (enc sc v (mk p)))) (fupd ct p v) mk.
Proof.
  intros I Hp T O R B. split.
  - intros q Hq. destruct (N.eq_dec q p) as [->|E].
    + rewrite !fupd_eq. auto.
    + rewrite !fupd_neq by exact E. now apply I.
  - intros q k d Hq E. destruct (N.eq_dec q p) as [->|NE].
    + rewrite fupd_eq in E. subst v. inversion T; subst.
      * destruct (ti_reach _ _ _ I p k d Hp) as (n & En & Pn); auto.
        exists n. split; auto. eapply prefix_trans; eauto using trans.
      * destruct (R k d) as (n & En & Pn); auto.
        exists n. split; auto. eapply prefix_trans; eauto using trans.
      * destruct (ti_reach _ _ _ I p k d0 Hp) as (n & En & Pn); auto.
        exists n. split; auto. eapply prefix_trans; eauto using trans.
    + rewrite fupd_neq in E by exact NE.
      destruct (ti_reach _ _ _ I q k d Hq E) as (n & En & Pn).
      exists n. split; auto. eapply prefix_trans; eauto using trans.
  - intros CP q G L. destruct (N.eq_dec q p) as [->|NE].
    + rewrite fupd_eq. pose proof (ti_over _ _ _ I CP p G L) as E.
      destruct v; auto.
      * assert (p <= addr + 300) by (apply B; auto; discriminate). lia.
      * assert (p <= addr + 300) by (apply B; auto; discriminate). lia.
    + rewrite fupd_neq by exact NE. now apply I.
Qed.

(** Writing back the same content. *)
Lemma tinv_same t ct mk p s :
  tinv t ct mk -> t p = Some s -> tinv (fupd t p (Some s)) ct mk.
Proof.
  intros I E. split; try apply I.
  intros q Hq. destruct (N.eq_dec q p) as [->|NE].
  - rewrite fupd_eq. destruct (ti_cell _ _ _ I p Hq) as [E' O]. split; auto. congruence.
  - rewrite fupd_neq by exact NE. now apply I.
Qed.

Lemma absr_insert t ct mk a p k d :
  tinv t ct mk -> absr ct a -> p < tot -> ct p = CEmpty -> a k = None ->
  absr (fupd ct p (CLive k d)) (fupd a k (Some d)).
Proof.
  intros I A Hp E N' k' d'. destruct (N.eq_dec k' k) as [->|NE].
  - rewrite fupd_eq. split.
    + intros [= <-]. exists p. split; auto. apply fupd_eq.
    + intros (q & Hq & Eq). destruct (N.eq_dec q p) as [->|NE].
      * rewrite fupd_eq in Eq. congruence.
      * rewrite fupd_neq in Eq by exact NE.
        assert (a k = Some d') by (apply A; eauto). congruence.
  - rewrite fupd_neq by exact NE. rewrite (A k' d'). split; intros (q & Hq & Eq); exists q; split; auto.
    + rewrite fupd_neq; auto. intros ->. congruence.
    + destruct (N.eq_dec q p) as [->|NE2].
      * rewrite fupd_eq in Eq. congruence.
      * now rewrite fupd_neq in Eq by exact NE2.
Qed.

Lemma absr_update t ct mk a p k d0 d :
  tinv t ct mk -> absr ct a -> p < tot -> ct p = CLive k d0 ->
  absr (fupd ct p (CLive k d)) (fupd a k (Some d)).
Proof.
  intros I A Hp E k' d'. destruct (N.eq_dec k' k) as [->|NE].
  - rewrite fupd_eq. split.
    + intros [= <-]. exists p. split; auto. apply fupd_eq.
    + intros (q & Hq & Eq). destruct (N.eq_dec q p) as [->|NE].
      * rewrite fupd_eq in Eq. congruence.
      * rewrite fupd_neq in Eq by exact NE. elim NE. eapply live_unique; eauto.
  - rewrite fupd_neq by exact NE. rewrite (A k' d'). split; intros (q & Hq & Eq); exists q; split; auto.
    + rewrite fupd_neq; auto. intros ->. congruence.
    + destruct (N.eq_dec q p) as [->|NE2].
      * rewrite fupd_eq in Eq. congruence.
      * now rewrite fupd_neq in Eq by exact NE2.
Qed.

Lemma absr_delete t ct mk a p k d0 :
  tinv t ct mk -> absr ct a -> p < tot -> ct p = CLive k d0 ->
  absr (fupd ct p CTomb) (fupd a k None).
Proof.
  intros I A Hp E k' d'. destruct (N.eq_dec k' k) as [->|NE].
  - rewrite fupd_eq. split; [discriminate|].
    intros (q & Hq & Eq). destruct (N.eq_dec q p) as [->|NE].
    + rewrite fupd_eq in Eq. discriminate.
    + rewrite fupd_neq in Eq by exact NE. elim NE. eapply live_unique; eauto.
  - rewrite fupd_neq by exact NE. rewrite (A k' d'). split; intros (q & Hq & Eq); exists q; split; auto.
    + rewrite fupd_neq; auto. intros ->. congruence.
    + destruct (N.eq_dec q p) as [->|NE2].
      * rewrite fupd_eq in Eq. discriminate.
      * now rewrite fupd_neq in Eq by exact NE2.
Qed.

End Inv.

(** The fresh table. *)
Lemma fresh_tinv c m lg :
  wf_scfg (tsc c) -> wf_mapper (tmc c) m lg ->
  tinv c m (fresh_mem c m) (fun _ => CEmpty) (fun _ => false).
Proof.
  intros Hs Hm. split.
  - intros p Hp. unfold fresh_mem. destruct (N.ltb_spec p (total_slots (tmc c) m)); [|lia].
    split; [reflexivity|]. split; [discriminate|exact I].
  - discriminate.
  - reflexivity.
Qed.

Lemma fresh_absr c m : absr c m (fun _ => CEmpty) amap_empty.
Proof. intros k d. unfold amap_empty. split; [discriminate|]. intros (p & _ & E). discriminate. Qed.
