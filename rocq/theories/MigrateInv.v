(** The invariant of a migration and its preservation. *)
From Coq Require Import NArith Bool List Lia.
From Verif Require Import Words Slot SlotFacts Mapper MapperFacts MapSpec LinSpec Base BaseInv BaseLin
  Migrate MigrateGeo.
Import ListNotations.
Open Scope N_scope.

(** Ghost status of a block: not handed out; searching at [i]; nothing found;
    first loop at [i] with region start [r]; second loop at [i]; finished at [i].
    The flag: the cell at [i] is marked and its element is being inserted. *)
Inductive bst :=
| BNone
| B0 (i : N)
| BNo
| B1 (r i : N) (fl : bool)
| B2 (r i : N) (fl : bool)
| BDone (r i : N).

Definition rstart (b : bst) : option N :=
  match b with B1 r _ _ | B2 r _ _ | BDone r _ => Some r | _ => None end.
Definition region (b : bst) : option (N * N) :=
  match b with B1 r i _ | B2 r i _ | BDone r i => Some (r, i) | _ => None end.
Definition active (b : bst) : bool :=
  match b with B0 _ | B1 _ _ _ | B2 _ _ _ => true | _ => false end.

Section Inv.
Context (c : tcfg) (ms mt : mapper) (lg g B : N) (MG : migr c ms mt lg g).
Context (Hsc : wf_scfg (tsc c)) (HB : 0 < B).
Set Default Proof Using "All".
Notation sc := (tsc c).
Notation mc := (tmc c).
Notation cap := (2 ^ lg).
Notation tcap := (2 ^ (lg + g)).
Notation ttot := (total_slots mc mt).
Notation stot := (total_slots mc ms).
Notation addr := (addressable_slots mc ms).
Notation sp := (remap mc ms).
Notation tp := (remap mc mt).
Notation hm := (home c ms).
Notation th := (home c mt).
Notation owner := (owner c lg g).
Notation off := (off c mt g).
Let Hm := mg_src _ _ _ _ _ MG.
Let Ht := mg_tgt _ _ _ _ _ MG.

Definition bend (s : N) : N := N.min (s + B) cap.

Definition extent (s : N) (b : bst) : option (N * N) :=
  match b with
  | B1 r _ _ => Some (r, bend s)
  | B2 r i _ | BDone r i => Some (r, i)
  | _ => None
  end.

Definition fz (mk : cmark) (p : N) : Prop := sc_mark sc = true -> mk p = true.

Definition proc (rg : N -> bst) (p : N) : Prop :=
  exists s r i x, region (rg s) = Some (r, i) /\ r <= x < i /\ sp x = p.

Definition flight (rg : N -> bst) (p : N) : Prop :=
  exists s r i, (rg s = B1 r i true \/ rg s = B2 r i true) /\ p = sp i.

Definition start_ok (ct : N -> content) (mk : cmark) (s r : N) : Prop :=
  s <= r < bend s /\ (forall x, s <= x < r -> ct x <> CEmpty) /\
  ((ct r = CEmpty /\ fz mk r /\ (cprob mc = true \/ 0 < s)) \/ (cprob mc = false /\ r = 0)).

Definition bst_ok (ct : N -> content) (mk : cmark) (s : N) (b : bst) : Prop :=
  match b with
  | BNone => True
  | B0 i => s <= i < bend s /\ (forall x, s <= x < i -> ct x <> CEmpty) /\
            (cprob mc = true \/ 0 < s)
  | BNo => (forall x, s <= x < bend s -> ct x <> CEmpty) /\ (cprob mc = true \/ 0 < s)
  | B1 r i fl => start_ok ct mk s r /\ r <= i < bend s /\
                 (forall x, r <= x < i -> fz mk (sp x))
  | B2 r i fl => start_ok ct mk s r /\ bend s <= i /\ (forall x, r <= x < i -> fz mk (sp x)) /\
                 (forall x, bend s <= x < i -> ct (sp x) <> CEmpty) /\
                 (fl = true -> ct (sp i) <> CEmpty)
  | BDone r i => start_ok ct mk s r /\ bend s <= i /\ (forall x, r <= x < i -> fz mk (sp x)) /\
                 (forall x, bend s <= x < i -> ct (sp x) <> CEmpty) /\
                 ct (sp i) = CEmpty /\ fz mk (sp i)
  end.

Definition inited (tgt : mem) (p : N) : Prop :=
  forall q, q < ttot -> owner q = p -> tgt q <> None.

Record glob (src tgt : mem) (ctr : N) (ct : N -> content) (mk : cmark)
  (tct : N -> content) (rg : N -> bst) : Prop := {
  g_src : tinv c ms src ct mk;
  g_tgt : forall q, q < ttot ->
          tgt q = Some (enc sc (tct q) false) \/ (tgt q = None /\ tct q = CEmpty);
  g_tok : forall q, q < ttot -> ok_content sc (tct q) false /\ tct q <> CTomb;
  g_over : cprob mc = false -> forall q, tcap <= q < ttot -> tgt q <> None;
  g_ctr : exists n, ctr = n * B;
  g_blk : forall s, rg s <> BNone -> (exists n, s = n * B) /\ s < ctr /\ s < cap;
  g_all : forall n, n * B < ctr -> n * B < cap -> rg (n * B) <> BNone;
  g_st : forall s, bst_ok ct mk s (rg s);
  g_sep : forall s s' r b r' x, extent s (rg s) = Some (r, b) -> rstart (rg s') = Some r' ->
          r < x < b -> sp x <> r';
  g_init : forall p, proc rg p -> inited tgt p;
  g_own : forall q, q < ttot -> tct q <> CEmpty -> proc rg (owner q) /\ ct (owner q) <> CEmpty;
  g_l1 : forall q k d, q < ttot -> tct q = CLive k d ->
         exists p, p < stot /\ proc rg p /\ ct p = CLive k d;
  g_l2 : forall p k d, proc rg p -> ct p = CLive k d -> exists q, q < ttot /\ tct q = CLive k d;
  g_reach : forall q k d, q < ttot -> tct q = CLive k d ->
         exists n, tp (th k + n) = q /\ prefix c mt tct k n
}.

Definition mkinv (ct : N -> content) (mk : cmark) (rg : N -> bst) : Prop :=
  forall p, p < stot -> mk p = true -> ct p = CEmpty \/ proc rg p \/ flight rg p.

(** *** Geometry of blocks *)

Lemma block_unique n n' r :
  n * B <= r < n * B + B -> n' * B <= r < n' * B + B -> n = n'.
Proof.
  intros H H'. destruct (N.lt_trichotomy n n') as [L|[E|L]]; auto; exfalso.
  - assert ((n + 1) * B <= n' * B) by (apply N.mul_le_mono_r; lia). lia.
  - assert ((n' + 1) * B <= n * B) by (apply N.mul_le_mono_r; lia). lia.
Qed.

Lemma bend_le s : bend s <= cap. Proof. unfold bend. lia. Qed.
Lemma bend_le' s : bend s <= s + B. Proof. unfold bend. lia. Qed.

(** Every slot is in a block. *)
Lemma in_block p : p < cap -> exists n, n * B <= p < bend (n * B) /\ n * B < cap.
Proof.
  intros L. exists (p / B).
  pose proof (N.mul_div_le p B ltac:(lia)). pose proof (N.mul_succ_div_gt p B ltac:(lia)).
  unfold bend. lia.
Qed.

Section G.
Context (src tgt : mem) (ctr : N) (ct : N -> content) (mk : cmark)
  (tct : N -> content) (rg : N -> bst) (GL : glob src tgt ctr ct mk tct rg).

Lemma start_facts s r : rstart (rg s) = Some r ->
  start_ok ct mk s r /\ (exists n, s = n * B) /\ s < ctr /\ s < cap.
Proof.
  intros E. assert (NE : rg s <> BNone) by (intros X; rewrite X in E; discriminate).
  pose proof (g_st _ _ _ _ _ _ _ GL s) as O. split; [|now apply (g_blk _ _ _ _ _ _ _ GL)].
  destruct (rg s); try discriminate; injection E as <-; apply O.
Qed.

Lemma start_small s r : rstart (rg s) = Some r -> r < cap.
Proof. intros E. destruct (start_facts s r E) as [(H & _) _]. pose proof (bend_le s). lia. Qed.

Lemma start_unique s s' r : rstart (rg s) = Some r -> rstart (rg s') = Some r -> s = s'.
Proof.
  intros E E'. destruct (start_facts s r E) as [(H & _) [[n ->] _]].
  destruct (start_facts s' r E') as [(H' & _) [[n' ->] _]].
  pose proof (bend_le' (n * B)). pose proof (bend_le' (n' * B)).
  f_equal. eapply (block_unique n n' r); lia.
Qed.

(** No region start strictly inside. *)
Definition sfree (r b : N) : Prop :=
  forall x s' r', r < x < b -> rstart (rg s') = Some r' -> sp x <> r'.

Lemma disjoint s1 s2 r1 r2 b1 b2 x1 x2 :
  rstart (rg s1) = Some r1 -> rstart (rg s2) = Some r2 -> sfree r1 b1 -> sfree r2 b2 ->
  r1 <= x1 < b1 -> r2 <= x2 < b2 -> sp x1 = sp x2 -> s1 = s2 /\ x1 = x2.
Proof.
  intros R1 R2 F1 F2 H1 H2 E.
  pose proof (start_small _ _ R1) as S1. pose proof (start_small _ _ R2) as S2.
  destruct (N.lt_trichotomy (x1 - r1) (x2 - r2)) as [L|[Q|L]].
  - exfalso. pose proof (sp_sub c ms mt lg g MG x1 x2 (x1 - r1) ltac:(lia) ltac:(lia) E) as E'.
    replace (x1 - (x1 - r1)) with r1 in E' by lia.
    rewrite (sp_small c ms mt lg g MG r1 S1) in E'.
    apply (F2 (x2 - (x1 - r1)) s1 r1); auto. lia.
  - pose proof (sp_sub c ms mt lg g MG x1 x2 (x1 - r1) ltac:(lia) ltac:(lia) E) as E'.
    replace (x1 - (x1 - r1)) with r1 in E' by lia.
    replace (x2 - (x1 - r1)) with r2 in E' by lia.
    rewrite (sp_small c ms mt lg g MG r1 S1), (sp_small c ms mt lg g MG r2 S2) in E'. subst r2.
    split; [eapply start_unique; eauto|lia].
  - exfalso. pose proof (sp_sub c ms mt lg g MG x1 x2 (x2 - r2) ltac:(lia) ltac:(lia) E) as E'.
    replace (x2 - (x2 - r2)) with r2 in E' by lia.
    rewrite (sp_small c ms mt lg g MG r2 S2) in E'.
    apply (F1 (x1 - (x2 - r2)) s2 r2); auto. lia.
Qed.

Lemma sfree_extent s r b : extent s (rg s) = Some (r, b) -> sfree r b.
Proof. intros E x s' r' Hx R. eapply (g_sep _ _ _ _ _ _ _ GL); eauto. Qed.

Lemma sfree_sub r b b' : sfree r b -> b' <= b -> sfree r b'.
Proof. intros F L x s' r' Hx. apply F. lia. Qed.

(** A non-empty cell in the second loop is no region start. *)
Lemma sfree_ext2 s r i fl :
  rg s = B2 r i fl -> ct (sp i) <> CEmpty -> sfree r (i + 1).
Proof.
  intros E NE x s' r' Hx R. destruct (N.eq_dec x i) as [->|NX].
  - intros Q. destruct (start_facts s' r' R) as [(H & _ & [[H1 _]|[H1 H2]]) _].
    + congruence.
    + rewrite H2, (sp_val c ms mt lg g MG), H1 in Q. lia.
  - assert (X : extent s (rg s) = Some (r, i)) by (rewrite E; reflexivity).
    apply (sfree_extent s r i X x s' r'); [lia|exact R].
Qed.

Lemma sfree_ext1 s r i fl : rg s = B1 r i fl -> sfree r (i + 1).
Proof.
  intros E. pose proof (g_st _ _ _ _ _ _ _ GL s) as O. rewrite E in O. destruct O as (_ & O & _).
  eapply sfree_sub; [eapply (sfree_extent s); rewrite E; reflexivity|lia].
Qed.

Lemma region_extent s b r i :
  bst_ok ct mk s b -> region b = Some (r, i) ->
  exists e, extent s b = Some (r, e) /\ i <= e /\ rstart b = Some r.
Proof.
  intros O E. destruct b; try discriminate; injection E as <- <-; cbn.
  - exists (bend s). destruct O as (_ & O & _). sp; auto. lia.
  - exists i0. sp; auto. lia.
  - exists i0. sp; auto. lia.
Qed.

(** The current cell of the first loop has not been processed. *)
Lemma cur1_not_proc s r i fl : rg s = B1 r i fl -> ~ proc rg (sp i).
Proof.
  intros E (s' & r' & i' & x & R & Hx & Q).
  destruct (region_extent s' (rg s') r' i' (g_st _ _ _ _ _ _ _ GL s') R) as (e' & X & L & RS).
  pose proof (g_st _ _ _ _ _ _ _ GL s) as O. rewrite E in O. destruct O as (_ & O & _).
  destruct (disjoint s' s r' r e' (i + 1) x i) as [-> ->]; auto.
  - now rewrite E.
  - eapply sfree_extent; eauto.
  - eapply sfree_ext1; eauto.
  - lia.
  - lia.
  - rewrite E in R. injection R as <- <-. lia.
Qed.

Lemma cur2_not_proc s r i fl :
  rg s = B2 r i fl -> ct (sp i) <> CEmpty -> ~ proc rg (sp i).
Proof.
  intros E NE (s' & r' & i' & x & R & Hx & Q).
  destruct (region_extent s' (rg s') r' i' (g_st _ _ _ _ _ _ _ GL s') R) as (e' & X & L & RS).
  pose proof (g_st _ _ _ _ _ _ _ GL s) as O. rewrite E in O.
  destruct O as ((O1 & _) & O & _).
  destruct (disjoint s' s r' r e' (i + 1) x i) as [-> ->]; auto.
  - now rewrite E.
  - eapply sfree_extent; eauto.
  - eapply sfree_ext2; eauto.
  - lia.
  - lia.
  - rewrite E in R. injection R as <- <-. lia.
Qed.

(** Target cells of the current cell are empty. *)
Lemma cur_free s r i fl q :
  rg s = B1 r i fl \/ rg s = B2 r i fl -> q < ttot -> owner q = sp i -> tct q = CEmpty.
Proof.
  intros E L O. destruct (tct q) eqn:T; auto; exfalso;
    (destruct (g_own _ _ _ _ _ _ _ GL q L) as [P NE]; [congruence|]); rewrite O in *;
    (destruct E as [E|E]; [eapply cur1_not_proc; eauto|eapply cur2_not_proc; eauto]).
Qed.

(** Cells ahead in the first loop. *)
Lemma ahead_free s r i fl q :
  rg s = B1 r i fl -> q < ttot -> i <= owner q < bend s -> tct q = CEmpty.
Proof.
  intros E L O. destruct (tct q) eqn:T; auto; exfalso;
    (destruct (g_own _ _ _ _ _ _ _ GL q L) as [P NE]; [congruence|]);
    destruct P as (s' & r' & i' & x & R & Hx & Q);
    (destruct (region_extent s' (rg s') r' i' (g_st _ _ _ _ _ _ _ GL s') R) as (e' & X & LL & RS));
    pose proof (g_st _ _ _ _ _ _ _ GL s) as OO; rewrite E in OO; destruct OO as (_ & OO & _);
    pose proof (bend_le s);
    (destruct (disjoint s' s r' r e' (bend s) x (owner q)) as [-> ->]; auto;
     [now rewrite E|eapply sfree_extent; eauto|eapply sfree_extent; rewrite E; reflexivity|lia|lia|
      rewrite Q; symmetry; apply (sp_small c ms mt lg g MG); lia|]);
    rewrite E in R; injection R as <- <-; lia.
Qed.

(** The current cell is not marked before its helper marks it. *)
Lemma cur_clean s r i :
  mkinv ct mk rg -> rg s = B1 r i false \/ rg s = B2 r i false -> sp i < stot ->
  ct (sp i) <> CEmpty -> mk (sp i) = false.
Proof.
  intros MK E L NE. destruct (mk (sp i)) eqn:M; auto. exfalso.
  assert (F : sfree r (i + 1)).
  { destruct E as [E|E]; [eapply sfree_ext1|eapply sfree_ext2]; eauto. }
  assert (RS : rstart (rg s) = Some r) by (destruct E as [E|E]; now rewrite E).
  assert (RI : r <= i).
  { pose proof (g_st _ _ _ _ _ _ _ GL s) as O. destruct E as [E|E]; rewrite E in O.
    - destruct O as (_ & O & _). lia.
    - destruct O as ((O1 & _) & O & _). lia. }
  destruct (MK _ L M) as [X|[P|(s' & r' & i' & E' & Q)]]; auto.
  - destruct E as [E|E]; [eapply cur1_not_proc; eauto|eapply cur2_not_proc; eauto].
  - assert (F' : sfree r' (i' + 1)).
    { destruct E' as [E'|E']; [eapply sfree_ext1; eauto|eapply sfree_ext2; eauto; congruence]. }
    assert (RS' : rstart (rg s') = Some r') by (destruct E' as [E'|E']; now rewrite E').
    assert (RI' : r' <= i').
    { pose proof (g_st _ _ _ _ _ _ _ GL s') as O. destruct E' as [E'|E']; rewrite E' in O.
      - destruct O as (_ & O & _). lia.
      - destruct O as ((O1 & _) & O & _). lia. }
    destruct (disjoint s s' r r' (i + 1) (i' + 1) i i') as [-> ->]; auto; try lia.
    destruct E, E'; congruence.
Qed.

(** Where the second loop can be. *)
Lemma pos_bound s r i fl :
  rg s = B2 r i fl -> sp i < stot /\ (cprob mc = false -> sp i <= cap + 301).
Proof.
  intros E. pose proof (g_st _ _ _ _ _ _ _ GL s) as O. rewrite E in O.
  destruct O as ((O1 & _) & O2 & _ & O3 & _).
  destruct (cprob mc) eqn:CP.
  - split; [|discriminate]. apply (remap_lt _ _ _ Hm). exact CP.
  - rewrite (stot_val c ms mt lg g MG), CP, (sp_val c ms mt lg g MG), CP.
    assert (i <= cap + 301); [|lia].
    destruct (N.le_gt_cases i (cap + 301)) as [|G]; auto. exfalso.
    pose proof (bend_le s).
    apply (O3 (i - 1)); [lia|]. rewrite (sp_val c ms mt lg g MG), CP.
    destruct (N.lt_ge_cases (i - 1) stot) as [L|L].
    + apply (ti_over _ _ _ _ _ (g_src _ _ _ _ _ _ _ GL) CP); auto.
      rewrite (addressable_val _ _ _ Hm). lia.
    + exfalso. apply (O3 (cap + 301)); [lia|]. rewrite (sp_val c ms mt lg g MG), CP.
      apply (ti_over _ _ _ _ _ (g_src _ _ _ _ _ _ _ GL) CP).
      * rewrite (addressable_val _ _ _ Hm). lia.
      * rewrite (stot_val c ms mt lg g MG), CP. lia.
Qed.

Lemma pos1_bound s r i fl : rg s = B1 r i fl -> sp i = i /\ i < stot /\ i < cap.
Proof.
  intros E. pose proof (g_st _ _ _ _ _ _ _ GL s) as O. rewrite E in O. destruct O as (_ & O & _).
  pose proof (bend_le s). split; [apply (sp_small c ms mt lg g MG); lia|].
  rewrite (stot_val c ms mt lg g MG). destruct (cprob mc); lia.
Qed.

(** The element at the current cell has its home inside the region. *)
Lemma home_in_region s r i fl k d :
  rg s = B1 r i fl \/ rg s = B2 r i fl -> sp i < stot -> ct (sp i) = CLive k d ->
  exists n, n + r <= i /\ sp (hm k + n) = sp i /\ prefix c ms ct k n.
Proof.
  intros E L C.
  destruct (ti_reach _ _ _ _ _ (g_src _ _ _ _ _ _ _ GL) _ _ _ L C) as (n & Q & P).
  exists n. sp; auto.
  assert (RS : rstart (rg s) = Some r) by (destruct E as [E|E]; now rewrite E).
  destruct (start_facts s r RS) as [(H & _ & [[H1 _]|[H1 H2]]) _].
  - destruct (N.le_gt_cases (n + r) i) as [|G]; auto. exfalso.
    assert (RI : r <= i).
    { pose proof (g_st _ _ _ _ _ _ _ GL s) as O. destruct E as [E|E]; rewrite E in O.
      - destruct O as (_ & O & _). lia.
      - destruct O as ((O1 & _) & O & _). lia. }
    pose proof (start_small _ _ RS) as SS.
    assert (Q' : sp (hm k + (n - (i - r))) = r).
    { replace (hm k + (n - (i - r))) with (hm k + n - (i - r)) by lia.
      rewrite (sp_sub c ms mt lg g MG (hm k + n) i (i - r)) by (auto; lia).
      replace (i - (i - r)) with r by lia. apply (sp_small c ms mt lg g MG). exact SS. }
    destruct (N.eq_dec i r) as [->|NE].
    + rewrite (sp_small c ms mt lg g MG r SS) in C. congruence.
    + destruct (P (n - (i - r)) ltac:(lia)) as [X _]. rewrite Q' in X. congruence.
  - subst r. rewrite !(sp_val c ms mt lg g MG), H1 in Q. lia.
Qed.

(** Probing in the target stays on the cells of the region. *)
Lemma probe_in_region s r i fl k d j n :
  rg s = B1 r i fl \/ rg s = B2 r i fl -> sp i < stot -> ct (sp i) = CLive k d ->
  n + r <= i -> sp (hm k + n) = sp i ->
  (forall j', j' < j -> tct (tp (th k + j')) <> CEmpty) ->
  off k j <= n.
Proof.
  intros E L C NR Q H. destruct (N.le_gt_cases (off k j) n) as [|G]; auto. exfalso.
  destruct (off_reach c mt g k j n G) as (j' & L' & O').
  apply (H j' L').
  assert (OW : owner (tp (th k + j')) = sp i).
  { rewrite (owner_probe c ms mt lg g MG), O'. exact Q. }
  eapply cur_free; eauto.
  (* the probed cell is inside the target *)
  destruct (cprob mc) eqn:CP.
  - apply (remap_lt _ _ _ Ht). exact CP.
  - rewrite (ttot_val c ms mt lg g MG), CP.
    destruct (N.lt_ge_cases (tp (th k + j')) (tcap + 1024)) as [|GE]; auto. exfalso.
    assert (LE : sp i <= cap + 301).
    { destruct E as [E|E].
      - destruct (pos1_bound _ _ _ _ E) as (-> & _ & ?). lia.
      - apply (pos_bound _ _ _ _ E). exact CP. }
    rewrite <- OW in LE. unfold MigrateGeo.owner in LE.
    destruct (mg_cfg _ _ _ _ _ MG) as [X|X]; [rewrite X in LE|congruence].
    assert (D : cap + 512 <= tp (th k + j') / 2 ^ g).
    { apply N.div_le_lower_bound; [apply N.pow_nonzero; lia|].
      rewrite (tcap_eq lg g) in GE.
      destruct (mg_g _ _ _ _ _ MG) as [Eg|Eg]; rewrite Eg in *;
        [change (2 ^ 0) with 1 in *|change (2 ^ 1) with 2 in *]; lia. }
    lia.
Qed.

End G.
End Inv.

Arguments g_src {c ms mt lg g B src tgt ctr ct mk tct rg} _.
Arguments g_tgt {c ms mt lg g B src tgt ctr ct mk tct rg} _.
Arguments g_tok {c ms mt lg g B src tgt ctr ct mk tct rg} _.
Arguments g_over {c ms mt lg g B src tgt ctr ct mk tct rg} _.
Arguments g_ctr {c ms mt lg g B src tgt ctr ct mk tct rg} _.
Arguments g_blk {c ms mt lg g B src tgt ctr ct mk tct rg} _.
Arguments g_all {c ms mt lg g B src tgt ctr ct mk tct rg} _.
Arguments g_st {c ms mt lg g B src tgt ctr ct mk tct rg} _.
Arguments g_sep {c ms mt lg g B src tgt ctr ct mk tct rg} _.
Arguments g_init {c ms mt lg g B src tgt ctr ct mk tct rg} _.
Arguments g_own {c ms mt lg g B src tgt ctr ct mk tct rg} _.
Arguments g_l1 {c ms mt lg g B src tgt ctr ct mk tct rg} _.
Arguments g_l2 {c ms mt lg g B src tgt ctr ct mk tct rg} _.
Arguments g_reach {c ms mt lg g B src tgt ctr ct mk tct rg} _.
Arguments block_unique {c ms mt lg g B} MG Hsc HB.
Arguments bend_le {c ms mt lg g B} MG Hsc HB.
Arguments bend_le {c ms mt lg g B} MG Hsc HB.
Arguments in_block {c ms mt lg g B} MG Hsc HB.
Arguments start_facts {c ms mt lg g B} MG Hsc HB {src tgt ctr ct mk tct rg} GL.
Arguments start_small {c ms mt lg g B} MG Hsc HB {src tgt ctr ct mk tct rg} GL.
Arguments start_unique {c ms mt lg g B} MG Hsc HB {src tgt ctr ct mk tct rg} GL.
Arguments disjoint {c ms mt lg g B} MG Hsc HB {src tgt ctr ct mk tct rg} GL.
Arguments sfree_extent {c ms mt lg g B} MG Hsc HB {src tgt ctr ct mk tct rg} GL.
Arguments sfree_sub {c ms mt lg g B} MG Hsc HB {src tgt ctr ct mk tct rg} GL.
Arguments sfree_ext2 {c ms mt lg g B} MG Hsc HB {src tgt ctr ct mk tct rg} GL.
Arguments sfree_ext1 {c ms mt lg g B} MG Hsc HB {src tgt ctr ct mk tct rg} GL.
Arguments region_extent {c ms mt lg g B} MG Hsc HB {src tgt ctr ct mk tct rg} GL.
Arguments cur1_not_proc {c ms mt lg g B} MG Hsc HB {src tgt ctr ct mk tct rg} GL.
Arguments cur2_not_proc {c ms mt lg g B} MG Hsc HB {src tgt ctr ct mk tct rg} GL.
Arguments cur_free {c ms mt lg g B} MG Hsc HB {src tgt ctr ct mk tct rg} GL.
Arguments ahead_free {c ms mt lg g B} MG Hsc HB {src tgt ctr ct mk tct rg} GL.
Arguments cur_clean {c ms mt lg g B} MG Hsc HB {src tgt ctr ct mk tct rg} GL.
Arguments pos_bound {c ms mt lg g B} MG Hsc HB {src tgt ctr ct mk tct rg} GL.
Arguments pos1_bound {c ms mt lg g B} MG Hsc HB {src tgt ctr ct mk tct rg} GL.
Arguments home_in_region {c ms mt lg g B} MG Hsc HB {src tgt ctr ct mk tct rg} GL.
Arguments probe_in_region {c ms mt lg g B} MG Hsc HB {src tgt ctr ct mk tct rg} GL.
