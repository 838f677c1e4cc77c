(** Facts about iteration and access through iterators. *)
From Coq Require Import NArith Bool List Lia Sorted.
From Verif Require Import Words Slot SlotFacts Mapper MapperFacts ReturnCode MapSpec LinSpec
  Base BaseInv BaseLin BaseExec BaseSolo TableSpec BaseFacts Migrate GrowSpec MigrateGeo GrowFacts
  Iter IterSpec.
Import ListNotations.
Open Scope N_scope.

Lemma nseq_app a n k : nseq a (n + k) = nseq a n ++ nseq (a + N.of_nat n) k.
Proof.
  revert a. induction n as [|n IH]; intros a; cbn [nseq Nat.add app].
  - now rewrite N.add_0_r.
  - rewrite IH. do 3 f_equal. lia.
Qed.

Lemma Forall2_impl {A B} (P Q : A -> B -> Prop) l l' :
  (forall x y, P x y -> Q x y) -> Forall2 P l l' -> Forall2 Q l l'.
Proof. intros H. induction 1; constructor; auto. Qed.

(** *** Walking over unmarked cells *)

Section Walk.
Context (c : tcfg) (m : mapper) (lg : N).
Context (Hsc : wf_scfg (tsc c)) (Hm : wf_mapper (tmc c) m lg).
Notation sc := (tsc c).
Notation tot := (total_slots (tmc c) m).
Context (t : mem) (ct : N -> content) (TI : tinv c m t ct (fun _ => false)).

(** The elements of one cell, of a list of cells, and the cells in use. *)
Definition els (p : N) : list (N * N) := match ct p with CLive k d => [(k, d)] | _ => [] end.
Definition use (p : N) : list N := match ct p with CLive _ _ => [p] | _ => [] end.
Definition part (a b : N) : list (N * N) := flat_map els (nseq a (N.to_nat (b - a))).

Lemma rd_cell p : p < tot -> rd c m t p = Some (enc sc (ct p) false).
Proof.
  intros L. unfold rd. destruct (N.ltb_spec p tot); [|lia]. apply TI. exact L.
Qed.

Lemma shown_cell p : p < tot ->
  shown c (enc sc (ct p) false) = match ct p with CLive _ _ => true | _ => false end.
Proof.
  intros L. destruct (ti_cell _ _ _ _ _ TI p L) as [_ O]. unfold shown.
  rewrite (enc_is_empty sc Hsc _ _ O), (enc_is_deleted_unmarked sc Hsc _ O).
  now destruct (ct p).
Qed.

Lemma scan_spec : forall n p copy, p + N.of_nat n <= tot ->
  match scan c m t n p copy with
  | SHit q x => p <= q < p + N.of_nat n /\ part p (p + N.of_nat n) = part q (p + N.of_nat n) /\
                exists k d, ct q = CLive k d /\ x = Slot k d
  | SEnd _ => part p (p + N.of_nat n) = []
  | SBad => False
  end.
Proof.
  induction n as [|n IH]; intros p copy B.
  - cbn [scan]. unfold part. rewrite N.add_0_r, N.sub_diag. reflexivity.
  - cbn [scan]. assert (L : p < tot) by lia. rewrite (rd_cell p L), (shown_cell p L).
    assert (ST : forall e, p < e -> part p e = els p ++ part (p + 1) e).
    { intros e He. unfold part. replace (N.to_nat (e - p)) with (S (N.to_nat (e - (p + 1)))) by lia.
      reflexivity. }
    specialize (IH (p + 1) (enc sc (ct p) false)).
    replace (p + N.of_nat (S n)) with (p + 1 + N.of_nat n) in * by lia.
    destruct (ct p) as [| |k d] eqn:E.
    3: { split; [lia|]. split; [reflexivity|]. exists k, d. auto. }
    all: specialize (IH B); rewrite ST by lia; unfold els; rewrite E; cbn [app];
      destruct (scan c m t n (p + 1) _) as [q x|x|]; auto;
      destruct IH as (IH1 & IH2); split; auto; lia.
Qed.

Lemma part_split a b e : a <= b -> b <= e -> part a e = part a b ++ part b e.
Proof.
  intros H1 H2. unfold part.
  replace (N.to_nat (e - a)) with (N.to_nat (b - a) + N.to_nat (e - b))%nat by lia.
  rewrite nseq_app, flat_map_app. do 3 f_equal. lia.
Qed.

Lemma part_cons p e : p < e -> part p e = els p ++ part (p + 1) e.
Proof.
  intros H. unfold part. replace (N.to_nat (e - p)) with (S (N.to_nat (e - (p + 1)))) by lia. reflexivity.
Qed.

Lemma part_nil a e : e <= a -> part a e = [].
Proof. intros H. unfold part. replace (e - a) with 0 by lia. reflexivity. Qed.

Lemma walk_from : forall n q e k d, (N.to_nat (e - q) <= n)%nat -> q < e -> e <= tot ->
  ct q = CLive k d ->
  walk c m t n (ItOk (Iter (Slot k d) (PCell q) (PCell e))) = Walked (part q e).
Proof.
  induction n as [|n IH]; intros q e k d H L B E; [lia|].
  cbn [walk]. replace (it_eqb _ it_end) with false by reflexivity.
  unfold it_next. cbn [it_ptr it_eptr it_copy].
  pose proof (scan_spec (N.to_nat (e - (q + 1))) (q + 1) (Slot k d)) as S.
  rewrite (part_cons q e L). unfold els at 1. rewrite E. cbn [app].
  destruct (N.eq_dec (q + 1) e) as [QE|NE].
  - subst e. rewrite N.sub_diag in *. cbn [N.to_nat scan].
    rewrite N.max_id, N.eqb_refl. rewrite part_nil by lia.
    destruct n; reflexivity.
  - assert (XX : N.of_nat (N.to_nat (e - (q + 1))) = e - (q + 1)) by lia. rewrite XX in S.
    replace (q + 1 + (e - (q + 1))) with e in S by lia. specialize (S B).
    destruct (scan c m t _ (q + 1) _) as [q' x|x|]; [| |contradiction].
    + destruct S as (S1 & S2 & k' & d' & S3 & ->). rewrite S2.
      rewrite (IH q' e k' d'); auto; lia.
    + rewrite S. destruct (N.eqb_spec (N.max (q + 1) e) e); [|lia].
      destruct n; reflexivity.
Qed.

Lemma walk_part a e n :
  e <= tot -> (N.to_nat (e - a) <= n)%nat ->
  walk c m t n
    match scan c m t (N.to_nat (e - a)) a empty_slot with
    | SHit p x => ItOk (Iter x (PCell p) (PCell e))
    | SEnd _ => ItOk it_end
    | SBad => ItBad
    end = Walked (part a e).
Proof.
  intros B H. destruct (N.le_gt_cases e a) as [G|L].
  - replace (e - a) with 0 by lia. cbn [N.to_nat scan]. rewrite part_nil by exact G. destruct n; reflexivity.
  - pose proof (scan_spec (N.to_nat (e - a)) a empty_slot) as S.
    rewrite N2Nat.id in S. replace (a + (e - a)) with e in S by lia. specialize (S B).
    destruct (scan c m t _ a _) as [q x|x|]; [| |contradiction].
    + destruct S as (S1 & S2 & k & d & E & ->). rewrite S2. apply walk_from; auto; lia.
    + rewrite S. destruct n; reflexivity.
Qed.

Lemma walk_begin n : (N.to_nat tot <= n)%nat -> walk c m t n (it_begin c m t) = Walked (part 0 tot).
Proof.
  intros H. pose proof (walk_part 0 tot n (N.le_refl _)) as W.
  rewrite N.sub_0_r in W. specialize (W H). exact W.
Qed.

Lemma walk_range n a b : (N.to_nat tot <= n)%nat ->
  walk c m t n (it_range c m t a b) = Walked (part a (N.min b tot)).
Proof. intros H. apply walk_part; lia. Qed.

(** A finished walk does not depend on the number of rounds allowed. *)
Lemma walk_more : forall n n' r l, walk c m t n r = Walked l -> (n <= n')%nat ->
  walk c m t n' r = Walked l.
Proof.
  induction n as [|n IH]; intros n' r l W H.
  - destruct r as [it|]; cbn in W; [|discriminate].
    destruct (it_eqb it it_end) eqn:E; [|discriminate]. destruct n'; cbn; rewrite E; exact W.
  - destruct n' as [|n']; [lia|]. destruct r as [it|]; cbn [walk] in *; [|discriminate].
    destruct (it_eqb it it_end); auto.
    destruct (walk c m t n (it_next c m t it)) as [l0|l0|] eqn:W0; cbn in W; try discriminate.
    rewrite (IH n' _ _ W0) by lia. exact W.
Qed.

Lemma walk_det n n' r l l' : walk c m t n r = Walked l -> walk c m t n' r = Walked l' -> l = l'.
Proof.
  intros W W'. assert ((n <= n')%nat \/ (n' <= n)%nat) as [H|H] by lia.
  - rewrite (walk_more _ _ _ _ W H) in W'. congruence.
  - rewrite (walk_more _ _ _ _ W' H) in W. congruence.
Qed.

Lemma in_part a e k d : In (k, d) (part a e) <-> exists p, a <= p < e /\ ct p = CLive k d.
Proof.
  unfold part. rewrite in_flat_map. split.
  - intros (p & Ip & E). apply in_nseq_N in Ip. unfold els in E.
    destruct (ct p) as [| |k' d'] eqn:Ep; cbn in E; try contradiction.
    destruct E as [[= -> ->]|[]]. exists p. split; [lia|auto].
  - intros (p & L & E). exists p. split; [apply in_nseq_N; lia|]. unfold els. rewrite E. now left.
Qed.

Lemma use_sorted n : forall a, StronglySorted N.lt (flat_map use (nseq a n)) /\
  Forall (fun p => a <= p) (flat_map use (nseq a n)).
Proof.
  induction n as [|n IH]; intros a; cbn [nseq flat_map]; [split; constructor|].
  destruct (IH (a + 1)) as [S F].
  assert (F' : Forall (fun p => a <= p) (flat_map use (nseq (a + 1) n))).
  { eapply Forall_impl; [|exact F]. cbn. intros; lia. }
  unfold use at 1 3. destruct (ct a); cbn [app]; split; auto.
  - constructor; auto. eapply Forall_impl; [|exact F]. cbn. intros; lia.
  - constructor; auto. lia.
Qed.

Lemma use_part n a :
  Forall2 (fun p kd => a <= p < a + N.of_nat n /\ ct p = CLive (fst kd) (snd kd))
    (flat_map use (nseq a n)) (flat_map els (nseq a n)).
Proof.
  revert a. induction n as [|n IH]; intros a; cbn [nseq flat_map]; [constructor|].
  assert (F : Forall2 (fun p kd => a <= p < a + N.of_nat (S n) /\ ct p = CLive (fst kd) (snd kd))
    (flat_map use (nseq (a + 1) n)) (flat_map els (nseq (a + 1) n))).
  { eapply Forall2_impl; [|apply IH]. cbn. intros p kd (L & E). split; [lia|auto]. }
  unfold use at 1, els at 1. destruct (ct a) eqn:E; cbn [app]; auto.
  constructor; auto. cbn. split; [lia|auto].
Qed.

End Walk.

(** *** Returned iterators *)

Section Ret.
Context (c : tcfg) (m : mapper) (lg : N).
Context (Hsc : wf_scfg (tsc c)) (Hm : wf_mapper (tmc c) m lg).
Notation sc := (tsc c).
Notation mc := (tmc c).
Notation tot := (total_slots mc m).
Notation rmp := (remap mc m).

(** What a return value that carries a position shows. *)
Definition ret_ok (o : op) (r : bret) : Prop :=
  match rpos r with
  | None => True
  | Some p =>
      p < tot /\
      ((exists k d, o = OInsert k d /\ rcode r = RC_SUCCESS_IN /\ rslot r = empty_slot) \/
       (exists k d f, o = OIou k d f /\ rcode r = RC_SUCCESS_IN /\ rslot r = Slot k d) \/
       (updating o /\ rcode r = RC_SUCCESS_UP /\ skey (rslot r) = op_key o) \/
       (exists k d, o = OInsert k d /\ rcode r = RC_ALREADY_USED /\ skey (rslot r) = k) \/
       (exists k, o = OFind k /\ (skey (rslot r) = k \/
          sc_mark sc = true /\ is_marked sc (rslot r) = true /\ skey (rslot r) = k + 2 ^ (sc_w sc - 1))))
  end.

(** The cell it designates. *)
Definition ret_cell (t : mem) (o : op) (r : bret) : Prop :=
  match rpos r with
  | None => True
  | Some p => exists x, t p = Some x /\ compare_key sc x (op_key o) = true /\
      (forall k d, o = OInsert k d ->
         (rcode r = RC_SUCCESS_IN /\ rslot r = empty_slot /\ x = Slot k d) \/ rslot r = x)
  end.

Lemma empty_enc : enc sc CEmpty false = empty_slot.
Proof. reflexivity. Qed.

Lemma live_compare k d : valid_key sc k -> compare_key sc (Slot k d) k = true.
Proof.
  intros V. change (Slot k d) with (enc sc (CLive k d) false).
  rewrite enc_compare_key; auto; [apply N.eqb_refl|]. split; [discriminate|exact V].
Qed.

Lemma bstep_shows t ct mk o pc b t' r :
  tinv c m t ct mk -> op_ok sc o -> thr_inv c m ct o pc -> (forall r, pc <> PDone r) ->
  bstep c m t b o pc = (t', PDone r) -> ret_ok o r /\ ret_cell t' o r.
Proof.
  intros I [V F] T ND ST.
  assert (KK : forall n, prefix c m ct (op_key o) n ->
    rd c m t (rmp (home c m (op_key o) + n)) =
      Some (enc sc (ct (rmp (home c m (op_key o) + n))) (mk (rmp (home c m (op_key o) + n)))) /\
    rmp (home c m (op_key o) + n) < tot /\
    ok_content sc (ct (rmp (home c m (op_key o) + n))) (mk (rmp (home c m (op_key o) + n)))).
  { intros n P. apply (rd_tinv c m lg Hm _ _ _ _ _ I P). }
  destruct pc as [i|i s|i s|i s|r0|]; [| | | |now elim (ND r0)|contradiction].
  - destruct T as (n & -> & P). cbn [bstep] in ST. destruct (KK n P) as (R & L & O). rewrite R in ST.
    set (p := rmp (home c m (op_key o) + n)) in *. injection ST as <- E.
    apply rd_mem in R.
    assert (KEY : compare_key sc (enc sc (ct p) (mk p)) (op_key o) = true ->
       exists d, ct p = CLive (op_key o) d).
    { intros Q. rewrite (enc_compare_key sc Hsc _ _ _ O V) in Q.
      destruct (ct p) as [| |k' d']; try discriminate. apply N.eqb_eq in Q as ->. eauto. }
    destruct o as [k d|k|k f|k f|k d f|k|k d]; cbn [after_load op_key] in E, KEY.
    (* insert *)
    + destruct (is_marked sc _) eqn:MK; [injection E as <-; split; exact Logic.I|].
      destruct (is_empty sc _); [destruct (_ && _); [injection E as <-; split; exact Logic.I|discriminate]|].
      destruct (compare_key sc _ k) eqn:Q; [|discriminate]. injection E as <-.
      destruct (KEY eq_refl) as [d' Ed]. rewrite (enc_is_marked sc Hsc _ _ O) in MK.
      split.
      * split; [exact L|]. do 3 right. left. exists k, d. sp; auto. cbn [rslot]. now rewrite Ed, MK.
      * exists (enc sc (ct p) (mk p)). sp; auto.
    (* find *)
    + destruct (is_empty sc _); [injection E as <-; split; exact Logic.I|].
      destruct (compare_key sc _ k) eqn:Q; [|discriminate]. injection E as <-.
      destruct (KEY eq_refl) as [d' Ed]. split.
      * split; [exact L|]. do 4 right. exists k. split; auto. cbn [rslot].
        destruct (mk p) eqn:MK.
        -- right. rewrite (enc_is_marked sc Hsc _ _ O). rewrite (key_enc_marked sc Hsc _ O).
           destruct O as [O _]. sp; auto. rewrite Ed. reflexivity.
        -- left. now rewrite Ed.
      * exists (enc sc (ct p) (mk p)). sp; auto; discriminate.
    + destruct (is_marked sc _) eqn:MK; [injection E as <-; split; exact Logic.I|].
      destruct (is_empty sc _); [injection E as <-; split; exact Logic.I|].
      destruct (compare_key sc _ k) eqn:Q; discriminate.
    + destruct (is_marked sc _) eqn:MK; [injection E as <-; split; exact Logic.I|].
      destruct (is_empty sc _); [injection E as <-; split; exact Logic.I|].
      destruct (compare_key sc _ k) eqn:Q; discriminate.
    + destruct (is_marked sc _) eqn:MK; [injection E as <-; split; exact Logic.I|].
      destruct (is_empty sc _); [destruct (_ && _); [injection E as <-; split; exact Logic.I|discriminate]|].
      destruct (compare_key sc _ k) eqn:Q; discriminate.
    + destruct (is_marked sc _) eqn:MK; [injection E as <-; split; exact Logic.I|].
      destruct (is_empty sc _); [injection E as <-; split; exact Logic.I|].
      destruct (compare_key sc _ k) eqn:Q; discriminate.
    + destruct (is_marked sc _) eqn:MK; [injection E as <-; split; exact Logic.I|].
      destruct (is_empty sc _); [injection E as <-; split; exact Logic.I|].
      destruct (compare_key sc _ k) eqn:Q; [|discriminate].
      destruct (_ =? d); [discriminate|injection E as <-; split; exact Logic.I].
  - destruct T as (n & d & -> & P & Ec & Es & _ & SO). destruct (KK n P) as (R & L & O).
    cbn [bstep] in ST. rewrite R in ST. set (p := rmp (home c m (op_key o) + n)) in *.
    unfold cas in ST. destruct (slot_eqb _ s) eqn:Q; [|discriminate].
    injection ST as <- <-. rewrite Es.
    assert (EX : s = empty_slot) by (rewrite Ec; reflexivity).
    destruct o as [k d0|k|k f|k f|k d0 f|k|k d0]; cbn in Es;
      try (exfalso; destruct SO as [? [SO|(? & ? & SO)]]; discriminate).
    + injection Es as ->. split.
      * split; [exact L|]. left. exists k, d. sp; auto.
      * exists (Slot k d). cbn [rpos op_key]. rewrite fupd_eq. sp; auto; [now apply live_compare|].
        intros k' d' [= <- <-]. left. auto.
    + injection Es as ->. split.
      * split; [exact L|]. right. left. exists k, d, f. sp; auto.
      * exists (Slot k d). cbn [rpos op_key]. rewrite fupd_eq. sp; auto; try discriminate; now apply live_compare.
  - destruct T as (n & d & -> & P & Ec & U & SM). destruct (KK n P) as (R & L & O).
    cbn [bstep] in ST. rewrite R in ST. set (p := rmp (home c m (op_key o) + n)) in *.
    assert (UP : updating o) by (destruct o; try contradiction; exact Logic.I).
    assert (NI : forall k d, o <> OInsert k d) by (destruct o; try contradiction; discriminate).
    assert (KC : skey s = op_key o) by (rewrite Ec; reflexivity).
    assert (KG : get_key sc s = op_key o).
    { rewrite Ec, (enc_get_key sc Hsc); [reflexivity|]. split; [discriminate|exact V]. }
    assert (BO : forall t0 r1, (match o with OUpdateB _ _ => if b then PLoad (home c m (op_key o) + n)
                 else PDone (ret_end RC_BACKOFF) | _ => PLoad (home c m (op_key o) + n) end) = PDone r1 ->
              ret_ok o r1 /\ ret_cell t0 o r1).
    { intros t0 r1 E. destruct o; try discriminate. destruct b; [discriminate|].
      injection E as <-. split; exact Logic.I. }
    unfold atomic_update in ST. destruct (sc_mark sc) eqn:M.
    + unfold cas in ST. destruct (slot_eqb _ s) eqn:Q; injection ST as <- E; [|now apply BO].
      subst r. split.
      * split; [exact L|]. right. right. left. sp; auto.
      * exists (Slot (skey s) (fn (op_fun o) (sdata s))). cbn [rpos]. rewrite fupd_eq. sp; auto.
        all: try (rewrite KC; now apply live_compare).
        all: intros k' d' E; now elim (NI k' d').
    + destruct (SM eq_refl) as [d' E'].
      assert (EM : mk p = false) by (destruct (mk p); auto; destruct O as [O _]; now rewrite O in M).
      assert (CELL : enc sc (ct p) (mk p) = Slot (op_key o) d') by (rewrite E', EM; reflexivity).
      rewrite CELL in ST.
      destruct (fat (op_fun o)) as [g|].
      * cbn [sdata] in ST. destruct (g d') as [x y]. injection ST as <- <-. split.
        -- split; [exact L|]. right. right. left. sp; auto.
        -- exists (Slot (op_key o) x). cbn [rpos]. rewrite fupd_eq. sp; auto; try (now apply live_compare).
           all: intros k0 d0 E; now elim (NI k0 d0).
      * destruct (_ =? _); injection ST as <- E; [|now apply BO]. subst r. split.
        -- split; [exact L|]. right. right. left. sp; auto.
        -- exists (Slot (op_key o) (fn (op_fun o) (sdata s))). cbn [rpos]. rewrite fupd_eq. sp; auto; try (now apply live_compare).
           all: intros k0 d0 E; now elim (NI k0 d0).
  - destruct T as (n & d & -> & P & Ec & SO). destruct (KK n P) as (R & L & O).
    cbn [bstep] in ST. rewrite R in ST. unfold atomic_delete, cas in ST.
    destruct (slot_eqb _ s); [|discriminate]. injection ST as <- <-. split; exact Logic.I.
Qed.

(** All answers along a trace. *)
Definition rets_ok (s : bsys) : Prop :=
  forall tid o r, bthr s tid = Some (o, PDone r) -> ret_ok o r.

Lemma rets_step client s x l s' :
  client_ok sc client -> sys_rel c m client s x -> rets_ok s -> bsys_step c m client s l s' -> rets_ok s'.
Proof.
  intros [CO CM] (ct & mk & I & A & T) RO ST tid' o' r'.
  destruct ST as [t th tid o E CL|t th tid o pc b t' pc' E ND ST|t th p s0 M L E|t th tid o r E];
    cbn [bthr bmem] in *; try (apply RO).
  - unfold fupd. destruct (tid' =? tid); [intros [=]|apply RO].
  - unfold fupd. destruct (tid' =? tid); [|apply RO]. intros [= -> ->].
    specialize (T tid). rewrite E in T. destruct T as (CL & TI & _).
    eapply bstep_shows in ST; eauto. apply ST.
  - unfold fupd. destruct (tid' =? tid); [discriminate|apply RO].
Qed.

Lemma rets_trace client s x tr s' :
  client_ok sc client -> sys_rel c m client s x -> rets_ok s ->
  lts_steps (bsys_step c m client) s tr s' -> rets_ok s'.
Proof.
  intros CO R RO ST. revert x R RO.
  induction ST as [s|s s1 s2 tr S ST IH|s e s1 s2 tr S ST IH]; intros x R RO; auto.
  - destruct (sim c m lg Hsc Hm client s x None s1 CO R S) as (x1 & _ & R1).
    apply (IH x1 R1). eapply rets_step; [exact CO|exact R|exact RO|exact S].
  - destruct (sim c m lg Hsc Hm client s x (Some e) s1 CO R S) as (x1 & _ & R1).
    apply (IH x1 R1). eapply rets_step; [exact CO|exact R|exact RO|exact S].
Qed.

(** *** One call at a time *)

Lemma solo_sound : forall n a t ct mk o pc t' r,
  tinv c m t ct mk -> absr c m ct a -> op_ok sc o -> thr_inv c m ct o pc -> (forall r, pc <> PDone r) ->
  solo c m n t o pc = (t', PDone r) ->
  exists ct' a', tinv c m t' ct' mk /\ absr c m ct' a' /\
    mspec (sc_mark sc) (negb (cprob mc)) a (spec_op sc o) a' (obs o r) /\
    ret_ok o r /\ ret_cell t' o r.
Proof.
  induction n as [|n IH]; intros a t ct mk o pc t' r I A O T ND S; cbn [solo] in S.
  - injection S as <- ->. now elim (ND r).
  - destruct (bstep c m t true o pc) as [t1 pc1] eqn:ST.
    destruct (bstep_ok c m lg Hsc Hm a t ct mk o pc true t1 pc1 I A O T ND ST)
      as (ct1 & I1 & T1 & _ & [(r1 & a1 & -> & SP & A1)|(ND1 & A1)]).
    + assert (SD : forall k, solo c m k t1 o (PDone r1) = (t1, PDone r1)) by (induction k; cbn; auto).
      rewrite SD in S. injection S as <- <-. pose proof (bstep_shows t ct mk o pc true t1 r1 I O T ND ST) as [B1 B2]. exists ct1, a1. sp; auto.
    + eapply IH; eauto.
Qed.

Lemma start_inv ct o : thr_inv c m ct o (start c m o).
Proof. exists 0. split; [lia|]. intros j Hj. lia. Qed.

Lemma live_of_compare ct mk (t : mem) p x k :
  tinv c m t ct mk -> p < tot -> t p = Some x -> compare_key sc x k = true -> valid_key sc k ->
  exists d, ct p = CLive k d /\ x = enc sc (CLive k d) (mk p).
Proof.
  intros I L E Q V. destruct (ti_cell _ _ _ _ _ I p L) as [E' O].
  assert (X : x = enc sc (ct p) (mk p)) by congruence. rewrite X in Q.
  rewrite (enc_compare_key sc Hsc _ _ _ O V) in Q.
  destruct (ct p) as [| |k' d']; try discriminate. apply N.eqb_eq in Q as ->. exists d'. rewrite X. auto.
Qed.

(** Writing a value over an element. *)
Lemma value_write t ct (a : amap) p k d v :
  tinv c m t ct (fun _ => false) -> absr c m ct a -> p < tot -> ct p = CLive k d ->
  valid_key sc k ->
  tinv c m (fupd t p (Some (Slot k v))) (fupd ct p (CLive k v)) (fun _ => false) /\
  absr c m (fupd ct p (CLive k v)) (fupd a k (Some v)).
Proof.
  intros I A L E V. split.
  - change (Slot k v) with (enc sc (CLive k v) ((fun _ : N => false) p)).
    apply (tinv_write c m t ct (fun _ => false)); auto.
    + rewrite E. constructor.
    + split; [discriminate|exact V].
    + rewrite E. discriminate.
    + rewrite E. discriminate.
  - eapply absr_update; eauto.
Qed.

Lemma index_assign_sound n t ct a k v t2 :
  tinv c m t ct (fun _ => false) -> absr c m ct a -> valid_key sc k ->
  index_assign c m n t k v = Some t2 ->
  exists ct2, tinv c m t2 ct2 (fun _ => false) /\
    absr c m ct2 (fupd a k (Some (if sc_mark sc then match a k with Some _ => v | None => 0 end else v))).
Proof.
  intros I A V. unfold index_assign.
  destruct (solo c m n t (OInsert k 0) (start c m (OInsert k 0))) as [t1 pc] eqn:S.
  destruct pc as [i|i s|i s|i s|r|]; try discriminate.
  destruct (rpos r) as [p|] eqn:RP; [|discriminate]. intros E.
  destruct (solo_sound n a t ct _ (OInsert k 0) (start c m (OInsert k 0)) t1 r I A) as (ct1 & a1 & I1 & A1 & SP & RO & RC); auto.
  { split; [exact V|]. intros g x. discriminate. }
  { apply start_inv. }
  { discriminate. }
  unfold ret_ok in RO. rewrite RP in RO. destruct RO as [L RO].
  unfold ret_cell in RC. rewrite RP in RC. destruct RC as (x & Ex & Q & RC). cbn [op_key] in Q.
  destruct (live_of_compare ct1 _ t1 p x k I1 L Ex Q V) as (d & Ed & Xd). cbn in Xd.
  assert (RD : rd c m t1 p = Some x).
  { unfold rd. destruct (N.ltb_spec p tot); [auto|lia]. }
  (* the map after the insertion *)
  assert (AK : a1 k = Some d) by (apply A1; eauto).
  assert (A1E : forall k', k' <> k -> a1 k' = a k').
  { intros k' NE. cbn [spec_op] in SP. inversion SP; subst; auto. now rewrite fupd_neq. }
  unfold ref_assign in E. rewrite RD in E. cbn [option_map] in E.
  assert (GO : forall w ct2, absr c m ct2 (fupd a1 k (Some w)) -> absr c m ct2 (fupd a k (Some w))).
  { intros w ct2 A2 k' d'. rewrite <- (A2 k' d'). unfold fupd.
    destruct (N.eqb_spec k' k); [reflexivity|]. now rewrite A1E. }
  unfold atomic_update, cas in E. destruct (sc_mark sc) eqn:M.
  - destruct (slot_eqb x (rslot r)) eqn:SE.
    + (* the copy shows the cell *)
      apply slot_eqb_eq in SE. injection E as <-. rewrite <- SE. rewrite Xd. cbn [skey overwrite fn enc].
      destruct (value_write t1 ct1 a1 p k d v I1 A1 L Ed V) as [I2 A2].
      eexists. split; [exact I2|]. apply GO.
      replace (match a k with Some _ => v | None => 0 end) with v; [exact A2|].
      destruct (RC k 0 eq_refl) as [(_ & R2 & X2)|R2].
      * exfalso. rewrite SE, R2 in X2. unfold empty_slot in X2. injection X2 as <-.
        destruct V as (_ & V & _). elim V. apply N.mod_0_l. pose proof (mbit_pos sc Hsc). unfold mbit in *; lia.
      * destruct RO as [(k0 & d0 & E0 & C0 & R0)|[(k0 & d0 & f0 & E0 & _)|[(U & _)|[(k0 & d0 & E0 & C0 & R0)|(k0 & E0 & _)]]]];
          try discriminate; try contradiction.
        -- rewrite R0 in R2. rewrite Xd in R2. unfold empty_slot in R2. injection R2 as <- <-.
           destruct V as (_ & V & _). elim V. apply N.mod_0_l. pose proof (mbit_pos sc Hsc). unfold mbit in *; lia.
        -- destruct (a k) eqn:AK0; auto. exfalso. cbn [spec_op] in SP. unfold obs in SP. rewrite C0 in SP.
           cbn in SP. inversion SP; subst; congruence.
    + injection E as <-.
      destruct (RC k 0 eq_refl) as [(C0 & R2 & X2)|R2];
        [|rewrite R2, slot_eqb_refl in SE; discriminate].
      rewrite Xd in X2. cbn [enc] in X2. injection X2 as ->.
      assert (AN : a k = None).
      { cbn [spec_op] in SP. unfold obs in SP. rewrite C0 in SP. cbn in SP. inversion SP; subst; auto. }
      rewrite AN. exists ct1. split; [now apply tinv_same|]. apply GO.
      intros k' d'. rewrite <- (A1 k' d'). unfold fupd. destruct (N.eqb_spec k' k) as [->|]; [|reflexivity].
      rewrite AK. reflexivity.
  - cbn [overwrite fat] in E.
    destruct (value_write t1 ct1 a1 p k d v I1 A1 L Ed V) as [I2 A2].
    destruct (slot_eqb x (rslot r)); injection E as <-; rewrite Xd; cbn [skey enc];
      (eexists; split; [exact I2|]; now apply GO).
Qed.

End Ret.

(** *** Calls through iterators *)

Section ISys.
Context (c : tcfg) (m : mapper) (lg : N).
Context (Hsc : wf_scfg (tsc c)) (Hm : wf_mapper (tmc c) m lg).
Notation sc := (tsc c).
Notation mc := (tmc c).
Notation tot := (total_slots mc m).
Notation spec := (mspec (sc_mark sc) (negb (cprob mc))).
Notation xspec := (ispec (sc_mark sc) (negb (cprob mc))).

Context (client : op -> Prop) (iclient : icall -> Prop).
Context (CO : client_ok sc client).
Context (IO : forall o, iclient o -> valid_key sc (icall_key o)).
Context (IM : sc_mark sc = true \/
   ((forall o, client o -> ~ is_erase o) /\ (forall k d, ~ iclient (IEraseIf k d))) \/
   (forall o, client o -> ~ is_update o)).

Definition lift_stat (x : astat mop mres) : astat (mop + icall) (mres + bool) :=
  match x with AIdle => AIdle | APend o => APend (inl o) | ADone r => ADone (inl r) end.

(** The atomic object's threads: a call on the table or one through an iterator. *)
Definition isys_rel (s : isys) (y : aobj amap (mop + icall) (mres + bool)) : Prop :=
  exists x, sys_rel c m client (ibase s) x /\ ast x = ast y /\
  forall tid, match iths s tid with
              | None => ath y tid = lift_stat (ath x tid)
              | Some (IThr call p w dn) =>
                  bthr (ibase s) tid = None /\ iclient call /\ p < tot /\
                  w = (match call with IExchange k d _ | IEraseIf k d => Slot k d end) /\
                  ath y tid = match dn with None => APend (inr call) | Some r => ADone (inr r) end
              end.

Lemma lift_astep x l x' y (th : N -> option ithr) :
  astep spec x l x' -> ast x = ast y ->
  (forall tid, th tid = None -> ath y tid = lift_stat (ath x tid)) ->
  (forall tid, th tid <> None -> ath x tid = AIdle) ->
  (forall t o, l = Some (EInv t o) -> th t = None) ->
  exists y', astep xspec y (option_map lift_event l) y' /\ ast x' = ast y' /\
    (forall tid, th tid = None -> ath y' tid = lift_stat (ath x' tid)) /\
    (forall tid, th tid <> None -> ath y' tid = ath y tid /\ ath x' tid = AIdle).
Proof.
  intros ST EA H1 H2 H3. destruct y as [a thy]. cbn in *.
  destruct ST as [s thx t o E|s thx t o s' r E SP|s thx t r E]; cbn in *; subst a.
  - specialize (H3 t o eq_refl). pose proof (H1 t H3) as Y. rewrite E in Y. cbn in Y.
    exists (AObj s (fupd thy t (APend (inl o)))). cbn. sp; auto.
    + now constructor.
    + intros u Hu. destruct (N.eq_dec u t) as [->|NE].
      * rewrite !fupd_eq. reflexivity.
      * rewrite !fupd_neq by exact NE. auto.
    + intros u Hu. assert (u <> t) by congruence. rewrite !fupd_neq by assumption. auto.
  - assert (TH : th t = None) by (destruct (th t) eqn:Q; auto; rewrite (H2 t) in E; congruence).
    pose proof (H1 t TH) as Y. rewrite E in Y. cbn in Y.
    exists (AObj s' (fupd thy t (ADone (inl r)))). cbn. sp; auto.
    + eapply a_lin; [exact Y|]. exact SP.
    + intros u Hu. destruct (N.eq_dec u t) as [->|NE].
      * rewrite !fupd_eq. reflexivity.
      * rewrite !fupd_neq by exact NE. auto.
    + intros u Hu. assert (u <> t) by congruence. rewrite !fupd_neq by assumption. auto.
  - assert (TH : th t = None) by (destruct (th t) eqn:Q; auto; rewrite (H2 t) in E; congruence).
    pose proof (H1 t TH) as Y. rewrite E in Y. cbn in Y.
    exists (AObj s (fupd thy t AIdle)). cbn. sp; auto.
    + now apply a_ret.
    + intros u Hu. destruct (N.eq_dec u t) as [->|NE].
      * rewrite !fupd_eq. reflexivity.
      * rewrite !fupd_neq by exact NE. auto.
    + intros u Hu. assert (u <> t) by congruence. rewrite !fupd_neq by assumption. auto.
Qed.

Lemma lift_asteps (th : N -> option ithr) x tr x' :
  asteps spec x tr x' -> forall y, ast x = ast y ->
  (forall tid, th tid = None -> ath y tid = lift_stat (ath x tid)) ->
  (forall tid, th tid <> None -> ath x tid = AIdle) ->
  (forall t o, In (EInv t o) tr -> th t = None) ->
  exists y', asteps xspec y (map lift_event tr) y' /\ ast x' = ast y' /\
    (forall tid, th tid = None -> ath y' tid = lift_stat (ath x' tid)) /\
    (forall tid, th tid <> None -> ath y' tid = ath y tid).
Proof.
  induction 1 as [a|a b d tr S ST IH|a e b d tr S ST IH]; intros y EA H1 H2 H3.
  - exists y. sp; auto. apply as_nil.
  - destruct (lift_astep a None b y th S EA H1 H2) as (y1 & S1 & E1 & A1 & B1); [discriminate|].
    destruct (IH y1 E1 A1) as (y2 & S2 & E2 & A2 & B2); auto; [intros u Hu; now apply B1|].
    exists y2. sp; auto; [eapply as_tau; eauto|]. intros u Hu. rewrite B2 by exact Hu. now apply B1.
  - destruct (lift_astep a (Some e) b y th S EA H1 H2) as (y1 & S1 & E1 & A1 & B1).
    { intros t o [= ->]. apply (H3 t o). now left. }
    destruct (IH y1 E1 A1) as (y2 & S2 & E2 & A2 & B2); auto;
      [intros u Hu; now apply B1|intros t o Ho; apply (H3 t o); now right|].
    exists y2. sp; auto; [cbn [map]; eapply as_vis; eauto|]. intros u Hu. rewrite B2 by exact Hu. now apply B1.
Qed.

(** A compare-and-swap on a whole cell. *)
Lemma cell_cas t ct mk (a : amap) p k d v t' r goal :
  tinv c m t ct mk -> absr c m ct a -> p < tot -> valid_key sc k ->
  (v = CTomb /\ goal = deleted_slot sc \/ exists d', v = CLive k d' /\ goal = Slot k d') ->
  (forall x b, rd c m t p = Some x -> cas sc x (Slot k d) goal = b ->
     t' = fupd t p (Some (snd (fst b))) /\ r = fst (fst b)) ->
  (r = true /\ ct p = CLive k d /\ a k = Some d /\ tinv c m t' (fupd ct p v) mk /\
     absr c m (fupd ct p v) (fupd a k (match v with CLive _ d' => Some d' | _ => None end)) /\
     trans (ct p) v) \/
  (r = false /\ tinv c m t' ct mk).
Proof.
  intros I A L V G H.
  destruct (ti_cell _ _ _ _ _ I p L) as [E O].
  assert (RD : rd c m t p = Some (enc sc (ct p) (mk p))).
  { unfold rd. destruct (N.ltb_spec p tot); [auto|lia]. }
  destruct (H _ _ RD eq_refl) as [-> ->]. clear H.
  unfold cas. destruct (slot_eqb _ _) eqn:Q; cbn [fst snd].
  - left. apply slot_eqb_eq in Q.
    assert (OE : ok_content sc (CLive k d) false) by (split; [discriminate|exact V]).
    destruct (enc_inj sc Hsc _ _ _ _ O OE Q) as [E1 EM].
    sp; auto.
    + eapply live_present; eauto.
    + destruct G as [[-> ->]|(d' & -> & ->)].
      * replace (deleted_slot sc) with (enc sc CTomb (mk p)) by (rewrite EM; reflexivity).
        apply tinv_write; auto.
        -- rewrite E1; constructor.
        -- rewrite EM. split; [discriminate|exact Logic.I].
        -- rewrite E1. discriminate.
        -- rewrite E1. discriminate.
      * replace (Slot k d') with (enc sc (CLive k d') (mk p)) by (rewrite EM; reflexivity).
        apply tinv_write; auto.
        -- rewrite E1; constructor.
        -- rewrite EM. split; [discriminate|exact V].
        -- rewrite E1. discriminate.
        -- rewrite E1. discriminate.
    + destruct G as [[-> ->]|(d' & -> & ->)].
      * eapply absr_delete; eauto.
      * eapply absr_update; eauto.
    + rewrite E1. destruct G as [[-> ->]|(d' & -> & ->)]; constructor.
  - right. split; auto. now apply tinv_same.
Qed.

Lemma isim s y l s' :
  isys_rel s y -> isys_step c m client iclient s l s' ->
  exists y', asteps xspec y (match l with Some e => [e] | None => [] end) y' /\ isys_rel s' y'.
Proof.
  intros (x & R & EA & T) ST.
  destruct ST as [b b' e th S NE|b th tid call p w TN BN IC EW L|b th tid call p w t' r TH EF|b th tid call p w r TH];
    cbn [ibase iths] in *.
  - destruct (sim c m lg Hsc Hm client b x e b' CO R S) as (x' & A & R').
    assert (IDLE : forall u, th u <> None -> ath x u = AIdle).
    { intros u Hu. specialize (T u). destruct (th u) as [[call p w dn]|]; [|congruence].
      destruct T as (BN & _). destruct R as (ct & mk & _ & _ & T'). specialize (T' u). rewrite BN in T'. exact T'. }
    assert (BNN : forall u, th u <> None -> bthr b' u = None).
    { intros u Hu. specialize (T u). destruct (th u) as [[call p w dn]|] eqn:TU; [|congruence].
      destruct T as (BN & _). destruct S as [t th0 tid o E0 CL|t th0 tid o pc bb t0 pc' E0 ND ST|t th0 q s0 M L0 E0|t th0 tid o r E0];
        cbn [bthr] in *; auto.
      - specialize (NE tid _ eq_refl). rewrite fupd_neq; auto. intros ->. congruence.
      - rewrite fupd_neq; auto. intros ->. congruence.
      - unfold fupd. destruct (u =? tid); auto. }
    destruct (lift_asteps th x _ x' A y EA) as (y' & A' & E' & T1 & T2); auto.
    { intros u Hu. specialize (T u). now rewrite Hu in T. }
    { intros t o Ho. destruct e as [e|]; cbn in Ho; [|contradiction]. destruct Ho as [->|[]]. eauto. }
    exists y'. split.
    { destruct e; exact A'. }
    exists x'. cbn [ibase iths]. sp; auto. intros u. specialize (T u). specialize (T1 u). specialize (T2 u).
    destruct (th u) as [[call p w dn]|] eqn:TU; [|now apply T1].
    destruct T as (BN & IC & L & EW & ATH). sp; auto.
    + apply BNN. congruence.
    + rewrite T2 by congruence. exact ATH.
  - pose proof (T tid) as Tt. rewrite TN in Tt.
    assert (IDLE : ath x tid = AIdle).
    { destruct R as (ct & mk & _ & _ & T'). specialize (T' tid). rewrite BN in T'. exact T'. }
    rewrite IDLE in Tt. cbn in Tt. destruct y as [a thy]. cbn in *. subst a.
    exists (AObj (ast x) (fupd thy tid (APend (inr call)))). split.
    { eapply as_vis; [|apply as_nil]. now constructor. }
    exists x. cbn. sp; auto. intros u. destruct (N.eq_dec u tid) as [->|NE].
    + rewrite !fupd_eq. sp; auto.
    + rewrite !fupd_neq by exact NE. apply T.
  - pose proof (T tid) as Tt. rewrite TH in Tt. destruct Tt as (BN & IC & L & EW & ATH).
    destruct R as (ct & mk & I & A & T'). pose proof (IO call IC) as V.
    set (k := icall_key call) in *.
    set (d := match call with IExchange _ d _ | IEraseIf _ d => d end).
    set (v := match call with IExchange k _ d' => CLive k d' | IEraseIf _ _ => CTomb end).
    set (goal := match call with IExchange k _ d' => Slot k d' | IEraseIf _ _ => deleted_slot sc end).
    assert (CC : forall cell z, rd c m (bmem b) p = Some cell -> cas sc cell (Slot k d) goal = z ->
       t' = fupd (bmem b) p (Some (snd (fst z))) /\ r = fst (fst z)).
    { intros cell z RD CZ. unfold icall_effect in EF. cbn [ith_call ith_pos ith_copy] in EF. subst z.
      destruct call as [k0 d0 v0|k0 d0]; subst w.
      - unfold ref_exchange in EF. rewrite RD in EF.
        replace (get_key sc (Slot k0 d0)) with k0 in EF.
        2: { change (Slot k0 d0) with (enc sc (CLive k0 d0) false). rewrite (enc_get_key sc Hsc); [reflexivity|].
             split; [discriminate|exact V]. }
        unfold goal, d, k. cbn [icall_key].
        destruct (cas sc cell (Slot k0 d0) (Slot k0 v0)) as [[ok cell'] x']. cbn in EF. injection EF as <- <-. auto.
      - unfold it_erase_if, atomic_delete in EF. rewrite RD in EF.
        unfold goal, d, k. cbn [icall_key].
        destruct (cas sc cell (Slot k0 d0) (deleted_slot sc)) as [[ok cell'] x']. cbn in EF. injection EF as <- <-. auto. }
    assert (GG : v = CTomb /\ goal = deleted_slot sc \/ exists d', v = CLive k d' /\ goal = Slot k d').
    { destruct call; cbn in *; [right; eexists; split; reflexivity|left; auto]. }
    destruct y as [a thy]. cbn in *. subst a.
    destruct (cell_cas (bmem b) ct mk (ast x) p k d v t' r goal I A L V GG CC)
      as [(-> & E1 & AK & I' & A' & TR)|(-> & I')].
    + set (a' := fupd (ast x) k (match v with CLive _ d' => Some d' | _ => None end)) in *.
      exists (AObj a' (fupd thy tid (ADone (inr true)))). split.
      { eapply as_tau; [|apply as_nil]. eapply a_lin; [exact ATH|].
        destruct call; cbn in *; auto. }
      exists (AObj a' (ath x)). split; [|split; [reflexivity|]].
      * exists (fupd ct p v), mk. cbn [bmem bthr ast ath ibase iths]. sp; auto.
        intros u. specialize (T' u). destruct (bthr b u) as [[o pc]|] eqn:BU; auto.
        destruct T' as (CL & TI & AT). sp; auto. apply thr_inv_write; auto.
        intros EV. destruct IM as [M|[[_ M]|M]]; auto.
        exfalso. destruct call; cbn in v; [discriminate|]. eapply M; eauto.
      * intros u. cbn [iths ibase bthr ath]. destruct (N.eq_dec u tid) as [->|NE].
        -- rewrite !fupd_eq. sp; auto.
        -- rewrite !fupd_neq by exact NE. apply T.
    + exists (AObj (ast x) (fupd thy tid (ADone (inr false)))). split.
      { eapply as_tau; [|apply as_nil]. eapply a_lin; [exact ATH|]. destruct call; reflexivity. }
      exists x. split; [|split; [reflexivity|]].
      * exists ct, mk. cbn [bmem bthr ibase]. auto.
      * intros u. cbn [iths ibase bthr ath]. destruct (N.eq_dec u tid) as [->|NE].
        -- rewrite !fupd_eq. sp; auto.
        -- rewrite !fupd_neq by exact NE. apply T.
  - pose proof (T tid) as Tt. rewrite TH in Tt. destruct Tt as (BN & IC & L & EW & ATH).
    assert (IDLE : ath x tid = AIdle).
    { destruct R as (ct & mk & _ & _ & T'). specialize (T' tid). rewrite BN in T'. exact T'. }
    destruct y as [a thy]. cbn in *. subst a.
    exists (AObj (ast x) (fupd thy tid AIdle)). split.
    { eapply as_vis; [|apply as_nil]. now constructor. }
    exists x. cbn. sp; auto. intros u. destruct (N.eq_dec u tid) as [->|NE].
    + rewrite !fupd_eq, IDLE. reflexivity.
    + rewrite !fupd_neq by exact NE. apply T.
Qed.

Lemma xasteps_app x tr y tr' z :
  asteps xspec x tr y -> asteps xspec y tr' z -> asteps xspec x (tr ++ tr') z.
Proof. induction 1; cbn; intros; auto; [eapply as_tau|eapply as_vis]; eauto. Qed.

Lemma isim_trace s y tr s' :
  isys_rel s y -> lts_steps (isys_step c m client iclient) s tr s' ->
  exists y', asteps xspec y tr y' /\ isys_rel s' y'.
Proof.
  intros R ST. revert y R. induction ST as [s|s s1 s2 tr S ST IH|s e s1 s2 tr S ST IH]; intros y R.
  - exists y. split; [apply as_nil|exact R].
  - destruct (isim s y None s1 R S) as (x1 & A1 & R1).
    destruct (IH x1 R1) as (x2 & A2 & R2). exists x2. split; auto.
    change tr with ([] ++ tr). eapply xasteps_app; eauto.
  - destruct (isim s y (Some e) s1 R S) as (x1 & A1 & R1).
    destruct (IH x1 R1) as (x2 & A2 & R2). exists x2. split; auto.
    change (e :: tr) with ([e] ++ tr). eapply xasteps_app; eauto.
Qed.

Lemma iinit_rel : isys_rel (isys_init c m) (AObj amap_empty (fun _ => AIdle)).
Proof.
  exists (AObj amap_empty (fun _ => AIdle)). split; [apply (init_rel c m lg Hsc Hm)|]. cbn. auto.
Qed.

End ISys.

(** *** Iteration while other threads are active *)

Lemma cscan_hit c m ts : forall n j p copy q x,
  cscan c m ts j n p copy = SHit q x ->
  exists i, (j <= i < j + n)%nat /\ q < p + N.of_nat n /\ p <= q /\
    rd c m (ts i) q = Some x /\ shown c x = true.
Proof.
  induction n as [|n IH]; intros j p copy q x E; cbn [cscan] in E; [discriminate|].
  destruct (rd c m (ts j) p) as [y|] eqn:R; [|discriminate].
  destruct (shown c y) eqn:SH.
  - injection E as <- <-. exists j. repeat split; auto; lia.
  - destruct (IH (S j) (p + 1) y q x E) as (i & H1 & H2 & H3 & H4 & H5).
    exists i. repeat split; auto; lia.
Qed.

Lemma cscan_const c m t : forall n j p copy, cscan c m (fun _ => t) j n p copy = scan c m t n p copy.
Proof.
  induction n as [|n IH]; intros j p copy; cbn; auto.
  destruct (rd c m t p); auto. destruct (shown c s); auto.
Qed.

(** An iterator that has advanced beyond the null pointer. *)
Lemma null_walk c s g : forall n a copy, 0 < a ->
  mwalk c s g n (MIter (g_ver g) (Iter copy (PNull a) (PNull 0))) =
  Walking (repeat (skey copy, sdata copy) n).
Proof.
  induction n as [|n IH]; intros a copy A; cbn [mwalk].
  - unfold mit_at_end, it_eqb, it_end. cbn. destruct (N.eqb_spec a 0); [lia|reflexivity].
  - unfold mit_at_end at 1, it_eqb, it_end. cbn [mi_it it_ptr iptr_eqb].
    destruct (N.eqb_spec a 0); [lia|].
    unfold mit_next, refresh_ptr. cbn [mi_ver]. rewrite N.eqb_refl. cbn [mi_it].
    unfold it_next. cbn [it_ptr it_eptr it_copy].
    destruct (N.ltb_spec (a + 1) 0); [lia|]. destruct (N.eqb_spec (a + 1) 0); [lia|].
    cbn [mi_ver]. rewrite IH by lia. reflexivity.
Qed.

Lemma erase_never c s : forall n g it, mit_erase c s n g it <> ErReturned.
Proof.
  induction n as [|n IH]; intros g it; cbn; [discriminate|].
  destruct (mit_refresh c s g it); [|discriminate].
  destruct (mit_erase_if c s g m) as [[[g' it'] b]|]; [apply IH|discriminate].
Qed.

(** *** The statements, for tables with any history *)

Section Life.
Context (sc : scfg) (mc : mcfg) (hash : N -> N) (client : op -> Prop) (lg : N) (m : mapper) (t : mem).
Context (CT : cell_type sc) (F : fair sc client) (CF : cmap mc = false \/ cprob mc = true).
Notation c := (TCfg sc mc hash).
Notation tot := (cells_of mc lg).
Context (L : life c client lg m t).
Let Hsc : wf_scfg sc := cell_type_wf _ CT.

Lemma life_iteration a :
  stored sc tot t a ->
  exists n l ps,
    walk c m t n (it_begin c m t) = Walked l /\
    StronglySorted N.lt ps /\
    Forall2 (fun p kd => user_key sc (fst kd) /\ holds sc tot t p (fst kd) (snd kd)) ps l /\
    NoDup (map fst l) /\
    forall k d, a k = Some d <-> In (k, d) l.
Proof.
  intros ST. destruct (life_inv sc mc hash client CT F CF _ _ _ L) as (W & ct & a' & I & A).
  pose proof (tot_eq' mc lg m W) as TE.
  exists (N.to_nat (total_slots mc m)), (part ct 0 (total_slots mc m)),
    (flat_map (use ct) (nseq 0 (N.to_nat (total_slots mc m)))).
  assert (F2 : Forall2 (fun p kd => p < total_slots mc m /\ ct p = CLive (fst kd) (snd kd))
     (flat_map (use ct) (nseq 0 (N.to_nat (total_slots mc m)))) (part ct 0 (total_slots mc m))).
  { unfold part. rewrite N.sub_0_r. eapply Forall2_impl; [|apply (use_part ct (N.to_nat (total_slots mc m)) 0)].
    cbn. intros p kd (H1 & H2). split; auto. lia. }
  split; [apply (walk_begin c m Hsc t ct I); auto|]. split; [apply use_sorted|].
  split; [|split].
  - eapply Forall2_impl; [|exact F2]. cbn. intros p [k d] (Lp & E). cbn [fst snd] in *.
    assert (U : user_key sc k).
    { destruct (ti_cell _ _ _ _ _ I p Lp) as [_ [_ O]]. rewrite E in O. cbn [tsc] in O.
      now apply user_key_valid. }
    split; auto. apply (holds_iff' sc mc hash lg m CT W t ct _ p k d I U).
    rewrite TE in Lp. auto.
  - assert (SS : StronglySorted N.lt (flat_map (use ct) (nseq 0 (N.to_nat (total_slots mc m))))) by apply use_sorted.
    remember (flat_map (use ct) (nseq 0 (N.to_nat (total_slots mc m)))) as ps eqn:EP. clear EP.
    remember (part ct 0 (total_slots mc m)) as l eqn:EL. clear EL.
    induction F2 as [|p [k d] ps l (Lp & E) F2 IH]; cbn [map]; [constructor|].
    inversion SS as [|? ? S1 S2]; subst. constructor; auto. cbn [fst snd] in *.
    intros Ik. apply in_map_iff in Ik as ([k' d'] & EK & Ik). cbn in EK. subst k'.
    assert (Q : exists q, In q ps /\ q < total_slots mc m /\ ct q = CLive k d').
    { clear - F2 Ik. induction F2 as [|q kd ps l H F2 IH]; cbn in Ik; [contradiction|].
      destruct Ik as [->|Ik]; [exists q; cbn in H; split; [now left|exact H]|].
      destruct (IH Ik) as (q' & H1 & H2). exists q'. split; [now right|exact H2]. }
    destruct Q as (q & Iq & Lq & Eq). rewrite Forall_forall in S2. specialize (S2 q Iq).
    assert (p = q) by (eapply (live_unique c m); eauto). lia.
  - intros k d. rewrite in_part. apply (stored_iff' sc mc hash lg m CT W t ct _ a I) in ST.
    rewrite (ST k d). cbn [tmc]. split; intros (p & H1 & H2); exists p; split; auto; lia.
Qed.

Lemma life_ranges rs e :
  ranges 0 rs e -> total_slots mc m <= e ->
  exists l, walked_all c m t rs l /\ (exists n, walk c m t n (it_begin c m t) = Walked l) /\
    forall l', walked_all c m t rs l' -> l' = l.
Proof.
  intros R LE. destruct (life_inv sc mc hash client CT F CF _ _ _ L) as (W & ct & a' & I & A).
  set (T := total_slots mc m) in *.
  assert (K : forall x rs, ranges x rs e -> walked_all c m t rs (part ct (N.min x T) T) /\
             forall l', walked_all c m t rs l' -> l' = part ct (N.min x T) T).
  { clear R rs. intros x rs R. revert LE. induction R as [x|x b rs e AB R IH]; intros LE.
    - replace (N.min x T) with T by lia. rewrite part_nil by lia. split; [constructor|].
      intros l' H. now inversion H.
    - destruct (IH LE) as [IH1 IH2]. clear IH.
      assert (EQ : part ct (N.min x T) T = part ct x (N.min b T) ++ part ct (N.min b T) T).
      { destruct (N.le_gt_cases x T) as [H|H].
        - replace (N.min x T) with x by lia. apply part_split; lia.
        - replace (N.min x T) with T by lia. replace (N.min b T) with T by lia.
          rewrite !part_nil by lia. reflexivity. }
      assert (WR := walk_range c m Hsc t ct I (N.to_nat T) x b (le_n _)). cbn [tmc] in WR. fold T in WR.
      rewrite EQ. split; [econstructor; [exact WR|exact IH1]|].
      intros l' H. inversion H as [|? ? ? n l1 l2 W1 W2]; subst.
      rewrite (IH2 l2 W2). f_equal. eapply walk_det; eauto. }
  destruct (K 0 rs R) as [K1 K2]. replace (N.min 0 T) with 0 in * by lia.
  exists (part ct 0 T). split; [exact K1|]. split; [|exact K2].
  exists (N.to_nat T). apply (walk_begin c m Hsc t ct I). auto.
Qed.

Lemma life_index n a k v t2 :
  stored sc tot t a -> user_key sc k -> index_assign c m n t k v = Some t2 ->
  let w := if sc_mark sc then match a k with Some _ => v | None => 0 end else v in
  stored sc tot t2 (fupd a k (Some w)) /\
  (forall n' t3 r, solo c m n' t2 (OFind k) (start c m (OFind k)) = (t3, PDone r) ->
     obs (OFind k) r = RFound w) /\
  ((cprob mc = true -> exists p, vacant sc tot t2 p) ->
   exists n' t3 r, solo c m n' t2 (OFind k) (start c m (OFind k)) = (t3, PDone r)).
Proof.
  intros ST U E w. destruct (life_inv sc mc hash client CT F CF _ _ _ L) as (W & ct & a' & I & A').
  apply (stored_iff' sc mc hash lg m CT W t ct _ a I) in ST.
  apply (user_key_valid sc k Hsc) in U.
  destruct (index_assign_sound c m lg Hsc W n t ct a k v t2 I ST U E) as (ct2 & I2 & A2).
  cbn [tsc] in A2. fold w in A2.
  split; [now apply (stored_iff' sc mc hash lg m CT W t2 ct2 _ _ I2)|].
  assert (OK : op_ok sc (OFind k)) by (split; [exact U|intros g x; discriminate]).
  assert (ND : forall r, start c m (OFind k) <> PDone r) by discriminate.
  split.
  - intros n' t3 r S.
    destruct (solo_sound c m lg Hsc W n' _ t2 ct2 _ (OFind k) _ t3 r I2 A2 OK (start_inv c m lg ct2 (OFind k)) ND S)
      as (ct3 & a3 & _ & _ & SP & _).
    cbn [spec_op] in SP. revert SP. generalize (obs (OFind k) r). intros res SP.
    remember (fupd a k (Some w)) as a2 eqn:E2. assert (AK : a2 k = Some w) by (subst a2; apply fupd_eq).
    clear - SP AK. inversion SP; subst; try congruence.
    exfalso. match goal with H : forall k, _ <> _ |- _ => now elim (H k) end.
  - intros V. destruct (solo_terminates c m lg Hsc W _ t2 ct2 _ (OFind k) (start c m (OFind k)) I2 A2) as (n' & t3 & r & X); eauto.
    + intros CP. destruct (V CP) as [p Vp]. exists p.
      apply (vacant_iff' sc mc hash lg m CT W t2 ct2 _ p I2) in Vp. cbn [tmc].
      rewrite (tot_eq' mc lg m W). exact Vp.
    + exact (start_inv c m lg ct2 (OFind k)).
    + exists n', t3, r. destruct X as (? & ? & X & _). exact X.
Qed.

(** Erasing an element through an iterator that shows it. *)
Lemma life_erase a p k d n :
  stored sc tot t a -> user_key sc k -> holds sc tot t p k d ->
  exists t' x', it_erase c m (S n) t p (Slot k d) = Some (t', x', true) /\
    stored sc tot t' (fupd a k None) /\
    t' p = Some (deleted_slot sc).
Proof.
  intros ST U H. destruct (life_inv sc mc hash client CT F CF _ _ _ L) as (W & ct & a' & I & A').
  apply (stored_iff' sc mc hash lg m CT W t ct _ a I) in ST.
  apply (holds_iff' sc mc hash lg m CT W t ct _ p k d I U) in H. destruct H as [Lp E].
  rewrite <- (tot_eq' mc lg m W) in Lp.
  destruct (ti_cell _ _ _ _ _ I p Lp) as [EC O]. rewrite E in EC. cbn in EC.
  apply (user_key_valid sc k Hsc) in U.
  assert (RD : rd c m t p = Some (Slot k d)).
  { unfold rd. cbn [tmc]. destruct (N.ltb_spec p (total_slots mc m)); [exact EC|lia]. }
  destruct (cell_cas c m Hsc t ct (fun _ => false) a p k d CTomb (fupd t p (Some (deleted_slot sc))) true (deleted_slot sc))
    as [(_ & _ & _ & I' & A2 & _)|(X & _)]; auto; try discriminate.
  { intros x b RX CX. rewrite RD in RX. injection RX as <-. subst b. unfold cas. rewrite slot_eqb_refl. auto. }
  exists (fupd t p (Some (deleted_slot sc))), (Slot k d). split.
  - cbn [it_erase]. unfold it_erase_if. rewrite RD. unfold atomic_delete, cas. rewrite slot_eqb_refl. reflexivity.
  - split; [now apply (stored_iff' sc mc hash lg m CT W _ _ _ _ I')|]. apply fupd_eq.
Qed.

(** An out-of-date copy and cells whose CAS does not report the current content. *)
Lemma life_erase_hangs a p k d x n :
  sc_upd sc = false ->
  stored sc tot t a -> user_key sc k -> holds sc tot t p k d -> x <> Slot k d ->
  exists t', it_erase c m n t p x = Some (t', x, false) /\ stored sc tot t' a.
Proof.
  intros SU ST U H NE. destruct (life_inv sc mc hash client CT F CF _ _ _ L) as (W & ct & a' & I & A').
  apply (holds_iff' sc mc hash lg m CT W t ct _ p k d I U) in H. destruct H as [Lp E].
  rewrite <- (tot_eq' mc lg m W) in Lp.
  destruct (ti_cell _ _ _ _ _ I p Lp) as [EC O]. rewrite E in EC. cbn in EC.
  assert (K : forall n t1, (forall q, t1 q = t q) ->
     exists t', it_erase c m n t1 p x = Some (t', x, false) /\ forall q, t' q = t q).
  { intros j. induction j as [|j IH]; intros t1 H1; cbn [it_erase]; [eauto|].
    assert (RD : rd c m t1 p = Some (Slot k d)).
    { unfold rd. cbn [tmc]. destruct (N.ltb_spec p (total_slots mc m)); [now rewrite H1|lia]. }
    unfold it_erase_if. rewrite RD. unfold atomic_delete, cas.
    destruct (slot_eqb (Slot k d) x) eqn:Q; [apply slot_eqb_eq in Q; congruence|].
    cbn [tsc]. rewrite SU. apply IH. intros q. unfold fupd. destruct (N.eqb_spec q p); [congruence|auto]. }
  destruct (K n t (fun q => eq_refl)) as (t' & E1 & E2). exists t'. split; auto.
  intros k0 d0. rewrite (ST k0 d0). split; intros (U0 & q & Lq & y & H1 & H2); split; auto;
    exists q; split; auto; exists y; split; auto; rewrite ?E2 in *; auto.
Qed.

(** The loop of the growing table's erase: the element is erased in the first
    round, every later round erases the erased cell again. *)
Lemma life_erase_loops a p k d x e n steps v :
  stored sc tot t a -> user_key sc k -> holds sc tot t p k d ->
  exists g it, mit_erase c steps (S n) (GTab v m t) (MIter v (Iter x (PCell p) (PCell e))) = ErRunning g it /\
    g_map g = m /\ stored sc tot (g_mem g) (fupd a k None).
Proof.
  intros ST U H. destruct (life_erase a p k d 0 ST U H) as (t' & x' & E & S' & TP).
  destruct (life_inv sc mc hash client CT F CF _ _ _ L) as (W & ct & a' & I & A').
  apply (holds_iff' sc mc hash lg m CT W t ct _ p k d I U) in H. destruct H as [Lp HE].
  rewrite <- (tot_eq' mc lg m W) in Lp.
  destruct (ti_cell _ _ _ _ _ I p Lp) as [EC O]. rewrite HE in EC. cbn in EC.
  assert (STEP : forall n t1 x y, t1 p = Some y ->
    mit_erase c steps (S n) (GTab v m t1) (MIter v (Iter x (PCell p) (PCell e))) =
    mit_erase c steps n (GTab v m (fupd t1 p (Some (deleted_slot sc)))) (MIter v (Iter y (PCell p) (PCell e)))).
  { intros j t1 x0 y T1. cbn [mit_erase].
    assert (RD : rd c m t1 p = Some y).
    { unfold rd. cbn [tmc]. destruct (N.ltb_spec p (total_slots mc m)); [exact T1|lia]. }
    replace (mit_refresh c steps (GTab v m t1) (MIter v (Iter x0 (PCell p) (PCell e))))
      with (Some (MIter v (Iter y (PCell p) (PCell e)))).
    2:{ unfold mit_refresh, refresh_ptr, it_refresh. cbn. rewrite N.eqb_refl. cbn. now rewrite RD. }
    replace (mit_erase_if c steps (GTab v m t1) (MIter v (Iter y (PCell p) (PCell e))))
      with (Some (GTab v m (fupd t1 p (Some (deleted_slot sc))), MIter v (Iter y (PCell p) (PCell e)), true)).
    2:{ unfold mit_erase_if, refresh_ptr, it_erase_if. cbn. rewrite N.eqb_refl. cbn. rewrite RD.
        unfold atomic_delete, cas. rewrite slot_eqb_refl. reflexivity. }
    reflexivity. }
  rewrite (STEP n t x _ EC).
  assert (E' : t' = fupd t p (Some (deleted_slot sc))).
  { cbn [it_erase] in E. unfold it_erase_if in E.
    assert (RD : rd c m t p = Some (Slot k d)).
    { unfold rd. cbn [tmc]. destruct (N.ltb_spec p (total_slots mc m)); [exact EC|lia]. }
    rewrite RD in E. unfold atomic_delete, cas in E. rewrite slot_eqb_refl in E. now injection E. }
  rewrite <- E'. clear E E'.
  assert (K : forall n t1 y, (forall q, t1 q = t' q) ->
    exists g it, mit_erase c steps n (GTab v m t1) (MIter v (Iter y (PCell p) (PCell e))) = ErRunning g it /\
      g_map g = m /\ forall q, g_mem g q = t' q).
  { intros j. induction j as [|j IH]; intros t1 y H1.
    - eexists _, _. split; [reflexivity|]. auto.
    - rewrite (STEP j t1 y (deleted_slot sc)) by (now rewrite H1). apply IH.
      intros q. unfold fupd. destruct (N.eqb_spec q p); [congruence|auto]. }
  destruct (K n t' (Slot k d) (fun q => eq_refl)) as (g & it & E1 & E2 & E3). exists g, it.
  split; [exact E1|]. split; [exact E2|].
  intros k0 d0. rewrite (S' k0 d0). split; intros (U0 & q & Lq & y & H1 & H2); split; auto;
    exists q; split; auto; exists y; split; auto; rewrite ?E3 in *; auto.
Qed.

End Life.

(** Returned iterators in states of a table. *)
Lemma returned_shows sc mc hash lg gh (client : op -> Prop) s tid o r p :
  cell_type sc -> 1 <= lg <= 63 -> fair sc client ->
  table_reachable (TCfg sc mc hash) (sized mc lg gh) client s ->
  bthr s tid = Some (o, PDone r) -> rpos r = Some p ->
  ret_ok (TCfg sc mc hash) (sized mc lg gh) o r.
Proof.
  intros CT LG F [tr ST] E RP. pose proof (cell_type_wf _ CT) as W.
  pose proof (wfm mc lg gh LG) as WM.
  eapply (rets_trace (TCfg sc mc hash) _ lg W WM client) in ST; eauto.
  - now apply fair_ok.
  - apply (init_rel (TCfg sc mc hash) _ lg W WM).
  - intros u o' r' H. discriminate.
Qed.

(** What an iterator's copy can be, in any state of a table. *)
Lemma shown_in_state sc mc hash lg gh (client : op -> Prop) s q x :
  cell_type sc -> 1 <= lg <= 63 -> fair sc client ->
  table_reachable (TCfg sc mc hash) (sized mc lg gh) client s ->
  rd (TCfg sc mc hash) (sized mc lg gh) (bmem s) q = Some x -> shown (TCfg sc mc hash) x = true ->
  exists a, stored sc (cells_of mc lg) (bmem s) a /\
   ((is_marked sc x = false /\ a (skey x) = Some (sdata x)) \/
    (is_marked sc x = true /\ exists k, skey x = k + 2 ^ (sc_w sc - 1) /\
       (a k = Some (sdata x) \/ k = 2 ^ (sc_w sc - 1) - 1))).
Proof.
  intros CT LG F R RD SH. pose proof (cell_type_wf _ CT) as W.
  destruct (reach_rel sc mc hash lg gh CT LG client s (fair_ok _ _ W F) R) as (y & ct & mk & I & A & _).
  exists (ast y). split; [now apply (stored_iff sc mc hash lg gh CT LG _ _ _ _ I)|].
  unfold rd in RD. destruct (N.ltb_spec q (total_slots (tmc (TCfg sc mc hash)) (sized mc lg gh))) as [Lq|]; [|discriminate].
  destruct (ti_cell _ _ _ _ _ I q Lq) as [E O]. cbn [tsc] in E, O. rewrite RD in E. injection E as ->.
  rewrite (enc_is_marked sc W _ _ O). unfold shown in SH. cbn [tsc] in SH.
  rewrite (enc_is_empty sc W _ _ O) in SH.
  destruct (mk q) eqn:MK.
  - right. split; auto. rewrite (key_enc_marked sc W _ O). unfold mbit.
    destruct (ct q) as [| |k d] eqn:Ec; [discriminate| |].
    + exists (2 ^ (sc_w sc - 1) - 1). split; [reflexivity|auto].
    + exists k. split; [reflexivity|]. left. rewrite sdata_enc. apply A. eauto.
  - left. split; auto. rewrite (enc_is_deleted_unmarked sc W _ O) in SH.
    destruct (ct q) as [| |k d] eqn:Ec; try discriminate. cbn. apply A. eauto.
Qed.

(** A growing table's iterator whose element is gone after a growth. *)
Lemma gone_walk sc mc hash (client : op -> Prop) lg g s it a :
  cell_type sc -> fair sc client -> (cmap mc = false \/ cprob mc = true) ->
  life (TCfg sc mc hash) client lg (g_map g) (g_mem g) ->
  stored sc (cells_of mc lg) (g_mem g) a ->
  g_ver g <> mi_ver it -> user_key sc (get_key sc (it_copy (mi_it it))) ->
  a (get_key sc (it_copy (mi_it it))) = None ->
  find_it (TCfg sc mc hash) s g (get_key sc (it_copy (mi_it it))) <> ItBad ->
  exists it', mit_next (TCfg sc mc hash) s g it = Some it' /\
    forall n, mwalk (TCfg sc mc hash) s g n it' = Walking (repeat (0, 0) n).
Proof.
  intros CT F CF L ST NV U AN NB. pose proof (cell_type_wf _ CT) as W0.
  destruct (life_inv sc mc hash client CT F CF _ _ _ L) as (W & ct & a' & I & A').
  apply (stored_iff' sc mc hash lg _ CT W _ ct _ a I) in ST.
  set (k := get_key sc (it_copy (mi_it it))) in *. apply (user_key_valid sc k W0) in U.
  assert (FE : find_it (TCfg sc mc hash) s g k = ItOk it_end).
  { unfold find_it in *. cbn [tsc] in *.
    destruct (solo (TCfg sc mc hash) (g_map g) s (g_mem g) (OFind k) (start (TCfg sc mc hash) (g_map g) (OFind k))) as [t' pc] eqn:S.
    destruct pc as [i|i x|i x|i x|r|]; try congruence.
    assert (OK : op_ok sc (OFind k)) by (split; [exact U|intros gg x; discriminate]).
    destruct (solo_sound (TCfg sc mc hash) (g_map g) lg W0 W s a _ ct _ (OFind k) _ t' r I ST OK
      (start_inv _ _ lg ct (OFind k)) ltac:(discriminate) S) as (ct3 & a3 & _ & _ & SP & _).
    cbn [spec_op obs] in SP. unfold ret_iter. destruct (rpos r); [|reflexivity].
    inversion SP; subst; try congruence. }
  unfold mit_next, refresh_ptr. cbn [tsc]. fold k.
  destruct (N.eqb_spec (g_ver g) (mi_ver it)) as [|NQ]; [congruence|]. rewrite FE. cbn [mi_it mi_ver].
  eexists. split; [reflexivity|]. intros n. unfold it_next, it_end. cbn [it_ptr it_eptr it_copy].
  change (0 + 1 <? 0) with false. change (0 + 1 =? 0) with false. change (0 + 1) with 1.
  apply (null_walk _ s g n 1 empty_slot). lia.
Qed.
