(** Proofs about the sequential table with pointer cells: calls leave elements they
    do not own alone, and the table of SeqPtr.v simulates the one of Seq.v (with
    every key increased by one, since there key 0 marks an empty cell) as long as
    all fingerprints are 0. *)
From Coq Require Import NArith Bool List Lia.
From Verif Require Import Words Slot Mapper MapSpec BaseInv Migrate MigrateGeo MigrateDone Seq SeqSpec SeqPtr.
Import ListNotations.
Open Scope N_scope.

(** *** Heap and words *)
Lemma get_free h a b : h_get (h_free h a) b = if b =? a then None else h_get h b.
Proof.
  induction h as [|[x u] h IH]; cbn [h_free filter h_get fst].
  - now destruct (b =? a).
  - fold (h_free h a). destruct (N.eqb_spec x a) as [X|NE]; cbn [negb h_get].
    + rewrite IH. destruct (N.eqb_spec b a) as [Y|Y]; auto.
      destruct (N.eqb_spec x b); [congruence|auto].
    + rewrite IH. destruct (N.eqb_spec x b) as [Y|Y]; auto.
      destruct (N.eqb_spec b a); [congruence|auto].
Qed.
Lemma get_upd h a f b :
  h_get (h_upd h a f) b =
  if b =? a then option_map (fun e => (fst e, f (snd e))) (h_get h b) else h_get h b.
Proof.
  induction h as [|[x v] h IH]; cbn [h_upd map h_get fst snd].
  - now destruct (b =? a).
  - fold (h_upd h a f). destruct (N.eqb_spec x a) as [->|NE]; cbn [h_get].
    + destruct (N.eqb_spec a b) as [<-|]; [now rewrite N.eqb_refl|]. apply IH.
    + destruct (N.eqb_spec x b) as [->|].
      * destruct (N.eqb_spec b a); [congruence|auto].
      * apply IH.
Qed.
Lemma ptr_mk fp a : fp < 2 ^ 16 -> w_ptr (w_mk fp a) = a.
Proof.
  intros H. unfold w_ptr, w_mk. rewrite (N.mul_comm (2 ^ 16) a), N.div_add by discriminate.
  rewrite N.div_small by exact H. lia.
Qed.
Lemma fp_mk fp a : fp < 2 ^ 16 -> w_fp (w_mk fp a) = fp.
Proof.
  intros H. unfold w_fp, w_mk. rewrite (N.mul_comm (2 ^ 16) a), N.mod_add by discriminate.
  apply N.mod_small; exact H.
Qed.
Lemma fp_lt v : fingerprint v < 2 ^ 16.
Proof. apply N.mod_lt. discriminate. Qed.
Lemma fp0_lt : 0 < 2 ^ 16. Proof. reflexivity. Qed.
Lemma ptr_nz w : w_ptr w <> 0 -> w <> 0.
Proof. intros H ->. now apply H. Qed.

Lemma bind_ok {A B} (x : outcome A) (f : A -> outcome B) y :
  bind x f = ROk y -> exists a, x = ROk a /\ f a = ROk y.
Proof. destruct x; cbn; intros E; try discriminate. eauto. Qed.

(** *** Frames *)

(** [a] is a live element that no cell of the table refers to. *)
Definition framed (a : N) (v : N * N) (c : ctab) : Prop :=
  a <> 0 /\ h_get (c_heap c) a = Some v /\ forall p w, c_cells c p = Some w -> w_ptr w <> a.

Section F.
Context (mc : mcfg) (hash : N -> N) (al : allocator) (AL : allocator_ok al).

Lemma fr_new a v c k d fp : framed a v c -> framed a v (fst (c_new al c k d fp)).
Proof.
  intros (Z & G & C). cbn. repeat split; auto. cbn [c_heap c_with_heap h_get].
  destruct (N.eqb_spec (al (c_heap c)) a) as [E|]; auto.
  destruct (AL (c_heap c)) as [_ F]. rewrite E in F. congruence.
Qed.
Definition unref (a : N) (c : ctab) : Prop := forall p w, c_cells c p = Some w -> w_ptr w <> a.
Lemma new_ne a v c : framed a v c -> al (c_heap c) <> a.
Proof. intros (_ & G & _) E. destruct (AL (c_heap c)) as [_ F]. rewrite E in F. congruence. Qed.

Lemma fr_copy a v c sl c' sl' : c_copy al c sl = ROk (c', sl') -> framed a v c ->
  framed a v c' /\ w_ptr sl' <> a.
Proof.
  unfold c_copy. destruct (h_get _ _) as [[k d]|]; [|discriminate]. intros E F.
  injection E as E1 E2. subst. split; [now apply (fr_new a v c k d 0)|].
  change (w_ptr (w_mk 0 (al (c_heap c))) <> a).
  rewrite ptr_mk by exact fp0_lt. now apply (new_ne a v).
Qed.

Lemma fr_heap a v c h : framed a v c -> h_get h a = h_get (c_heap c) a -> framed a v (c_with_heap c h).
Proof. intros (Z & G & C) E. repeat split; auto. cbn. now rewrite E. Qed.
Lemma fr_same a v c c' : framed a v c -> c_cells c' = c_cells c -> c_heap c' = c_heap c -> framed a v c'.
Proof. intros (Z & G & C) E1 E2. split; [auto|]. now rewrite E1, E2. Qed.
Lemma fr_set a v c p w : framed a v c -> w_ptr w <> a -> framed a v (c_set c p w).
Proof.
  intros (Z & G & C) NE. split; [auto|]. split; [auto|]. cbn. intros q x. unfold fupd.
  destruct (q =? p); [intros E; injection E as <-; auto|apply C].
Qed.

Lemma fr_cleanup a h w h' : c_cleanup h w = ROk h' -> w_ptr w <> a -> h_get h' a = h_get h a.
Proof.
  unfold c_cleanup. destruct (w_ptr w =? 0); [congruence|].
  destruct (h_get h (w_ptr w)) eqn:E; [|discriminate]. intros X NE; injection X as <-.
  rewrite get_free. destruct (N.eqb_spec a (w_ptr w)); [congruence|auto].
Qed.
Lemma fr_cleanup_all a get l : forall h h', c_cleanup_all get h l = ROk h' ->
  (forall i w, get i = Some w -> w_ptr w <> a) -> h_get h' a = h_get h a.
Proof.
  induction l as [|i l IH]; cbn [c_cleanup_all]; intros h h' E NE; [congruence|].
  destruct (get i) as [w|] eqn:G; [|discriminate]. apply bind_ok in E as (h1 & E1 & E).
  rewrite (IH _ _ E NE). apply (fr_cleanup a h w); eauto.
Qed.

Definition keeps (intern : ctab -> N -> N -> outcome (ctab * N * bool)) : Prop :=
  forall a v c x y c' p b, intern c x y = ROk (c', p, b) -> framed a v c -> framed a v c'.

Lemma keeps_insert intern : keeps intern -> keeps (c_insert hash al intern).
Proof.
  intros K a v c k d c' p b E F. unfold c_insert in E.
  destruct (c_new al c k d _) as [c1 w] eqn:EN.
  assert (F1 : framed a v c1) by (change c1 with (fst (c1, w)); rewrite <- EN; now apply fr_new).
  assert (NW : w_ptr w <> a).
  { injection EN as _ <-. rewrite ptr_mk by apply fp_lt. now apply (new_ne a v). }
  apply bind_ok in E as (((c2 & q) & b2) & E1 & E).
  pose proof (K _ _ _ _ _ _ _ _ E1 F1) as F2.
  destruct b2; [now injection E as <- _ _|]. apply bind_ok in E as (h & E2 & E).
  injection E as <- _ _. apply fr_heap; auto. eapply fr_cleanup; eauto.
Qed.

Lemma keeps_migrate insert get l : keeps insert -> forall t t' a v,
  c_migrate insert get t l = ROk t' -> framed a v t -> framed a v t'.
Proof.
  intros K. induction l as [|i l IH]; cbn [c_migrate]; intros t t' a v E F; [congruence|].
  destruct (get i) as [w|]; [|discriminate]. destruct (w =? 0); [eauto|].
  destruct (h_get _ _) as [[k d]|]; [|discriminate].
  apply bind_ok in E as (((c2 & q) & b2) & E1 & E). eapply IH; [exact E|]. cbn. eapply K; eauto.
Qed.

Lemma c_get_cells c p w : c_get mc c p = Some w -> c_cells c p = Some w.
Proof. unfold c_get. destruct (_ <? _); congruence. Qed.

Lemma fr_fresh a v c m : framed a v c -> framed a v (c_fresh mc m (c_heap c)).
Proof.
  intros (Z & G & C). repeat split; auto. cbn. intros p w.
  destruct (p <? _); [|discriminate]. intros E; injection E as <-. intros X. now apply Z.
Qed.

Lemma keeps_grow insert : keeps insert -> forall c c' a v,
  c_grow mc insert c = ROk c' -> framed a v c -> framed a v c'.
Proof.
  intros K c c' a v E F. unfold c_grow in E. apply bind_ok in E as (t & E1 & E).
  apply bind_ok in E as (h & E2 & E). injection E as <-.
  pose proof (keeps_migrate _ _ _ K _ _ a v E1 (fr_fresh _ _ _ _ F)) as (Z & G & C).
  repeat split; auto. cbn [c_heap]. rewrite <- G. eapply fr_cleanup_all; eauto.
  intros i w Gi. apply (proj2 (proj2 F) i w). eapply c_get_cells; eauto.
Qed.

Lemma keeps_intern n : keeps (c_insert_intern mc hash al n).
Proof.
  induction n as [|n IH]; intros a v c sl hv c' p b E F; cbn [c_insert_intern] in E; [discriminate|].
  apply bind_ok in E as ((c1 & sl1) & E1 & E). destruct (fr_copy a v _ _ _ _ E1 F) as (F1 & NS).
  destruct (h_get _ _) as [[k d]|]; [|discriminate]. apply bind_ok in E as ((i & hit) & E2 & E). cbn [fst snd] in E.
  destruct hit; [now injection E as <- _ _|].
  destruct (_ <? _).
  - apply bind_ok in E as (c2 & E3 & E). eapply IH; [exact E|].
    apply (fr_same a v c2); auto. apply (keeps_grow _ (keeps_insert _ IH) _ _ _ _ E3).
    now apply (fr_same a v c1).
  - injection E as <- _ _. apply fr_set; auto.
Qed.

Lemma keeps_iou_intern n : forall a v c sl hv f c' p b, c_iou_intern mc hash al n c sl hv f = ROk (c', p, b) ->
  w_ptr sl <> a -> framed a v c -> framed a v c'.
Proof.
  induction n as [|n IH]; intros a v c sl hv f c' p b E NS F; cbn [c_iou_intern] in E; [discriminate|].
  destruct (h_get _ _) as [[k d]|]; [|discriminate]. apply bind_ok in E as ((i & hit) & E2 & E). cbn [fst snd] in E.
  destruct hit.
  - destruct (c_get mc c _) as [w|] eqn:G; [|discriminate]. injection E as <- _ _.
    apply fr_heap; auto. rewrite get_upd. destruct (N.eqb_spec a (w_ptr w)) as [X|]; auto.
    exfalso. apply (proj2 (proj2 F) _ w (c_get_cells _ _ _ G)). auto.
  - destruct (_ <? _).
    + apply bind_ok in E as (c2 & E3 & E). eapply IH; [exact E|exact NS|].
      apply (fr_same a v c2); auto. apply (keeps_grow _ (keeps_insert _ (keeps_intern n)) _ _ _ _ E3).
      now apply (fr_same a v c).
    + injection E as <- _ _. apply fr_set; auto.
Qed.

Lemma keeps_erase_loop fuel : forall a v c i j c', c_erase_loop mc hash fuel c i j = ROk c' ->
  framed a v c -> framed a v c'.
Proof.
  induction fuel as [|n IH]; intros a v c i j c' E F; cbn [c_erase_loop] in E; [discriminate|].
  destruct (c_get mc c _) as [w|] eqn:G; [|discriminate].
  destruct (w =? 0); [congruence|]. destruct (h_get _ _) as [[k d]|]; [|discriminate].
  destruct (_ <=? _); [|eauto]. eapply IH; [exact E|].
  apply fr_set; [apply fr_set; auto|].
  - apply (proj2 (proj2 F) _ w (c_get_cells _ _ _ G)).
  - destruct F as (Z & _ & _). intros X. apply Z. now rewrite <- X.
Qed.

Lemma keeps_run a v c o c' r : crun mc hash al c o = ROk (c', r) -> framed a v c -> framed a v c'.
Proof.
  intros E F. destruct o as [k d|k|k f|k d f|k]; cbn [crun] in E.
  - apply bind_ok in E as (((c2 & p) & b) & E1 & E). injection E as <- _.
    eapply keeps_insert; eauto. apply keeps_intern.
  - apply bind_ok in E as ((i & hit) & E1 & E). now injection E as <- _.
  - apply bind_ok in E as ((i & hit) & E1 & E). cbn [fst snd] in E. destruct hit; [|now injection E as <- _].
    destruct (c_get mc c _) as [w|] eqn:G; [|discriminate]. injection E as <- _.
    apply fr_heap; auto. rewrite get_upd. destruct (N.eqb_spec a (w_ptr w)) as [X|]; auto.
    exfalso. apply (proj2 (proj2 F) _ w (c_get_cells _ _ _ G)). auto.
  - apply bind_ok in E as (((c2 & p) & b) & E1 & E). injection E as <- _.
    unfold c_iou in E1. destruct (c_new al c k d _) as [c1 w] eqn:EN.
    assert (F1 : framed a v c1) by (change c1 with (fst (c1, w)); rewrite <- EN; now apply fr_new).
    assert (NW : w_ptr w <> a).
    { injection EN as _ <-. rewrite ptr_mk by apply fp_lt. now apply (new_ne a v). }
    apply bind_ok in E1 as (((c3 & q) & b2) & E2 & E).
    pose proof (keeps_iou_intern _ _ _ _ _ _ _ _ _ _ E2 NW F1) as F2.
    destruct b2; [now injection E as <- _ _|]. apply bind_ok in E as (h & E3 & E).
    injection E as <- _ _. apply fr_heap; auto. eapply fr_cleanup; eauto.
  - apply bind_ok in E as ((c2 & b) & E1 & E). injection E as <- _. unfold c_erase in E1.
    apply bind_ok in E1 as ((i & hit) & E1 & E). cbn [fst snd] in E. destruct hit; [|now injection E as <- _].
    destruct (c_get mc c _); [|discriminate]. apply bind_ok in E as (c3 & E2 & E). injection E as <- _.
    eapply keeps_erase_loop; [exact E2|]. apply fr_set; auto. intros X. now apply (proj1 F).
Qed.

(** *** No dangling cells *)

(** Every cell refers to a live element and no two cells to the same one. *)
Definition okc (c : ctab) : Prop :=
  (forall p w, c_cells c p = Some w -> w_ptr w <> 0 -> h_get (c_heap c) (w_ptr w) <> None) /\
  (forall p q w x, c_cells c p = Some w -> c_cells c q = Some x -> w_ptr w <> 0 ->
                   w_ptr w = w_ptr x -> p = q).

Lemma ok_same c c' : okc c -> c_cells c' = c_cells c -> c_heap c' = c_heap c -> okc c'.
Proof. intros (L & I) E1 E2. unfold okc. now rewrite E1, E2. Qed.
Lemma ok_heap c h : okc c ->
  (forall p w, c_cells c p = Some w -> w_ptr w <> 0 -> h_get (c_heap c) (w_ptr w) <> None ->
               h_get h (w_ptr w) <> None) -> okc (c_with_heap c h).
Proof. intros (L & I) E. split; cbn; eauto. Qed.
Lemma ok_new c k d fp : fp < 2 ^ 16 -> okc c ->
  okc (fst (c_new al c k d fp)) /\ framed (w_ptr (snd (c_new al c k d fp))) (k, d) (fst (c_new al c k d fp)).
Proof.
  intros FP O. pose proof (AL (c_heap c)) as [Z F]. cbn [fst snd c_new]. rewrite ptr_mk by exact FP. split.
  - apply ok_heap; auto. intros p w _ _ X. cbn [h_get]. destruct (_ =? _); congruence.
  - repeat split; auto.
    + cbn. now rewrite N.eqb_refl.
    + cbn. intros p w C E. apply (proj1 O p w C); [congruence|]. now rewrite E.
Qed.
Lemma ok_copy c sl c' sl' v : c_copy al c sl = ROk (c', sl') -> okc c -> h_get (c_heap c) (w_ptr sl) = Some v ->
  okc c' /\ framed (w_ptr sl') v c' /\ w_fp sl' = 0.
Proof.
  unfold c_copy. intros E O G. rewrite G in E. destruct v as [k d]. injection E as E1 E2.
  pose proof (ok_new c k d 0 fp0_lt O) as (O1 & F1). cbn [fst snd c_new] in O1, F1. subst.
  repeat split; auto; try apply O1; try apply F1. exact (fp_mk 0 (al (c_heap c)) fp0_lt).
Qed.
Lemma ok_set c p w v : okc c -> framed (w_ptr w) v c -> okc (c_set c p w).
Proof.
  intros (L & I) (Z & G & C). split; cbn; unfold fupd.
  - intros q x. destruct (q =? p); [intros E; injection E as <-; congruence|apply L].
  - intros q r x y. destruct (N.eqb_spec q p) as [->|], (N.eqb_spec r p) as [->|]; auto.
    + intros E1 E2 _ E3. injection E1 as <-. exfalso. apply (C r y E2). auto.
    + intros E1 E2 _ E3. injection E2 as <-. exfalso. apply (C q x E1). auto.
    + apply I.
Qed.
Lemma ok_zero c p : okc c -> okc (c_set c p 0).
Proof.
  intros (L & I). split; cbn; unfold fupd.
  - intros q x. destruct (q =? p); [intros E NZ; injection E as <-; now destruct NZ|apply L].
  - intros q r x y. destruct (N.eqb_spec q p) as [->|], (N.eqb_spec r p) as [->|]; auto.
    + intros E1 E2 NZ E3. injection E1 as <-. now destruct NZ.
    + intros E1 E2 NZ E3. injection E2 as <-. rewrite E3 in NZ. now destruct NZ.
    + apply I.
Qed.
Lemma ok_cleanup c w v h : okc c -> framed (w_ptr w) v c -> c_cleanup (c_heap c) w = ROk h -> okc (c_with_heap c h).
Proof.
  intros O F E. apply ok_heap; auto. intros p x C NZ L. erewrite fr_cleanup; eauto.
  intros X. apply (proj2 (proj2 F) p x C). auto.
Qed.

Definition ok_intern (intern : ctab -> N -> N -> outcome (ctab * N * bool)) : Prop :=
  forall c sl hv c' p b v, intern c sl hv = ROk (c', p, b) -> okc c -> framed (w_ptr sl) v c -> okc c'.
Definition ok_ins (insert : ctab -> N -> N -> outcome (ctab * N * bool)) : Prop :=
  forall c k d c' p b, insert c k d = ROk (c', p, b) -> okc c -> okc c'.

Lemma ok_insert intern : keeps intern -> ok_intern intern -> ok_ins (c_insert hash al intern).
Proof.
  intros K OI c k d c' p b E O. unfold c_insert in E.
  pose proof (ok_new c k d (fingerprint (w64 (hash k))) (fp_lt _) O) as (O1 & F1).
  destruct (c_new al c k d _) as [c1 w] eqn:EN. cbn [fst snd] in O1, F1.
  apply bind_ok in E as (((c2 & q) & b2) & E1 & E).
  pose proof (OI _ _ _ _ _ _ _ E1 O1 F1) as O2. pose proof (K _ _ _ _ _ _ _ _ E1 F1) as F2.
  destruct b2; [now injection E as <- _ _|]. apply bind_ok in E as (h & E2 & E).
  injection E as <- _ _. eapply ok_cleanup; eauto.
Qed.
Lemma ok_migrate insert get l : ok_ins insert -> forall t t', c_migrate insert get t l = ROk t' -> okc t -> okc t'.
Proof.
  intros K. induction l as [|i l IH]; cbn [c_migrate]; intros t t' E O; [congruence|].
  destruct (get i) as [w|]; [|discriminate]. destruct (w =? 0); [eauto|].
  destruct (h_get _ _) as [[k d]|]; [|discriminate].
  apply bind_ok in E as (((c2 & q) & b2) & E1 & E). eapply IH; [exact E|]. cbn. eapply K; eauto.
Qed.
Lemma ok_fresh m h : okc (c_fresh mc m h).
Proof.
  split; cbn.
  - intros p w. destruct (_ <? _); [|discriminate]. intros E NZ. injection E as <-. now destruct NZ.
  - intros p q w x. destruct (p <? _); [|discriminate]. intros E _ NZ. injection E as <-. now destruct NZ.
Qed.
(** The cells of a table whose elements are live are framed in any fresh one. *)
Lemma old_framed c m p w : okc c -> c_cells c p = Some w -> w_ptr w <> 0 ->
  exists v, h_get (c_heap c) (w_ptr w) = Some v /\ framed (w_ptr w) v (c_fresh mc m (c_heap c)).
Proof.
  intros (L & I) C NZ. specialize (L _ _ C NZ). destruct (h_get _ _) as [v|] eqn:G; [|congruence].
  exists v. repeat split; auto. cbn. intros q x. destruct (_ <? _); [|discriminate].
  intros E; injection E as <-. intros X. now apply NZ.
Qed.
Lemma ok_grow insert c c' : keeps insert -> ok_ins insert -> c_grow mc insert c = ROk c' -> okc c -> okc c'.
Proof.
  intros K OI E O. unfold c_grow in E. apply bind_ok in E as (t & E1 & E).
  apply bind_ok in E as (h & E2 & E). injection E as <-.
  pose proof (ok_migrate _ _ _ OI _ _ E1 (ok_fresh _ _)) as Ot.
  apply (ok_same (c_with_heap t h)); auto. apply ok_heap; auto.
  intros p w C NZ L. erewrite fr_cleanup_all; eauto. intros i x G X. apply c_get_cells in G.
  destruct (old_framed c (resize mc (c_map c) (c_n c) 0) i x O G ltac:(congruence)) as (v & _ & F).
  pose proof (keeps_migrate _ _ _ K _ _ _ _ E1 F) as (_ & _ & Ct). apply (Ct p w C). auto.
Qed.
Lemma ok_intern_all n : ok_intern (c_insert_intern mc hash al n).
Proof.
  induction n as [|n IH]; intros c sl hv c' p b v E O F; cbn [c_insert_intern] in E; [discriminate|].
  apply bind_ok in E as ((c1 & sl1) & E1 & E).
  destruct (ok_copy _ _ _ _ _ E1 O (proj1 (proj2 F))) as (O1 & F1 & _).
  destruct (h_get _ _) as [[k d]|]; [|discriminate]. apply bind_ok in E as ((i & hit) & E2 & E). cbn [fst snd] in E.
  destruct hit; [now injection E as <- _ _|].
  destruct (_ <? _).
  - apply bind_ok in E as (c2 & E3 & E).
    assert (F2 : framed (w_ptr sl1) v c2).
    { apply (keeps_grow _ (keeps_insert _ (keeps_intern n)) _ _ _ _ E3). now apply (fr_same _ v c1). }
    assert (O2 : okc c2).
    { eapply ok_grow; [apply keeps_insert, keeps_intern|apply ok_insert; [apply keeps_intern|exact IH]|exact E3|].
      now apply (ok_same c1). }
    eapply IH; [exact E|now apply (ok_same c2)|]. now apply (fr_same _ v c2).
  - injection E as <- _ _. apply (ok_set _ _ _ v); [now apply (ok_same c1)|now apply (fr_same _ v c1)].
Qed.
Lemma ok_upd c a f : okc c -> okc (c_with_heap c (h_upd (c_heap c) a f)).
Proof.
  intros O. apply ok_heap; auto. intros p w _ _ L. rewrite get_upd.
  destruct (_ =? _); auto. destruct (h_get _ _); [discriminate|congruence].
Qed.
Lemma ok_iou_intern n : forall c sl hv f c' p b v, c_iou_intern mc hash al n c sl hv f = ROk (c', p, b) ->
  okc c -> framed (w_ptr sl) v c -> okc c' /\ (b = false -> framed (w_ptr sl) v c').
Proof.
  induction n as [|n IH]; intros c sl hv f c' p b v E O F; cbn [c_iou_intern] in E; [discriminate|].
  destruct (h_get _ _) as [[k d]|]; [|discriminate]. apply bind_ok in E as ((i & hit) & E2 & E). cbn [fst snd] in E.
  destruct hit.
  - destruct (c_get mc c _) as [w|] eqn:G; [|discriminate]. injection E as <- _ <-.
    split; [now apply ok_upd|]. intros _. apply fr_heap; auto. rewrite get_upd.
    destruct (N.eqb_spec (w_ptr sl) (w_ptr w)) as [X|]; auto.
    exfalso. apply (proj2 (proj2 F) _ w (c_get_cells _ _ _ G)). auto.
  - destruct (_ <? _).
    + apply bind_ok in E as (c2 & E3 & E).
      assert (F2 : framed (w_ptr sl) v c2).
      { apply (keeps_grow _ (keeps_insert _ (keeps_intern n)) _ _ _ _ E3). now apply (fr_same _ v c). }
      assert (O2 : okc c2).
      { eapply ok_grow; [apply keeps_insert, keeps_intern| |exact E3|].
        - apply ok_insert; [apply keeps_intern|apply ok_intern_all].
        - now apply (ok_same c). }
      eapply IH; [exact E|now apply (ok_same c2)|]. now apply (fr_same _ v c2).
    + injection E as <- _ <-. split; [|discriminate].
      apply (ok_set _ _ _ v); [now apply (ok_same c)|now apply (fr_same _ v c)].
Qed.
Lemma ok_erase_loop fuel : forall c i j c', c_erase_loop mc hash fuel c i j = ROk c' -> okc c -> okc c'.
Proof.
  induction fuel as [|n IH]; intros c i j c' E O; cbn [c_erase_loop] in E; [discriminate|].
  destruct (c_get mc c _) as [w|] eqn:G; [|discriminate].
  destruct (w =? 0); [congruence|]. destruct (h_get _ _) as [[k d]|] eqn:GH; [|discriminate].
  destruct (_ <=? _); [|eauto]. eapply IH; [exact E|]. apply c_get_cells in G.
  set (t := remap mc (c_map c) j) in *. clearbody t.
  destruct O as (L & I). split; cbn; unfold fupd.
  - intros q x. destruct (q =? t); [intros X NZ; injection X as <-; now destruct NZ|].
    destruct (q =? i); [intros X NZ; injection X as <-; congruence|apply L].
  - intros q r x y. destruct (N.eqb_spec q t) as [->|NQ].
    { intros X _ NZ. injection X as <-. now destruct NZ. }
    destruct (N.eqb_spec r t) as [->|NR].
    { intros _ X NZ Y. injection X as <-. rewrite Y in NZ. now destruct NZ. }
    destruct (N.eqb_spec q i) as [->|], (N.eqb_spec r i) as [->|]; auto.
    + intros X Y NZ Z. injection X as <-. exfalso. apply NR. symmetry. apply (I t r w y); auto.
    + intros X Y NZ Z. injection Y as <-. exfalso. apply NQ. apply (I q t x w); auto.
    + apply I.
Qed.
Lemma ok_run c o c' r : crun mc hash al c o = ROk (c', r) -> okc c -> okc c'.
Proof.
  intros E F. destruct o as [k d|k|k f|k d f|k]; cbn [crun] in E.
  - apply bind_ok in E as (((c2 & p) & b) & E1 & E). injection E as <- _.
    eapply ok_insert; eauto; [apply keeps_intern|apply ok_intern_all].
  - apply bind_ok in E as ((i & hit) & E1 & E). now injection E as <- _.
  - apply bind_ok in E as ((i & hit) & E1 & E). cbn [fst snd] in E. destruct hit; [|now injection E as <- _].
    destruct (c_get mc c _) as [w|] eqn:G; [|discriminate]. injection E as <- _. now apply ok_upd.
  - apply bind_ok in E as (((c2 & p) & b) & E1 & E). injection E as <- _.
    unfold c_iou in E1. pose proof (ok_new c k d (fingerprint (w64 (hash k))) (fp_lt _) F) as (O1 & F1).
    destruct (c_new al c k d _) as [c1 w] eqn:EN. cbn [fst snd] in O1, F1.
    apply bind_ok in E1 as (((c3 & q) & b2) & E2 & E).
    destruct (ok_iou_intern _ _ _ _ _ _ _ _ _ E2 O1 F1) as (O2 & F2).
    destruct b2; [now injection E as <- _ _|]. apply bind_ok in E as (h & E3 & E).
    injection E as <- _ _. eapply ok_cleanup; eauto.
  - apply bind_ok in E as ((c2 & b) & E1 & E). injection E as <- _. unfold c_erase in E1.
    apply bind_ok in E1 as ((i & hit) & E1 & E). cbn [fst snd] in E. destruct hit; [|now injection E as <- _].
    destruct (c_get mc c _); [|discriminate]. apply bind_ok in E as (c3 & E2 & E). injection E as <- _.
    eapply ok_erase_loop; [exact E2|]. now apply ok_zero.
Qed.

(** *** Leaks *)

(** A failing insert_intern leaves its copy behind, apart from all other framed
    elements. *)
Lemma intern_leaks n : forall c sl v hv c' p, okc c -> framed (w_ptr sl) v c ->
  c_insert_intern mc hash al n c sl hv = ROk (c', p, false) ->
  exists a v', framed a v' c' /\ forall b u, framed b u c -> b <> a.
Proof.
  induction n as [|n IH]; intros c sl v hv c' p O F E; cbn [c_insert_intern] in E; [discriminate|].
  apply bind_ok in E as ((c1 & sl1) & E1 & E).
  destruct (ok_copy _ _ _ _ _ E1 O (proj1 (proj2 F))) as (O1 & F1 & _).
  destruct (h_get (c_heap c1) _) as [[k d]|]; [|discriminate].
  apply bind_ok in E as ((i & hit) & E2 & E). cbn [fst snd] in E.
  destruct hit.
  - injection E as <- _. exists (w_ptr sl1), v. split; auto. intros b u Fb X.
    destruct (fr_copy _ _ _ _ _ _ E1 Fb) as (_ & NE). auto.
  - destruct (_ <? _); [|discriminate]. apply bind_ok in E as (c2 & E3 & E).
    assert (F2 : forall b u, framed b u c1 -> framed b u (c_minus c2)).
    { intros b u Fb. apply (fr_same b u c2); auto.
      apply (keeps_grow _ (keeps_insert _ (keeps_intern n)) _ _ _ _ E3). now apply (fr_same b u c1). }
    assert (O2 : okc c2).
    { eapply ok_grow; [apply keeps_insert, keeps_intern| |exact E3|].
      - apply ok_insert; [apply keeps_intern|apply ok_intern_all].
      - now apply (ok_same c1). }
    destruct (IH (c_minus c2) sl1 v hv c' p) as (a & v' & Fa & NE);
      [now apply (ok_same c2)|now apply F2|exact E|].
    exists a, v'. split; auto. intros b u Fb. apply (NE b u), F2.
    now destruct (fr_copy _ _ _ _ _ _ E1 Fb).
Qed.

(** Every insert leaves an element behind that no cell refers to. *)
Lemma insert_leaks n c k d c' p b : okc c -> c_insert hash al (c_insert_intern mc hash al n) c k d = ROk (c', p, b) ->
  exists a v, framed a v c' /\ forall x u, framed x u c -> x <> a.
Proof.
  intros O E. unfold c_insert in E.
  pose proof (ok_new c k d (fingerprint (w64 (hash k))) (fp_lt _) O) as (O1 & F1).
  assert (K1 : forall x u, framed x u c -> framed x u (fst (c_new al c k d (fingerprint (w64 (hash k)))))
                           /\ w_ptr (snd (c_new al c k d (fingerprint (w64 (hash k))))) <> x).
  { intros x u Fx. split; [now apply fr_new|]. cbn [snd c_new]. rewrite ptr_mk by apply fp_lt. now apply (new_ne x u). }
  destruct (c_new al c k d _) as [c1 w] eqn:EN. cbn [fst snd] in O1, F1, K1.
  apply bind_ok in E as (((c2 & q) & b2) & E1 & E).
  pose proof (keeps_intern _ _ _ _ _ _ _ _ _ E1 F1) as F2.
  destruct b2.
  - injection E as <- _ _. exists (w_ptr w), (k, d). split; auto. intros x u Fx.
    destruct (K1 x u Fx) as (_ & NE). auto.
  - apply bind_ok in E as (h & E2 & E). injection E as <- _ _.
    destruct (intern_leaks _ _ _ _ _ _ _ O1 F1 E1) as (a & v & Fa & NE).
    exists a, v. split.
    + apply fr_heap; auto. eapply fr_cleanup; eauto.
    + intros x u Fx. apply (NE x u), (K1 x u Fx).
Qed.

Definition is_insert (o : sop) : bool := match o with SInsert _ _ => true | _ => false end.
Definition leaked (L : list N) (c : ctab) : Prop := NoDup L /\ forall a, In a L -> exists v, framed a v c.

Lemma run_leaks c o c' r L : crun mc hash al c o = ROk (c', r) -> okc c -> leaked L c ->
  exists L', leaked L' c' /\ length L' = ((if is_insert o then 1 else 0) + length L)%nat.
Proof.
  intros E O (ND & FL).
  assert (K : forall a, In a L -> exists v, framed a v c').
  { intros a H. destruct (FL a H) as (v & F). exists v. eapply keeps_run; eauto. }
  destruct o as [k d|k|k f|k d f|k]; cbn [is_insert]; try (exists L; repeat split; auto; fail).
  cbn [crun] in E. apply bind_ok in E as (((c2 & p) & b) & E1 & E). injection E as <- _.
  destruct (insert_leaks _ _ _ _ _ _ _ O E1) as (a & v & F & NE).
  exists (a :: L). split; [|reflexivity]. split.
  - constructor; auto. intros H. destruct (FL a H) as (u & Fu). now apply (NE a u).
  - intros x [<-|H]; eauto.
Qed.
Lemma run_all_leaks l : forall c c' rs L, crun_all mc hash al c l = ROk (c', rs) -> okc c -> leaked L c ->
  okc c' /\ exists L', leaked L' c' /\ length L' = (length (filter is_insert l) + length L)%nat.
Proof.
  induction l as [|o l IH]; cbn [crun_all]; intros c c' rs L E O LK.
  - injection E as <- _. eauto.
  - apply bind_ok in E as ((c1 & r) & E1 & E). apply bind_ok in E as ((c2 & rs2) & E2 & E).
    injection E as <- _. destruct (run_leaks _ _ _ _ _ E1 O LK) as (L1 & LK1 & N1).
    pose proof (ok_run _ _ _ _ E1 O) as O1.
    destruct (IH _ _ _ _ E2 O1 LK1) as (O2 & L2 & LK2 & N2). split; auto.
    exists L2. split; auto. rewrite N2, N1. cbn [filter]. destruct (is_insert o); cbn [length]; lia.
Qed.
Lemma leaked_destroy L c h : leaked L c -> c_destroy mc c = ROk h -> forall a, In a L -> exists v, h_get h a = Some v.
Proof.
  intros (_ & FL) E a H. destruct (FL a H) as (v & _ & G & C). exists v. rewrite <- G.
  eapply fr_cleanup_all; eauto. intros i w X. eapply C, c_get_cells; eauto.
Qed.

(** *** Cells without fingerprint *)

Definition fp0 (c : ctab) : Prop := forall p w, c_cells c p = Some w -> w_fp w = 0.

Definition fp0_keep (intern : ctab -> N -> N -> outcome (ctab * N * bool)) : Prop :=
  forall c x y c' p b, intern c x y = ROk (c', p, b) -> fp0 c -> fp0 c'.
Lemma fp0_insert intern : fp0_keep intern -> fp0_keep (c_insert hash al intern).
Proof.
  intros K c k d c' p b E F. unfold c_insert in E. cbn [c_new] in E.
  apply bind_ok in E as (((c2 & q) & b2) & E1 & E). pose proof (K _ _ _ _ _ _ E1 F) as F2.
  destruct b2; [now injection E as <- _ _|]. apply bind_ok in E as (h & _ & E). now injection E as <- _ _.
Qed.
Lemma fp0_migrate insert get l : fp0_keep insert -> forall t t', c_migrate insert get t l = ROk t' -> fp0 t -> fp0 t'.
Proof.
  intros K. induction l as [|i l IH]; cbn [c_migrate]; intros t t' E O; [now injection E as <-|].
  destruct (get i) as [w|]; [|discriminate]. destruct (w =? 0); [eauto|].
  destruct (h_get _ _) as [[k d]|]; [|discriminate].
  apply bind_ok in E as (((c2 & q) & b2) & E1 & E). eapply IH; [exact E|]. cbn. eapply K; eauto.
Qed.
Lemma fp0_grow insert c c' : fp0_keep insert -> c_grow mc insert c = ROk c' -> fp0 c'.
Proof.
  intros K E. unfold c_grow in E. apply bind_ok in E as (t & E1 & E).
  apply bind_ok in E as (h & E2 & E). injection E as <-.
  apply (fp0_migrate _ _ _ K _ _ E1). intros p w. cbn. destruct (_ <? _); [|discriminate].
  intros X; now injection X as <-.
Qed.
Lemma fp0_set c p w : fp0 c -> w_fp w = 0 -> fp0 (c_set c p w).
Proof. intros F W q x. cbn. unfold fupd. destruct (_ =? _); [intros X; now injection X as <-|apply F]. Qed.
Lemma fp0_intern n : fp0_keep (c_insert_intern mc hash al n).
Proof.
  induction n as [|n IH]; intros c sl hv c' p b E F; cbn [c_insert_intern] in E; [discriminate|].
  apply bind_ok in E as ((c1 & sl1) & E1 & E). unfold c_copy in E1.
  destruct (h_get (c_heap c) _) as [[k0 d0]|]; [|discriminate].
  assert (W : w_fp sl1 = 0 /\ fp0 c1).
  { injection E1 as <- <-. split; [exact (fp_mk 0 (al (c_heap c)) fp0_lt)|exact F]. }
  destruct (h_get (c_heap c1) _) as [[k d]|]; [|discriminate].
  apply bind_ok in E as ((i & hit) & E2 & E). cbn [fst snd] in E.
  destruct hit; [now injection E as <- _ _|]. destruct (_ <? _).
  - apply bind_ok in E as (c2 & E3 & E). eapply IH; [exact E|]. exact (fp0_grow _ _ _ (fp0_insert _ IH) E3).
  - injection E as <- _ _. apply fp0_set; apply W.
Qed.
Lemma fp0_erase_loop fuel : forall c i j c', c_erase_loop mc hash fuel c i j = ROk c' -> fp0 c -> fp0 c'.
Proof.
  induction fuel as [|n IH]; intros c i j c' E F; cbn [c_erase_loop] in E; [discriminate|].
  destruct (c_get mc c _) as [w|] eqn:G; [|discriminate].
  destruct (w =? 0); [now injection E as <-|]. destruct (h_get _ _) as [[k d]|]; [|discriminate].
  destruct (_ <=? _); [|eauto]. eapply IH; [exact E|].
  apply fp0_set; [apply fp0_set; auto|reflexivity]. eapply F, c_get_cells; eauto.
Qed.
Lemma fp0_run c o c' r : crun mc hash al c o = ROk (c', r) -> (forall k d f, o <> SIou k d f) -> fp0 c -> fp0 c'.
Proof.
  intros E NI F. destruct o as [k d|k|k f|k d f|k]; cbn [crun] in E.
  - apply bind_ok in E as (((c2 & p) & b) & E1 & E). injection E as <- _.
    eapply fp0_insert; eauto. apply fp0_intern.
  - apply bind_ok in E as ((i & hit) & E1 & E). now injection E as <- _.
  - apply bind_ok in E as ((i & hit) & E1 & E). cbn [fst snd] in E. destruct hit; [|now injection E as <- _].
    destruct (c_get mc c _) as [w|] eqn:G; [|discriminate]. now injection E as <- _.
  - exfalso. eapply NI; reflexivity.
  - apply bind_ok in E as ((c2 & b) & E1 & E). injection E as <- _. unfold c_erase in E1.
    apply bind_ok in E1 as ((i & hit) & E1 & E). cbn [fst snd] in E. destruct hit; [|now injection E as <- _].
    destruct (c_get mc c _); [|discriminate]. apply bind_ok in E as (c3 & E2 & E). injection E as <- _.
    eapply fp0_erase_loop; [exact E2|]. apply fp0_set; auto.
Qed.
Lemma fp0_run_all l : forall c c' rs, crun_all mc hash al c l = ROk (c', rs) ->
  (forall o, In o l -> forall k d f, o <> SIou k d f) -> fp0 c -> fp0 c'.
Proof.
  induction l as [|o l IH]; cbn [crun_all]; intros c c' rs E NI F; [now injection E as <- _|].
  apply bind_ok in E as ((c1 & r) & E1 & E). apply bind_ok in E as ((c2 & rs2) & E2 & E).
  injection E as <- _. eapply IH; [exact E2|intros; apply NI; now right|].
  eapply fp0_run; [exact E1|apply NI; now left|exact F].
Qed.
Lemma fp0_fresh m h : fp0 (c_fresh mc m h).
Proof. intros p w. cbn. destruct (_ <? _); [|discriminate]. intros X; now injection X as <-. Qed.

(** A key with another fingerprint is never found in such a table. *)
Lemma fp0_scan fuel c k hv : fp0 c -> fingerprint hv <> 0 -> forall i,
  match c_scan mc fuel c k hv i with ROk (_, b) => b = false | _ => True end.
Proof.
  intros F NZ. induction fuel as [|n IH]; intros i; cbn [c_scan]; auto.
  destruct (c_get mc c _) as [w|] eqn:G; auto. unfold compare_key.
  rewrite (F _ w (c_get_cells _ _ _ G)). destruct (N.eqb_spec (fingerprint hv) 0); [congruence|].
  destruct (w =? 0); [reflexivity|apply IH].
Qed.
Lemma fp0_find c k hv i b : fp0 c -> fingerprint hv <> 0 -> c_find mc c k hv = ROk (i, b) -> b = false.
Proof. intros F NZ E. pose proof (fp0_scan (S (N.to_nat (total_slots mc (c_map c)))) c k hv F NZ (map_hash mc (c_map c) hv)) as H.
  unfold c_find in E. now rewrite E in H. Qed.
Lemma fp0_insert_true n : forall c sl hv c' p b, fp0 c -> fingerprint hv <> 0 ->
  c_insert_intern mc hash al n c sl hv = ROk (c', p, b) -> b = true.
Proof.
  induction n as [|n IH]; intros c sl hv c' p b F NZ E; cbn [c_insert_intern] in E; [discriminate|].
  apply bind_ok in E as ((c1 & sl1) & E1 & E). unfold c_copy in E1.
  destruct (h_get (c_heap c) _) as [[k0 d0]|]; [|discriminate].
  assert (F1 : fp0 c1) by (injection E1 as <- _; exact F).
  destruct (h_get (c_heap c1) _) as [[k d]|]; [|discriminate].
  apply bind_ok in E as ((i & hit) & E2 & E). cbn [fst snd] in E.
  rewrite (fp0_find _ _ _ _ _ F1 NZ E2) in E. destruct (_ <? _).
  - apply bind_ok in E as (c2 & E3 & E). eapply IH; [|exact NZ|exact E].
    exact (fp0_grow _ _ _ (fp0_insert _ (fp0_intern n)) E3).
  - now injection E as _ _ <-.
Qed.

(** *** Simulation *)

Definition hash1 : N -> N := fun k => hash (k - 1).
Definition fpz (k : N) : Prop := fingerprint (w64 (hash k)) = 0.

Definition celld (h : heap) (ow : option N) (ox : option slot) : Prop :=
  match ow, ox with
  | None, None => True
  | Some w, Some x =>
      (w = 0 /\ x = empty_slot) \/
      (exists k d, w_fp w = 0 /\ w_ptr w <> 0 /\ h_get h (w_ptr w) = Some (k, d) /\ x = Slot (k + 1) d /\ fpz k)
  | _, _ => False
  end.
Record sim (c : ctab) (s : stab) : Prop := {
  sm_map : c_map c = q_map s;
  sm_n : c_n c = q_n s;
  sm_cell : forall p, celld (c_heap c) (c_cells c p) (q_mem s p);
  sm_ok : okc c }.

Lemma sim_get c s p : sim c s -> celld (c_heap c) (c_get mc c p) (q_get mc s p).
Proof. intros S. unfold c_get, q_get. rewrite (sm_map _ _ S). destruct (_ <? _); [apply S|exact I]. Qed.
Lemma celld_heap h h' ow ox : celld h ow ox ->
  (forall w, ow = Some w -> w_ptr w <> 0 -> h_get h' (w_ptr w) = h_get h (w_ptr w)) -> celld h' ow ox.
Proof.
  destruct ow as [w|], ox as [x|]; cbn; auto. intros [H|(k & d & H1 & H2 & H3 & H4)] E; auto.
  right. exists k, d. rewrite (E w eq_refl H2). auto.
Qed.

Lemma sim_scan c s k : sim c s -> fpz k -> forall fuel i,
  c_scan mc fuel c k (w64 (hash k)) i = scan mc fuel s (k + 1) i.
Proof.
  intros S Z. induction fuel as [|n IH]; intros i; cbn [c_scan scan]; auto.
  rewrite (sm_map _ _ S). pose proof (sim_get c s (remap mc (q_map s) i) S) as D.
  destruct (c_get mc c _) as [w|], (q_get mc s _) as [x|]; cbn in D; try contradiction; auto.
  unfold compare_key. rewrite Z. destruct D as [(-> & ->)|(k0 & d & F & P & G & -> & Z0)].
  - cbn. unfold q_is. cbn. destruct (N.eqb_spec 0 (k + 1)); [lia|]. reflexivity.
  - rewrite F, G. cbn [N.eqb fst]. destruct (N.eqb_spec (w_ptr w) 0); [congruence|].
    unfold q_is, q_empty. cbn [skey]. destruct (N.eqb_spec (k0 + 1) 0); [lia|].
    destruct (N.eqb_spec k0 k), (N.eqb_spec (k0 + 1) (k + 1)); try lia; auto.
    destruct (N.eqb_spec w 0); [|apply IH]. now apply ptr_nz in P.
Qed.
Lemma sim_find c s k : sim c s -> fpz k -> c_find mc c k (w64 (hash k)) = q_scan mc hash1 s (k + 1).
Proof.
  intros S Z. unfold c_find, q_scan, q_home, hash1. rewrite N.add_sub. rewrite (sm_map _ _ S). now apply sim_scan.
Qed.

Definition orel {A B} (P : A -> B -> Prop) (x : outcome A) (y : outcome B) : Prop :=
  match x, y with ROk a, ROk b => P a b | RBad, RBad => True | RLoop, RLoop => True | _, _ => False end.
Lemma orel_bind {A B C D} (P : A -> B -> Prop) (Q : C -> D -> Prop) x y f g :
  orel P x y -> (forall a b, x = ROk a -> y = ROk b -> P a b -> orel Q (f a) (g b)) -> orel Q (bind x f) (bind y g).
Proof. destruct x, y; cbn; intros H K; try contradiction; auto. Qed.
Definition prel (x : ctab * N * bool) (y : stab * N * bool) : Prop :=
  sim (fst (fst x)) (fst (fst y)) /\ snd (fst x) = snd (fst y) /\ snd x = snd y.

Lemma prel_mk c s p b : sim c s -> prel (c, p, b) (s, p, b).
Proof. intros S. split; [exact S|split; reflexivity]. Qed.

Lemma sim_new c s k d fp : fp < 2 ^ 16 -> sim c s -> sim (fst (c_new al c k d fp)) s.
Proof.
  intros FP S. split; try apply S.
  - intros p. eapply celld_heap; [apply S|]. intros w E NZ. cbn.
    destruct (N.eqb_spec (al (c_heap c)) (w_ptr w)) as [X|]; auto.
    exfalso. apply (proj1 (sm_ok _ _ S) p w E NZ). rewrite <- X. apply AL.
  - apply ok_new; [exact FP|apply S].
Qed.
Lemma sim_set c s p w k d : sim c s -> framed (w_ptr w) (k, d) c -> w_fp w = 0 -> fpz k ->
  sim (c_set c p w) (q_set s p (Slot (k + 1) d)).
Proof.
  intros S F W Z. split; try apply S.
  - intros q. cbn. unfold fupd. destruct (q =? p); [|apply S].
    right. exists k, d. destruct F as (F1 & F2 & _). auto.
  - eapply ok_set; eauto. apply S.
Qed.
Lemma sim_plus c s : sim c s -> sim (c_plus c) (Stab (q_map s) (q_mem s) (q_n s + 1)).
Proof. intros S. split; try apply S. cbn. now rewrite (sm_n _ _ S). Qed.
Lemma sim_minus c s : sim c s -> sim (c_minus c) (Stab (q_map s) (q_mem s) (q_n s - 1)).
Proof. intros S. split; try apply S. cbn. now rewrite (sm_n _ _ S). Qed.
Lemma sim_fresh m h : sim (c_fresh mc m h) (q_fresh mc m).
Proof.
  split; auto; [|apply ok_fresh]. intros p. cbn. destruct (_ <? _); cbn; auto.
Qed.
Lemma cleanup_framed c w v : framed (w_ptr w) v c ->
  c_cleanup (c_heap c) w = ROk (h_free (c_heap c) (w_ptr w)).
Proof.
  intros (Z & G & _). unfold c_cleanup. destruct (N.eqb_spec (w_ptr w) 0); [congruence|]. now rewrite G.
Qed.
Lemma sim_cleanup c s w v : sim c s -> framed (w_ptr w) v c ->
  sim (c_with_heap c (h_free (c_heap c) (w_ptr w))) s.
Proof.
  intros S F. split; try apply S.
  - intros p. eapply celld_heap; [apply S|]. intros x E NZ. cbn. rewrite get_free.
    destruct (N.eqb_spec (w_ptr x) (w_ptr w)) as [X|]; auto.
    exfalso. apply (proj2 (proj2 F) p x E). auto.
  - eapply ok_cleanup; eauto; [apply S|]. now apply (cleanup_framed c w v).
Qed.

Definition sim_ins (insert : ctab -> N -> N -> outcome (ctab * N * bool))
  (ins : stab -> N -> N -> outcome (stab * N * bool)) : Prop :=
  forall c s k d, sim c s -> fpz k -> orel prel (insert c k d) (ins s (k + 1) d).

Lemma sim_insert n :
  (forall c s sl k d, sim c s -> framed (w_ptr sl) (k, d) c -> fpz k ->
     orel prel (c_insert_intern mc hash al n c sl (w64 (hash k))) (insert_intern mc hash1 n s (k + 1) d)) ->
  sim_ins (c_insert hash al (c_insert_intern mc hash al n)) (insert_intern mc hash1 n).
Proof.
  intros SI c s k d S Z. unfold c_insert.
  pose proof (ok_new c k d (fingerprint (w64 (hash k))) (fp_lt _) (sm_ok _ _ S)) as (O1 & F1).
  pose proof (sim_new c s k d (fingerprint (w64 (hash k))) (fp_lt _) S) as S1.
  destruct (c_new al c k d _) as [c1 w] eqn:EN. cbn [fst snd] in *.
  specialize (SI c1 s w k d S1 F1 Z).
  destruct (c_insert_intern mc hash al n c1 w _) as [[[c2 p] b]| |] eqn:E1,
    (insert_intern mc hash1 n s (k + 1) d) as [[[s2 q] b']| |]; cbn in SI; try contradiction; cbn; auto.
  destruct SI as (S2 & P & B). cbn in S2, P, B. subst. destruct b'; [now apply prel_mk|].
  pose proof (keeps_intern _ _ _ _ _ _ _ _ _ E1 F1) as F2.
  rewrite (cleanup_framed c2 w (k, d) F2). cbn. apply prel_mk. now apply (sim_cleanup c2 s2 w (k, d)).
Qed.

Lemma sim_migrate insert ins c s (K : keeps insert) (SI : sim_ins insert ins) (S : sim c s) : forall l t u,
  sim t u ->
  (forall p w, c_cells c p = Some w -> w_ptr w <> 0 -> exists v, h_get (c_heap c) (w_ptr w) = Some v /\ framed (w_ptr w) v t) ->
  orel sim (c_migrate insert (c_get mc c) t l) (migrate_loop mc ins s u l).
Proof.
  induction l as [|i l IH]; intros t u T FR; cbn [c_migrate migrate_loop]; [exact T|].
  pose proof (sim_get c s i S) as D.
  destruct (c_get mc c i) as [w|] eqn:G, (q_get mc s i) as [x|]; cbn in D; try contradiction; cbn; auto.
  destruct D as [(-> & ->)|(k & d & F & P & H & -> & Z)]; [cbn; now apply IH|].
  unfold q_empty. cbn [skey sdata]. destruct (N.eqb_spec (k + 1) 0); [lia|].
  destruct (N.eqb_spec w 0) as [->|]; [now destruct P|].
  destruct (FR i w (c_get_cells _ _ _ G) P) as (v & H2 & Fw). rewrite H in H2. injection H2 as <-.
  rewrite (proj1 (proj2 Fw)). apply (orel_bind prel); [now apply SI|].
  intros [[t' p] b] [[u' q] b'] E1 E2 (T' & _ & _). cbn in T'. cbn [fst]. apply IH; auto.
  intros p0 w0 C0 NZ0. destruct (FR p0 w0 C0 NZ0) as (v & X & Y). exists v. split; auto. eapply K; eauto.
Qed.

(** Cleaning up distinct live elements works. *)
Lemma cleanup_all_ok get l : forall h, NoDup l ->
  (forall i, In i l -> exists w, get i = Some w /\ (w_ptr w = 0 \/ h_get h (w_ptr w) <> None)) ->
  (forall i j w x, In i l -> In j l -> get i = Some w -> get j = Some x -> w_ptr w <> 0 -> w_ptr w = w_ptr x -> i = j) ->
  exists h', c_cleanup_all get h l = ROk h'.
Proof.
  induction l as [|i l IH]; intros h ND LV IJ; cbn [c_cleanup_all]; [eauto|].
  inversion ND; subst. destruct (LV i (or_introl eq_refl)) as (w & G & L). rewrite G. unfold c_cleanup.
  destruct (N.eqb_spec (w_ptr w) 0) as [Z|NZ]; cbn [bind].
  - apply IH; auto; [intros j Hj; apply LV; now right|]. intros j j' x y Hj Hj'. apply IJ; now right.
  - destruct (h_get h (w_ptr w)) eqn:GH; [|destruct L; congruence]. cbn [bind]. apply IH; auto.
    + intros j Hj. destruct (LV j (or_intror Hj)) as (x & Gx & Lx). exists x. split; auto.
      destruct (N.eqb_spec (w_ptr x) 0); auto. right. destruct Lx as [|Lx]; [congruence|].
      rewrite get_free. destruct (N.eqb_spec (w_ptr x) (w_ptr w)) as [E|]; auto.
      assert (i = j) by (apply (IJ i j w x); auto; [now left|now right]). subst. contradiction.
    + intros j j' x y Hj Hj'. apply IJ; now right.
Qed.

Lemma migrate_some insert get l : forall t t', c_migrate insert get t l = ROk t' -> forall i, In i l -> get i <> None.
Proof.
  induction l as [|i l IH]; cbn [c_migrate]; intros t t' E j H; [destruct H|].
  destruct (get i) as [w|] eqn:G; [|discriminate]. destruct H as [<-|H]; [congruence|].
  destruct (w =? 0); [eauto|]. destruct (h_get _ _) as [[k d]|]; [|discriminate].
  apply bind_ok in E as (r & _ & E). eauto.
Qed.

Lemma sim_grow insert ins c s : keeps insert -> ok_ins insert -> sim_ins insert ins -> sim c s ->
  orel sim (c_grow mc insert c) (grow mc ins s).
Proof.
  intros K OI SI S. unfold c_grow, grow. rewrite (sm_map _ _ S), (sm_n _ _ S).
  set (m := resize mc (q_map s) (q_n s) 0).
  assert (FR : forall p w, c_cells c p = Some w -> w_ptr w <> 0 ->
            exists v, h_get (c_heap c) (w_ptr w) = Some v /\ framed (w_ptr w) v (c_fresh mc m (c_heap c))).
  { intros p w C NZ. apply (old_framed c m p w (sm_ok _ _ S) C NZ). }
  apply (orel_bind sim); [apply sim_migrate; auto; apply sim_fresh|].
  intros t u E1 E2 T.
  assert (FT : forall p w, c_cells c p = Some w -> w_ptr w <> 0 -> exists v, framed (w_ptr w) v t).
  { intros p w C NZ. destruct (FR p w C NZ) as (v & _ & F). exists v. eapply keeps_migrate; eauto. }
  destruct (cleanup_all_ok (c_get mc c) (nseq 0 (N.to_nat (total_slots mc (q_map s)))) (c_heap t)) as (h & E).
  - apply MigrateDone.nseq_nodup.
  - intros i Hi. pose proof (migrate_some _ _ _ _ _ E1 i Hi) as NN.
    destruct (c_get mc c i) as [w|] eqn:G; [|congruence]. exists w. split; auto.
    destruct (N.eqb_spec (w_ptr w) 0) as [|n]; auto. right.
    destruct (FT i w (c_get_cells _ _ _ G) n) as (v & _ & X & _). congruence.
  - intros i j w x _ _ Gi Gj. apply (proj2 (sm_ok _ _ S)); eapply c_get_cells; eauto.
  - rewrite E. cbn [bind orel]. split; cbn.
    + apply T.
    + reflexivity.
    + intros p. eapply celld_heap; [apply T|]. intros w C NZ. eapply fr_cleanup_all; eauto.
      intros i x G X. apply c_get_cells in G. destruct (FT i x G ltac:(congruence)) as (v & _ & _ & Ct).
      apply (Ct p w C). auto.
    + apply (ok_same (c_with_heap t h)); auto. apply ok_heap; [apply T|].
      intros p w C NZ L. erewrite fr_cleanup_all; eauto. intros i x G X. apply c_get_cells in G.
      destruct (FT i x G ltac:(congruence)) as (v & _ & _ & Ct). apply (Ct p w C). auto.
Qed.

Lemma sim_intern n : forall c s sl k d, sim c s -> framed (w_ptr sl) (k, d) c -> fpz k ->
  orel prel (c_insert_intern mc hash al n c sl (w64 (hash k))) (insert_intern mc hash1 n s (k + 1) d).
Proof.
  induction n as [|n IH]; intros c s sl k d S F Z; cbn [c_insert_intern insert_intern]; [exact I|].
  unfold c_copy. rewrite (proj1 (proj2 F)). cbn [bind].
  pose proof (ok_new c k d 0 fp0_lt (sm_ok _ _ S)) as (O1 & F1).
  pose proof (sim_new c s k d 0 fp0_lt S) as S1.
  assert (W1 : w_fp (snd (c_new al c k d 0)) = 0) by exact (fp_mk 0 (al (c_heap c)) fp0_lt).
  destruct (c_new al c k d 0) as [c1 sl1]. cbn [fst snd] in O1, F1, S1, W1.
  rewrite (proj1 (proj2 F1)). rewrite (sim_find c1 s k S1 Z).
  destruct (q_scan mc hash1 s (k + 1)) as [[i hit]| |]; cbn [bind orel]; auto. cbn [fst snd].
  rewrite (sm_map _ _ S1), (sm_n _ _ S1). destruct hit; [now apply prel_mk|].
  destruct (_ <? _) eqn:LIM.
  - apply (orel_bind sim).
    + apply sim_grow; [apply keeps_insert, keeps_intern|apply ok_insert; [apply keeps_intern|apply ok_intern_all]
        |now apply sim_insert|now apply sim_plus].
    + intros c2 s2 E1 _ S2. apply IH; auto; [now apply sim_minus|].
      apply (fr_same _ _ c2); auto. apply (keeps_grow _ (keeps_insert _ (keeps_intern n)) _ _ _ _ E1).
      now apply (fr_same _ _ c1).
  - apply prel_mk, (sim_set (c_plus c1) (Stab (q_map s) (q_mem s) (q_n s + 1)) _ sl1 k d); auto.
    now apply sim_plus.
Qed.

Lemma sim_upd c s p w k d f : sim c s -> c_cells c p = Some w -> w_ptr w <> 0 -> w_fp w = 0 ->
  h_get (c_heap c) (w_ptr w) = Some (k, d) -> fpz k ->
  sim (c_with_heap c (h_upd (c_heap c) (w_ptr w) f)) (q_set s p (Slot (k + 1) (f d))).
Proof.
  intros S C P W G Z. split; try apply S; [|apply ok_upd, S].
  intros q. cbn. unfold fupd. destruct (N.eqb_spec q p) as [->|NE].
  - rewrite C. right. exists k, (f d). rewrite get_upd, N.eqb_refl, G. auto.
  - eapply celld_heap; [apply S|]. intros x Cx NZ. rewrite get_upd.
    destruct (N.eqb_spec (w_ptr x) (w_ptr w)); auto.
    exfalso. apply NE. apply (proj2 (sm_ok _ _ S) q p x w); auto.
Qed.

Lemma scan_hit s k fuel : forall i j, scan mc fuel s k i = ROk (j, true) ->
  exists x, q_get mc s (remap mc (q_map s) j) = Some x /\ skey x = k.
Proof using.
  clear. induction fuel as [|n IH]; cbn [scan]; intros i j E; [discriminate|].
  destruct (q_get mc s _) as [x|] eqn:G; [|discriminate]. unfold q_is in E.
  destruct (N.eqb_spec (skey x) k); [injection E as <-; eauto|]. destruct (q_empty x); [discriminate|]. eauto.
Qed.

(** The slot that insert_or_update stores has the fingerprint of its key. *)
Lemma sim_iou_intern n : forall c s sl k d f, sim c s -> framed (w_ptr sl) (k, d) c -> w_fp sl = 0 -> fpz k ->
  orel prel (c_iou_intern mc hash al n c sl (w64 (hash k)) f) (insert_or_update_intern mc hash1 n s (k + 1) d f).
Proof.
  induction n as [|n IH]; intros c s sl k d f S F W Z; cbn [c_iou_intern insert_or_update_intern]; [exact I|].
  rewrite (proj1 (proj2 F)). rewrite (sim_find c s k S Z).
  destruct (q_scan mc hash1 s (k + 1)) as [[i hit]| |] eqn:ES; cbn [bind orel]; auto. cbn [fst snd].
  rewrite (sm_map _ _ S), (sm_n _ _ S). destruct hit.
  - pose proof (sim_get c s (remap mc (q_map s) i) S) as D.
    destruct (c_get mc c _) as [w|] eqn:G, (q_get mc s _) as [x|] eqn:Gx; cbn in D; try contradiction; cbn; auto.
    apply c_get_cells in G. destruct D as [(-> & ->)|(k0 & d0 & F0 & P & H & -> & Z0)].
    + apply scan_hit in ES as (x & Ex & X). rewrite Gx in Ex. injection Ex as <-. cbn in X. lia.
    + apply prel_mk. now apply sim_upd.
  - destruct (_ <? _) eqn:LIM.
    + apply (orel_bind sim).
      * apply sim_grow; [apply keeps_insert, keeps_intern|apply ok_insert; [apply keeps_intern|apply ok_intern_all]
          |apply sim_insert, sim_intern|now apply sim_plus].
      * intros c2 s2 E1 _ S2. apply IH; auto; [now apply sim_minus|].
        apply (fr_same _ _ c2); auto. apply (keeps_grow _ (keeps_insert _ (keeps_intern n)) _ _ _ _ E1).
        now apply (fr_same _ _ c).
    + apply prel_mk, (sim_set (c_plus c) (Stab (q_map s) (q_mem s) (q_n s + 1)) _ sl k d); auto.
      now apply sim_plus.
Qed.

Lemma sim_zero c s p : sim c s -> sim (c_set c p 0) (q_set s p empty_slot).
Proof.
  intros S. split; try apply S; [|apply ok_zero, S]. intros q. cbn. unfold fupd.
  destruct (q =? p); [now left|apply S].
Qed.
Lemma sim_move c s i t w k d : sim c s -> c_cells c t = Some w -> w_ptr w <> 0 -> w_fp w = 0 ->
  h_get (c_heap c) (w_ptr w) = Some (k, d) -> fpz k ->
  sim (c_set (c_set c i w) t 0) (q_set (q_set s i (Slot (k + 1) d)) t empty_slot).
Proof.
  intros S G P W GH Z. split; try apply S.
  - intros q. cbn. unfold fupd. destruct (q =? t); [now left|]. destruct (q =? i); [|apply S].
    right. exists k, d. auto.
  - destruct (sm_ok _ _ S) as (L & I). split; cbn; unfold fupd.
    + intros q x. destruct (q =? t); [intros X NZ; injection X as <-; now destruct NZ|].
      destruct (q =? i); [intros X NZ; injection X as <-; congruence|apply L].
    + intros q r x y. destruct (N.eqb_spec q t) as [->|NQ].
      { intros X _ NZ. injection X as <-. now destruct NZ. }
      destruct (N.eqb_spec r t) as [->|NR].
      { intros _ X NZ Y. injection X as <-. rewrite Y in NZ. now destruct NZ. }
      destruct (N.eqb_spec q i) as [->|], (N.eqb_spec r i) as [->|]; auto.
      * intros X Y NZ E. injection X as <-. exfalso. apply NR. symmetry. apply (I t r w y); auto.
      * intros X Y NZ E. injection Y as <-. exfalso. apply NQ. apply (I q t x w); auto.
      * apply I.
Qed.
Lemma sim_erase_loop fuel : forall c s i j, sim c s ->
  orel sim (c_erase_loop mc hash fuel c i j) (erase_loop mc hash1 fuel s i j).
Proof.
  induction fuel as [|n IH]; intros c s i j S; cbn [c_erase_loop erase_loop]; [exact I|].
  rewrite (sm_map _ _ S). pose proof (sim_get c s (remap mc (q_map s) j) S) as D.
  destruct (c_get mc c _) as [w|] eqn:G, (q_get mc s _) as [x|] eqn:Gx; cbn in D; try contradiction; cbn; auto.
  apply c_get_cells in G. destruct D as [(-> & ->)|(k0 & d0 & F0 & P & H & -> & Z0)]; [exact S|].
  destruct (N.eqb_spec w 0) as [->|]; [now destruct P|]. rewrite H.
  unfold q_empty. cbn [skey sdata]. destruct (N.eqb_spec (k0 + 1) 0); [lia|].
  unfold hash1 at 1. rewrite N.add_sub. destruct (_ <=? _); [|now apply IH].
  apply IH. now apply sim_move.
Qed.
Lemma sim_erase fuel c s k : sim c s -> fpz k ->
  orel (fun x y => sim (fst x) (fst y) /\ snd x = snd y) (c_erase mc hash fuel c k) (erase mc hash1 fuel s (k + 1)).
Proof.
  intros S Z. unfold c_erase, erase. rewrite (sim_find c s k S Z).
  destruct (q_scan mc hash1 s (k + 1)) as [[i hit]| |]; cbn [bind orel]; auto. cbn [fst snd].
  rewrite (sm_map _ _ S). destruct hit; [|split; auto].
  set (e := N.land i (remap mc (q_map s) i)). pose proof (sim_get c s e S) as D.
  destruct (c_get mc c e) as [w|] eqn:G, (q_get mc s e) as [x|] eqn:Gx; cbn in D; try contradiction; cbn; auto.
  eapply orel_bind; [apply sim_erase_loop, sim_zero, S|]. intros a b _ _ H. split; auto.
Qed.

(** *** Calls *)
Definition sop1 (o : sop) : sop :=
  match o with
  | SInsert k d => SInsert (k + 1) d
  | SFind k => SFind (k + 1)
  | SUpdate k f => SUpdate (k + 1) f
  | SIou k d f => SIou (k + 1) d f
  | SErase k => SErase (k + 1)
  end.
Definition res1 (r : option (N * N) * bool) : option (N * N) * bool :=
  (option_map (fun e => (fst e + 1, snd e)) (fst r), snd r).

Lemma sim_shows c s p x : sim c s -> q_get mc s p = Some x -> skey x <> 0 ->
  shows mc s p = option_map (fun e => (fst e + 1, snd e)) (c_shows mc c p).
Proof.
  intros S Gx NZ. unfold shows, c_shows. pose proof (sim_get c s p S) as D. rewrite Gx in *.
  destruct (c_get mc c p) as [w|]; cbn in D; [|contradiction].
  destruct D as [(_ & ->)|(k0 & d0 & F0 & P & H & -> & Z0)]; [now destruct NZ|]. rewrite H. reflexivity.
Qed.

Lemma get_set s p x : p < total_slots mc (q_map s) -> q_get mc (q_set s p x) p = Some x.
Proof. intros H. unfold q_get. cbn. destruct (N.ltb_spec p (total_slots mc (q_map s))); [|lia]. apply fupd_eq. Qed.
Lemma get_lt s p x : q_get mc s p = Some x -> p < total_slots mc (q_map s).
Proof. unfold q_get. destruct (N.ltb_spec p (total_slots mc (q_map s))); [auto|discriminate]. Qed.

Lemma scan_cell s k fuel : forall i j b, scan mc fuel s k i = ROk (j, b) ->
  exists x, q_get mc s (remap mc (q_map s) j) = Some x.
Proof using.
  clear. induction fuel as [|n IH]; cbn [scan]; intros i j b E; [discriminate|].
  destruct (q_get mc s _) as [x|] eqn:G; [|discriminate].
  destruct (q_is x k); [injection E as <- _; eauto|]. destruct (q_empty x); [injection E as <- _; eauto|]. eauto.
Qed.
(** The cell an insertion returns holds a key. *)
Lemma intern_cell n : forall s k d s' p b, insert_intern mc hash1 n s (k + 1) d = ROk (s', p, b) ->
  exists x, q_get mc s' p = Some x /\ skey x <> 0.
Proof.
  induction n as [|n IH]; cbn [insert_intern]; intros s k d s' p b E; [discriminate|].
  apply bind_ok in E as ((i & hit) & ES & E). cbn [fst snd] in E. destruct hit.
  - injection E as <- <- <-. apply scan_hit in ES as (x & G & X). exists x. split; [auto|lia].
  - destruct (_ <? _).
    + apply bind_ok in E as (s2 & _ & E). eauto.
    + injection E as <- <- <-. apply scan_cell in ES as (x & G). apply get_lt in G.
      exists (Slot (k + 1) d). split; [now apply get_set|cbn; lia].
Qed.
Lemma iou_cell n f : forall s k d s' p b, insert_or_update_intern mc hash1 n s (k + 1) d f = ROk (s', p, b) ->
  exists x, q_get mc s' p = Some x /\ skey x <> 0.
Proof.
  induction n as [|n IH]; cbn [insert_or_update_intern]; intros s k d s' p b E; [discriminate|].
  apply bind_ok in E as ((i & hit) & ES & E). cbn [fst snd] in E. destruct hit.
  - apply scan_hit in ES as (x & G & X). rewrite G in E. injection E as <- <- <-.
    apply get_lt in G. eexists. split; [now apply get_set|cbn; lia].
  - destruct (_ <? _).
    + apply bind_ok in E as (s2 & _ & E). eauto.
    + injection E as <- <- <-. apply scan_cell in ES as (x & G). apply get_lt in G.
      exists (Slot (k + 1) d). split; [now apply get_set|cbn; lia].
Qed.

Definition rrel (x : ctab * (option (N * N) * bool)) (y : stab * (option (N * N) * bool)) : Prop :=
  sim (fst x) (fst y) /\ snd y = res1 (snd x).

Lemma sim_run c s o : sim c s -> fpz (sop_key o) -> orel rrel (crun mc hash al c o) (srun mc hash1 s (sop1 o)).
Proof.
  intros S Z. destruct o as [k d|k|k f|k d f|k]; cbn [crun srun sop1 sop_key] in *.
  - apply (orel_bind prel); [now apply sim_insert; [apply sim_intern|..]|].
    intros [[c' p] b] [[s' q] b'] _ E2 (S' & P & B). cbn in S', P, B. subst.
    apply intern_cell in E2 as (x & G & X). split; cbn; auto.
    unfold res1. cbn. now rewrite (sim_shows c' s' q x).
  - rewrite (sim_find c s k S Z). destruct (q_scan mc hash1 s (k + 1)) as [[i hit]| |] eqn:ES; cbn [bind orel]; auto.
    cbn [fst snd]. split; auto. cbn [fst snd]. rewrite (sm_map _ _ S). destruct hit; [|reflexivity].
    apply scan_hit in ES as (x & G & X). unfold res1. cbn [fst snd]. rewrite (sim_shows c s _ x); auto. lia.
  - rewrite (sim_find c s k S Z). destruct (q_scan mc hash1 s (k + 1)) as [[i hit]| |] eqn:ES; cbn [bind orel]; auto.
    cbn [fst snd]. rewrite (sm_map _ _ S). destruct hit; [|split; auto].
    apply scan_hit in ES as (x & Gx & X). pose proof (sim_get c s (remap mc (q_map s) i) S) as D. rewrite Gx in *.
    destruct (c_get mc c _) as [w|] eqn:G; cbn in D; try contradiction. apply c_get_cells in G.
    destruct D as [(-> & ->)|(k0 & d0 & F0 & P & H & -> & Z0)]; [cbn in X; lia|].
    cbn [skey sdata]. pose proof (sim_upd c s _ w k0 d0 f S G P F0 H Z0) as S'. split; auto.
    cbn [fst snd]. unfold res1. cbn [fst snd]. erewrite sim_shows; eauto; [apply get_set; eapply get_lt; eauto|cbn; lia].
  - unfold c_iou.
    pose proof (ok_new c k d (fingerprint (w64 (hash k))) (fp_lt _) (sm_ok _ _ S)) as (O1 & F1).
    pose proof (sim_new c s k d (fingerprint (w64 (hash k))) (fp_lt _) S) as S1.
    assert (W1 : w_fp (snd (c_new al c k d (fingerprint (w64 (hash k))))) = 0).
    { cbn [snd c_new]. rewrite fp_mk by apply fp_lt. exact Z. }
    destruct (c_new al c k d _) as [c1 w] eqn:EN. cbn [fst snd] in O1, F1, S1, W1.
    pose proof (sim_iou_intern depth c1 s w k d f S1 F1 W1 Z) as SI.
    destruct (c_iou_intern mc hash al depth c1 w _ f) as [[[c2 p] b]| |] eqn:E1,
      (insert_or_update_intern mc hash1 depth s (k + 1) d f) as [[[s2 q] b']| |] eqn:E2;
      cbn [orel] in SI; try contradiction; cbn [bind orel]; auto.
    destruct SI as (S2 & P & B). cbn in S2, P, B. subst.
    apply iou_cell in E2 as (x & G & X).
    destruct (ok_iou_intern _ _ _ _ _ _ _ _ _ E1 O1 F1) as (O2 & F2). destruct b'.
    + cbn [bind orel]. split; cbn [fst snd]; auto. unfold res1. cbn [fst snd]. now rewrite (sim_shows c2 s2 q x).
    + specialize (F2 eq_refl). rewrite (cleanup_framed c2 w (k, d) F2). cbn [bind orel].
      pose proof (sim_cleanup c2 s2 w (k, d) S2 F2) as S3. split; cbn [fst snd]; auto.
      unfold res1. cbn [fst snd]. now rewrite (sim_shows _ s2 q x S3).
  - rewrite (sm_map _ _ S). eapply orel_bind; [now apply sim_erase|].
    intros [c' b] [s' b'] _ _ (S' & B). cbn in S', B. subst. split; auto.
Qed.

Lemma sim_run_all l : forall c s, sim c s -> (forall o, In o l -> fpz (sop_key o)) ->
  orel (fun x y => sim (fst x) (fst y) /\ snd y = map res1 (snd x))
    (crun_all mc hash al c l) (srun_all mc hash1 s (map sop1 l)).
Proof.
  induction l as [|o l IH]; intros c s S Z; cbn [crun_all srun_all map]; [split; auto|].
  eapply orel_bind; [apply sim_run; [exact S|apply Z; now left]|].
  intros [c1 r] [s1 r1] _ _ (S1 & R1). cbn in S1, R1.
  eapply orel_bind; [apply IH; [exact S1|intros; apply Z; now right]|].
  intros [c2 rs] [s2 rs1] _ _ (S2 & R2). cbn in S2, R2. split; cbn; auto. now subst.
Qed.
End F.

(** Cleaning up frees every element. *)
Lemma cleanup_none h w h' a : c_cleanup h w = ROk h' -> h_get h a = None -> h_get h' a = None.
Proof.
  unfold c_cleanup. destruct (_ =? 0); [congruence|]. destruct (h_get h (w_ptr w)); [|discriminate].
  intros E G; injection E as <-. rewrite get_free, G. now destruct (_ =? _).
Qed.
Lemma cleanup_all_none get l a : forall h h', c_cleanup_all get h l = ROk h' -> h_get h a = None -> h_get h' a = None.
Proof.
  induction l as [|i l IH]; cbn [c_cleanup_all]; intros h h' E G; [congruence|].
  destruct (get i) as [w|]; [|discriminate]. apply bind_ok in E as (h1 & E1 & E).
  eapply IH; eauto. eapply cleanup_none; eauto.
Qed.
Lemma cleanup_all_frees get l : forall h h', c_cleanup_all get h l = ROk h' ->
  forall i w, In i l -> get i = Some w -> w_ptr w <> 0 -> h_get h' (w_ptr w) = None.
Proof.
  induction l as [|j l IH]; cbn [c_cleanup_all]; intros h h' E i w H G NZ; [destruct H|].
  destruct (get j) as [x|] eqn:Gj; [|discriminate]. apply bind_ok in E as (h1 & E1 & E).
  destruct H as [->|H]; [|eauto]. rewrite G in Gj. injection Gj as <-.
  eapply cleanup_all_none; [exact E|]. unfold c_cleanup in E1.
  destruct (N.eqb_spec (w_ptr w) 0); [congruence|]. destruct (h_get h (w_ptr w)); [|discriminate].
  injection E1 as <-. now rewrite get_free, N.eqb_refl.
Qed.

Lemma heap_nil h : (forall a, h_get h a = None) -> h = [].
Proof. destruct h as [|[b v] h]; auto. intros H. specialize (H b). cbn in H. rewrite N.eqb_refl in H. discriminate. Qed.

(** *** No leaks without insert, erase and growth *)
Section L.
Context (mc : mcfg) (hash : N -> N) (al : allocator) (AL : allocator_ok al).

Record exact (m : mapper) (n : N) (c : ctab) : Prop := {
  ex_map : c_map c = m;
  ex_n : c_n c <= n;
  ex_cell : forall p, p < total_slots mc m -> c_get mc c p <> None;
  ex_ok : okc c;
  ex_all : forall a, h_get (c_heap c) a <> None -> exists p w, c_get mc c p = Some w /\ w_ptr w = a /\ a <> 0 }.

Lemma scan_free fuel c k hv : forall i j, c_scan mc fuel c k hv i = ROk (j, false) ->
  c_get mc c (remap mc (c_map c) j) = Some 0.
Proof.
  induction fuel as [|n IH]; cbn [c_scan]; intros i j E; [discriminate|].
  destruct (c_get mc c _) as [w|] eqn:G; [|discriminate]. destruct (compare_key _ _ _ _) as [[]|]; try discriminate.
  destruct (N.eqb_spec w 0) as [->|]; [injection E as <-; exact G|eauto].
Qed.
Lemma ex_upd m n c a f : exact m n c -> exact m (n + 1) (c_with_heap c (h_upd (c_heap c) a f)).
Proof.
  intros X. split; try apply X; [cbn; pose proof (ex_n _ _ _ X); lia|apply ok_upd, X|].
  intros b H. apply (ex_all _ _ _ X). cbn in H. rewrite get_upd in H.
  destruct (_ =? _); auto. intros N0. rewrite N0 in H. now apply H.
Qed.
Lemma ex_more m n n' c : exact m n c -> n <= n' -> exact m n' c.
Proof. intros X H. split; try apply X. pose proof (ex_n _ _ _ X). lia. Qed.

Lemma exact_iou m n c k d f c' p b : exact m n c -> n + 1 <= fill_limit (total_slots mc m) ->
  c_iou mc hash al depth c k d f = ROk (c', p, b) -> exact m (n + 1) c'.
Proof.
  intros X LIM E. unfold c_iou in E.
  pose proof (ok_new al AL c k d (fingerprint (w64 (hash k))) (fp_lt _) (ex_ok _ _ _ X)) as (O1 & F1).
  set (cw := c_new al c k d (fingerprint (w64 (hash k)))) in *.
  assert (H1 : c_heap (fst cw) = (w_ptr (snd cw), (k, d)) :: c_heap c).
  { unfold cw. cbn [fst snd c_new c_heap c_with_heap]. now rewrite ptr_mk by apply fp_lt. }
  assert (H2 : c_map (fst cw) = m /\ c_n (fst cw) <= n /\ (forall q, c_get mc (fst cw) q = c_get mc c q)).
  { split; [apply X|]. split; [apply X|reflexivity]. }
  destruct cw as [c1 w]. cbn [fst snd] in *. destruct H2 as (M1 & N1 & G1).
  apply bind_ok in E as (((c2 & q) & b2) & E1 & E).
  unfold depth in E1. cbn [c_iou_intern] in E1. rewrite (proj1 (proj2 F1)) in E1.
  apply bind_ok in E1 as ((i & hit) & ES & E1). cbn [fst snd] in E1. destruct hit.
  - destruct (c_get mc c1 _) as [x|] eqn:G; [|discriminate]. injection E1 as <- <- <-.
    rewrite G1 in G. apply bind_ok in E as (h & EC & E). injection E as <- _ _. cbn [c_heap c_with_heap] in *.
    assert (NX : w_ptr x <> w_ptr w).
    { apply (proj2 (proj2 F1) (remap mc (c_map c1) i) x). apply c_get_cells with (mc := mc). now rewrite G1. }
    assert (O2 : okc (c_with_heap (c_with_heap c1 (h_upd (c_heap c1) (w_ptr x) f)) h)).
    { eapply (ok_cleanup _ w (k, d)); [apply ok_upd, O1| |exact EC].
      apply fr_heap; auto. rewrite get_upd. destruct (N.eqb_spec (w_ptr w) (w_ptr x)); [congruence|reflexivity]. }
    split; auto.
    + cbn. lia.
    + intros y Hy. change (c_get mc c1 y <> None). rewrite G1. now apply (ex_cell _ _ _ X).
    + intros a H. cbn in H. unfold c_cleanup in EC.
      destruct (N.eqb_spec (w_ptr w) 0) as [Z|]; [destruct F1; congruence|].
      destruct (h_get _ (w_ptr w)); [|discriminate]. injection EC as <-. rewrite get_free in H.
      destruct (N.eqb_spec a (w_ptr w)) as [|NE]; [congruence|]. rewrite get_upd, H1 in H. cbn [h_get] in H.
      destruct (N.eqb_spec (w_ptr w) a); [congruence|].
      destruct (ex_all _ _ _ X a) as (y & z & G2 & P2).
      { intros N0. rewrite N0 in H. destruct (_ =? _); now apply H. }
      exists y, z. split; auto. change (c_get mc c1 y = Some z). now rewrite G1.
  - rewrite M1 in E1. destruct (N.ltb_spec (fill_limit (total_slots mc m)) (c_n c1 + 1)) as [L|L]; [lia|].
    injection E1 as <- <- <-. cbn [bind] in E. injection E as <- <- _.
    apply scan_free in ES. rewrite M1 in ES. set (p0 := remap mc m i) in *. clearbody p0.
    assert (P0 : p0 < total_slots mc m).
    { unfold c_get in ES. rewrite M1 in ES. destruct (N.ltb_spec p0 (total_slots mc m)); [auto|discriminate]. }
    assert (GS : forall y, c_get mc (c_set (c_plus c1) p0 w) y = if y =? p0 then Some w else c_get mc c1 y).
    { intros y. unfold c_get. cbn. rewrite M1. unfold fupd. destruct (N.eqb_spec y p0) as [->|]; auto.
      destruct (N.ltb_spec p0 (total_slots mc m)); [auto|lia]. }
    split; auto.
    + cbn. lia.
    + intros y Hy. rewrite GS. destruct (y =? p0); [discriminate|]. rewrite G1. now apply (ex_cell _ _ _ X).
    + apply (ok_set _ _ _ (k, d)); auto.
    + intros a H. cbn in H. rewrite H1 in H. cbn [h_get] in H. destruct (N.eqb_spec (w_ptr w) a) as [EA|NE].
      * exists p0, w. rewrite GS, N.eqb_refl. rewrite <- EA. destruct F1; auto.
      * destruct (ex_all _ _ _ X a H) as (y & x & G & P & Z). exists y, x. rewrite GS, G1.
        destruct (N.eqb_spec y p0) as [EY|]; [|auto]. rewrite G1, <- EY, G in ES. injection ES as ->. subst a. now destruct Z.
Qed.

Lemma exact_run m n c o c' r : exact m n c -> n + 1 <= fill_limit (total_slots mc m) ->
  is_insert o = false -> ~ is_erase o -> crun mc hash al c o = ROk (c', r) -> exact m (n + 1) c'.
Proof.
  intros X LIM NI NE E. destruct o as [k d|k|k f|k d f|k]; cbn [crun] in E.
  - discriminate.
  - apply bind_ok in E as ((i & hit) & E1 & E). injection E as <- _. eapply ex_more; eauto. lia.
  - apply bind_ok in E as ((i & hit) & E1 & E). cbn [fst snd] in E.
    destruct hit; [|injection E as <- _; eapply ex_more; eauto; lia].
    destruct (c_get mc c _) as [w|] eqn:G; [|discriminate]. injection E as <- _. now apply ex_upd.
  - apply bind_ok in E as (((c2 & p) & b) & E1 & E). injection E as <- _. eapply exact_iou; eauto.
  - exfalso. now apply NE.
Qed.
Lemma exact_run_all m l : forall n c c' rs, exact m n c ->
  n + N.of_nat (length l) <= fill_limit (total_slots mc m) ->
  (forall o, In o l -> is_insert o = false) -> (forall o, In o l -> ~ is_erase o) ->
  crun_all mc hash al c l = ROk (c', rs) -> exact m (n + N.of_nat (length l)) c'.
Proof.
  induction l as [|o l IH]; cbn [crun_all length]; intros n c c' rs X LIM NI NE E.
  - injection E as <- _. eapply ex_more; eauto. lia.
  - apply bind_ok in E as ((c1 & r) & E1 & E). apply bind_ok in E as ((c2 & rs2) & E2 & E). injection E as <- _.
    replace (n + N.of_nat (S (length l))) with ((n + 1) + N.of_nat (length l)) by lia.
    eapply IH; [|lia|intros; apply NI; now right|intros; apply NE; now right|exact E2].
    eapply exact_run; [exact X|lia|apply NI; now left|apply NE; now left|exact E1].
Qed.
Lemma exact_fresh m : exact m 0 (c_fresh mc m []).
Proof.
  split; cbn; auto; [lia| |apply ok_fresh|].
  - intros p H. unfold c_get. cbn. destruct (N.ltb_spec p (total_slots mc m)); [discriminate|lia].
  - intros a H. now destruct H.
Qed.
Lemma exact_destroy m n c : exact m n c -> c_destroy mc c = ROk [].
Proof.
  intros X. unfold c_destroy.
  destruct (cleanup_all_ok (c_get mc c) (nseq 0 (N.to_nat (total_slots mc (c_map c)))) (c_heap c)) as (h & E).
  - apply MigrateDone.nseq_nodup.
  - intros i Hi. apply MigrateGeo.in_nseq_N in Hi. rewrite (ex_map _ _ _ X) in Hi.
    pose proof (ex_cell _ _ _ X i ltac:(lia)) as NN. destruct (c_get mc c i) as [w|] eqn:G; [|congruence].
    exists w. split; auto. destruct (N.eqb_spec (w_ptr w) 0); auto. right.
    eapply (proj1 (ex_ok _ _ _ X)); [eapply c_get_cells; eauto|auto].
  - intros i j w x _ _ Gi Gj. apply (proj2 (ex_ok _ _ _ X)); eapply c_get_cells; eauto.
  - rewrite E. f_equal. apply heap_nil. intros a. destruct (h_get (c_heap c) a) as [v|] eqn:GA.
    + destruct (ex_all _ _ _ X a ltac:(congruence)) as (p & w & G & <- & NZ).
      eapply cleanup_all_frees; eauto. apply MigrateGeo.in_nseq_N. unfold c_get in G.
      destruct (N.ltb_spec p (total_slots mc (c_map c))); [lia|discriminate].
    + eapply cleanup_all_none; eauto.
Qed.
End L.

(** The map with the keys increased by one. *)
Lemma spec_shift o (a a1 : amap) : (forall k, a1 (k + 1) = a k) ->
  (forall k, fst (sq_spec a1 (sop1 o)) (k + 1) = fst (sq_spec a o) k) /\
  snd (sq_spec a1 (sop1 o)) = res1 (snd (sq_spec a o)).
Proof.
  intros H.
  assert (U : forall k v x, fupd a1 (k + 1) v (x + 1) = fupd a k v x).
  { intros k v x. unfold fupd. rewrite H. destruct (N.eqb_spec (x + 1) (k + 1)), (N.eqb_spec x k); auto; lia. }
  destruct o as [k d|k|k f|k d f|k]; cbn [sop1 sq_spec]; rewrite H; destruct (a k); cbn; auto.
Qed.
Lemma spec_all_shift l : forall (a a1 : amap), (forall k, a1 (k + 1) = a k) ->
  (forall k, fst (sq_spec_all a1 (map sop1 l)) (k + 1) = fst (sq_spec_all a l) k) /\
  snd (sq_spec_all a1 (map sop1 l)) = map res1 (snd (sq_spec_all a l)).
Proof.
  induction l as [|o l IH]; intros a a1 H; cbn [sq_spec_all map]; [auto|].
  destruct (spec_shift o a a1 H) as (H1 & H2).
  destruct (sq_spec a o) as [b r], (sq_spec a1 (sop1 o)) as [b1 r1]. cbn in H1, H2.
  destruct (IH b b1 H1) as (H3 & H4).
  destruct (sq_spec_all b l) as [b' rs], (sq_spec_all b1 (map sop1 l)) as [b1' rs1]. cbn in *. subst. auto.
Qed.
Lemma res1_inj x y : res1 x = res1 y -> x = y.
Proof.
  destruct x as [[[k d]|] b], y as [[[k' d']|] b']; unfold res1; cbn [option_map fst snd]; intros E.
  - assert (E1 : k + 1 = k' + 1) by congruence. assert (k = k') by lia. congruence.
  - congruence.
  - congruence.
  - congruence.
Qed.
Lemma map_res1_inj l : forall l', map res1 l = map res1 l' -> l = l'.
Proof.
  induction l as [|x l IH]; intros [|y l'] E; cbn [map] in E; try discriminate; auto.
  f_equal; [apply res1_inj; congruence|apply IH; congruence].
Qed.
