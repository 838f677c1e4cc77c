(** Iterators of the sequential table obtained from one version of the table are equal
    iff they stand for the same key. *)
From Coq Require Import NArith Bool List Lia.
From Verif Require Import Words Slot Mapper MapperFacts MapSpec BaseInv BaseLin Migrate Seq SeqSpec SeqFacts SeqIter SeqIterSpec
  SeqIterFacts SeqIterEq.
Import ListNotations.
Open Scope N_scope.

Section S.
Context (mc : mcfg) (hash : N -> N).
Notation tot s := (total_slots mc (q_map s)).
Notation irel := (irel mc hash).

(** What the cells say about two iterators of one version. *)
Definition agree (a b : siter) (va vb : ivar) : Prop :=
  si_ver a = si_ver b -> forall p q k k', si_ptr a = Some p -> si_ptr b = Some q ->
    va = VKey k -> vb = VKey k' -> (p = q <-> k = k').

Definition pairs (y : isys) (w : ispec) : Prop :=
  forall u v, agree (i_var y u) (i_var y v) (is_var w u) (is_var w v).

Lemma agree_sym a b va vb : agree a b va vb -> agree b a vb va.
Proof.
  intros H E p q k k' P Q V V'. specialize (H (eq_sym E) q p k' k Q P V' V). split; intros; symmetry; apply H; auto.
Qed.

(** Iterators of the present version. *)
Lemma agree_now y w u v : irel y w -> si_ver (i_var y u) = tot (i_tab y) ->
  agree (i_var y u) (i_var y v) (is_var w u) (is_var w v).
Proof.
  intros [GD VO] NOW E p q k k' P Q V V'.
  pose proof (VO u) as U. pose proof (VO v) as V1. rewrite V in U. rewrite V' in V1.
  destruct U as (K & _ & _ & _ & p1 & P1 & H1). destruct V1 as (K' & _ & _ & _ & q1 & Q1 & H2).
  assert (p1 = p) by congruence. assert (q1 = q) by congruence. subst p1 q1.
  destruct (H1 NOW) as (x & G & X). destruct (H2 ltac:(congruence)) as (x' & G' & X').
  destruct GD as (z & lg & I & L). split.
  - intros ->. congruence.
  - intros ->. eapply (cell_unique mc hash); eauto; congruence.
Qed.

Lemma pairs_step y w y' w' x : irel y' w' -> pairs y w ->
  (forall u, u <> x -> i_var y' u = i_var y u /\ (is_var w' u = is_var w u \/ is_var w' u = VGone)) ->
  (si_ver (i_var y' x) = tot (i_tab y')) -> pairs y' w'.
Proof.
  intros R PA OTH NOW u v. destruct (N.eq_dec u x) as [->|NU]; [now apply agree_now|].
  destruct (N.eq_dec v x) as [->|NV]; [apply agree_sym; now apply agree_now|].
  destruct (OTH u NU) as [-> [->| ->]]; [|intros _ ? ? ? ? _ _; discriminate].
  destruct (OTH v NV) as [-> [->| ->]]; [apply PA|intros _ ? ? ? ? _ _ _; discriminate].
Qed.

Lemma deref_ver s it it' p x : si_deref mc hash s it = ROk (it', p, x) -> si_ver it' = tot s.
Proof.
  unfold si_deref, si_refresh, q_version.
  destruct (N.eqb_spec (tot s) (si_ver it)) as [Q|Q].
  - cbn [bind]. destruct (si_ptr it); [|discriminate]. destruct (q_get mc s n); [|discriminate]. now intros [= <- _ _].
  - destruct (q_scan mc hash s (skey (si_slot it))) as [r| |]; cbn [bind si_ptr]; try discriminate.
    destruct (snd r); [|discriminate]. destruct (q_get mc s _); [|discriminate]. now intros [= <- _ _].
Qed.

Lemma icmd_pairs y w c w' r y' : irel y w -> pairs y w -> irel y' w' ->
  icmd_spec w c = Some (w', r) -> icmd_run mc hash y c = ROk (y', r) -> pairs y' w'.
Proof.
  intros R PA R'. destruct y as [s var], w as [a v].
  destruct c as [x o|x|x e|x]; cbn [icmd_spec icmd_run i_tab i_var is_map is_var].
  - destruct (sq_spec a o) as [a' [el b]]. intros [= <- <-].
    destruct (scall mc hash s o) as [[s' [q b']]| |]; cbn [bind]; try discriminate.
    destruct (make_it mc s' q) as [it| |] eqn:MI; cbn [bind]; try discriminate. intros [= <- _].
    apply (pairs_step _ _ _ _ x R' PA).
    + intros u NU. cbn [i_var is_var]. rewrite !fupd_neq by exact NU. split; [reflexivity|].
      destruct o; cbn [forget]; auto. destruct (v u) as [|k'|]; auto. destruct (k' =? k); auto.
    + cbn [i_var i_tab]. rewrite fupd_eq. unfold make_it in MI. destruct q as [p|]; [|now injection MI as <-].
      destruct (q_get mc s' p); [|discriminate]. now injection MI as <-.
  - destruct (v x) as [|k|]; try discriminate. destruct (a k) as [d|]; [|discriminate]. intros [= <- <-].
    destruct (si_deref mc hash s (var x)) as [[[it p] z]| |] eqn:D; cbn [bind]; try discriminate. intros [= <- _ _].
    apply (pairs_step _ _ _ _ x R' PA).
    + intros u NU. cbn [i_var is_var]. rewrite fupd_neq by exact NU. auto.
    + cbn [i_var i_tab]. rewrite fupd_eq. exact (deref_ver _ _ _ _ _ D).
  - destruct (v x) as [|k|]; try discriminate. destruct (a k) as [d|]; [|discriminate]. intros [= <- <-].
    destruct (si_deref mc hash s (var x)) as [[[it p] z]| |] eqn:D; cbn [bind]; try discriminate. intros [= <-].
    apply (pairs_step _ _ _ _ x R' PA).
    + intros u NU. cbn [i_var is_var]. rewrite fupd_neq by exact NU. auto.
    + cbn [i_var i_tab]. rewrite fupd_eq. exact (deref_ver _ _ _ _ _ D).
  - intros [= <- <-] [= <- _]. exact PA.
Qed.

Lemma icmd_all_pairs l : forall y w w' rs, irel y w -> pairs y w ->
  (forall c, In c l -> storable c) -> itame mc hash y l -> q_n (i_tab y) + N.of_nat (length l) <= 2 ^ 48 ->
  icmd_spec_all w l = Some (w', rs) ->
  (cprob mc = false /\ icmd_all mc hash y l = RBad) \/
  exists y', icmd_all mc hash y l = ROk (y', rs) /\ irel y' w' /\ pairs y' w'.
Proof.
  induction l as [|c l IH]; intros y w w' rs R PA KE TM N; cbn [icmd_spec_all icmd_all length itame] in *.
  - intros [= <- <-]. right. eauto.
  - destruct (icmd_spec w c) as [[w1 r]|] eqn:S1; [|discriminate].
    destruct (icmd_spec_all w1 l) as [[w2 rs1]|] eqn:S2; [|discriminate]. intros [= <- <-]. destruct TM as [FR TM].
    destruct (icmd_ok mc hash y w c w1 r R (KE c (or_introl eq_refl)) FR ltac:(lia) S1) as [[CP E1]|(y1 & E1 & R1 & N1)];
      [left; now rewrite E1|].
    pose proof (icmd_pairs _ _ _ _ _ _ R PA R1 S1 E1) as PA1. rewrite E1 in *.
    destruct (IH y1 w1 w2 rs1 R1 PA1 (fun c H => KE c (or_intror H)) TM ltac:(lia) S2) as [[CP E2]|(y2 & E2 & R2 & P2)];
      cbn [bind]; rewrite E2; cbn [bind]; eauto 6.
Qed.

Lemma equal_iff base size y w : 0 < size -> irel y w -> pairs y w -> forall x x',
  (si_eqb base size (i_var y x) (si_end mc (i_tab y)) = true <-> is_var w x = VEnd) /\
  (is_var w x <> VGone -> is_var w x' <> VGone -> si_ver (i_var y x) = si_ver (i_var y x') ->
     (si_eqb base size (i_var y x) (i_var y x') = true <-> is_var w x = is_var w x')).
Proof.
  intros SZ [_ VO] PA x x'. pose proof (VO x) as X. pose proof (VO x') as X'. split.
  - unfold si_eqb, si_end. cbn [si_ptr]. destruct (is_var w x) as [|k|]; cbn [var_ok] in X.
    + rewrite X. split; reflexivity.
    + destruct X as (_ & _ & _ & _ & p & -> & _). split; discriminate.
    + destruct X as (p & ->). split; discriminate.
  - intros NX NX' V. unfold si_eqb. specialize (PA x x' V).
    destruct (is_var w x) as [|k|]; cbn [var_ok] in X; [| |congruence];
      destruct (is_var w x') as [|k'|]; cbn [var_ok] in X'; try congruence.
    + rewrite X, X'. split; reflexivity.
    + destruct X' as (_ & _ & _ & _ & p & -> & _). rewrite X. split; discriminate.
    + destruct X as (_ & _ & _ & _ & p & -> & _). rewrite X'. split; discriminate.
    + destruct X as (_ & _ & _ & _ & p & P & _). destruct X' as (_ & _ & _ & _ & q & Q & _).
      specialize (PA p q k k' P Q eq_refl eq_refl). rewrite P, Q, V, N.eqb_eq. split.
      * intros H. f_equal. apply PA. nia.
      * intros [= H]. apply PA in H. now subst q.
Qed.

(** *** begin() *)
Lemma in_cells n : forall a p, In p (nseq a n) <-> a <= p < a + N.of_nat n.
Proof. induction n as [|n IH]; intros a p; cbn [nseq In]; [lia|]. rewrite IH. lia. Qed.

Lemma q_first_spec s l : (forall p, In p l -> exists x, q_get mc s p = Some x) ->
  match q_first mc s l with
  | ROk None => forall p x, In p l -> q_get mc s p = Some x -> skey x = 0
  | ROk (Some p) => exists x, q_get mc s p = Some x /\ skey x <> 0
  | _ => False
  end.
Proof.
  induction l as [|i l IH]; intros H; cbn [q_first].
  - intros p x [].
  - destruct (H i (or_introl eq_refl)) as [x G]. rewrite G. unfold q_empty.
    destruct (N.eqb_spec (skey x) 0) as [E|E]; [|eauto].
    specialize (IH (fun p I => H p (or_intror I))). destruct (q_first mc s l) as [[p|]| |]; auto.
    intros q y [<-|I] Gy; [congruence|eauto].
Qed.

Lemma begin_spec s a z : good mc hash s a z ->
  exists it, q_begin mc s = ROk it /\
    match si_ptr it with
    | None => forall k, a k = None
    | Some p => exists k d, a k = Some d /\ si_deref mc hash s it = ROk (it, p, Slot k d)
    end.
Proof.
  intros (lg & I & L). unfold q_begin.
  assert (C : forall p, In p (nseq 0 (N.to_nat (tot s))) -> exists x, q_get mc s p = Some x).
  { intros p H. apply in_cells in H. rewrite N2Nat.id in H. destruct (si_cell _ _ _ _ _ _ I p) as [x X]; [lia|].
    exists x. unfold q_get. destruct (N.ltb_spec p (tot s)); [exact X|lia]. }
  pose proof (q_first_spec s _ C) as F.
  destruct (q_first mc s _) as [[p|]| |]; cbn [bind]; try contradiction.
  - destruct F as ([k d] & G & K). cbn [make_it]. rewrite G. eexists. split; [reflexivity|]. cbn [si_ptr].
    exists k, d. split; [apply (si_abs _ _ _ _ _ _ I); eauto|].
    unfold si_deref. cbn [si_ver]. rewrite N.eqb_refl. cbn [bind si_ptr]. now rewrite G.
  - cbn [make_it]. eexists. split; [reflexivity|]. cbn [si_ptr]. intros k.
    destruct (a k) as [d|] eqn:A; auto. apply (si_abs _ _ _ _ _ _ I) in A as (K & p & G).
    assert (skey (Slot k d) = 0); [|cbn in *; congruence]. eapply F; [|exact G].
    apply in_cells. rewrite N2Nat.id. apply q_get_lt in G. lia.
Qed.

End S.
