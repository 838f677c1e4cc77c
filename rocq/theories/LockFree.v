(** Calls on a table of fixed size cannot keep each other from returning. *)
From Coq Require Import Arith NArith Bool List Lia.
From Verif Require Import Words Slot SlotFacts Mapper MapperFacts ReturnCode MapSpec LinSpec
  Base BaseInv BaseExec TableSpec BaseFacts Raw LockFreeSpec.
Import ListNotations.
Open Scope N_scope.

Lemma mark_again sc x : sc_mark sc = true -> is_marked sc x = true -> mark_slot sc x = x.
Proof.
  intros M E. unfold is_marked in E. rewrite M in E. unfold mark_slot. destruct x as [k d]. cbn in *. f_equal.
  apply N.bits_inj. intros n. rewrite N.lor_spec.
  unfold mbit in *. destruct (N.eq_dec n (sc_w sc - 1)) as [->|NE].
  - rewrite N.pow2_bits_true, orb_true_r. symmetry.
    destruct (N.testbit k (sc_w sc - 1)) eqn:T; auto. exfalso.
    apply negb_true_iff, N.eqb_neq in E. apply E. apply N.bits_inj. intros j. rewrite N.land_spec, N.bits_0.
    destruct (N.eq_dec j (sc_w sc - 1)) as [->|NE]; [now rewrite T|]. rewrite N.pow2_bits_false by auto. apply andb_false_r.
  - rewrite N.pow2_bits_false by auto. apply orb_false_r.
Qed.

Lemma mark_marks sc x : sc_mark sc = true -> is_marked sc (mark_slot sc x) = true.
Proof.
  intros M. unfold is_marked, mark_slot. rewrite M. cbn. apply negb_true_iff, N.eqb_neq. intros Z.
  assert (Q : N.testbit (N.land (N.lor (skey x) (mbit sc)) (mbit sc)) (sc_w sc - 1) = false) by (rewrite Z; apply N.bits_0).
  revert Q. rewrite N.land_spec, N.lor_spec. unfold mbit. rewrite N.pow2_bits_true, orb_true_r. discriminate.
Qed.

Section LF.
Context (c : tcfg) (m : mapper) (lg : N).
Context (Hsc : wf_scfg (tsc c)) (Hm : wf_mapper (tmc c) m lg).
Notation sc := (tsc c).
Notation mc := (tmc c).
Notation rmp := (remap mc m).
Notation tot := (total_slots mc m).
Notation addr := (addressable_slots mc m).
Notation hm o := (home c m (op_key o)).

(** For each home position an index ahead whose cell is not in use. *)
Context (E : N -> N).
Definition free_at (t : mem) : Prop :=
  forall k, home c m k <= E (home c m k) <= home c m k + tot /\ ~ used c t (rmp (E (home c m k))).

Definition is_find (o : op) : bool := match o with OFind _ => true | _ => false end.

(** A load of this cell ends the call: it is marked. *)
Definition stops (t : mem) (o : op) (i : N) : bool :=
  match t (rmp i) with Some x => is_marked sc x && negb (is_find o) | None => false end.

(** The access ends the call. *)
Definition ready (t : mem) (o : op) (pc : bpc) : bool :=
  match snd (bstep c m t true o pc) with PDone _ => true | _ => false end.

Definition left_acc (t : mem) (o : op) (pc : bpc) (i : N) : N :=
  if ready t o pc then 3 else if stops t o i then 2 else E (hm o) + 5 - i.

(** A bound on the accesses the call still makes as long as no other call returns. *)
Definition left (t : mem) (o : op) (pc : bpc) : N :=
  match pc with
  | PLoad i => if stops t o i then 1 else E (hm o) + 4 - i
  | PCas i _ | PUpd i _ | PDel i _ => left_acc t o pc i
  | PDone _ | PBad => tot + 6
  end.

Lemma passed_before t k i : free_at t -> passed c m t (home c m k) i -> i <= E (home c m k).
Proof.
  intros F [L P]. destruct (F k) as [B U]. destruct (N.le_gt_cases i (E (home c m k))); [assumption|].
  exfalso. apply U, P. lia.
Qed.

Lemma same_acc t o pc t' : (forall p, t' p = t p) -> snd (bstep c m t' true o pc) = snd (bstep c m t true o pc).
Proof.
  intros EQ. destruct pc; cbn [bstep]; unfold rd; rewrite ?EQ; auto;
    destruct (_ <? _); auto; destruct (t _); auto.
  - destruct (cas _ _ _ _) as [[? ?] ?]. reflexivity.
  - destruct (atomic_update _ _ _ _) as [[? ?] ?]. reflexivity.
  - destruct (atomic_delete _ _ _) as [[? ?] ?]. reflexivity.
Qed.

Lemma same_left t t' o pc : (forall p, t' p = t p) -> left t' o pc = left t o pc.
Proof.
  intros EQ. assert (S : forall i, stops t' o i = stops t o i) by (intros; unfold stops; now rewrite EQ).
  assert (R : ready t' o pc = ready t o pc) by (unfold ready; now rewrite (same_acc t)).
  destruct pc; cbn [left]; unfold left_acc; now rewrite ?S, ?R.
Qed.

(** Only calls that change the table come to a compare-and-swap. *)
Definition sane (o : op) (pc : bpc) : Prop :=
  match pc with PCas _ _ | PUpd _ _ | PDel _ _ => is_find o = false | _ => True end.

(** Marking a cell takes away work. *)
Lemma mark_left t p x o pc :
  sc_mark sc = true -> t p = Some x -> raw_thr c m t o pc -> sane o pc -> free_at t ->
  left (fupd t p (Some (mark_slot sc x))) o pc <= left t o pc.
Proof.
  intros M Ex T S F. set (t' := fupd t p (Some (mark_slot sc x))).
  destruct (is_marked sc x) eqn:MX.
  { rewrite (same_left t t'); [lia|]. intros q. unfold t', fupd. rewrite mark_again by auto.
    destruct (N.eqb_spec q p); congruence. }
  assert (ST : forall i, stops t' o i = (if rmp i =? p then negb (is_find o) else stops t o i)).
  { intros i. unfold stops, t'. unfold fupd. destruct (N.eqb_spec (rmp i) p); auto.
    rewrite mark_marks by auto. reflexivity. }
  assert (SF : forall i, rmp i = p -> stops t o i = false) by (intros i e; unfold stops; now rewrite e, Ex, MX).
  assert (ACC : forall i, passed c m t (hm o) i -> is_find o = false ->
     (rmp i <> p -> ready t' o pc = ready t o pc) -> left_acc t' o pc i <= left_acc t o pc i).
  { intros i P NF EQ. pose proof (passed_before _ _ _ F P) as B. unfold left_acc. rewrite ST, NF.
    destruct (N.eqb_spec (rmp i) p) as [e|n].
    - rewrite (SF i e). destruct (ready t' o pc), (ready t o pc); cbn; lia.
    - rewrite (EQ n). lia. }
  assert (RD : forall i, rmp i <> p -> rd c m t' (rmp i) = rd c m t (rmp i)).
  { intros i n. unfold rd, t'. now rewrite fupd_neq. }
  destruct pc as [i|i s|i s|i s|r|]; cbn [raw_thr sane left] in *; try lia.
  - pose proof (passed_before _ _ _ F T) as B. rewrite ST. destruct (N.eqb_spec (rmp i) p) as [e|n]; [|lia].
    rewrite (SF i e). destruct (negb (is_find o)); lia.
  - apply ACC; [apply T|exact S|]. intros n. unfold ready. cbn [bstep]. rewrite RD by exact n.
    destruct (rd c m t (rmp i)); auto. destruct (cas _ _ _ _) as [[? ?] ?]. reflexivity.
  - apply ACC; [apply T|exact S|]. intros n. unfold ready. cbn [bstep]. rewrite RD by exact n.
    destruct (rd c m t (rmp i)); auto. destruct (atomic_update _ _ _ _) as [[? ?] ?]. reflexivity.
  - apply ACC; [apply T|exact S|]. intros n. unfold ready. cbn [bstep]. rewrite RD by exact n.
    destruct (rd c m t (rmp i)); auto. destruct (atomic_delete _ _ _) as [[? ?] ?]. reflexivity.
Qed.

(** The decisions after a load. *)
Lemma load_next t o i x :
  t (rmp i) = Some x ->
  (exists r, after_load c m o i (rmp i) x = PDone r) \/
  (stops t o i = false /\ sane o (after_load c m o i (rmp i) x) /\
   (after_load c m o i (rmp i) x = PCas i x \/ after_load c m o i (rmp i) x = PUpd i x \/
    after_load c m o i (rmp i) x = PDel i x)) \/
  (stops t o i = false /\ after_load c m o i (rmp i) x = PLoad (i + 1)).
Proof.
  intros Ex. unfold stops. rewrite Ex. destruct o; cbn [after_load is_find];
    repeat match goal with
    | |- context [if is_marked ?a ?b then _ else _] => destruct (is_marked a b)
    | |- context [if is_empty ?a ?b then _ else _] => destruct (is_empty a b) eqn:?
    | |- context [if compare_key ?a ?b ?d then _ else _] => destruct (compare_key a b d)
    | |- context [if ?a && ?b then _ else _] => destruct (a && b) eqn:?
    | |- context [if ?a =? ?b then _ else _] => destruct (a =? b)
    end; cbn [andb negb sane is_find]; rewrite ?andb_false_r; eauto 9 using andb_false_r.
Qed.

(** The cells before the one the call is at are in use. *)
Definition raw_at (t : mem) (o : op) (pc : bpc) : Prop :=
  match pc with
  | PLoad i | PCas i _ | PUpd i _ | PDel i _ => passed c m t (hm o) i
  | PDone _ => True
  | PBad => False
  end.

(** An access that does not end the call leaves the table as it was and less to do. *)
Lemma at_left t b o pc t' pc' :
  raw_mem c m t -> raw_at t o pc -> sane o pc -> free_at t ->
  bstep c m t b o pc = (t', pc') -> (forall r, pc <> PDone r) -> (forall r, pc' <> PDone r) ->
  (forall p, t' p = t p) /\ sane o pc' /\ left t' o pc' + 1 <= left t o pc.
Proof.
  intros R T S F ST ND ND'.
  assert (SAME : forall i x, t (rmp i) = Some x -> forall q, fupd t (rmp i) (Some x) q = t q).
  { intros i x Ex q. destruct (N.eq_dec q (rmp i)) as [->|NE];
      [rewrite fupd_eq; auto|now rewrite fupd_neq by exact NE]. }
  assert (MISS : forall i x, passed c m t (hm o) i -> t (rmp i) = Some x ->
     t' = fupd t (rmp i) (Some x) -> pc' = PLoad i -> ready t o pc = false ->
     left t o pc = left_acc t o pc i ->
     (forall p, t' p = t p) /\ sane o pc' /\ left t' o pc' + 1 <= left t o pc).
  { intros i x P Ex -> -> NR ->. pose proof (passed_before _ _ _ F P) as B.
    split; [now apply SAME|]. split; [exact Logic.I|].
    rewrite (same_left t) by (now apply SAME). cbn [left]. unfold left_acc. rewrite NR.
    destruct (stops t o i); lia. }
  destruct pc as [i|i s|i s|i s|r|]; cbn [raw_at] in T.
  - destruct (rd_some c m lg Hm _ _ _ R T) as (x & E1 & E2). cbn [bstep] in ST. rewrite E1 in ST.
    injection ST as <- <-. split; auto. pose proof (passed_before _ _ _ F T) as B. cbn [left].
    destruct (load_next t o i x E2) as [[r Q]|[(SF & SA & Q)|(SF & Q)]].
    + now elim (ND' r).
    + split; auto. rewrite SF.
      assert (RDY : ready t o (after_load c m o i (rmp i) x) = true).
      { destruct Q as [-> |[-> | ->]]; unfold ready; cbn [bstep]; rewrite E1.
        - unfold cas. rewrite slot_eqb_refl. reflexivity.
        - destruct (update_same c x (op_fun o)) as (r & x' & ->). reflexivity.
        - unfold atomic_delete, cas. rewrite slot_eqb_refl. reflexivity. }
      destruct Q as [Q|[Q|Q]]; rewrite Q in *; cbn [left]; unfold left_acc; rewrite RDY; lia.
    + rewrite Q. split; [exact Logic.I|]. cbn [left]. rewrite SF.
      assert (P' : passed c m t (hm o) (i + 1)).
      { pose proof (raw_load c m lg Hm (fun _ => True) t o i x R T E2) as G. rewrite Q in G. exact G. }
      pose proof (passed_before _ _ _ F P'). destruct (stops t o (i + 1)); lia.
  - pose proof T as P. destruct (rd_some c m lg Hm _ _ _ R P) as (x & E1 & E2).
    assert (RB : ready t o (PCas i s) = slot_eqb x s).
    { unfold ready. cbn [bstep]. rewrite E1. unfold cas. destruct (slot_eqb x s); reflexivity. }
    cbn [bstep] in ST. rewrite E1 in ST. unfold cas in ST. destruct (slot_eqb x s); injection ST as <- <-.
    + now elim (ND' (BRet RC_SUCCESS_IN (in_slot o s) (Some (rmp i)))).
    + eapply (MISS i x); eauto.
  - pose proof T as P. destruct (rd_some c m lg Hm _ _ _ R P) as (x & E1 & E2).
    destruct (atomic_update sc x s (op_fun o)) as [[res ok] x'] eqn:Q.
    assert (RB : ready t o (PUpd i s) = ok).
    { unfold ready. cbn [bstep]. rewrite E1, Q. destruct ok; auto. destruct o; reflexivity. }
    cbn [bstep] in ST. rewrite E1, Q in ST. destruct ok; injection ST as <- <-.
    + now elim (ND' (BRet RC_SUCCESS_UP res (Some (rmp i)))).
    + assert (x' = x) as ->.
      { revert Q. unfold atomic_update, cas. destruct (sc_mark sc).
        - destruct (slot_eqb x s); intros [=]; congruence.
        - destruct (fat (op_fun o)) as [g|]; [destruct (g (sdata x)); discriminate|].
          destruct (sdata x =? sdata s); intros [=]; congruence. }
      eapply (MISS i x); eauto.
      destruct o; auto. destruct b; auto. now elim (ND' (ret_end RC_BACKOFF)).
  - pose proof T as P. destruct (rd_some c m lg Hm _ _ _ R P) as (x & E1 & E2).
    assert (RB : ready t o (PDel i s) = slot_eqb x s).
    { unfold ready. cbn [bstep]. rewrite E1. unfold atomic_delete, cas. destruct (slot_eqb x s); reflexivity. }
    cbn [bstep] in ST. rewrite E1 in ST. unfold atomic_delete, cas in ST. destruct (slot_eqb x s); injection ST as <- <-.
    + now elim (ND' (BRet RC_SUCCESS_DEL empty_slot None)).
    + eapply (MISS i x); eauto.
  - now elim (ND r).
  - contradiction.
Qed.

Lemma acc_left t b o pc t' pc' :
  raw_mem c m t -> raw_thr c m t o pc -> sane o pc -> free_at t ->
  bstep c m t b o pc = (t', pc') -> (forall r, pc <> PDone r) -> (forall r, pc' <> PDone r) ->
  (forall p, t' p = t p) /\ sane o pc' /\ left t' o pc' + 1 <= left t o pc.
Proof. intros R T. apply at_left; auto. destruct pc; cbn in *; auto; apply T. Qed.

(** A bound for every program point. *)
Lemma left_le t o pc : raw_thr c m t o pc -> free_at t -> left t o pc <= tot + 6.
Proof.
  intros T F. destruct (F (op_key o)) as [B _].
  assert (A : forall i q, passed c m t (hm o) i -> left_acc t o q i <= tot + 6).
  { intros i q [P _]. unfold left_acc. destruct (ready t o q); [lia|]. destruct (stops t o i); lia. }
  destruct pc as [i|i s|i s|i s|r|]; cbn [raw_thr left] in *; try lia; try (apply A; apply T).
  destruct T as [P _]. destruct (stops t o i); lia.
Qed.

Definition lthr (t : mem) (x : option (op * bpc)) : N :=
  match x with Some (o, pc) => left t o pc | None => tot + 6 end.
Definition total_left (L : list N) (s : bsys) : N :=
  fold_right (fun tid n => lthr (bmem s) (bthr s tid) + n) 0 L.

Lemma total_left_le L s s' :
  (forall tid, In tid L -> lthr (bmem s') (bthr s' tid) <= lthr (bmem s) (bthr s tid)) ->
  total_left L s' <= total_left L s.
Proof.
  induction L as [|x L IH]; intros H; cbn; [lia|].
  pose proof (H x (or_introl eq_refl)). assert (total_left L s' <= total_left L s) by (apply IH; intros; apply H; now right). unfold total_left in *. lia.
Qed.

Lemma total_left_lt L s s' u :
  (forall tid, In tid L -> lthr (bmem s') (bthr s' tid) <= lthr (bmem s) (bthr s tid)) -> In u L ->
  lthr (bmem s') (bthr s' u) + 1 <= lthr (bmem s) (bthr s u) ->
  total_left L s' + 1 <= total_left L s.
Proof.
  induction L as [|x L IH]; intros H I1 I2; cbn; [destruct I1|].
  pose proof (H x (or_introl eq_refl)) as Hx.
  assert (H' : forall tid, In tid L -> lthr (bmem s') (bthr s' tid) <= lthr (bmem s) (bthr s tid)) by (intros; apply H; now right).
  destruct I1 as [->|I1].
  - pose proof (total_left_le L s s' H'). unfold total_left in *. lia.
  - specialize (IH H' I1 I2). unfold total_left in *. lia.
Qed.

Lemma total_left_max L s : raw_inv c m s -> free_at (bmem s) -> total_left L s <= N.of_nat (length L) * (tot + 6).
Proof.
  intros [_ T] F. induction L as [|x L IH]; cbn [total_left fold_right length]; [lia|].
  assert (lthr (bmem s) (bthr s x) <= tot + 6).
  { destruct (bthr s x) as [[o pc]|] eqn:Q; cbn; [|lia]. apply left_le; auto. now apply (T x). }
  unfold total_left in IH. rewrite Nat2N.inj_succ. lia.
Qed.

Definition linv (s : bsys) : Prop :=
  raw_inv c m s /\ (forall tid o pc, bthr s tid = Some (o, pc) -> sane o pc).

Definition is_run (l : blabel) : N := match l with LRun _ _ => 1 | _ => 0 end.

Lemma sane_step t b o pc t' pc' : sane o pc -> bstep c m t b o pc = (t', pc') -> sane o pc'.
Proof.
  intros S. destruct pc as [i|i s|i s|i s|r|]; cbn [bstep].
  - destruct (rd c m t (rmp i)) as [x|]; intros [= <- <-]; [|exact Logic.I].
    destruct o; cbn [after_load];
    repeat match goal with
    | |- context [if ?a then _ else _] => destruct a
    end; cbn; auto.
  - destruct (rd c m t (rmp i)); [|now intros [= <- <-]]. destruct (cas _ _ _ _) as [[[] ?] ?]; now intros [= <- <-].
  - destruct (rd c m t (rmp i)); [|now intros [= <- <-]].
    destruct (atomic_update _ _ _ _) as [[? []] ?]; intros [= <- <-]; [exact Logic.I|]. destruct o; try exact Logic.I. destruct b; exact Logic.I.
  - destruct (rd c m t (rmp i)); [|now intros [= <- <-]]. destruct (atomic_delete _ _ _) as [[[] ?] ?]; now intros [= <- <-].
  - now intros [= <- <-].
  - now intros [= <- <-].
Qed.

Lemma any_step s l e s' : exec1 c m s l = Some (e, s') -> bsys_step c m (fun _ => True) s e s'.
Proof. apply exec1_sound. auto. Qed.

Lemma linv_step s e s' client : linv s -> bsys_step c m client s e s' -> linv s' /\ (forall p, used c (bmem s) p -> used c (bmem s') p).
Proof.
  intros [R S] ST. destruct (raw_step c m lg Hsc Hm client s e s' R ST) as [R' U]. split; auto. split; auto.
  destruct ST as [t th tid o Q CL|t th tid o pc b t' pc' Q ND ST|t th p s0 M L Q|t th tid o r Q]; cbn in *; intros u o' pc''.
  - destruct (N.eq_dec u tid) as [->|NE]; [rewrite fupd_eq; intros [= <- <-]; exact Logic.I|rewrite fupd_neq by exact NE; apply S].
  - destruct (N.eq_dec u tid) as [->|NE]; [|rewrite fupd_neq by exact NE; apply S].
    rewrite fupd_eq. intros [= <- <-]. eapply sane_step; eauto.
  - apply S.
  - destruct (N.eq_dec u tid) as [->|NE]; [rewrite fupd_eq; discriminate|rewrite fupd_neq by exact NE; apply S].
Qed.

(** One step of a schedule: a call gets its result, or there is less to do. *)
Lemma step_left L s l e s' :
  linv s -> free_at (bmem s) -> (forall tid b, l = LRun tid b -> In tid L) ->
  exec1 c m s l = Some (e, s') ->
  (exists tid b, l = LRun tid b /\ finished s' tid) \/
  (free_at (bmem s') /\ total_left L s' + is_run l <= total_left L s).
Proof.
  intros [[R T] S] F IL ST.
  destruct s as [t th]. destruct l as [tid o|tid b|p|tid]; cbn in ST.
  - right. destruct (th tid) eqn:Q; [discriminate|]. injection ST as <- <-. split; [exact F|].
    cbn [is_run]. rewrite N.add_0_r. apply total_left_le. intros u _. cbn. destruct (N.eq_dec u tid) as [->|NE].
    + rewrite fupd_eq, Q. cbn [lthr]. apply left_le; auto. cbn. split; [lia|]. intros j Hj. lia.
    + rewrite fupd_neq by exact NE. lia.
  - destruct (th tid) as [[o pc]|] eqn:Q; [|discriminate]. cbn in *.
    assert (K : (forall r, pc <> PDone r) -> forall t' pc', bstep c m t b o pc = (t', pc') ->
       s' = BSys t' (fupd th tid (Some (o, pc'))) ->
       (exists tid0 b0, LRun tid b = LRun tid0 b0 /\ finished s' tid0) \/
       (free_at (bmem s') /\ total_left L s' + 1 <= total_left L (BSys t th))).
    { intros ND t' pc' SB ->.
      destruct (match pc' with PDone r => true | _ => false end) eqn:D.
      - left. exists tid, b. split; auto. destruct pc'; try discriminate. exists o, r. cbn. apply fupd_eq.
      - right. assert (ND' : forall r, pc' <> PDone r) by (intros r ->; discriminate).
        destruct (acc_left t b o pc t' pc' R (T _ _ _ Q) (S _ _ _ Q) F SB ND ND') as (EQ & _ & LT).
        split.
        + intros k. destruct (F k) as [B U]. split; auto. intros (x & Ex & Ux). cbn in Ex. rewrite EQ in Ex. apply U. exists x; auto.
        + apply (total_left_lt _ _ _ tid); [|eapply IL; eauto|].
          * intros u _. cbn. destruct (N.eq_dec u tid) as [->|NE].
            { rewrite fupd_eq, Q. cbn [lthr]. lia. }
            rewrite fupd_neq by exact NE. destruct (th u) as [[o' q]|]; cbn [lthr]; [|lia]. rewrite (same_left t); auto. lia.
          * cbn. rewrite fupd_eq, Q. cbn [lthr]. lia. }
    cbn [is_run]. destruct pc; try discriminate; destruct (bstep c m t b o _) as [t' pc'] eqn:SB; injection ST as <- <-;
      (eapply K; [discriminate|reflexivity|reflexivity]).
  - right. destruct (sc_mark sc && (p <? tot)) eqn:G; [|discriminate]. destruct (t p) as [x|] eqn:Q; [|discriminate].
    injection ST as <- <-. apply andb_prop in G. destruct G as [M _]. split.
    + intros k. destruct (F k) as [B U]. split; auto. cbn. intros (y & Ey & Uy). apply U. revert Ey. unfold fupd.
      destruct (N.eqb_spec (rmp (E (home c m k))) p) as [e|n]; [|intros; exists y; auto].
      intros [= <-]. rewrite mark_empty in Uy by exact Hsc. exists x. rewrite e. auto.
    + cbn [is_run]. rewrite N.add_0_r. apply total_left_le. intros u _. cbn. destruct (th u) as [[o pc]|] eqn:Qu; cbn [lthr]; [|lia].
      apply mark_left; auto; [now apply (T u)|now apply (S u)].
  - right. destruct (th tid) as [[o pc]|] eqn:Q; [|discriminate]. destruct pc as [i|i s|i s|i s|r|]; try discriminate.
    injection ST as <- <-. split; [exact F|]. cbn [is_run]. rewrite N.add_0_r. apply total_left_le. intros u _. cbn.
    destruct (N.eq_dec u tid) as [->|NE].
    + rewrite fupd_eq, Q. cbn [lthr left]. lia.
    + rewrite fupd_neq by exact NE. lia.
Qed.


(** Up to the first result there are at most so many turns. *)
Lemma run_left L : forall ls s tr s',
  linv s -> free_at (bmem s) -> (forall tid, In tid (turns ls) -> In tid L) ->
  exec c m s ls = Some (tr, s') ->
  (exists ls1 tid b ls2 tr1 tr2 s1,
     ls = ls1 ++ LRun tid b :: ls2 /\ exec c m s (ls1 ++ [LRun tid b]) = Some (tr1, s1) /\ finished s1 tid /\
     exec c m s1 ls2 = Some (tr2, s') /\ N.of_nat (length (turns ls1)) <= total_left L s /\ linv s1) \/
  (N.of_nat (length (turns ls)) <= total_left L s).
Proof.
  induction ls as [|l ls IH]; intros s tr s' I F IL X; [right; cbn; lia|].
  cbn [exec] in X. destruct (exec1 c m s l) as [[e s1]|] eqn:X1; [|discriminate].
  destruct (exec c m s1 ls) as [[tr' s2]|] eqn:X2; [|discriminate]. injection X as _ <-.
  destruct (linv_step _ _ _ _ I (any_step _ _ _ _ X1)) as [I' _].
  assert (IL' : forall tid, In tid (turns ls) -> In tid L) by (intros; apply IL; destruct l; cbn; auto).
  assert (NL : N.of_nat (length (turns (l :: ls))) = is_run l + N.of_nat (length (turns ls))).
  { destruct l; cbn [turns is_run length]; lia. }
  destruct (step_left L s l e s1 I F) as [(tid & b & -> & FI)|(F' & LE)]; auto.
  { intros tid b ->. apply IL. cbn. now left. }
  - left. exists [], tid, b, ls, (match e with Some e => [e] | None => [] end), tr', s1.
    split; auto. split; [cbn [app exec]; rewrite X1; reflexivity|].
    split; [auto|]. split; [exact X2|]. cbn. split; [lia|auto].
  - destruct (IH _ _ _ I' F' IL' X2) as [(ls1 & tid & b & ls2 & tr1 & tr2 & s3 & -> & Y1 & FI & Y2 & LE2 & I3)|LE2].
    + left. exists (l :: ls1), tid, b, ls2, (match e with Some e => e :: tr1 | None => tr1 end), tr2, s3.
      split; auto. split; [cbn [app exec]; rewrite X1, Y1; reflexivity|].
      split; [auto|]. split; [auto|]. split; [|auto].
      assert (N.of_nat (length (turns (l :: ls1))) = is_run l + N.of_nat (length (turns ls1))) by (destruct l; cbn [turns is_run length]; lia). lia.
    + right. rewrite NL. lia.
Qed.
End LF.

Section Glob.
Context (sc : scfg) (mc : mcfg) (hash : N -> N) (lg gh : N) (client : op -> Prop).
Context (Hct : cell_type sc) (Hlg : 1 <= lg <= 63).
Notation c := (TCfg sc mc hash).
Notation m := (sized mc lg gh).
Notation tot := (cells_of mc lg).
Let Hm : wf_mapper mc m lg := wf_mk mc lg gh Hlg.
Let Hsc : wf_scfg sc := cell_type_wf _ Hct.

(** Linear probing always has an unused cell ahead, circular probing if there is one at all. *)
Lemma free_ex s : raw_inv c m s -> empty_left c m (bmem s) -> exists E, free_at c m E (bmem s).
Proof.
  intros [R _] V. destruct (cprob mc) eqn:CP.
  - destruct (V CP) as (q & x & L & Ex & W). pose proof (pow2_pos lg) as PP.
    cbn [tmc tsc] in L, W. rewrite (total_val _ _ _ Hm), CP in L.
    exists (fun i => i + (q + (2 ^ lg - i mod 2 ^ lg)) mod 2 ^ lg). intros k.
    set (i := home c m k). cbn [tmc]. split.
    + rewrite (total_val _ _ _ Hm), CP.
      assert ((q + (2 ^ lg - i mod 2 ^ lg)) mod 2 ^ lg < 2 ^ lg) by (apply N.mod_lt; lia). clearbody i; revert H; generalize ((q + (2 ^ lg - i mod 2 ^ lg)) mod 2 ^ lg) as z; intros; lia.
    + intros (y & Ey & U). cbn [tmc tsc] in *. rewrite (remap_val _ _ _ Hm), CP in Ey.
      rewrite N.add_mod_idemp_r in Ey by lia.
      replace (i + (q + (2 ^ lg - i mod 2 ^ lg))) with (q + (i + (2 ^ lg - i mod 2 ^ lg))) in Ey
        by (assert (i mod 2 ^ lg < 2 ^ lg) by (apply N.mod_lt; lia); lia).
      assert (Z : (i + (2 ^ lg - i mod 2 ^ lg)) mod 2 ^ lg = 0).
      { rewrite (N.div_mod i (2 ^ lg)) at 1 by lia.
        assert (i mod 2 ^ lg < 2 ^ lg) by (apply N.mod_lt; lia).
        replace (2 ^ lg * (i / 2 ^ lg) + i mod 2 ^ lg + (2 ^ lg - i mod 2 ^ lg))
          with (0 + (i / 2 ^ lg + 1) * 2 ^ lg) by lia.
        rewrite N.mod_add by lia. apply N.mod_small. lia. }
      rewrite <- N.add_mod_idemp_r in Ey by lia. rewrite Z, N.add_0_r, N.mod_small in Ey by lia.
      congruence.
  - exists (fun _ => 2 ^ lg + 301). intros k.
    pose proof (home_lt c m lg Hm k) as HL. cbn [tmc] in HL. rewrite (addressable_val _ _ _ Hm) in HL.
    split; cbn [tmc].
    + rewrite (total_val _ _ _ Hm), CP. lia.
    + rewrite (remap_val _ _ _ Hm), CP. destruct R as [_ R2]. apply (R2 CP); cbn [tmc].
      * rewrite (addressable_val _ _ _ Hm). lia.
      * rewrite (total_val _ _ _ Hm), CP. lia.
Qed.

Lemma vacant_left t : (cprob mc = true -> exists p, vacant sc tot t p) -> empty_left c m t.
Proof.
  intros V CP. destruct (V CP) as (q & L & x & Ex & W). exists q, x. cbn [tmc tsc].
  rewrite (tot_eq mc lg gh Hlg). split; [|split]; auto. now apply empty_word.
Qed.

Lemma reach_linv s : table_reachable c m client s -> linv c m s.
Proof.
  intros [tr ST]. remember (bsys_init c m) as s0 eqn:E0.
  assert (I : linv c m s0) by (subst; split; [apply (raw_init c m)|intros tid o pc; cbn; discriminate]).
  clear E0. induction ST as [s|s s1 s' tr ST SS IH|s e s1 s' tr ST SS IH]; auto;
    apply IH; eapply (linv_step c m lg Hsc Hm); eauto.
Qed.

Lemma left_max L s E : raw_inv c m s -> free_at c m E (bmem s) ->
  total_left c m E L s <= N.of_nat (length L) * (tot + 6).
Proof.
  intros R F. pose proof (total_left_max c m lg E L s R F) as Q. cbn [tmc] in Q. now rewrite (tot_eq mc lg gh Hlg) in Q.
Qed.

(** Some call gets its result. *)
Lemma somebody_finishes s L ls tr s' :
  table_reachable c m client s ->
  (cprob mc = true -> exists p, vacant sc tot (bmem s) p) ->
  (forall tid, In tid (turns ls) -> In tid L) ->
  exec c m s ls = Some (tr, s') ->
  N.of_nat (length L) * (tot + 6) < N.of_nat (length (turns ls)) ->
  some_call_finishes c m s ls.
Proof.
  intros RS V IL X G. pose proof (reach_linv s RS) as I.
  destruct (free_ex s (proj1 I) (vacant_left _ V)) as [E F].
  destruct (run_left c m lg Hsc Hm E L ls s tr s' I F IL X) as [(ls1 & tid & b & ls2 & tr1 & tr2 & s1 & EQ & Y1 & FI & _)|LE].
  - exists ls1, tid, b, ls2, tr1, s1. auto.
  - pose proof (left_max L s E (proj1 I) F). lia.
Qed.

(** *** Without new calls *)

Lemma used_steps ls : forall s tr s', linv c m s -> exec c m s ls = Some (tr, s') ->
  linv c m s' /\ forall p, used c (bmem s) p -> used c (bmem s') p.
Proof.
  induction ls as [|l ls IH]; intros s tr s' I X; cbn [exec] in X; [injection X as <- <-; auto|].
  destruct (exec1 c m s l) as [[e s1]|] eqn:X1; [|discriminate].
  destruct (exec c m s1 ls) as [[tr' s2]|] eqn:X2; [|discriminate]. injection X as _ <-.
  destruct (linv_step c m lg Hsc Hm _ _ _ _ I (any_step _ _ _ _ _ _ X1)) as [I' U].
  destruct (IH _ _ _ I' X2) as [I2 U2]. auto.
Qed.

(** A cell that is unused in the end always was. *)
Lemma left_before ls s tr s' : linv c m s -> exec c m s ls = Some (tr, s') ->
  empty_left c m (bmem s') -> empty_left c m (bmem s).
Proof.
  intros I X V CP. destruct (V CP) as (q & x & L & Ex & W). destruct (used_steps _ _ _ _ I X) as [_ U].
  destruct I as [[[R1 _] _] _]. specialize (R1 q L). destruct (bmem s q) as [y|] eqn:Ey; [|congruence].
  exists q, y. split; [auto|split; [auto|]]. destruct (is_empty (tsc c) y) eqn:Q; auto.
  destruct (U q) as (z & Ez & Uz); [exists y; auto|]. congruence.
Qed.

Definition unf (s : bsys) (tid : N) : bool :=
  match bthr s tid with Some (_, PDone _) | None => false | Some _ => true end.
Lemma unf_iff s tid : unf s tid = true <-> unfinished s tid.
Proof.
  unfold unf, unfinished. split.
  - destruct (bthr s tid) as [[o pc]|]; [|discriminate]. intros H. exists o, pc. split; auto. intros r ->. discriminate.
  - intros (o & pc & -> & ND). destruct pc; auto. now elim (ND r).
Qed.

Lemma unf_step s l e s' tid : exec1 c m s l = Some (e, s') -> ops_of [l] = [] -> unf s' tid = true -> unf s tid = true.
Proof.
  intros X NO. destruct s as [t th]. destruct l as [u o|u b|p|u]; cbn in X, NO; [discriminate| | |].
  - destruct (th u) as [[o pc]|] eqn:Q; [|discriminate].
    assert (K : (forall r, pc <> PDone r) -> forall x y, s' = BSys x (fupd th u y) -> unf s' tid = true -> unf (BSys t th) tid = true).
    { intros ND x y -> . unfold unf. cbn. destruct (N.eq_dec tid u) as [->|NE].
      - intros _. rewrite Q. destruct pc; auto. now elim (ND r).
      - now rewrite fupd_neq by exact NE. }
    destruct pc; try discriminate; destruct (bstep c m t b o _) as [t' pc']; injection X as <- <-;
      (eapply K; [discriminate|reflexivity]).
  - destruct (_ && _); [|discriminate]. destruct (t p); [|discriminate]. injection X as <- <-. auto.
  - destruct (th u) as [[o pc]|] eqn:Q; [|discriminate]. destruct pc; try discriminate. injection X as <- <-.
    unfold unf. cbn. destruct (N.eq_dec tid u) as [->|NE]; [rewrite fupd_eq; discriminate|now rewrite fupd_neq by exact NE].
Qed.

Lemma ops_cons l ls : ops_of (l :: ls) = ops_of [l] ++ ops_of ls.
Proof. destruct l; reflexivity. Qed.
Lemma ops_app ls1 ls2 : ops_of (ls1 ++ ls2) = ops_of ls1 ++ ops_of ls2.
Proof. induction ls1 as [|l ls1 IH]; auto. cbn [app]. rewrite ops_cons, IH, (ops_cons l ls1). now rewrite app_assoc. Qed.
Lemma turns_app ls1 ls2 : turns (ls1 ++ ls2) = turns ls1 ++ turns ls2.
Proof. induction ls1 as [|l ls1 IH]; auto. destruct l; cbn; now rewrite IH. Qed.

Lemma unf_run ls : forall s tr s' tid, exec c m s ls = Some (tr, s') -> ops_of ls = [] ->
  (unf s' tid = true \/ In tid (turns ls)) -> unf s tid = true.
Proof.
  induction ls as [|l ls IH]; intros s tr s' tid X NO H; cbn [exec] in X.
  - injection X as _ <-. destruct H as [H|[]]. exact H.
  - destruct (exec1 c m s l) as [[e s1]|] eqn:X1; [|discriminate].
    destruct (exec c m s1 ls) as [[tr' s2]|] eqn:X2; [|discriminate]. injection X as _ <-.
    rewrite ops_cons in NO. apply app_eq_nil in NO. destruct NO as [N1 N2].
    assert (C : (exists b, l = LRun tid b) \/ unf s2 tid = true \/ In tid (turns ls)).
    { destruct H as [H|H]; auto. destruct l as [u o|u b|p|u]; cbn in H; auto. destruct H as [->|H]; eauto. }
    destruct C as [[b ->]|C]; [|eapply unf_step; eauto].
    cbn in X1. unfold unf. destruct (bthr s tid) as [[o pc]|]; [|discriminate]. destruct pc; auto. discriminate.
Qed.

Definition n_unf (L : list N) (s : bsys) : nat := length (filter (unf s) L).

Lemma n_unf_le L s s' : (forall tid, unf s' tid = true -> unf s tid = true) -> (n_unf L s' <= n_unf L s)%nat.
Proof.
  intros H. unfold n_unf. induction L as [|x L IH]; cbn; auto. destruct (unf s' x) eqn:Q.
  - rewrite (H _ Q). cbn. lia.
  - destruct (unf s x); cbn; lia.
Qed.
Lemma n_unf_lt L s s' u : (forall tid, unf s' tid = true -> unf s tid = true) ->
  In u L -> unf s u = true -> unf s' u = false -> (n_unf L s' < n_unf L s)%nat.
Proof.
  intros H I1 A B. induction L as [|x L IH]; [destruct I1|].
  pose proof (n_unf_le L s s' H). unfold n_unf in *. cbn. destruct I1 as [->|I1].
  - rewrite A, B. cbn. lia.
  - specialize (IH I1). destruct (unf s' x) eqn:Q; [rewrite (H _ Q); cbn; lia|]. destruct (unf s x); cbn; lia.
Qed.

Lemma no_calls_bound L : forall n ls s tr s',
  (n_unf L s <= n)%nat -> linv c m s -> (forall tid, unfinished s tid -> In tid L) -> ops_of ls = [] ->
  exec c m s ls = Some (tr, s') -> empty_left c m (bmem s') ->
  N.of_nat (length (turns ls)) <= (N.of_nat n + 1) * (N.of_nat (length L) * (tot + 6) + 1).
Proof.
  induction n as [|n IH]; intros ls s tr s' LE I IL NO X V.
  all: pose proof (left_before _ _ _ _ I X V) as V0.
  all: destruct (free_ex s (proj1 I) V0) as [E F].
  all: assert (TL : forall tid, In tid (turns ls) -> In tid L)
    by (intros tid H; apply IL, unf_iff; eapply unf_run; eauto).
  all: pose proof (left_max L s E (proj1 I) F) as MX.
  all: destruct (run_left c m lg Hsc Hm E L ls s tr s' I F TL X)
    as [(ls1 & tid & b & ls2 & tr1 & tr2 & s1 & EQ & Y1 & FI & Y2 & LL & I1)|LL]; try lia.
  all: assert (N1 : ops_of (ls1 ++ [LRun tid b]) = [] /\ ops_of ls2 = [])
    by (subst ls; rewrite ops_app in NO; apply app_eq_nil in NO; destruct NO as [NA NB];
        cbn in NB; rewrite ops_app, NA; auto).
  all: destruct N1 as [N1 N2].
  all: assert (U0 : unf s tid = true)
    by (eapply unf_run; eauto; right; rewrite turns_app; apply in_or_app; right; cbn; auto).
  all: assert (U1 : unf s1 tid = false) by (destruct FI as (o & r & Q); unfold unf; now rewrite Q).
  all: assert (LT : (n_unf L s1 < n_unf L s)%nat)
    by (apply (n_unf_lt L s s1 tid); auto; [intros u Hu; eapply unf_run; eauto|apply IL; now apply unf_iff]).
  - lia.
  - assert (B : N.of_nat (length (turns ls2)) <= (N.of_nat n + 1) * (N.of_nat (length L) * (tot + 6) + 1)).
    { eapply (IH ls2 s1 tr2 s'); eauto; [lia|]. intros u Hu. apply IL, unf_iff. apply unf_iff in Hu. eapply unf_run; eauto. }
    subst ls. rewrite turns_app, app_length. cbn [turns length]. rewrite Nat2N.inj_add, !Nat2N.inj_succ. lia.
Qed.

Lemma n_unf_len L s : (n_unf L s <= length L)%nat.
Proof. unfold n_unf. induction L as [|x L IH]; cbn; auto. destruct (unf s x); cbn; lia. Qed.

Lemma calls_bounded s L ls tr s' :
  table_reachable c m client s -> (forall tid, unfinished s tid -> In tid L) -> ops_of ls = [] ->
  exec c m s ls = Some (tr, s') ->
  (cprob mc = true -> exists p, vacant sc tot (bmem s') p) ->
  N.of_nat (length (turns ls)) <= (N.of_nat (length L) + 1) * (N.of_nat (length L) * (tot + 6) + 1).
Proof.
  intros RS IL NO X V. eapply (no_calls_bound L (length L)); eauto;
    [apply n_unf_len|now apply reach_linv|now apply vacant_left].
Qed.

(** *** Schedules with skipped steps *)

Lemma turns_exec ls : forall s, exists ls' tr, exec c m s ls' = Some (tr, take_turns c m ls s) /\ ops_of ls' = [] /\
  forall tid, unfinished (take_turns c m ls s) tid -> (count_occ N.eq_dec (turns ls) tid <= length (turns ls'))%nat.
Proof.
  induction ls as [|l ls IH]; intros s.
  - exists [], []. cbn. auto.
  - cbn [take_turns fold_left]. change (fold_left (turn c m) ls (turn c m s l)) with (take_turns c m ls (turn c m s l)).
    destruct (IH (turn c m s l)) as (ls' & tr & X & NO & K).
    assert (SKIP : turn c m s l = s -> (forall tid, unfinished (take_turns c m ls (turn c m s l)) tid -> ~ In tid (turns [l])) ->
      exists ls0 tr0, exec c m s ls0 = Some (tr0, take_turns c m ls (turn c m s l)) /\ ops_of ls0 = [] /\
        forall tid, unfinished (take_turns c m ls (turn c m s l)) tid ->
          (count_occ N.eq_dec (turns (l :: ls)) tid <= length (turns ls0))%nat).
    { intros EQ NT. exists ls', tr. split; [rewrite EQ in X at 1; exact X|]. split; auto. intros tid U. specialize (K tid U).
      specialize (NT tid U). destruct l; cbn in *; auto. destruct (N.eq_dec tid0 tid); [exfalso; auto|auto]. }
    destruct l as [u o|u b|p|u]; cbn [turn] in *.
    1: { apply SKIP; [reflexivity|]. intros tid _ H. exact H. }
    all: match goal with |- context [exec1 ?a ?b ?d ?l] => destruct (exec1 a b d l) as [[e s1]|] eqn:X1 end.
    all: try (exists ((LRun u b) :: ls'), (match e with Some e => e :: tr | None => tr end));
         try (exists ((LMark p) :: ls'), (match e with Some e => e :: tr | None => tr end));
         try (exists ((LRet u) :: ls'), (match e with Some e => e :: tr | None => tr end));
         try (split; [cbn [exec]; rewrite X1, X; reflexivity|]; split; [exact NO|];
              intros tid U; specialize (K tid U); cbn; try destruct (N.eq_dec _ _); cbn; lia).
    + apply SKIP; [reflexivity|]. intros tid U [->|[]]. apply unf_iff in U.
      pose proof (unf_run _ _ _ _ _ X NO (or_introl U)) as U0. unfold unf in U0.
      cbn in X1. destruct (bthr s tid) as [[o pc]|]; [|discriminate].
      destruct pc; try discriminate; destruct (bstep c m (bmem s) b o _) in X1; discriminate.
    + apply SKIP; [reflexivity|]. intros tid _ H. exact H.
    + apply SKIP; [reflexivity|]. intros tid _ H. exact H.
Qed.

Lemma enough_turns s L ls tid :
  table_reachable c m client s -> (forall u, unfinished s u -> In u L) ->
  (cprob mc = true -> exists p, vacant sc tot (bmem (take_turns c m ls s)) p) ->
  (N.of_nat (length L) + 1) * (N.of_nat (length L) * (tot + 6) + 1) < N.of_nat (count_occ N.eq_dec (turns ls) tid) ->
  ~ unfinished (take_turns c m ls s) tid.
Proof.
  intros RS IL V G U. destruct (turns_exec ls s) as (ls' & tr & X & NO & K). specialize (K tid U).
  pose proof (calls_bounded s L ls' tr _ RS IL NO X V). lia.
Qed.
End Glob.
