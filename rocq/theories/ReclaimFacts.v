(** Facts about the reclamation of tables. *)
From Coq Require Import NArith Bool List Lia.
From Verif Require Import Words BaseInv Async AsyncInv HistCount Reclaim Sync SyncSpec SyncInv SyncEnd.
Import ListNotations.
Open Scope N_scope.

(** The thread helps to migrate [v]. *)
Definition cur (p : apc) (v : N) : Prop :=
  match p with
  | AMig3 w | AMigNo w | AMig4 w | AMig5 w _ | AMig6 w => v = w
  | _ => False
  end.
(** The thread has seen that nobody helps and may replace the table. *)
Definition ready (p : apc) : Prop := match p with AEnd2 | AEnd3 => True | _ => False end.

(** A helper is at most one version behind. *)
Record hinv (s : ast_) : Prop := {
  hi_ready : forall i j v, cur (y_pc s i) v -> ready (y_pc s j) -> y_loc s j <= v;
  hi_cur : forall i v, cur (y_pc s i) v -> v <= y_tab s <= v + 1 }.

Section Facts.
Context (nblocks : N -> N).

Lemma hinv_init : hinv async_init.
Proof. split; intros; contradiction. Qed.

Lemma cur_helping p v : cur p v -> helping p = true.
Proof. destruct p; cbn; tauto || reflexivity. Qed.

Lemma hinv_step s l s' : ainv nblocks s -> hinv s -> async_run1 nblocks s l = Some s' -> hinv s'.
Proof.
  intros G [H1 H2] R.
  assert (K : forall i p, (forall v, cur p v -> cur (y_pc s i) v) -> (ready p -> ready (y_pc s i)) ->
    forall s', y_pc s' = fupd (y_pc s) i p -> y_tab s' = y_tab s -> (forall j, ready (y_pc s' j) -> y_loc s' j = y_loc s j) -> hinv s').
  { intros i p C Y s2 P T L. assert (CC : forall j v, cur (y_pc s2 j) v -> cur (y_pc s j) v).
    { intros j v. rewrite P. unfold fupd. destruct (N.eqb_spec j i) as [->|]; auto. }
    split.
    - intros j k v A B. rewrite (L k B). apply (H1 j k); auto. revert B. rewrite P. unfold fupd. destruct (N.eqb_spec k i) as [->|]; auto.
    - intros j v A. rewrite T. eauto. }
  destruct l as [i|i|i|i]; cbn in R.
  - destruct s as [tb ep hp nx bl mv pc lo le]. unfold async_go in R. cbn in *. destruct (pc i) eqn:P.
    + injection R as <-. apply (K i AInit); cbn; tauto.
    + injection R as <-. apply (K i (AWait false)); cbn; try tauto. intros j. unfold fupd. destruct (N.eqb_spec j i); [cbn; tauto|auto].
    + destruct (le i <? ep); injection R as <-; [apply (K i (ALoad true))|apply (K i AOp)]; cbn; tauto.
    + injection R as <-. apply (K i (AWait op)); cbn; try tauto. intros j. unfold fupd. destruct (N.eqb_spec j i); [cbn; tauto|auto].
    + destruct (lo i =? ep); injection R as <-; [|split; auto]. apply (K i (if op then AOp else AIdle)); cbn; try (destruct op; cbn; tauto); tauto.
    + injection R as <-. apply (K i AIdle); cbn; tauto.
    + injection R as <-. apply (K i AMig1); cbn; tauto.
    + injection R as <-. apply (K i AMig2); cbn; tauto.
    + injection R as <-. split; cbn.
      * intros j k v. unfold fupd. destruct (N.eqb_spec j i) as [->|], (N.eqb_spec k i) as [->|]; cbn; try tauto.
        -- intros -> _. pose proof (ai_th _ _ G k) as [T _]. exact T.
        -- apply H1.
      * intros j v. unfold fupd. destruct (N.eqb_spec j i) as [->|]; cbn; [lia|apply H2].
    + injection R as <-. apply (K i (if nx v then AMig4 v else AMigNo v)); cbn; try tauto; rewrite ?P; destruct (nx v); cbn; tauto.
    + injection R as <-. apply (K i AEnd1); cbn; tauto.
    + injection R as <-. apply (K i (if bl v <? nblocks v then AMig5 v (bl v) else AMig6 v)); cbn; try tauto; rewrite ?P; destruct (_ <? _); cbn; tauto.
    + injection R as <-. apply (K i (AMig4 v)); cbn; try tauto; rewrite ?P; cbn; tauto.
    + injection R as <-. apply (K i AEnd1); cbn; tauto.
    + destruct (N.eqb_spec hp 0) as [H0|]; injection R as <-; [|split; auto].
      assert (NC : forall j v, ~ cur (pc j) v).
      { intros j v C. destruct (ai_help _ _ G) as (l & _ & L2 & L3). cbn in *. destruct l as [|x l]; [|cbn in L2; lia].
        apply cur_helping in C. now apply L3 in C. }
      split; cbn; intros j; [intros k|]; intros v; unfold fupd; destruct (N.eqb_spec j i) as [->|]; cbn; try tauto; intros C; destruct (NC j v C).
    + destruct (nx (lo i)); [|discriminate]. injection R as <-. apply (K i AEnd3); cbn; try tauto. now rewrite P.
    + destruct (N.eqb_spec tb (lo i)) as [E|NE]; injection R as <-.
      * split; cbn.
        -- intros j k v. unfold fupd. destruct (N.eqb_spec j i) as [->|], (N.eqb_spec k i) as [->|]; cbn; try tauto. apply H1.
        -- intros j v. unfold fupd. destruct (N.eqb_spec j i) as [->|]; cbn; [tauto|]. intros C.
           pose proof (H1 j i v C) as X. rewrite P in X. specialize (X Logic.I). specialize (H2 j v C). lia.
      * apply (K i (ALoad false)); cbn; tauto.
    + injection R as <-. apply (K i (ALoad false)); cbn; tauto.
  - destruct (y_pc s i); try discriminate. injection R as <-. apply (K i AGrow); cbn; tauto.
  - destruct (y_pc s i); try discriminate. destruct (y_next _ _); [|discriminate]. injection R as <-. apply (K i AMig1); cbn; tauto.
  - destruct (y_pc s i); try discriminate. injection R as <-. apply (K i AUnreg); cbn; tauto.
Qed.

Definition label_id (l : alabel) : N := match l with YGo i | YWant i | YInvalid i | YDestroy i => i end.

(** ** Who protects what *)

Definition darg (t : todo) : N := match t with DProt v | DUnprot v | DDelete v => v end.

Definition plist (p : apc) (lo : N) (td : list todo) : list N :=
  match p with
  | AUnreg | AInit => []
  | ALoad _ => match td with [] => [] | _ => [lo] end
  | AMig3 v | AMigNo v => [lo; v]
  | AMig4 v => match td with [] => [lo; v; v + 1] | _ => [lo; v] end
  | AMig5 v _ | AMig6 v => [lo; v; v + 1]
  | AEnd1 => lo :: map darg td
  | _ => [lo]
  end.

Definition tok (p : apc) (lo tb : N) (td : list todo) : Prop :=
  match p with
  | ALoad _ => td = [] \/ td = [DUnprot lo] \/ (td = [DDelete lo; DUnprot lo] /\ lo < tb)
  | AMig4 v => td = [] \/ td = [DProt (v + 1)]
  | AEnd1 => td = [] \/ (exists v, td = [DUnprot v]) \/ exists v w, td = [DUnprot v; DUnprot w]
  | _ => td = []
  end.

Definition held_by (q : qst) (i : N) : list N := plist (y_pc (q_s q) i) (y_loc (q_s q) i) (q_todo q i).
Fixpoint occ (v : N) (l : list N) : N := match l with [] => 0 | w :: l => (if w =? v then 1 else 0) + occ v l end.

Lemma occ_in v l : In v l <-> 0 < occ v l.
Proof.
  induction l as [|w l IH]; cbn; [lia|]. destruct (N.eqb_spec w v) as [->|]; [split; [lia|auto]|].
  rewrite N.add_0_l, <- IH. intuition.
Qed.

Record qinv (q : qst) : Prop := {
  qi_a : ainv nblocks (q_s q);
  qi_h : hinv (q_s q);
  qi_td : forall i, tok (y_pc (q_s q) i) (y_loc (q_s q) i) (y_tab (q_s q)) (q_todo q i);
  qi_cnt : exists l, NoDup l /\ (forall i, ~ In i l -> held_by q i = []) /\
    forall v, q_cnt q v = q_lost q v + nsum (fun i => occ v (held_by q i)) l;
  qi_mark : forall v, q_mark q v = true -> v < y_tab (q_s q);
  qi_del : forall v, v < y_tab (q_s q) -> q_mark q v = true \/
    exists i, y_loc (q_s q) i = v /\ (y_pc (q_s q) i = AEnd4 \/ In (DDelete v) (q_todo q i));
  qi_free : forall v, q_frees q v = if q_mark q v && (q_cnt q v =? 0) then 1 else 0 }.

Lemma qinv_init : qinv q_init.
Proof.
  split; cbn; try discriminate; try (intros; lia).
  - apply ainv_init.
  - apply hinv_init.
  - intros i. reflexivity.
  - exists []. repeat split; auto. constructor.
Qed.

Lemma held_counted q i v : qinv q -> In v (held_by q i) -> 0 < q_cnt q v.
Proof.
  intros Q I. destruct (qi_cnt _ Q) as (l & ND & OUT & C). rewrite C.
  destruct (in_dec N.eq_dec i l) as [IL|NI]; [|rewrite (OUT i NI) in I; destruct I].
  apply occ_in in I. clear - IL I. revert IL. induction l as [|j l IH]; cbn; [tauto|]. intros [->|IL]; [lia|]. specialize (IH IL). lia.
Qed.

(** The counters after a change of what thread [i] protects. *)
Lemma counts_upd l (f g : N -> list N) i : NoDup l -> (forall j, ~ In j l -> f j = []) -> (forall j, j <> i -> g j = f j) ->
  exists l', NoDup l' /\ (forall j, ~ In j l' -> g j = []) /\
    forall v, nsum (fun j => occ v (g j)) l' + occ v (f i) = nsum (fun j => occ v (f j)) l + occ v (g i).
Proof.
  intros ND OUT E. destruct (in_dec N.eq_dec i l) as [IL|NI].
  - exists l. split; [auto|]. split.
    + intros j NJ. rewrite E; [auto|]. intros ->. contradiction.
    + intros v. apply (nsum_upd (fun j => occ v (g j)) (fun j => occ v (f j)) i l ND IL). intros u NU. now rewrite E.
  - exists (i :: l). split; [now constructor|]. split.
    + intros j NJ. cbn in NJ. rewrite E by (intros ->; tauto). apply OUT. tauto.
    + intros v. cbn. rewrite (OUT i NI). cbn. rewrite (nsum_ext (fun j => occ v (g j)) (fun j => occ v (f j)) l); [lia|].
      intros t IT. rewrite E; [reflexivity|]. intros ->. contradiction.
Qed.

Lemma tok_mono p lo tb tb' td : tb <= tb' -> tok p lo tb td -> tok p lo tb' td.
Proof. intros L. destruct p; cbn; auto. intros [H|[H|[H H2]]]; auto. right. right. split; [auto|lia]. Qed.

Lemma qframe q q' i : qinv q -> ainv nblocks (q_s q') -> hinv (q_s q') ->
  (forall j, j <> i -> y_pc (q_s q') j = y_pc (q_s q) j /\ y_loc (q_s q') j = y_loc (q_s q) j /\ q_todo q' j = q_todo q j) ->
  y_tab (q_s q) <= y_tab (q_s q') ->
  tok (y_pc (q_s q') i) (y_loc (q_s q') i) (y_tab (q_s q')) (q_todo q' i) ->
  (forall v, q_cnt q' v + q_lost q v + occ v (held_by q i) = q_cnt q v + q_lost q' v + occ v (held_by q' i)) ->
  (forall v, q_mark q' v = true -> v < y_tab (q_s q')) ->
  (forall v, v < y_tab (q_s q') -> q_mark q' v = true \/ (v < y_tab (q_s q) /\ q_mark q v = false /\
     (y_loc (q_s q) i = v -> ~ (y_pc (q_s q) i = AEnd4 \/ In (DDelete v) (q_todo q i)))) \/
     (y_loc (q_s q') i = v /\ (y_pc (q_s q') i = AEnd4 \/ In (DDelete v) (q_todo q' i)))) ->
  (forall v, q_frees q' v = if q_mark q' v && (q_cnt q' v =? 0) then 1 else 0) ->
  qinv q'.
Proof.
  intros Q A H SAME TB TK CN MK DL FR. split; auto.
  - intros j. destruct (N.eq_dec j i) as [->|NE]; [exact TK|]. destruct (SAME j NE) as (-> & -> & ->).
    eapply tok_mono; [exact TB|]. apply (qi_td _ Q).
  - destruct (qi_cnt _ Q) as (l & ND & OUT & C).
    destruct (counts_upd l (held_by q) (held_by q') i ND OUT) as (l' & ND' & OUT' & C').
    { intros j NE. unfold held_by. now destruct (SAME j NE) as (-> & -> & ->). }
    exists l'. split; [auto|]. split; [auto|]. intros v. specialize (CN v). specialize (C v). specialize (C' v). lia.
  - intros v L. destruct (DL v L) as [X|[(X1 & X2 & X3)|X]]; [now left| |right; now exists i].
    destruct (qi_del _ Q v X1) as [Y|(j & Y1 & Y2)]; [congruence|]. right. exists j.
    destruct (N.eq_dec j i) as [->|NE]; [destruct (X3 Y1 Y2)|]. destruct (SAME j NE) as (-> & -> & ->). auto.
Qed.

(** The table in use is not marked. *)
Lemma cur_free q v : qinv q -> y_tab (q_s q) <= v -> q_mark q v = false /\ q_frees q v = 0.
Proof.
  intros Q L. destruct (q_mark q v) eqn:M; [apply (qi_mark _ Q) in M; lia|]. split; [auto|].
  rewrite (qi_free _ Q), M. reflexivity.
Qed.

(** Reclamation calls that are due. *)
Lemma todo_inv s c m f td lo i t ts : qinv (QSt s c m f td lo) -> td i = t :: ts ->
  qinv (q_do (QSt s c m f (fupd td i ts) lo) t).
Proof.
  intros Q E. pose proof (qi_td _ Q i) as T. cbn in T. rewrite E in T.
  assert (HC : forall v, In v (held_by (QSt s c m f td lo) i) -> 0 < c v) by (intros v I; exact (held_counted _ _ _ Q I)).
  assert (SAME : forall j, j <> i -> y_pc s j = y_pc s j /\ y_loc s j = y_loc s j /\ fupd td i ts j = td j).
  { intros j NE. repeat split. now rewrite fupd_neq. }
  assert (DUE : forall v, v < y_tab s -> m v = true \/ (v < y_tab s /\ m v = false /\ (y_loc s i = v -> ~ (y_pc s i = AEnd4 \/ In (DDelete v) (td i)))) \/
     (y_loc s i = v /\ (y_pc s i = AEnd4 \/ In (DDelete v) (td i)))).
  { intros v L. destruct (m v) eqn:M; [auto|right]. destruct (N.eq_dec (y_loc s i) v) as [EL|NE]; [|left; tauto].
    destruct (y_pc s i) eqn:P; cbn in T; try discriminate T;
      (destruct (in_dec (fun x y : todo => ltac:(decide equality; apply N.eq_dec) : {x = y} + {x <> y}) (DDelete v) (td i)) as [I|NI];
        [right; tauto|left; split; [auto|]; split; [auto|]; intros _ [X|X]; [discriminate|contradiction]]). }
  assert (FR := qi_free _ Q). assert (MK := qi_mark _ Q). cbn in FR, MK.
  unfold held_by in HC. cbn in HC. rewrite E in HC.
  destruct (y_pc s i) eqn:P; cbn in T, HC; try discriminate T; rewrite <- P in DUE.
  - (* load *)
    destruct T as [T|[T|[T L]]]; [discriminate| |]; injection T as -> ->; cbn.
    + assert (C1 : 0 < c (y_loc s i)) by (apply HC; now left).
      eapply (qframe _ _ i Q); cbn; try apply (qi_a _ Q); try apply (qi_h _ Q); auto; try lia.
      * rewrite P. cbn. rewrite fupd_eq. now left.
      * intros v. unfold held_by. cbn. rewrite P, E, fupd_eq. cbn. unfold fupd. destruct (N.eqb_spec v (y_loc s i)) as [->|NE].
        -- rewrite N.eqb_refl. lia.
        -- destruct (N.eqb_spec (y_loc s i) v); [congruence|lia].
      * intros v L. destruct (DUE v L) as [X|[X|(X1 & [X2|X2])]]; [now left|right; left; exact X|congruence|]. rewrite E in X2. cbn in X2. destruct X2 as [X2|[]]; discriminate.
      * intros v. rewrite (FR v) || idtac. unfold fupd. destruct (N.eqb_spec v (y_loc s i)) as [->|NE].
        -- destruct (m (y_loc s i)) eqn:M; cbn.
           ++ destruct (N.eqb_spec (c (y_loc s i) - 1) 0); cbn; rewrite ?N.eqb_refl, ?FR, ?M; cbn.
              ** destruct (N.eqb_spec (c (y_loc s i)) 0); lia.
              ** destruct (N.eqb_spec (c (y_loc s i)) 0); lia.
           ++ rewrite andb_false_r. now rewrite FR, M.
        -- destruct ((c (y_loc s i) - 1 =? 0) && m (y_loc s i)); [|apply FR]. destruct (N.eqb_spec v (y_loc s i)); [contradiction|apply FR].
    + assert (C1 : 0 < c (y_loc s i)) by (apply HC; now left).
      replace (c (y_loc s i) =? 0) with false by (symmetry; apply N.eqb_neq; lia).
      eapply (qframe _ _ i Q); cbn; try apply (qi_a _ Q); try apply (qi_h _ Q); auto; try lia.
      * rewrite P. cbn. rewrite fupd_eq. right. now left.
      * intros v. unfold held_by. cbn. rewrite P, E, fupd_eq. cbn. lia.
      * intros v. unfold fupd. destruct (N.eqb_spec v (y_loc s i)) as [->|]; auto.
      * intros v LV. unfold fupd at 1. destruct (N.eqb_spec v (y_loc s i)) as [->|NE]; [auto|].
        destruct (m v) eqn:M; [auto|]. right. left. split; [auto|]. split; [auto|]. congruence.
      * intros v. unfold fupd. destruct (N.eqb_spec v (y_loc s i)) as [->|NE]; [|apply FR].
        rewrite FR. replace (c (y_loc s i) =? 0) with false by (symmetry; apply N.eqb_neq; lia). now rewrite !andb_false_r.
  - (* protect the target *)
    destruct T as [T|T]; [discriminate|]. injection T as -> ->. cbn.
    assert (CU : y_tab s <= v + 1). { pose proof (hi_cur _ (qi_h _ Q) i v) as X. cbn in X. rewrite P in X. specialize (X eq_refl). lia. }
    destruct (cur_free _ (v + 1) Q CU) as [M0 F0]. cbn in M0, F0.
    eapply (qframe _ _ i Q); cbn; try apply (qi_a _ Q); try apply (qi_h _ Q); auto; try lia.
    + rewrite P. cbn. rewrite fupd_eq. now left.
    + intros w. unfold held_by. cbn. rewrite P, E, fupd_eq. cbn. unfold fupd. rewrite (N.eqb_sym w (v + 1)).
      destruct (N.eqb_spec (v + 1) w) as [<-|]; lia.
    + intros w L. destruct (DUE w L) as [X|[X|(X1 & [X2|X2])]]; [now left|right; left; exact X|congruence|]. rewrite E in X2. cbn in X2. destruct X2 as [X2|[]]; discriminate.
    + intros w. unfold fupd. destruct (N.eqb_spec w (v + 1)) as [->|NE]; [|apply FR]. now rewrite M0, F0.
  - (* leave the migration *)
    assert (GEN : forall v, t = DUnprot v -> occ v (map darg (t :: ts)) = 1 + occ v (map darg ts) ->
       (ts = [] \/ exists w, ts = [DUnprot w]) -> qinv (q_do (QSt s c m f (fupd td i ts) lo) t)).
    { intros v -> _ TS. assert (C1 : 0 < c v) by (apply HC; right; now left). cbn.
      eapply (qframe _ _ i Q); cbn; try apply (qi_a _ Q); try apply (qi_h _ Q); auto; try lia.
      * rewrite P. cbn. rewrite fupd_eq. destruct TS as [->|[w ->]]; [now left|]. right. left. now exists w.
      * intros w. unfold held_by. cbn. rewrite P, E, fupd_eq. cbn. unfold fupd. rewrite (N.eqb_sym w v).
        destruct (N.eqb_spec v w) as [<-|]; lia.
      * intros w L. destruct (DUE w L) as [X|[X|(X1 & [X2|X2])]]; [now left|right; left; exact X|congruence|]. rewrite E in X2. cbn in X2.
        destruct X2 as [X2|X2]; [discriminate|]. destruct TS as [->|[x ->]]; [destruct X2|]. destruct X2 as [X2|[]]. discriminate.
      * intros w. unfold fupd. destruct (N.eqb_spec w v) as [->|NE].
        -- destruct (m v) eqn:M; cbn.
           ++ destruct (N.eqb_spec (c v - 1) 0); cbn; rewrite ?N.eqb_refl, ?FR, ?M; cbn; destruct (N.eqb_spec (c v) 0); lia.
           ++ rewrite andb_false_r. now rewrite FR, M.
        -- destruct ((c v - 1 =? 0) && m v); [|apply FR]. destruct (N.eqb_spec w v); [contradiction|apply FR]. }
    destruct T as [T|[[v T]|(v & w & T)]]; [discriminate| |]; injection T as -> ->; apply (GEN v); auto; cbn; rewrite ?N.eqb_refl; auto.
    right. now exists w.
Qed.

(** A step of [Async] moves one thread only. *)
Lemma run1_others s l s' : async_run1 nblocks s l = Some s' ->
  (forall j, j <> label_id l -> y_pc s' j = y_pc s j /\ y_loc s' j = y_loc s j) /\ y_tab s <= y_tab s'.
Proof.
  intros R. destruct l as [i|i|i|i]; cbn in R |- *.
  - destruct s as [tb ep hp nx bl mv pc lo le]. unfold async_go in R.
    destruct (pc i); repeat match type of R with (if ?b then _ else _) = _ => destruct b eqn:?; try discriminate end; injection R as <-; cbn;
      (split; [intros j NE; rewrite ?fupd_neq by auto; auto|]); try lia.
    apply N.eqb_eq in Heqb. lia.
  - destruct (y_pc s i); try discriminate. injection R as <-. cbn. split; [|lia]. intros j NE. now rewrite fupd_neq.
  - destruct (y_pc s i); try discriminate. destruct (y_next _ _); [|discriminate]. injection R as <-. cbn. split; [|lia]. intros j NE. now rewrite fupd_neq.
  - destruct (y_pc s i); try discriminate. injection R as <-. cbn. split; [|lia]. intros j NE. now rewrite fupd_neq.
Qed.

(** Steps of [Async] that protect nothing. *)
Lemma quiet_inv s c m f td lo l s' td' lo' : qinv (QSt s c m f td lo) -> async_run1 nblocks s l = Some s' ->
  td (label_id l) = [] -> (forall j, j <> label_id l -> td' j = td j) ->
  tok (y_pc s' (label_id l)) (y_loc s' (label_id l)) (y_tab s') (td' (label_id l)) ->
  (forall v, lo v + occ v (plist (y_pc s (label_id l)) (y_loc s (label_id l)) []) =
     lo' v + occ v (plist (y_pc s' (label_id l)) (y_loc s' (label_id l)) (td' (label_id l)))) ->
  (y_pc s (label_id l) = AEnd4 -> y_loc s' (label_id l) = y_loc s (label_id l) /\ In (DDelete (y_loc s (label_id l))) (td' (label_id l))) ->
  (forall v, y_tab s <= v < y_tab s' -> y_loc s' (label_id l) = v /\ y_pc s' (label_id l) = AEnd4) ->
  qinv (QSt s' c m f td' lo').
Proof.
  intros Q R T SM TK HE E4 PB. set (i := label_id l) in *. destruct (run1_others _ _ _ R) as [OT TB]. fold i in OT.
  apply (qframe _ _ i Q); cbn; auto.
  - eapply run1_inv; [apply (qi_a _ Q)|exact R].
  - eapply hinv_step; [apply (qi_a _ Q)|apply (qi_h _ Q)|exact R].
  - intros j NE. destruct (OT j NE). auto.
  - intros v. unfold held_by. cbn. rewrite T. specialize (HE v). lia.
  - intros v M. apply (qi_mark _ Q) in M. cbn in M. lia.
  - intros v L. destruct (m v) eqn:M; [now left|]. right. destruct (N.lt_ge_cases v (y_tab s)) as [LT|GE].
    + destruct (N.eq_dec (y_loc s i) v) as [EL|NE].
      * assert (D : {y_pc s i = AEnd4} + {y_pc s i <> AEnd4}) by (destruct (y_pc s i); (now left) || (right; discriminate)).
        destruct D as [P4|N4]; [right|left].
        -- destruct (E4 P4) as [X1 X2]. split; [congruence|]. right. now rewrite <- EL.
        -- split; [auto|]. split; [auto|]. intros _ [X|X]; [contradiction|]. now rewrite T in X.
      * left. tauto.
    + right. destruct (PB v) as [X1 X2]; [lia|]. auto.
  - apply (qi_free _ Q).
Qed.

(** Steps that protect the current table. *)
Lemma protect_inv s c m f td lo l s' : qinv (QSt s c m f td lo) -> async_run1 nblocks s l = Some s' ->
  td (label_id l) = [] -> y_tab s' = y_tab s ->
  tok (y_pc s' (label_id l)) (y_loc s' (label_id l)) (y_tab s') [] ->
  (forall v, occ v (plist (y_pc s (label_id l)) (y_loc s (label_id l)) []) + (if y_tab s =? v then 1 else 0) =
     occ v (plist (y_pc s' (label_id l)) (y_loc s' (label_id l)) [])) ->
  y_pc s (label_id l) <> AEnd4 ->
  qinv (QSt s' (fupd c (y_tab s) (c (y_tab s) + 1)) m f (fupd td (label_id l) []) lo).
Proof.
  intros Q R T TB TK HE N4. set (i := label_id l) in *. destruct (run1_others _ _ _ R) as [OT _]. fold i in OT.
  destruct (cur_free _ (y_tab s) Q) as [M0 F0]; [cbn; lia|]. cbn in M0, F0.
  apply (qframe _ _ i Q); cbn; auto; try lia.
  - eapply run1_inv; [apply (qi_a _ Q)|exact R].
  - eapply hinv_step; [apply (qi_a _ Q)|apply (qi_h _ Q)|exact R].
  - intros j NE. destruct (OT j NE). rewrite fupd_neq by auto. auto.
  - now rewrite fupd_eq.
  - intros v. unfold held_by. cbn. rewrite T, fupd_eq. specialize (HE v). unfold fupd. rewrite (N.eqb_sym v (y_tab s)).
    destruct (N.eqb_spec (y_tab s) v) as [EV|]; [rewrite EV|]; lia.
  - intros v M. apply (qi_mark _ Q) in M. cbn in M. lia.
  - intros v L. destruct (m v) eqn:M; [now left|]. right. left. split; [lia|]. split; [auto|]. intros _ [X|X]; [contradiction|]. now rewrite T in X.
  - intros v. unfold fupd. destruct (N.eqb_spec v (y_tab s)) as [->|NE]; [now rewrite M0|]. apply (qi_free _ Q).
Qed.

Lemma q_step_inv q l q' : qinv q -> q_run1 nblocks q l = Some q' -> qinv q'.
Proof.
  intros Q R. destruct q as [s c m f td lo]. assert (TD := qi_td _ Q). cbn in TD.
  assert (L4 : forall i, y_pc s i = AEnd4 -> y_tab s = y_loc s i + 1).
  { intros i P. pose proof (ai_th _ _ (qi_a _ Q) i) as [_ X]. cbn in X. rewrite P in X. lia. }
  destruct l as [i|i|i|i]; cbn [q_run1] in R.
  - destruct (td i) as [|t ts] eqn:E; [|injection R as <-; now apply todo_inv].
    destruct (async_go nblocks s i) as [s'|] eqn:GO; [|discriminate]. injection R as <-.
    assert (QU := quiet_inv s c m f td lo (YGo i) s' (fupd td i (todo_after s i)) lo Q GO E). cbn [label_id] in QU.
    assert (PR := protect_inv s c m f td lo (YGo i) s' Q GO E). cbn [label_id] in PR.
    rewrite fupd_eq in QU. unfold prot_now, todo_after in *.
    destruct s as [tb ep hp nx bl mv pc loc le]. unfold async_go in GO. cbn in *. specialize (L4 i).
    destruct (pc i) eqn:P; cbn in *;
      repeat match type of GO with (if ?b then _ else _) = _ => destruct b eqn:?; try discriminate end; injection GO as <-; cbn in *; rewrite ?fupd_eq in *.
    all: try (apply QU; [intros j NE; now rewrite fupd_neq|..]; cbn;
      try (match goal with |- context [if ?b then _ else _] => destruct b end);
      rewrite ?P; cbn; auto; try discriminate; try (intros; lia)).
    all: try (apply PR; cbn; auto; try discriminate; intros v; cbn; lia).
    + right. left. now exists v.
    + right. right. now exists v, (v + 1).
    + intros v L. apply N.eqb_eq in Heqb. split; [lia|reflexivity].
    + right. right. split; [reflexivity|]. specialize (L4 eq_refl). lia.
  - destruct (async_run1 nblocks s (YWant i)) as [s'|] eqn:R1; [|discriminate]. injection R as <-. specialize (TD i).
    assert (QU := quiet_inv s c m f td lo (YWant i) s' td lo Q R1). cbn [label_id] in QU. cbn in R1.
    destruct (y_pc s i) eqn:P; try discriminate R1. injection R1 as <-. cbn in TD, QU. rewrite fupd_eq in QU. rewrite TD in QU. apply QU; auto; try discriminate; [reflexivity|intros; lia].
  - destruct (async_run1 nblocks s (YInvalid i)) as [s'|] eqn:R1; [|discriminate]. injection R as <-. specialize (TD i).
    assert (QU := quiet_inv s c m f td lo (YInvalid i) s' td lo Q R1). cbn [label_id] in QU. cbn in R1.
    destruct (y_pc s i) eqn:P; try discriminate R1. destruct (y_next s (y_loc s i)); [|discriminate]. injection R1 as <-. cbn in TD, QU. rewrite fupd_eq in QU. rewrite TD in QU. apply QU; auto; try discriminate; [reflexivity|intros; lia].
  - destruct (async_run1 nblocks s (YDestroy i)) as [s'|] eqn:R1; [|discriminate]. injection R as <-. specialize (TD i).
    assert (QU := fun lo' => quiet_inv s c m f td lo (YDestroy i) s' td lo' Q R1). cbn [label_id] in QU. cbn in R1.
    destruct (y_pc s i) eqn:P; try discriminate R1. injection R1 as <-. cbn in TD, QU. rewrite fupd_eq in QU. rewrite TD in QU. apply QU; auto; try discriminate.
    + reflexivity.
    + intros v. cbn. unfold fupd. rewrite (N.eqb_sym v). destruct (N.eqb_spec (y_loc s i) v) as [<-|]; lia.
    + intros; lia.
Qed.

Lemma q_after_inv q q' : qinv q -> q_after nblocks q q' -> qinv q'.
Proof.
  intros Q [ls R]. revert q Q R. induction ls as [|l ls IH]; cbn; intros q Q R; [injection R as <-; auto|].
  destruct (q_run1 nblocks q l) as [q1|] eqn:E; [|discriminate]. apply (IH q1); auto. eapply q_step_inv; eauto.
Qed.

Lemma q_reach_inv q : q_reachable nblocks q -> qinv q.
Proof. apply q_after_inv, qinv_init. Qed.

(** Without its counters the machine is that of [Async]. *)
Lemma q_do_s q t : q_s (q_do q t) = q_s q.
Proof. destruct q, t; reflexivity. Qed.

Lemma q_reach_async q : q_reachable nblocks q -> async_reachable nblocks (q_s q).
Proof.
  intros [ls R]. assert (A : async_reachable nblocks (q_s q_init)) by constructor.
  revert R A. generalize q_init. induction ls as [|l ls IH]; cbn; intros q0 R A; [injection R as <-; auto|].
  destruct (q_run1 nblocks q0 l) as [q1|] eqn:E; [|discriminate]. apply (IH q1); auto.
  destruct q0 as [s c m f td lo]. cbn in A. destruct l as [i|i|i|i]; cbn [q_run1] in E;
    [|match type of E with match ?x with _ => _ end = _ => destruct x as [s'|] eqn:S; [|discriminate] end; injection E as <-; eapply ar_step; [exact A|eexists; exact S]..].
  destruct (td i); [|assert (E2 : q_s q1 = s) by (injection E as <-; now destruct t); rewrite E2; exact A].
  destruct (async_go nblocks s i) as [s'|] eqn:S; [|discriminate]. injection E as <-.
  replace (q_s _) with s' by (destruct (prot_now s i); rewrite ?q_do_s; reflexivity).
  eapply ar_step; [exact A|]. exists (YGo i). exact S.
Qed.

(** What a destroyed handle had cached stays protected. *)
Lemma lost_mono q q' v : q_after nblocks q q' -> q_lost q v <= q_lost q' v.
Proof.
  intros [ls R]. revert q R. induction ls as [|l ls IH]; cbn; intros q R; [injection R as <-; lia|].
  destruct (q_run1 nblocks q l) as [q1|] eqn:E; [|discriminate]. etransitivity; [|apply (IH q1 R)].
  destruct q as [s c m f td lo]. destruct l as [i|i|i|i]; cbn [q_run1] in E.
  - destruct (td i); [|injection E as <-; destruct t; cbn; lia]. destruct (async_go nblocks s i); [|discriminate].
    injection E as <-. destruct (prot_now s i); cbn; lia.
  - destruct (async_run1 nblocks s _); [|discriminate]. injection E as <-. cbn. lia.
  - destruct (async_run1 nblocks s _); [|discriminate]. injection E as <-. cbn. lia.
  - destruct (async_run1 nblocks s _); [|discriminate]. injection E as <-. cbn. unfold fupd. destruct (N.eqb_spec v (y_loc s i)) as [->|]; lia.
Qed.

Lemma lost_kept q v : qinv q -> 0 < q_lost q v -> q_frees q v = 0.
Proof.
  intros Q L. rewrite (qi_free _ Q). destruct (qi_cnt _ Q) as (l & _ & _ & C). specialize (C v).
  destruct (N.eqb_spec (q_cnt q v) 0); [lia|]. now rewrite andb_false_r.
Qed.

Lemma held_kept q i v : qinv q -> In v (held_by q i) -> q_frees q v = 0.
Proof.
  intros Q I. pose proof (held_counted q i v Q I). rewrite (qi_free _ Q). destruct (N.eqb_spec (q_cnt q v) 0); [lia|]. now rewrite andb_false_r.
Qed.

Lemma accessed_kept q i v : qinv q -> accesses q i v -> q_frees q v = 0.
Proof.
  intros Q A. unfold accesses in A. pose proof (qi_td _ Q i) as T. pose proof (held_kept q i) as K. unfold held_by in K.
  pose proof (fun H => proj2 (cur_free q v Q H)) as CF.
  destruct (q_todo q i) as [|t ts] eqn:E.
  - destruct (y_pc (q_s q) i) eqn:P; cbn in K; try contradiction A; try (subst v; apply CF; lia); try (apply K; subst; cbn; tauto).
    + apply K; auto. destruct A; subst; tauto.
    + apply K; auto. destruct A; subst; tauto.
    + apply K; auto. destruct A; subst; tauto.
    + apply CF. pose proof (ai_th _ _ (qi_a _ Q) i) as [_ X]. rewrite P in X. lia.
  - destruct (y_pc (q_s q) i) eqn:P; cbn in T, K; try discriminate T.
    + destruct T as [T|[T|[T _]]]; [discriminate| |]; injection T as -> ->; subst v; apply K; cbn; auto.
    + destruct T as [T|T]; [discriminate|]. injection T as -> ->. apply CF. pose proof (hi_cur _ (qi_h _ Q) i v0) as X. rewrite P in X. specialize (X eq_refl). lia.
    + destruct T as [T|[[x T]|(x & y & T)]]; [discriminate| |]; injection T as -> ->; subst v; apply K; cbn; auto.
Qed.

(** Tables nobody needs are freed. *)
Lemma unused_freed q v : qinv q -> v < y_tab (q_s q) -> q_lost q v = 0 -> (forall i, ~ In v (held_by q i)) -> q_frees q v = 1.
Proof.
  intros Q L Z NH. destruct (qi_cnt _ Q) as (l & _ & _ & C). rewrite (qi_free _ Q).
  assert (C0 : q_cnt q v = 0).
  { rewrite C, Z, nsum_zero; [reflexivity|]. intros i _. destruct (N.eq_dec (occ v (held_by q i)) 0) as [|NE]; auto.
    destruct (NH i). apply occ_in. lia. }
  rewrite C0. destruct (qi_del _ Q v L) as [->|(i & E & [P|I])]; [reflexivity| |]; exfalso; apply (NH i).
  - unfold held_by. rewrite P, E. now left.
  - pose proof (qi_td _ Q i) as T. unfold held_by. destruct (y_pc (q_s q) i) eqn:P; cbn in T |- *; try (rewrite T in I; destruct I).
    + destruct T as [T|[T|[T _]]]; rewrite T in *; cbn; auto.
    + destruct T as [T|T]; rewrite T in I; [destruct I|]. destruct I as [I|[]]. discriminate.
    + left. exact E.
Qed.

End Facts.

(** ** Synchronised growing: the organiser deletes the old table *)

Section SyncDelete.
Context (tso : bool) (nblocks slot : N -> N) (INJ : own_flags slot).

(** The version that is current or being replaced. *)
Definition version (s : sst) : N :=
  match s_tab s with TTab c | TMarked c => c | TNull => s_epoch s - 1 end.

Record dinv (s : sst) : Prop := {
  di_new : forall i v, s_pc s i = PDelete v -> s_deleted s v = false;
  di_one : forall i j v, s_pc s i = PDelete v -> s_pc s j = PDelete v -> i = j;
  di_all : forall v, v < version s -> s_deleted s v = true \/ exists i, s_pc s i = PDelete v }.

Lemma ginv_version c o s : ginv tso nblocks slot c o s -> version s = c.
Proof.
  intros G. pose proof (gi_org _ _ _ _ _ _ G) as X. unfold version. destruct o as [t|].
  - destruct X as (X1 & X2 & X3). destruct (s_pc s t); cbn in X1, X2; try discriminate X1; rewrite X2; auto; lia.
  - destruct X as [-> _]. reflexivity.
Qed.

Lemma dinv_init : dinv sync_init.
Proof. split; cbn; try discriminate. intros v L. unfold version in L. cbn in L. lia. Qed.

Lemma dinv_same s s' i : dinv s -> s_deleted s' = s_deleted s -> version s' <= version s ->
  (forall j, j <> i -> s_pc s' j = s_pc s j) ->
  (forall v, s_pc s' i <> PDelete v) -> (forall v, s_pc s i <> PDelete v) -> dinv s'.
Proof.
  intros [D1 D2 D3] ED EV EP N1 N0.
  assert (K : forall j v, s_pc s' j = PDelete v -> s_pc s j = PDelete v).
  { intros j v P. destruct (N.eq_dec j i) as [->|NE]; [destruct (N1 v P)|]. now rewrite <- (EP j NE). }
  split.
  - intros j v P. rewrite ED. apply (D1 j). auto.
  - intros j k v A B. apply (D2 j k v); auto.
  - intros v L. rewrite ED. destruct (D3 v) as [X|[j X]]; [lia|auto|]. right. exists j. rewrite EP; auto. intros ->. destruct (N0 v X).
Qed.

Lemma put_rest s i x : s_pc (put_store tso slot s i x) = s_pc s /\ s_deleted (put_store tso slot s i x) = s_deleted s /\
  version (put_store tso slot s i x) = version s.
Proof. unfold put_store. destruct tso; [auto|]. destruct x; auto. Qed.

Lemma dinv_step c o s l s' : ginv tso nblocks slot c o s -> dinv s -> sync_run1 tso nblocks slot s l = Some s' -> dinv s'.
Proof.
  intros G D R. destruct (step_inv tso nblocks slot INJ c o s l s' G R) as (c' & o' & G').
  pose proof (ginv_version _ _ _ G) as V. pose proof (ginv_version _ _ _ G') as V'.
  assert (K : forall i p s1, s_pc s1 = s_pc s -> s_deleted s1 = s_deleted s -> version (set_pc s1 i p) <= version s ->
     (forall v, p <> PDelete v) -> (forall v, s_pc s i <> PDelete v) -> dinv (set_pc s1 i p)).
  { intros i p s1 E1 E2 E3 N1 N0. apply (dinv_same s _ i D); cbn; auto.
    - intros j NE. rewrite fupd_neq by auto. now rewrite E1.
    - intros v. rewrite fupd_eq. apply N1. }
  destruct l as [i|i|i|i]; cbn in R.
  - unfold sync_go, locked in R.
    assert (T := gi_th _ _ _ _ _ _ G i). destruct T as [_ T].
    destruct (s_pc s i) eqn:P; cbn in T;
      repeat match type of R with
      | (if ?b then _ else _) = _ => destruct b eqn:?
      | match ?b with _ => _ end = _ => destruct b eqn:?
      end; try discriminate R;
      injection R as R; rewrite <- R.
    all: try exact D.
    all: try (apply K; rewrite ?P; try discriminate; auto; try (apply put_rest); unfold version; cbn; try lia;
       try match goal with H : s_tab _ = _ |- _ => rewrite H; lia end; fail).
    all: try (destruct (put_rest s i (SOps (Some v))) as (B1 & B2 & B3); apply K; rewrite ?P; auto; try discriminate;
      change (version (set_pc ?a ?b ?d)) with (version a); lia).
    all: try (destruct (put_rest s i (SOps None)) as (B1 & B2 & B3); apply K; rewrite ?P; auto; try discriminate; try (destruct want; discriminate);
      change (version (set_pc ?a ?b ?d)) with (version a); lia).
    all: try (destruct (put_rest s i (SMig None)) as (B1 & B2 & B3); apply K; rewrite ?P; auto; try discriminate; try (destruct k; discriminate);
      change (version (set_pc ?a ?b ?d)) with (version a); lia).
    all: try (apply K; rewrite ?P; auto; try discriminate; try (destruct k; discriminate); change (version (set_pc ?a ?b ?d)) with (version a); lia).
    + destruct (N.eqb_spec (s_epoch s) e) as [EE|NE]; apply K; rewrite ?P; auto; try discriminate; [|change (version (set_pc ?a ?b ?d)) with (version a); lia].
      destruct T as [-> T]. pose proof (gi_org _ _ _ _ _ _ G) as X. destruct o as [t|]; [lia|]. destruct X as [X _]. unfold version. cbn. rewrite X. lia.
    + destruct (s_tab s) as [w|w|] eqn:TB; try (apply K; rewrite ?P; auto; try discriminate; unfold version; cbn; rewrite ?TB; lia).
      destruct (N.eqb_spec w v) as [->|]; apply K; rewrite ?P; auto; try discriminate; unfold version; cbn; rewrite ?TB; lia.
    + assert (O : orgof (s_pc s i) = Some v) by (rewrite P; reflexivity). destruct (is_org _ _ _ c o s i v G O) as (-> & -> & X).
      pose proof (gi_org _ _ _ _ _ _ G) as (_ & _ & X3). apply K; rewrite ?P; auto; try discriminate. unfold version. cbn. fold (version s). lia.
    + assert (O : orgof (s_pc s i) = Some v) by (rewrite P; reflexivity). destruct (is_org _ _ _ c o s i v G O) as (-> & -> & X).
      assert (ND : forall j w, s_pc s j = PDelete w -> w < c).
      { intros j w PJ. pose proof (gi_th _ _ _ _ _ _ G j) as [_ Y]. now rewrite PJ in Y. }
      assert (NF : s_deleted s c = false) by (destruct (s_deleted s c) eqn:DD; [apply (gi_del _ _ _ _ _ _ G) in DD; lia|auto]).
      destruct D as [D1 D2 D3]. split; cbn.
      * intros j w. unfold fupd. destruct (N.eqb_spec j i) as [->|]; [intros [= <-]; exact NF|apply D1].
      * intros j k w. unfold fupd. destruct (N.eqb_spec j i) as [->|], (N.eqb_spec k i) as [->|]; auto; try apply D2.
        -- intros [= <-] Y. apply ND in Y. lia.
        -- intros Y [= <-]. apply ND in Y. lia.
      * intros w L. unfold version in L. cbn in L. destruct (N.eq_dec w c) as [->|NE]; [right; exists i; apply fupd_eq|].
        destruct (D3 w) as [Y|[j Y]]; [lia|auto|]. right. exists j. rewrite fupd_neq; auto. intros ->. rewrite P in Y. discriminate.
    + destruct D as [D1 D2 D3]. split; cbn.
      * intros j w. unfold fupd at 1. destruct (N.eqb_spec j i) as [->|NJ]; [discriminate|]. intros Y.
        unfold fupd. destruct (N.eqb_spec w v) as [->|]; [|now apply (D1 j)]. destruct NJ. now apply (D2 j i v).
      * intros j k w. unfold fupd. destruct (N.eqb_spec j i) as [->|], (N.eqb_spec k i) as [->|]; auto; try discriminate. apply D2.
      * intros w L. change (version _) with (version s) in L. unfold fupd at 1. destruct (N.eqb_spec w v) as [->|NE]; [auto|].
        destruct (D3 w L) as [Y|[j Y]]; [auto|]. right. exists j. rewrite fupd_neq; auto. intros ->. rewrite P in Y. congruence.
    + destruct (put_rest s i (SMig (Some v))) as (B1 & B2 & B3); apply K; rewrite ?P; auto; try discriminate.
      change (version (set_pc ?a ?b ?d)) with (version a); lia.
    + destruct (s_deleted s v); apply K; rewrite ?P; auto; try discriminate; try (destruct (_ <? _); discriminate);
      change (version (set_pc ?a ?b ?d)) with (version a); change (version (set_block ?a ?b ?d)) with (version a); lia.
  - destruct (s_pc s i) eqn:P; try discriminate. injection R as <-. apply K; rewrite ?P; auto; try discriminate. change (version (set_pc ?a ?b ?d)) with (version a); lia.
  - destruct (s_pc s i) eqn:P; try discriminate. unfold locked in R. destruct (s_buf s i); [|discriminate]. injection R as <-.
    apply K; rewrite ?P; auto; try discriminate. change (version (set_pc ?a ?b ?d)) with (version a); lia.
  - destruct (s_buf s i) as [|x b]; [discriminate|]. injection R as <-. destruct D as [D1 D2 D3]. destruct x; split; cbn; auto.
Qed.

Lemma reach_dinv s : sync_reachable tso nblocks slot s -> dinv s.
Proof.
  induction 1 as [|s s' R IH [l ST]]; [apply dinv_init|]. destruct (reach_inv tso nblocks slot INJ s R) as (c & o & G).
  eapply dinv_step; eauto.
Qed.

End SyncDelete.
