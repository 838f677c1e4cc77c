(** The invariant of the synchronised growing strategy. *)
From Coq Require Import NArith Bool List Lia.
From Verif Require Import Words BaseInv Sync.
Import ListNotations.
Open Scope N_scope.

Definition kver (k : caller) : option N := match k with KOrg v => Some v | KHelp => None end.

(** The version whose growth step a thread organises, until it has published the
    successor. *)
Definition orgof (p : spc) : option N :=
  match p with
  | PGrow3 v | PGrow4 v | PGrow5 v | PWaitOps v _ _ | PGrow7 v | PGrow9 v | PWaitStart v
  | PWaitMig v _ _ | PPublish v => Some v
  | PMig1 k | PMig2 k _ | PMig3 k _ _ | PMig4 k _ _ | PMig5 k _ _ _ | PMig6 k _ _ => kver k
  | _ => None
  end.

(** _table at the different stages of the organiser. *)
Definition tabof (c : N) (p : spc) : tab :=
  match p with
  | PGrow3 _ | PGrow4 _ => TTab c
  | PWaitStart _ | PWaitMig _ _ _ | PPublish _ => TNull
  | _ => TMarked c
  end.

(** Operations on the current table may still be running at slot [x]. *)
Definition openst (op : option spc) (x : N) : Prop :=
  match op with
  | None => True
  | Some (PGrow3 _ | PGrow4 _ | PGrow5 _) => True
  | Some (PWaitOps _ e j) => j <= x < e
  | Some _ => False
  end.

(** The organiser has yet to wait for a helper at slot [x]. *)
Definition protst (op : option spc) (x : N) : Prop :=
  match op with
  | None => False
  | Some (PGrow3 _ | PGrow4 _ | PPublish _) => False
  | Some (PWaitMig _ e j) => j <= x < e
  | Some _ => True
  end.

(** The migration has been opened; all blocks have been handed out. *)
Definition started (op : option spc) : Prop :=
  match op with
  | Some (PMig1 _ | PMig2 _ _ | PMig3 _ _ _ | PMig4 _ _ _ | PMig5 _ _ _ _ | PMig6 _ _ _
         | PGrow9 _ | PWaitStart _ | PWaitMig _ _ _ | PPublish _) => True
  | _ => False
  end.
Definition ended (op : option spc) : Prop :=
  match op with
  | Some (PMig6 _ _ _ | PGrow9 _ | PWaitStart _ | PWaitMig _ _ _ | PPublish _) => True
  | _ => False
  end.

Section Inv.
Context (tso : bool) (nblocks : N -> N) (slot : N -> N).
Context (INJ : forall i j, slot i = slot j -> i = j).

(** The value of a thread's migration flag once its stores are visible. *)
Fixpoint last_mig (x : option N) (l : list store) : option N :=
  match l with
  | [] => x
  | SMig y :: l => last_mig y l
  | SOps _ :: l => last_mig x l
  end.
Definition fmig (s : sst) (i : N) : option N := last_mig (s_mig s (slot i)) (s_buf s i).

Definition opc (s : sst) (o : option N) : option spc := option_map (s_pc s) o.

Definition prot (s : sst) (c : N) (op : option spc) (i v : N) : Prop :=
  v = c /\ s_mig s (slot i) = Some v /\ protst op (slot i).

Definition korg (k : caller) (v : N) : Prop := forall w, k = KOrg w -> w = v.

(** What holds of a thread at [p]. *)
Definition tinv (s : sst) (c : N) (op : option spc) (i : N) (p : spc) : Prop :=
  (p = PUnreg \/ p = PReserved \/ slot i < s_last s) /\
  match p with
  | PGet2 v => v <= c
  | PGet3 v => v <= c /\ (tso = false -> s_ops s (slot i) = Some v)
  | POp v => v <= c /\ (tso = false -> v = c /\ s_ops s (slot i) = Some v /\ openst op (slot i))
  | PRls (Some v) => v <= c
  | PGrow1 v => v <= c
  | PGrow2 v e => e = v /\ v <= c
  | PDelete v => v < c
  | PMig2 k v => v <= c /\ korg k v
  | PMig3 k v g => v <= c /\ korg k v /\ fmig s i = Some v /\ (tso = false -> g = true -> prot s c op i v)
  | PMig4 k v g => v <= c /\ korg k v /\ fmig s i = Some v /\ (tso = false -> g = true -> prot s c op i v) /\
      s_next s v = true
  | PMig5 k v b g => korg k v /\ fmig s i = Some v /\ prot s c op i v /\ s_next s v = true /\
      b < nblocks v /\ b < s_block s v /\ s_buf s i = []
  | PMig6 k v g => v <= c /\ korg k v /\ (tso = false -> g = true -> prot s c op i v)
  | _ => True
  end.

Record ginv (c : N) (o : option N) (s : sst) : Prop := {
  gi_org : match o with
           | None => s_tab s = TTab c /\ s_epoch s = c
           | Some t => orgof (s_pc s t) = Some c /\ s_tab s = tabof c (s_pc s t) /\ s_epoch s = c + 1
           end;
  gi_only : forall i, o <> Some i -> orgof (s_pc s i) = None;
  gi_del : forall v, s_deleted s v = true -> v < c;
  gi_old : forall v, v < c -> nblocks v <= s_block s v /\ forall b, b < nblocks v -> s_moved s v b = true;
  gi_end : ended (opc s o) -> nblocks c <= s_block s c;
  gi_pub : forall v, opc s o = Some (PPublish v) -> forall b, b < nblocks c -> s_moved s c b = true;
  gi_next : forall v, s_next s v = true -> v < c \/ (v = c /\ started (opc s o));
  gi_mov : forall v b, b < s_block s v -> b < nblocks v ->
    s_moved s v b = true \/ exists i k g, s_pc s i = PMig5 k v b g;
  gi_buf : tso = false -> forall i, s_buf s i = [];
  gi_th : forall i, tinv s c (opc s o) i (s_pc s i) }.

Lemma ginv_init : ginv 0 None sync_init.
Proof.
  split; cbn; auto; try discriminate; try (intros; lia); try contradiction.
  intros i. unfold tinv. auto.
Qed.

(** What a thread knows is not affected by steps of others. *)
Lemma tinv_mono s c op s' op' i p :
  s_last s <= s_last s' ->
  s_ops s' (slot i) = s_ops s (slot i) -> s_mig s' (slot i) = s_mig s (slot i) -> s_buf s' i = s_buf s i ->
  (forall v, s_next s v = true -> s_next s' v = true) ->
  (forall v, s_block s v <= s_block s' v) ->
  (tso = false -> slot i < s_last s -> s_ops s (slot i) = Some c -> openst op (slot i) -> openst op' (slot i)) ->
  (slot i < s_last s -> s_mig s (slot i) = Some c -> protst op (slot i) -> protst op' (slot i)) ->
  tinv s c op i p -> tinv s' c op' i p.
Proof.
  intros L O M B NX BL OP PR [T0 T]. split.
  - destruct T0 as [->|[->|T0]]; auto. right; right; lia.
  - assert (P : p <> PUnreg -> p <> PReserved -> forall v, prot s c op i v -> prot s' c op' i v).
    { intros N1 N2 v (-> & H1 & H2). destruct T0 as [->|[->|T0]]; try congruence.
      split; [reflexivity|]. rewrite M. auto. }
    unfold fmig in *. rewrite M, B. rewrite O.
    destruct p; auto.
    + destruct T as [T1 T2]. split; auto. intros TS. destruct (T2 TS) as (-> & E & X).
      destruct T0 as [T0|[T0|T0]]; try discriminate. repeat split; auto.
    + destruct T as (T1 & T2 & T3 & T4). refine (conj T1 (conj T2 (conj T3 _))).
      intros. apply P; auto; discriminate.
    + destruct T as (T1 & T2 & T3 & T4 & T5). refine (conj T1 (conj T2 (conj T3 (conj _ (NX _ T5))))).
      intros. apply P; auto; discriminate.
    + destruct T as (T1 & T2 & T3 & T4 & T5 & T6 & T7).
      refine (conj T1 (conj T2 (conj _ (conj (NX _ T4) (conj T5 (conj _ T7)))))).
      * apply P; auto; discriminate.
      * specialize (BL v). lia.
    + destruct T as (T1 & T2 & T3). refine (conj T1 (conj T2 _)). intros. apply P; auto; discriminate.
Qed.

(** A step of thread [i] that changes neither the version nor the organiser. *)
Lemma frame c o s s' i p' :
  ginv c o s ->
  s_pc s' = fupd (s_pc s) i p' ->
  s_epoch s' = s_epoch s -> s_deleted s' = s_deleted s -> s_last s <= s_last s' ->
  (forall x, x <> slot i -> s_ops s' x = s_ops s x /\ s_mig s' x = s_mig s x) ->
  (forall j, j <> i -> s_buf s' j = s_buf s j) -> (tso = false -> s_buf s' i = []) ->
  (forall v, s_next s v = true -> s_next s' v = true) ->
  (forall v, s_block s v <= s_block s' v) ->
  (forall v b, s_moved s v b = true -> s_moved s' v b = true) ->
  orgof p' = orgof (s_pc s i) ->
  s_tab s' = (if match o with Some t => t =? i | None => false end then tabof c p' else s_tab s) ->
  (o = Some i -> forall j, j <> i ->
     (tso = false -> slot j < s_last s -> s_ops s (slot j) = Some c ->
       openst (Some (s_pc s i)) (slot j) -> openst (Some p') (slot j)) /\
     (slot j < s_last s -> s_mig s (slot j) = Some c ->
       protst (Some (s_pc s i)) (slot j) -> protst (Some p') (slot j))) ->
  (o = Some i -> ended (Some p') -> nblocks c <= s_block s' c) ->
  (o = Some i -> forall v, p' = PPublish v -> forall b, b < nblocks c -> s_moved s' c b = true) ->
  (forall v, s_next s' v = true -> s_next s v = true \/ (v = c /\ o = Some i)) ->
  (o = Some i -> forall v, s_next s' v = true -> v < c \/ started (Some p')) ->
  (forall v b, b < s_block s' v -> b < nblocks v ->
    s_moved s' v b = true \/ exists i k g, s_pc s' i = PMig5 k v b g) ->
  tinv s' c (opc s' o) i p' ->
  ginv c o s'.
Proof.
  intros [Gorg Gonly Gdel Gold Gend Gpub Gnext Gmov Gbuf Gth] PC EP DL LA OM BU BT NX BL MV OR TB ORG EN PU NI NS MO TI.
  assert (OC : opc s' o = if match o with Some t => t =? i | None => false end then Some p' else opc s o).
  { unfold opc. destruct o as [t|]; cbn; auto. rewrite PC. unfold fupd.
    destruct (N.eqb_spec t i); reflexivity. }
  split.
  - destruct o as [t|]; [|now rewrite TB, EP]. rewrite PC. destruct Gorg as (G1 & G2 & G3).
    unfold fupd. destruct (N.eqb_spec t i) as [->|NE].
    + rewrite OR. rewrite EP. auto.
    + rewrite TB, EP. auto.
  - intros j NJ. rewrite PC. unfold fupd. destruct (N.eqb_spec j i) as [->|NE]; [rewrite OR|]; auto.
  - intros v. rewrite DL. apply Gdel.
  - intros v LT. destruct (Gold v LT) as [A B]. split; [|auto]. specialize (BL v). lia.
  - rewrite OC. destruct o as [t|]; [|intros []]. destruct (N.eqb_spec t i) as [->|NE]; [now apply EN|].
    intros H. specialize (Gend H). specialize (BL c). lia.
  - rewrite OC. intros v. destruct o as [t|]; [|discriminate]. destruct (N.eqb_spec t i) as [->|NE].
    + intros [= ->]. eapply PU; eauto.
    + intros H b Lb. apply MV. eapply Gpub; eauto.
  - intros v H. rewrite OC. destruct (NI v H) as [H'|[-> ->]].
    + destruct (Gnext v H') as [LT|[-> ST]]; [now left|]. right. split; auto.
      destruct o as [t|]; auto. destruct (N.eqb_spec t i) as [->|NE]; auto.
      destruct (NS eq_refl c H); [lia|auto].
    + right. split; auto. rewrite N.eqb_refl. destruct (NS eq_refl c H); [lia|auto].
  - exact MO.
  - intros TS j. destruct (N.eq_dec j i) as [->|NE]; [now apply BT|]. rewrite BU; auto.
  - intros j. rewrite PC. destruct (N.eq_dec j i) as [->|NE]; [now rewrite fupd_eq|].
    rewrite fupd_neq by exact NE.
    assert (SJ : slot j <> slot i) by (intros E; apply NE; now apply INJ).
    destruct (OM _ SJ) as [OM1 OM2].
    apply (tinv_mono s c (opc s o)); auto; rewrite OC; destruct o as [t|]; auto;
      destruct (N.eqb_spec t i) as [->|NT]; auto; apply (ORG eq_refl j NE).
Qed.

Lemma not_org c o s i : ginv c o s -> orgof (s_pc s i) = None -> o <> Some i.
Proof. intros G E ->. destruct (gi_org _ _ _ G) as (H & _). congruence. Qed.

Lemma is_org c o s i v : ginv c o s -> orgof (s_pc s i) = Some v ->
  o = Some i /\ v = c /\ s_tab s = tabof c (s_pc s i) /\ s_epoch s = c + 1.
Proof.
  intros G E. assert (O : o = Some i).
  { destruct o as [t|].
    - destruct (N.eq_dec t i) as [->|NE]; auto. rewrite (gi_only _ _ _ G i) in E; congruence.
    - rewrite (gi_only _ _ _ G i) in E; congruence. }
  subst o. destruct (gi_org _ _ _ G) as (H & H1 & H2). split; auto. split; [congruence|]. auto.
Qed.

Definition on_block (p : spc) : Prop := match p with PMig5 _ _ _ _ => True | _ => False end.

Lemma mov_keep c o s s' i p' :
  ginv c o s -> ~ on_block (s_pc s i) -> s_pc s' = fupd (s_pc s) i p' ->
  s_block s' = s_block s -> s_moved s' = s_moved s ->
  forall v b, b < s_block s' v -> b < nblocks v ->
    s_moved s' v b = true \/ exists i k g, s_pc s' i = PMig5 k v b g.
Proof.
  intros G NB PC BL MV v b. rewrite BL, MV, PC. intros H1 H2.
  destruct (gi_mov _ _ _ G v b H1 H2) as [H|(j & k & g & E)]; [now left|]. right. exists j, k, g.
  rewrite fupd_neq; auto. intros ->. rewrite E in NB. now apply NB.
Qed.

(** Steps of a thread that does not organise a growth step. *)
Lemma other c o s s' i p' :
  ginv c o s -> orgof (s_pc s i) = None -> orgof p' = None -> ~ on_block (s_pc s i) ->
  s_pc s' = fupd (s_pc s) i p' ->
  s_tab s' = s_tab s -> s_epoch s' = s_epoch s -> s_deleted s' = s_deleted s -> s_last s <= s_last s' ->
  (forall x, x <> slot i -> s_ops s' x = s_ops s x /\ s_mig s' x = s_mig s x) ->
  (forall j, j <> i -> s_buf s' j = s_buf s j) -> (tso = false -> s_buf s' i = []) ->
  s_next s' = s_next s -> s_block s' = s_block s -> s_moved s' = s_moved s ->
  tinv s' c (opc s o) i p' ->
  ginv c o s'.
Proof.
  intros G OI OP NB PC TB EP DL LA OM BU BT NX BL MV TI. pose proof (not_org _ _ _ _ G OI) as NO.
  apply (frame c o s s' i p'); auto; try congruence.
  - intros v. rewrite BL. lia.
  - rewrite TB. destruct o as [t|]; auto. destruct (N.eqb_spec t i); congruence.
  - intros v. rewrite NX. auto.
  - eapply mov_keep; eauto.
  - replace (opc s' o) with (opc s o); auto. unfold opc. destruct o as [t|]; auto. cbn. rewrite PC, fupd_neq; auto.
    congruence.
Qed.

Lemma other_pc c o s i p' :
  ginv c o s -> orgof (s_pc s i) = None -> orgof p' = None -> ~ on_block (s_pc s i) ->
  tinv s c (opc s o) i p' -> ginv c o (set_pc s i p').
Proof.
  intros G OI OP NB TI. apply (other c o s _ i p'); auto; cbn; try lia; auto.
  intros TS. now apply (gi_buf _ _ _ G).
Qed.

Lemma put_store_fields s i x :
  let s' := put_store tso slot s i x in
  s_pc s' = s_pc s /\ s_tab s' = s_tab s /\ s_epoch s' = s_epoch s /\ s_deleted s' = s_deleted s /\
  s_last s' = s_last s /\ s_next s' = s_next s /\ s_block s' = s_block s /\ s_moved s' = s_moved s /\
  (forall y, y <> slot i -> s_ops s' y = s_ops s y /\ s_mig s' y = s_mig s y) /\
  (forall j, j <> i -> s_buf s' j = s_buf s j) /\
  (tso = false -> s_buf s' i = s_buf s i).
Proof.
  unfold put_store. destruct tso; [|destruct x]; cbn; repeat (split; [reflexivity|]);
    repeat split; intros; rewrite ?fupd_neq; auto; discriminate.
Qed.

(** Stores of a thread to its own flags. *)
Lemma other_store c o s i x p' :
  ginv c o s -> orgof (s_pc s i) = None -> orgof p' = None -> ~ on_block (s_pc s i) ->
  tinv (put_store tso slot s i x) c (opc s o) i p' ->
  ginv c o (set_pc (put_store tso slot s i x) i p').
Proof.
  intros G OI OP NB TI.
  destruct (put_store_fields s i x) as (F1 & F2 & F3 & F4 & F5 & F6 & F7 & F8 & F9 & F10 & F11).
  apply (other c o s _ i p'); auto; cbn [set_pc s_pc s_tab s_epoch s_deleted s_last s_ops s_mig s_buf s_next s_block s_moved]; auto.
  - now rewrite F1.
  - rewrite F5. lia.
  - intros TS. rewrite F11 by auto. now apply (gi_buf _ _ _ G).
Qed.

Lemma sc_store s i x : tso = false -> put_store tso slot s i x = commit s (slot i) x.
Proof. intros E. unfold put_store. now rewrite E. Qed.

Lemma last_mig_app l x y : last_mig x (l ++ [y]) = match y with SMig z => z | SOps _ => last_mig x l end.
Proof. revert x. induction l as [|[z|z] l IH]; intros x; cbn; auto. Qed.

Lemma fmig_store s i x :
  fmig (put_store tso slot s i x) i = match x with SMig z => z | SOps _ => fmig s i end
  \/ (tso = false /\ s_buf s i <> []).
Proof.
  unfold put_store, fmig. destruct tso; cbn.
  - rewrite fupd_eq, last_mig_app. left. destruct x; reflexivity.
  - destruct (s_buf s i) eqn:E; [left|right; split; [auto|discriminate]].
    destruct x; cbn; rewrite E; cbn; rewrite ?fupd_eq; auto.
Qed.

(** Steps of the organiser. *)
Lemma organiser c s s' i p' :
  ginv c (Some i) s -> orgof p' = orgof (s_pc s i) -> ~ on_block (s_pc s i) ->
  s_pc s' = fupd (s_pc s) i p' ->
  s_tab s' = tabof c p' -> s_epoch s' = s_epoch s -> s_deleted s' = s_deleted s -> s_last s' = s_last s ->
  (forall x, x <> slot i -> s_ops s' x = s_ops s x /\ s_mig s' x = s_mig s x) ->
  (forall j, j <> i -> s_buf s' j = s_buf s j) -> (tso = false -> s_buf s' i = []) ->
  (s_next s' = s_next s \/ s_next s' = fupd (s_next s) c true /\ started (Some p')) ->
  s_block s' = s_block s -> s_moved s' = s_moved s ->
  (forall j, j <> i ->
     (tso = false -> slot j < s_last s -> s_ops s (slot j) = Some c ->
       openst (Some (s_pc s i)) (slot j) -> openst (Some p') (slot j)) /\
     (slot j < s_last s -> s_mig s (slot j) = Some c ->
       protst (Some (s_pc s i)) (slot j) -> protst (Some p') (slot j))) ->
  (started (Some (s_pc s i)) -> started (Some p')) ->
  (ended (Some p') -> ended (Some (s_pc s i)) \/ nblocks c <= s_block s c) ->
  (forall v, p' = PPublish v -> forall b, b < nblocks c -> s_moved s c b = true) ->
  tinv s' c (Some p') i p' ->
  ginv c (Some i) s'.
Proof.
  intros G OR NB PC TB EP DL LA OM BU BT NX BL MV ORG ST EN PU TI.
  apply (frame c (Some i) s s' i p'); auto.
  - lia.
  - intros v H. destruct NX as [->|[-> _]]; auto. unfold fupd. now destruct (_ =? _).
  - intros v. rewrite BL. lia.
  - intros v b. now rewrite MV.
  - rewrite N.eqb_refl. exact TB.
  - intros _ E. rewrite BL. destruct (EN E) as [E'|E']; auto. apply (gi_end _ _ _ G). exact E'.
  - intros _ v E b Lb. rewrite MV. eapply PU; eauto.
  - intros v. destruct NX as [->|[-> _]]; auto. unfold fupd. destruct (N.eqb_spec v c); auto.
  - intros _ v H. destruct NX as [NX|[_ NX]]; auto. rewrite NX in H.
    destruct (gi_next _ _ _ G v H) as [L|[_ S]]; auto.
  - eapply mov_keep; eauto.
  - replace (opc s' (Some i)) with (Some p'); auto. cbn. rewrite PC, fupd_eq. reflexivity.
Qed.

Lemma organiser_pc c s i p' :
  ginv c (Some i) s -> orgof p' = orgof (s_pc s i) -> ~ on_block (s_pc s i) ->
  tabof c p' = tabof c (s_pc s i) ->
  (forall j, j <> i ->
     (tso = false -> slot j < s_last s -> s_ops s (slot j) = Some c ->
       openst (Some (s_pc s i)) (slot j) -> openst (Some p') (slot j)) /\
     (slot j < s_last s -> s_mig s (slot j) = Some c ->
       protst (Some (s_pc s i)) (slot j) -> protst (Some p') (slot j))) ->
  (started (Some (s_pc s i)) -> started (Some p')) ->
  (ended (Some p') -> ended (Some (s_pc s i)) \/ nblocks c <= s_block s c) ->
  (forall v, p' = PPublish v -> forall b, b < nblocks c -> s_moved s c b = true) ->
  tinv s c (Some p') i p' ->
  ginv c (Some i) (set_pc s i p').
Proof.
  intros G OR NB TB ORG ST EN PU TI. apply (organiser c s _ i p'); auto; cbn; auto.
  - rewrite TB. apply (gi_org _ _ _ G).
  - intros TS. now apply (gi_buf _ _ _ G).
Qed.

Lemma known c o s i : ginv c o s -> s_pc s i <> PUnreg -> s_pc s i <> PReserved -> slot i < s_last s.
Proof. intros G N1 N2. destruct (gi_th _ _ _ G i) as [[H|[H|H]] _]; auto; congruence. Qed.

Lemma organiser_store c s i x p' :
  ginv c (Some i) s -> orgof p' = orgof (s_pc s i) -> ~ on_block (s_pc s i) ->
  tabof c p' = tabof c (s_pc s i) ->
  (forall y, openst (Some (s_pc s i)) y -> openst (Some p') y) ->
  (forall y, protst (Some (s_pc s i)) y -> protst (Some p') y) ->
  (started (Some (s_pc s i)) -> started (Some p')) ->
  (ended (Some p') -> ended (Some (s_pc s i)) \/ nblocks c <= s_block s c) ->
  (forall v, p' = PPublish v -> forall b, b < nblocks c -> s_moved s c b = true) ->
  tinv (put_store tso slot s i x) c (Some p') i p' ->
  ginv c (Some i) (set_pc (put_store tso slot s i x) i p').
Proof.
  intros G OR NB TB OP PR ST EN PU TI.
  destruct (put_store_fields s i x) as (F1 & F2 & F3 & F4 & F5 & F6 & F7 & F8 & F9 & F10 & F11).
  apply (organiser c s _ i p'); auto; cbn [set_pc s_pc s_tab s_epoch s_deleted s_last s_ops s_mig s_buf s_next s_block s_moved]; auto.
  - now rewrite F1.
  - rewrite F2, TB. apply (gi_org _ _ _ G).
  - intros TS. rewrite F11 by auto. now apply (gi_buf _ _ _ G).
Qed.

Lemma tab_le c o s : ginv c o s -> forall v, s_tab s = TTab v \/ s_tab s = TMarked v -> v = c.
Proof.
  intros G v H. pose proof (gi_org _ _ _ G) as K. destruct o as [t|].
  - destruct K as (_ & K & _). rewrite K in H. destruct (s_pc s t); cbn in H; destruct H as [H|H]; congruence.
  - destruct K as [K _]. destruct H; congruence.
Qed.

(** While the flag is set in _table, the organiser has yet to wait for helpers. *)
Lemma tab_prot c o s v x : ginv c o s -> s_tab s = TMarked v -> protst (opc s o) x.
Proof.
  intros G H. pose proof (gi_org _ _ _ G) as K. destruct o as [t|].
  - destruct K as (_ & K & _). rewrite K in H. cbn. destruct (s_pc s t); cbn in *; try exact Logic.I; congruence.
  - destruct K as [K _]. congruence.
Qed.

Lemma ginv_del c o s v : ginv c o s -> v < c -> ginv c o (set_deleted s v).
Proof.
  intros [Gorg Gonly Gdel Gold Gend Gpub Gnext Gmov Gbuf Gth] L. split; auto.
  intros w. cbn. unfold fupd. destruct (N.eqb_spec w v) as [->|]; auto.
Qed.

Ltac quiet G P := apply other_pc; auto; rewrite ?P; auto; try solve [intros []].

Lemma step_inv c o s l s' :
  ginv c o s -> sync_run1 tso nblocks slot s l = Some s' -> exists c' o', ginv c' o' s'.
Proof.
  intros G R. destruct l as [i|i|i|i]; cbn [sync_run1] in R.
  - unfold sync_go in R. pose proof (gi_th _ _ _ G i) as [T0 T]. pose proof (known _ _ _ i G) as KN.
    destruct (s_pc s i) eqn:P.
    + (* PUnreg *)
      unfold locked in R. destruct (s_buf s i); [injection R as <-|discriminate].
      exists c, o. quiet G P. split; auto.
    + (* PReserved *)
      unfold locked in R. destruct (s_buf s i) eqn:B; [injection R as <-|discriminate].
      exists c, o. apply (other c o s _ i PIdle); auto; rewrite ?P; auto; cbn; try lia; auto; try solve [intros []].
      split; auto. right. right. cbn. lia.
    + injection R as <-. exists c, o. quiet G P. split; auto. right; right; apply KN; congruence.
    + (* PGet1 *)
      destruct (s_tab s) eqn:TB; injection R as <-.
      * exists c, o. quiet G P. split; [right; right; apply KN; congruence|].
        pose proof (gi_org _ _ _ G) as H. rewrite TB in H. destruct o as [t|].
        -- destruct H as (_ & H & _). destruct (s_pc s t); cbn in H; try discriminate; injection H as ->; lia.
        -- destruct H as [[= ->] _]. lia.
      * exists c, o. quiet G P. split; [right; right; apply KN; congruence|exact Logic.I].
      * exists c, o. exact G.
    + (* PGet2 *)
      injection R as <-. exists c, o. apply other_store; auto; rewrite ?P; auto; try solve [intros []].
      destruct (put_store_fields s i (SOps (Some v))) as (_ & _ & _ & _ & F5 & _).
      split; [right; right; rewrite F5; apply KN; congruence|]. split; [exact T|].
      intros TS. rewrite (sc_store _ _ _ TS). cbn. apply fupd_eq.
    + (* PGet3 *)
      destruct T as [T1 T2].
      assert (K4 : exists c' o', ginv c' o' (set_pc s i PGet4)).
      { exists c, o. quiet G P. split; [right; right; apply KN; congruence|exact Logic.I]. }
      destruct (s_tab s) as [w|w|] eqn:TB; [|injection R as <-; exact K4..].
      destruct (N.eqb_spec w v) as [->|]; injection R as <-; [|exact K4].
      exists c, o. quiet G P. split; [right; right; apply KN; congruence|]. split; auto.
      intros TS. pose proof (gi_org _ _ _ G) as H. rewrite TB in H. split; [|split; [auto|]].
      * destruct o as [t|]; [|now destruct H as [[= ->] _]].
        destruct H as (_ & H & _). destruct (s_pc s t); cbn in H; try discriminate; now injection H.
      * destruct o as [t|]; [|exact Logic.I]. cbn.
        destruct H as (_ & H & _). destruct (s_pc s t); cbn in H; try discriminate; exact Logic.I.
    + (* PGet4 *)
      injection R as <-. exists c, o. apply other_store; auto; rewrite ?P; auto; try solve [intros []].
      destruct (put_store_fields s i (SOps None)) as (_ & _ & _ & _ & F5 & _).
      split; [right; right; rewrite F5; apply KN; congruence|exact Logic.I].
    + (* POp *)
      injection R as <-. exists c, o. quiet G P. split; [right; right; apply KN; congruence|exact Logic.I].
    + (* PRls *)
      injection R as <-. exists c, o. apply other_store; auto; rewrite ?P; auto; try solve [intros []].
      { now destruct want. }
      destruct (put_store_fields s i (SOps None)) as (_ & _ & _ & _ & F5 & _).
      split; [right; right; rewrite F5; apply KN; congruence|]. destruct want; [exact T|exact Logic.I].
    + (* PGrow1 *)
      destruct (N.ltb_spec v (s_epoch s)) as [LT|LE]; injection R as <-; exists c, o; quiet G P.
      * split; [right; right; apply KN; congruence|exact Logic.I].
      * split; [right; right; apply KN; congruence|]. split; auto.
        pose proof (gi_org _ _ _ G) as H. destruct o as [t|]; [destruct H as (_ & _ & H)|destruct H as [_ H]]; lia.
    + (* PGrow2 *)
      unfold locked in R. destruct (s_buf s i) eqn:B; [injection R as <-|discriminate].
      destruct T as [-> T]. destruct (N.eqb_spec (s_epoch s) v) as [E|NE].
      * pose proof (gi_org _ _ _ G) as H. destruct o as [t|]; [destruct H as (_ & _ & H); lia|destruct H as [H1 H2]].
        assert (v = c) by congruence. clear E. subst v. exists c, (Some i).
        destruct G as [Gorg Gonly Gdel Gold Gend Gpub Gnext Gmov Gbuf Gth].
        split; cbn [set_pc set_epoch s_pc s_tab s_epoch s_deleted s_last s_ops s_mig s_buf s_next s_block s_moved opc option_map]; auto.
        -- rewrite fupd_eq. cbn; rewrite H1; auto.
        -- intros j NJ. rewrite fupd_neq by congruence. apply Gonly. discriminate.
        -- rewrite fupd_eq. intros [].
        -- rewrite fupd_eq. discriminate.
        -- intros w Hw. destruct (Gnext w Hw) as [|[_ []]]. now left.
        -- intros w b W1 W2. destruct (Gmov w b W1 W2) as [|(j & k & g & E2)]; auto.
           right. exists j, k, g. rewrite fupd_neq; auto. intros ->. congruence.
        -- intros j. rewrite fupd_eq. destruct (N.eq_dec j i) as [->|NE].
           ++ rewrite fupd_eq. split; [right; right; apply KN; congruence|exact Logic.I].
           ++ rewrite fupd_neq by auto. eapply tinv_mono; [..|apply Gth]; cbn; auto; try lia.
      * exists c, o. quiet G P. split; [right; right; apply KN; congruence|exact Logic.I].
    + (* PGrow3 *)
      destruct (is_org c o s i v G) as (-> & -> & TB & EP); [now rewrite P|].
      rewrite P in TB; cbn in TB. rewrite TB in R. injection R as <-. exists c, (Some i).
      apply organiser_pc; rewrite ?P; cbn; auto; try discriminate; try solve [intros []].
      split; [right; right; apply KN; congruence|exact Logic.I].
    + (* PGrow4 *)
      destruct (is_org c o s i v G) as (-> & -> & TB & EP); [now rewrite P|].
      rewrite P in TB; cbn in TB. rewrite TB, N.eqb_refl in R.
      unfold locked in R. destruct (s_buf s i) eqn:B; [injection R as <-|discriminate]. exists c, (Some i).
      apply (organiser c s _ i (PGrow5 c)); rewrite ?P; cbn; auto; try discriminate; try solve [intros []].
      split; [right; right; apply KN; congruence|exact Logic.I].
    + (* PGrow5 *)
      destruct (is_org c o s i v G) as (-> & -> & TB & EP); [now rewrite P|]. injection R as <-. exists c, (Some i).
      apply organiser_pc; rewrite ?P; cbn; auto; try discriminate; try solve [intros []].
      * intros j NJ. split; auto. intros; lia.
      * split; [right; right; apply KN; congruence|exact Logic.I].
    + (* PWaitOps *)
      destruct (is_org c o s i v G) as (-> & -> & TB & EP); [now rewrite P|].
      destruct (N.ltb_spec i0 e) as [LT|GE].
      * destruct (s_ops s i0) as [w|] eqn:OP; [destruct (N.eqb_spec w c) as [->|NW]; [injection R as <-; eauto|]|];
          injection R as <-; exists c, (Some i); apply organiser_pc; rewrite ?P; cbn; auto; try discriminate; try solve [intros []];
          try (split; [right; right; apply KN; congruence|exact Logic.I]);
          intros j NJ; split; auto; intros _ L1 E1 L2; assert (slot j <> i0) by (intros <-; congruence); lia.
      * injection R as <-; exists c, (Some i); apply organiser_pc; rewrite ?P; cbn; auto; try discriminate; try solve [intros []].
        -- intros j NJ; split; auto. intros; lia.
        -- split; [right; right; apply KN; congruence|exact Logic.I].
    + (* PGrow7 *)
      destruct (is_org c o s i v G) as (-> & -> & TB & EP); [now rewrite P|].
      unfold locked in R. destruct (s_buf s i) eqn:B; [injection R as <-|discriminate]. exists c, (Some i).
      apply (organiser c s _ i (PMig1 (KOrg c))); rewrite ?P; cbn; auto; try discriminate; try solve [intros []].
      * now rewrite TB, P.
      * split; [right; right; apply KN; congruence|exact Logic.I].
    + (* PGrow9 *)
      destruct (is_org c o s i v G) as (-> & -> & TB & EP); [now rewrite P|].
      unfold locked in R. destruct (s_buf s i) eqn:B; [injection R as <-|discriminate]. exists c, (Some i).
      apply (organiser c s _ i (PWaitStart c)); rewrite ?P; cbn; auto; try discriminate; try solve [intros []].
      split; [right; right; apply KN; congruence|exact Logic.I].
    + (* PWaitStart *)
      destruct (is_org c o s i v G) as (-> & -> & TB & EP); [now rewrite P|]. injection R as <-. exists c, (Some i).
      apply organiser_pc; rewrite ?P; cbn; auto; try discriminate; try solve [intros []].
      * intros j NJ. split; auto. intros; lia.
      * split; [right; right; apply KN; congruence|exact Logic.I].
    + (* PWaitMig *)
      destruct (is_org c o s i v G) as (-> & -> & TB & EP); [now rewrite P|].
      destruct (N.ltb_spec i0 e) as [LT|GE].
      * destruct (s_mig s i0) as [w|] eqn:OP; [injection R as <-; eauto|].
        injection R as <-; exists c, (Some i); apply organiser_pc; rewrite ?P; cbn; auto; try discriminate; try solve [intros []].
        -- intros j NJ; split; auto; intros L1 E1 L2; assert (slot j <> i0) by (intros <-; congruence); lia.
        -- split; [right; right; apply KN; congruence|exact Logic.I].
      * injection R as <-; exists c, (Some i); apply organiser_pc; rewrite ?P; cbn; auto; try discriminate; try solve [intros []].
        -- intros j NJ; split; auto. intros; lia.
        -- intros v _ b Lb. assert (EN : nblocks c <= s_block s c) by (apply (gi_end _ _ _ G); cbn; rewrite P; exact Logic.I).
           destruct (gi_mov _ _ _ G c b) as [H|(j & k & g & E)]; auto; try lia.
           pose proof (gi_th _ _ _ G j) as [_ H]. rewrite E in H. destruct H as (_ & _ & (_ & _ & H) & _).
           cbn in H. rewrite P in H. cbn in H. lia.
        -- split; [right; right; apply KN; congruence|exact Logic.I].
    + (* PPublish *)
      destruct (is_org c o s i v G) as (-> & -> & TB & EP); [now rewrite P|].
      unfold locked in R. destruct (s_buf s i) eqn:B; [injection R as <-|discriminate]. exists (c + 1), None.
      destruct G as [Gorg Gonly Gdel Gold Gend Gpub Gnext Gmov Gbuf Gth].
      cbn [opc option_map] in *. rewrite P in Gend, Gpub, Gnext, Gth.
      split; cbn [set_pc set_tab s_pc s_tab s_epoch s_deleted s_last s_ops s_mig s_buf s_next s_block s_moved opc option_map]; auto.
      * intros j _. destruct (N.eq_dec j i) as [->|NE]; [now rewrite fupd_eq|]. rewrite fupd_neq by auto. apply Gonly. congruence.
      * intros w Hw. specialize (Gdel w Hw). lia.
      * intros w Hw. destruct (N.eq_dec w c) as [->|NE]; [|apply Gold; lia].
        split; [apply Gend; exact Logic.I|]. now apply (Gpub c).
      * intros [].
      * discriminate.
      * intros w Hw. left. destruct (Gnext w Hw) as [|[-> _]]; lia.
      * intros w b W1 W2. destruct (Gmov w b W1 W2) as [|(j & k & g & E2)]; auto.
        right. exists j, k, g. rewrite fupd_neq; auto. intros ->. congruence.
      * intros j. destruct (N.eq_dec j i) as [->|NE].
        -- rewrite fupd_eq. split; [right; right; apply KN; congruence|cbn; lia].
        -- rewrite fupd_neq by auto. destruct (Gth j) as [X0 X]. split; [exact X0|].
           destruct (s_pc s j); auto; try lia.
           ++ destruct X; split; auto; lia.
           ++ destruct X as [X1 X2]; split; [lia|]. intros TS. destruct (X2 TS) as (_ & _ & X3). cbn in X3. destruct X3.
           ++ destruct want; auto. lia.
           ++ destruct X; split; auto; lia.
           ++ destruct X as (X1 & X2 & X3 & X4). refine (conj _ (conj X2 (conj X3 _))); [lia|].
              intros TS E. destruct (X4 TS E) as (_ & _ & []).
           ++ destruct X as (X1 & X2 & X3 & X4 & X5). refine (conj _ (conj X2 (conj X3 (conj _ X5)))); [lia|].
              intros TS E. destruct (X4 TS E) as (_ & _ & []).
           ++ destruct X as (X1 & X2 & (_ & _ & []) & _).
           ++ destruct X as (X1 & X2 & X4). refine (conj _ (conj X2 _)); [lia|].
              intros TS E. destruct (X4 TS E) as (_ & _ & []).
    + (* PDelete *)
      injection R as <-. exists c, o. apply other_pc; cbn; rewrite ?P; auto; try solve [intros []].
      * apply ginv_del; auto.
      * split; [right; right; apply KN; congruence|exact Logic.I].
    + (* PMig1 *)
      destruct k as [w|].
      * destruct (is_org c o s i w G) as (-> & -> & TB & EP); [now rewrite P|].
        rewrite P in TB; cbn in TB. rewrite TB in R. injection R as <-. exists c, (Some i).
        apply organiser_pc; rewrite ?P; cbn; auto; try discriminate; try solve [intros []].
        split; [right; right; apply KN; congruence|]. split; [lia|]. intros w [= ->]. reflexivity.
      * destruct (s_tab s) as [w|w|] eqn:TB; injection R as <-; exists c, o; quiet G P.
        -- split; [right; right; apply KN; congruence|exact Logic.I].
        -- split; [right; right; apply KN; congruence|]. rewrite (tab_le c o s G w) by auto. split; [lia|]. discriminate.
        -- split; [right; right; apply KN; congruence|exact Logic.I].
    + (* PMig2 *)
      injection R as <-. destruct T as [T1 T2].
      assert (FM : fmig (put_store tso slot s i (SMig (Some v))) i = Some v).
      { destruct (fmig_store s i (SMig (Some v))) as [H|[TS H]]; auto. now rewrite (gi_buf _ _ _ G TS i) in H. }
      destruct (put_store_fields s i (SMig (Some v))) as (F1 & F2 & F3 & F4 & F5 & F6 & F7 & F8 & F9 & F10 & F11).
      assert (SM : tso = false -> s_mig (put_store tso slot s i (SMig (Some v))) (slot i) = Some v).
      { intros TS. rewrite (sc_store _ _ _ TS). cbn. apply fupd_eq. }
      set (g := match s_tab s with TMarked w => w =? v | _ => false end).
      assert (GT : g = true -> v = c /\ s_tab s = TMarked v).
      { subst g. destruct (s_tab s) as [|w|] eqn:TB; try discriminate. intros E. apply N.eqb_eq in E. subst w.
        split; auto. apply (tab_le c o s G); auto. }
      destruct k as [w|].
      * destruct (is_org c o s i w G) as (-> & -> & TB & EP); [now rewrite P|]. exists c, (Some i).
        apply organiser_store; rewrite ?P; cbn; auto; try discriminate; try solve [intros []].
        split; [right; right; rewrite F5; apply KN; congruence|]. refine (conj T1 (conj T2 (conj FM _))).
        intros TS E. split; [now apply GT|]. split; [auto|exact Logic.I].
      * exists c, o. apply other_store; rewrite ?P; cbn; auto; try solve [intros []].
        split; [right; right; rewrite F5; apply KN; congruence|]. refine (conj T1 (conj T2 (conj FM _))).
        intros TS E. destruct (GT E) as [-> TB]. split; [auto|]. split; [auto|]. eapply tab_prot; eauto.
    + (* PMig3 *)
      destruct T as (T1 & T2 & T3 & T4).
      destruct k as [w|].
      * destruct (is_org c o s i w G) as (-> & -> & TB & EP); [now rewrite P|].
        assert (c = v) by (apply T2; auto). subst v.
        destruct (s_deleted s c) eqn:DL; [pose proof (gi_del _ _ _ G c DL); lia|].
        destruct (s_next s c) eqn:NX; injection R as <-; exists c, (Some i); auto.
        apply organiser_pc; rewrite ?P; cbn; auto; try discriminate; try solve [intros []].
        split; [right; right; apply KN; congruence|]. refine (conj T1 (conj T2 (conj T3 (conj _ NX)))).
        intros TS E. destruct (T4 TS E) as (A1 & A2 & A3). split; [auto|]. split; [auto|exact Logic.I].
      * destruct (s_deleted s v) eqn:DL.
        { injection R as <-. exists c, o. quiet G P. split; [right; right; apply KN; congruence|exact Logic.I]. }
        destruct (s_next s v) eqn:NX; injection R as <-; exists c, o; auto. quiet G P.
        split; [right; right; apply KN; congruence|]. exact (conj T1 (conj T2 (conj T3 (conj T4 NX)))).
    + (* PMig4 *)
      unfold locked in R. destruct (s_buf s i) eqn:B; [injection R as <-|discriminate].
      destruct T as (T1 & T2 & T3 & T4 & T5).
      destruct (s_deleted s v) eqn:DL.
      { pose proof (gi_del _ _ _ G v DL) as LT. destruct k as [w|].
        - destruct (is_org c o s i w G) as (-> & -> & TB & EP); [now rewrite P|].
          assert (c = v) by (apply T2; auto). lia.
        - exists c, o. quiet G P. split; [right; right; apply KN; congruence|exact Logic.I]. }
      exists c, o. set (b := s_block s v). set (p' := if b <? nblocks v then PMig5 k v b g else PMig6 k v g).
      assert (OI : o = Some i \/ orgof (s_pc s i) = None /\ o <> Some i).
      { destruct (orgof (s_pc s i)) eqn:OO; [left; eapply is_org; eauto|right]. split; auto. eapply not_org; eauto. }
      assert (ORGP : orgof p' = orgof (s_pc s i)) by (unfold p'; rewrite P; destruct (_ <? _); reflexivity).
      assert (TABP : tabof c p' = tabof c (s_pc s i)) by (unfold p'; rewrite P; destruct (_ <? _); reflexivity).
      assert (NXc : v < c \/ v = c /\ started (opc s o)) by (now apply (gi_next _ _ _ G)).
      assert (IN : b < nblocks v -> prot s c (opc s o) i v /\ ~ ended (opc s o)).
      { intros LB. assert (VC : v = c /\ started (opc s o)).
        { destruct NXc as [LT|]; auto. destruct (gi_old _ _ _ G v LT). unfold b in LB. lia. }
        destruct VC as [-> ST].
        assert (NE : ~ ended (opc s o)). { intros EN. pose proof (gi_end _ _ _ G EN). unfold b in LB. lia. }
        split; auto. split; auto. split; [unfold fmig in T3; rewrite B in T3; exact T3|].
        destruct (opc s o) as [q|]; [|destruct ST]. destruct q; cbn in *; try exact Logic.I; try contradiction;
          exfalso; apply NE; exact Logic.I. }
      assert (BB : forall x, s_block s x <= fupd (s_block s) v (b + 1) x).
      { intros x. unfold fupd. destruct (N.eqb_spec x v) as [->|]; unfold b; lia. }
      apply (frame c o s _ i p'); cbn; auto; try lia.
      * destruct o as [t|]; auto. destruct (N.eqb_spec t i) as [->|]; auto. rewrite TABP. apply (gi_org _ _ _ G).
      * intros -> j NJ. rewrite P. split; [intros _ _ _ []|]. intros. unfold p'. destruct (_ <? _); exact Logic.I.
      * intros -> EN. rewrite P in *. destruct k as [w|]; [|destruct OI as [|[_ OI]]; [|congruence]].
        2:{ exfalso. destruct (gi_org _ _ _ G) as (X & _). rewrite P in X. discriminate. }
        assert (w = c). { destruct (gi_org _ _ _ G) as (X & _). rewrite P in X. now injection X. }
        subst w. assert (c = v) by (apply T2; auto). subst v. rewrite fupd_eq.
        unfold p' in EN. destruct (N.ltb_spec b (nblocks c)); [destruct EN|lia].
      * intros -> w E. unfold p' in E. destruct (_ <? _); discriminate.
      * intros -> w Hw. right. unfold p'. destruct (_ <? _); exact Logic.I.
      * intros w b' W1 W2. unfold fupd in W1. destruct (N.eqb_spec w v) as [->|NW].
        -- destruct (N.eq_dec b' b) as [->|NBB].
           ++ right. exists i, k, g. rewrite fupd_eq. unfold p'. destruct (N.ltb_spec b (nblocks v)); [auto|lia].
           ++ destruct (gi_mov _ _ _ G v b') as [|(j & k' & g' & E2)]; auto; [unfold b in *; lia|].
              right. exists j, k', g'. rewrite fupd_neq; auto. intros ->. congruence.
        -- destruct (gi_mov _ _ _ G w b') as [|(j & k' & g' & E2)]; auto.
           right. exists j, k', g'. rewrite fupd_neq; auto. intros ->. congruence.
      * assert (OC : forall op, (op = opc s o \/ op = Some p') ->
           tinv (set_pc (set_block s v (b + 1)) i p') c op i p').
        { intros op HO. split; [right; right; apply KN; congruence|]. unfold p' in *.
          assert (PT : forall x, protst (opc s o) x -> protst op x).
          { intros x Hx. destruct HO as [->| ->]; auto. destruct (_ <? _); exact Logic.I. }
          assert (PR : forall x, prot s c (opc s o) i x -> prot s c op i x).
          { intros x (A1 & A2 & A3). split; [auto|]. split; auto. }
          destruct (N.ltb_spec b (nblocks v)) as [LB|GB].
          - destruct (IN LB) as [I1 I2]. refine (conj T2 (conj T3 (conj _ (conj T5 (conj LB (conj _ B)))))).
            + apply PR. exact I1.
            + cbn. rewrite fupd_eq. lia.
          - refine (conj T1 (conj T2 _)). intros TS E. apply PR. auto. }
        apply OC. destruct OI as [->|[_ NO]]; [right; cbn; now rewrite fupd_eq|].
        left. unfold opc. destruct o as [t|]; auto. cbn. rewrite fupd_neq; congruence.
    + (* PMig5 *)
      destruct T as (T2 & T3 & T4 & T5 & T6 & T7 & T8).
      assert (v = c) by apply T4. subst v.
      destruct (s_deleted s c) eqn:DL; [pose proof (gi_del _ _ _ G c DL); lia|].
      destruct (s_deleted s (c + 1)) eqn:DL2; [pose proof (gi_del _ _ _ G _ DL2); lia|]. cbn in R.
      injection R as <-. exists c, o.
      assert (OI : o = Some i \/ o <> Some i).
      { destruct (orgof (s_pc s i)) eqn:OO; [left; eapply is_org; eauto|right]. eapply not_org; eauto. }
      assert (MV : forall w x, s_moved s w x = true -> fupd (s_moved s) c (fupd (s_moved s c) b true) w x = true).
      { intros w x Hm. unfold fupd. destruct (N.eqb_spec w c) as [->|]; auto. now destruct (x =? b). }
      apply (frame c o s _ i (PMig4 k c g)); cbn; auto; try lia.
      * now rewrite P.
      * destruct o as [t|]; auto. destruct (N.eqb_spec t i) as [->|]; auto.
        destruct (gi_org _ _ _ G) as (_ & X & _). rewrite X, P. reflexivity.
      * intros -> j NJ. rewrite P. split; auto.
      * discriminate.
      * intros w x W1 W2. destruct (gi_mov _ _ _ G w x W1 W2) as [|(j & k' & g' & E2)]; auto.
        destruct (N.eq_dec j i) as [->|NE].
        -- rewrite P in E2. injection E2 as <- <- <- <-. left. now rewrite fupd_eq, fupd_eq.
        -- right. exists j, k', g'. now rewrite fupd_neq.
      * split; [right; right; apply KN; congruence|]. refine (conj _ (conj T2 (conj T3 (conj _ T5)))); [lia|].
        intros _ _. destruct T4 as (A1 & A2 & A3). split; [auto|]. split; [auto|].
        unfold opc. destruct o as [t|]; auto. cbn. destruct (N.eq_dec t i) as [->|NE]; [now rewrite fupd_eq|].
        rewrite fupd_neq by auto. exact A3.
    + (* PMig6 *)
      destruct T as (T1 & T2 & T3).
      destruct (put_store_fields s i (SMig None)) as (F1 & F2 & F3 & F4 & F5 & F6 & F7 & F8 & F9 & F10 & F11).
      destruct k as [w|].
      * destruct (is_org c o s i w G) as (-> & -> & TB & EP); [now rewrite P|].
        assert (c = v) by (apply T2; auto). subst v.
        destruct (s_deleted s (c + 1)) eqn:DL; [pose proof (gi_del _ _ _ G _ DL); lia|].
        injection R as <-. exists c, (Some i).
        apply organiser_store; rewrite ?P; cbn; auto; try discriminate; try solve [intros []].
        split; [right; right; rewrite F5; apply KN; congruence|exact Logic.I].
      * destruct (s_deleted s (v + 1)) eqn:DL; injection R as <-; exists c, o.
        -- quiet G P. split; [right; right; apply KN; congruence|exact Logic.I].
        -- apply other_store; rewrite ?P; cbn; auto; try solve [intros []].
           split; [right; right; rewrite F5; apply KN; congruence|exact Logic.I].
    + (* PHelpWait *)
      destruct (s_tab s); injection R as <-; exists c, o; auto.
      quiet G P. split; [right; right; apply KN; congruence|exact Logic.I].
    + discriminate.
  - (* SWant *)
    destruct (s_pc s i) eqn:P; try discriminate. injection R as <-.
    pose proof (gi_th _ _ _ G i) as [T0 T]. pose proof (known _ _ _ i G) as KN. rewrite P in T.
    exists c, o. quiet G P. split; [right; right; apply KN; congruence|]. apply T.
  - (* SDestroy *)
    destruct (s_pc s i) eqn:P; try discriminate.
    unfold locked in R. destruct (s_buf s i); [injection R as <-|discriminate].
    exists c, o. quiet G P. split; auto.
  - (* SFlush *)
    destruct (s_buf s i) as [|x l] eqn:B; [discriminate|]. injection R as <-. exists c, o.
    destruct G as [Gorg Gonly Gdel Gold Gend Gpub Gnext Gmov Gbuf Gth].
    assert (TS : tso = true) by (destruct tso; auto; rewrite Gbuf in B; [discriminate|auto]).
    assert (FF : forall s1, s1 = commit (set_buf s i l) (slot i) x ->
      s_pc s1 = s_pc s /\ s_tab s1 = s_tab s /\ s_epoch s1 = s_epoch s /\ s_deleted s1 = s_deleted s /\
      s_last s1 = s_last s /\ s_next s1 = s_next s /\ s_block s1 = s_block s /\ s_moved s1 = s_moved s /\
      (forall j, j <> i -> s_ops s1 (slot j) = s_ops s (slot j) /\ s_mig s1 (slot j) = s_mig s (slot j) /\
                           s_buf s1 j = s_buf s j) /\
      fmig s1 i = fmig s i).
    { intros s1 ->. destruct x; cbn; repeat (split; [reflexivity|]); (split;
        [intros j NJ; assert (slot j <> slot i) by (intros E; apply NJ; now apply INJ);
         rewrite !fupd_neq by auto; auto|unfold fmig; cbn; rewrite !fupd_eq, B; reflexivity]). }
    destruct (FF _ eq_refl) as (F1 & F2 & F3 & F4 & F5 & F6 & F7 & F8 & F9 & F10).
    set (s1 := commit (set_buf s i l) (slot i) x) in *. clearbody s1.
    assert (OC : opc s1 o = opc s o) by (unfold opc; now rewrite F1).
    split; rewrite ?OC, ?F1, ?F2, ?F3, ?F4, ?F6, ?F7, ?F8; auto.
    + intros; congruence.
    + intros j. destruct (N.eq_dec j i) as [->|NE].
      * destruct (Gth i) as [X0 X]. split; [rewrite F5; exact X0|].
        destruct (s_pc s i); rewrite ?F6, ?F7, ?F10; auto.
        -- destruct X; split; auto. congruence.
        -- destruct X; split; auto. congruence.
        -- destruct X as (X1 & X2 & X3 & X4). refine (conj X1 (conj X2 (conj X3 _))). congruence.
        -- destruct X as (X1 & X2 & X3 & X4 & X5). refine (conj X1 (conj X2 (conj X3 (conj _ X5)))). congruence.
        -- destruct X as (X1 & X2 & X3 & X4 & X5 & X6 & X7). congruence.
        -- destruct X as (X1 & X2 & X3). refine (conj X1 (conj X2 _)). congruence.
      * destruct (F9 j NE) as (Y1 & Y2 & Y3). eapply tinv_mono; [..|apply Gth]; auto; rewrite ?F5, ?F6, ?F7; auto; try lia.
Qed.

Lemma reach_inv s : sync_reachable tso nblocks slot s -> exists c o, ginv c o s.
Proof.
  induction 1 as [|s s' _ (c & o & G) [l R]].
  - exists 0, None. apply ginv_init.
  - eapply step_inv; eauto.
Qed.

End Inv.
