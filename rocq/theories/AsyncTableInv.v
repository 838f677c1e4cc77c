(** The asynchronous growing table refines the machine of Growing.v. *)
From Coq Require Import NArith Bool List Lia.
From Verif Require Import Words Slot SlotFacts Mapper ReturnCode MapSpec LinSpec Base BaseInv BaseLin TableSpec BaseFacts Migrate
  Growing GrowingSpec GrowingInv GrowingFacts SyncTable SyncTableInv Async AsyncInv AsyncTable AsyncTableSpec.
Import ListNotations.
Open Scope N_scope.

(** INVALID is the answer to a marked cell only. *)
Lemma invalid_marked c m t b o pc t' r :
  (forall r, pc <> PDone r) -> bstep c m t b o pc = (t', PDone r) -> rcode r = RC_INVALID ->
  exists p s, rd c m t p = Some s /\ is_marked (tsc c) s = true.
Proof.
  intros ND H RC. destruct pc as [i|i curr|i curr|i curr|r0|]; cbn [bstep] in H; try discriminate.
  - destruct (rd c m t (remap (tmc c) m i)) as [s|] eqn:E; [|discriminate]. exists (remap (tmc c) m i), s.
    split; auto. injection H as _ H. unfold after_load in H.
    destruct o; repeat match type of H with
      | (if ?x then _ else _) = _ => destruct x eqn:?
      end; try discriminate; try (injection H as <-; cbn in RC; discriminate); auto.
  - destruct (rd _ _ _ _); [|discriminate]. destruct (cas _ _ _ _) as [[ok ?] ?]. injection H as _ H.
    destruct ok; [injection H as <-; cbn in RC; discriminate|discriminate].
  - destruct (rd _ _ _ _); [|discriminate]. destruct (atomic_update _ _ _ _) as [[? ok] ?]. injection H as _ H.
    destruct ok; [injection H as <-; cbn in RC; discriminate|].
    destruct o; try discriminate. destruct b; [discriminate|]. injection H as <-. cbn in RC. discriminate.
  - destruct (rd _ _ _ _); [|discriminate]. destruct (atomic_delete _ _ _) as [[ok ?] ?]. injection H as _ H.
    destruct ok; [injection H as <-; cbn in RC; discriminate|discriminate].
  - now elim (ND r0).
Qed.

(** Handles cache the epoch of their table. *)
Definition caches (x : apc) : bool :=
  match x with AUnreg | AInit | ALoad _ | AWait _ => false | _ => true end.
Definition linv (p : ast_) : Prop := forall i, caches (y_pc p i) = true -> y_lep p i = y_loc p i.

Lemma linv_step nb p l p' : linv p -> async_run1 nb p l = Some p' -> linv p'.
Proof.
  intros L R. destruct l as [i|i|i|i]; cbn in R.
  - destruct p as [tb ep hp nx bl mv pc lo le]. unfold linv in *. cbn in *.
    assert (LI := L i).
    assert (K : forall x, (caches x = true -> caches (pc i) = true) ->
              forall j, caches (fupd pc i x j) = true -> le j = lo j).
    { intros x H j. unfold fupd. destruct (N.eqb_spec j i) as [->|]; auto. }
    destruct (pc i) eqn:P; cbn in LI.
    all: repeat match type of R with
      | context [if ?a <? ?b then Some _ else _] => destruct (N.ltb_spec a b)
      | context [if ?a =? ?b then Some _ else _] => destruct (N.eqb_spec a b)
      | (if ?a then Some _ else _) = _ => destruct a eqn:?
      end; try discriminate; injection R as <-; cbn; try (apply K; rewrite ?P; cbn; auto; fail); auto.
    all: intros j; unfold fupd; destruct (N.eqb_spec j i) as [->|NE]; auto; try discriminate.
  - destruct (y_pc p i) eqn:P; try discriminate. injection R as <-. intros j. cbn. unfold fupd.
    destruct (N.eqb_spec j i) as [->|]; auto. intros _. apply L. now rewrite P.
  - destruct (y_pc p i) eqn:P; try discriminate. destruct (y_next p (y_loc p i)); [|discriminate].
    injection R as <-. intros j. cbn. unfold fupd.
    destruct (N.eqb_spec j i) as [->|]; auto. intros _. apply L. now rewrite P.
  - destruct (y_pc p i) eqn:P; try discriminate. injection R as <-. intros j. cbn. unfold fupd.
    destruct (N.eqb_spec j i) as [->|]; auto. discriminate.
Qed.

Section R.
Context (c : tcfg) (B : N) (maps : N -> mapper) (client : op -> Prop).
Context (CT : cell_type (tsc c)) (CO : client_ok (tsc c) client).
Context (CF : cmap (tmc c) = false \/ cprob (tmc c) = true) (HB : 0 < B <= 2 ^ 31).
Context (SM : sc_mark (tsc c) = true).
Notation mc := (tmc c).
Notation sc := (tsc c).
Notation nblk := (anblk c B maps).

Definition is_mv (x : apc) : bool := match x with AMig5 _ _ => true | _ => false end.

(** The call of a thread at [x], on version [v], against the call of Growing.v. *)
Definition athrel (v : N) (x : apc) (a : option (op * cpc)) (b : option (op * gpc)) : Prop :=
  match a with
  | None => b = None
  | Some (o, CWait) => b = Some (o, GGet)
  | Some (o, CRun pc) => x = AOp /\ b = Some (o, GRun v pc)
  | Some (o, CFin r) => retries o r = false /\ exists u, b = Some (o, GRun u (PDone r))
  end.

(** A thread's part in the migration. *)
Definition ahrel (x : apc) (h : hpc) (hh : option hpc) : Prop :=
  if is_mv x then hh = Some h else hh = None \/ hh = Some HEnd \/ hh = Some HClaim.

Definition amigrel (p : ast_) (h : N -> hpc) (mp : N -> mapper)
  (mg : option (N * (N -> option hpc))) : Prop :=
  let cu := y_epoch p in
  if y_next p cu
  then mp (cu + 1) = maps (cu + 1) /\
       exists hh, mg = Some (y_block p cu * B, hh) /\ (forall i, ahrel (y_pc p i) (h i) (hh i)) /\
         (nblk cu < y_block p cu -> exists i, hh i = Some HEnd)
  else mg = None.

Record arel (s : atst) (g : gsys) : Prop := {
  ae_reach : async_reachable nblk (a_p s);
  ae_lep : linv (a_p s);
  ae_ver : gver g = y_epoch (a_p s);
  ae_mem : forall v, gmem g v = a_mem s v;
  ae_map : forall v, v <= y_epoch (a_p s) -> gmap g v = maps v;
  ae_thr : forall i, athrel (y_loc (a_p s) i) (y_pc (a_p s) i) (a_call s i) (gthr g i);
  ae_bad : forall i, wants_help (a_call s i) = true -> y_next (a_p s) (y_loc (a_p s) i) = true;
  ae_mig : amigrel (a_p s) (a_h s) (gmap g) (gmig g) }.

Lemma ae_inv s g : arel s g -> ainv nblk (a_p s).
Proof. intros R. apply areach_inv, (ae_reach _ _ R). Qed.

Notation gstep := (GrowingSpec.async_step c B client).

(** What a step of the machine is turned into. *)
Definition asimulated (g : gsys) (l : option (event mop mres)) (s' : atst) : Prop :=
  exists g', lts_steps gstep g (match l with Some e => [e] | None => [] end) g' /\ arel s' g'.

Lemma asim_none g s' : arel s' g -> asimulated g None s'.
Proof. exists g. split; [constructor|auto]. Qed.

Lemma same_undisturbed g g' : gmem g' = gmem g -> g_undisturbed c g g'.
Proof. intros E k h tid i curr _ _. left. now rewrite E. Qed.

Lemma asim_one g l s' g' :
  gsys_step c B client g l g' -> g_undisturbed c g g' -> gver g' = gver g -> arel s' g' -> asimulated g l s'.
Proof.
  intros S U E R. exists g'. split; [|auto].
  assert (X : gstep g l g') by (split; [exact S|split; [exact U|now apply room_same]]).
  destruct l as [e|]; econstructor; eauto; constructor.
Qed.

Lemma undisturbed_of s s' g g' :
  arel s g -> (forall v, gmem g' v = a_mem s' v) -> a_undisturbed c maps s s' -> g_undisturbed c g g'.
Proof.
  intros R ME U k h tid i curr MG HT.
  pose proof (ae_mig _ _ R) as M. unfold amigrel in M.
  destruct (y_next (a_p s) (y_epoch (a_p s))) eqn:NX; [|congruence].
  destruct M as (_ & hh & E & HR & _). rewrite MG in E. injection E as _ <-.
  specialize (HR tid). unfold ahrel in HR. rewrite HT in HR.
  destruct (y_pc (a_p s) tid) eqn:P; cbn in HR; try (destruct HR as [HR|[HR|HR]]; discriminate HR).
  injection HR as HR.
  pose proof (ae_inv _ _ R) as G. pose proof (ai_th _ _ G tid) as [_ T]. rewrite P in T.
  destruct T as (_ & _ & _ & VT & NV & _).
  assert (VE : v = y_epoch (a_p s)) by (pose proof (ai_next _ _ G _ NV); pose proof (ai_ep _ _ G); lia).
  clear VT NV. subst v. cbn. rewrite (ae_ver _ _ R), (ae_map _ _ R), ME, (ae_mem _ _ R) by lia.
  exact (U tid _ _ i curr P (eq_sym HR)).
Qed.

(** Steps of the handshake of thread [i] that change neither the epoch nor the
    current migration, together with a new state of the call of [i]. *)
Lemma arel_call s g g' i p' x l :
  arel s g -> async_run1 nblk (a_p s) l = Some p' ->
  (forall j, j <> i -> y_pc p' j = y_pc (a_p s) j /\ y_loc p' j = y_loc (a_p s) j) ->
  y_next p' = y_next (a_p s) -> y_block p' (y_epoch (a_p s)) = y_block (a_p s) (y_epoch (a_p s)) ->
  y_epoch p' = y_epoch (a_p s) ->
  is_mv (y_pc p' i) = false -> is_mv (y_pc (a_p s) i) = false ->
  gver g' = gver g -> gmem g' = gmem g -> gmap g' = gmap g -> gmig g' = gmig g ->
  (forall j, j <> i -> gthr g' j = gthr g j) ->
  athrel (y_loc p' i) (y_pc p' i) x (gthr g' i) ->
  (wants_help x = true -> y_next (a_p s) (y_loc p' i) = true) ->
  arel (ATSt p' (a_mem s) (fupd (a_call s) i x) (a_h s)) g'.
Proof.
  intros R GO PC NX BL EP MV MV' E1 E2 E3 E4 E5 TH WH.
  split; cbn [a_p a_mem a_call a_h]; rewrite ?EP, ?NX, ?E1, ?E2, ?E3, ?E4.
  - eapply ar_step; [apply (ae_reach _ _ R)|]. exists l. exact GO.
  - eapply linv_step; eauto. apply (ae_lep _ _ R).
  - exact (ae_ver _ _ R).
  - exact (ae_mem _ _ R).
  - exact (ae_map _ _ R).
  - intros j. pose proof (ae_thr _ _ R j) as T. destruct (N.eq_dec j i) as [->|NE].
    + now rewrite fupd_eq.
    + rewrite fupd_neq by exact NE. destruct (PC j NE) as [-> ->]. rewrite E5 by exact NE. exact T.
  - intros j. destruct (N.eq_dec j i) as [->|NE].
    + now rewrite fupd_eq.
    + rewrite fupd_neq by exact NE. destruct (PC j NE) as [_ ->]. apply (ae_bad _ _ R).
  - pose proof (ae_mig _ _ R) as M. unfold amigrel in *. rewrite EP, NX, BL.
    destruct (y_next (a_p s) (y_epoch (a_p s))); auto.
    destruct M as (M1 & hh & M2 & M3 & M4).
    split; auto. exists hh. split; auto. split; auto. intros j. specialize (M3 j).
    destruct (N.eq_dec j i) as [->|NE]; [|destruct (PC j NE) as [-> _]; exact M3].
    unfold ahrel in *. rewrite MV. rewrite MV' in M3. exact M3.
Qed.

Lemma arel_quiet s g i p' l :
  arel s g -> async_run1 nblk (a_p s) l = Some p' ->
  (forall j, j <> i -> y_pc p' j = y_pc (a_p s) j /\ y_loc p' j = y_loc (a_p s) j) ->
  y_next p' = y_next (a_p s) -> y_block p' (y_epoch (a_p s)) = y_block (a_p s) (y_epoch (a_p s)) ->
  y_epoch p' = y_epoch (a_p s) ->
  is_mv (y_pc p' i) = false -> is_mv (y_pc (a_p s) i) = false ->
  (forall o pc, a_call s i <> Some (o, CRun pc)) ->
  arel (ATSt p' (a_mem s) (a_call s) (a_h s)) g.
Proof.
  intros R GO PC NX BL EP MV MV' NR.
  assert (H : arel (ATSt p' (a_mem s) (fupd (a_call s) i (a_call s i)) (a_h s)) g).
  { eapply (arel_call s g g i p' _ l); eauto.
    - pose proof (ae_thr _ _ R i) as T. destruct (a_call s i) as [[o [|pc|r]]|]; auto. now elim (NR o pc).
    - intros W. destruct (a_call s i) as [[o [|pc|r]]|]; try discriminate. now elim (NR o pc). }
  destruct H as [H1 H2 H3 H4 H5 H6 H7 H8]; cbn [a_p a_mem a_call a_h] in *.
  split; cbn [a_p a_mem a_call a_h]; auto.
  - intros j. specialize (H6 j). now rewrite fupd_same in H6.
  - intros j. specialize (H7 j). now rewrite fupd_same in H7.
Qed.

(** Calls run at [AOp] only. *)
Lemma not_running s g i : arel s g -> y_pc (a_p s) i <> AOp -> forall o pc, a_call s i <> Some (o, CRun pc).
Proof. intros R NO o pc E. pose proof (ae_thr _ _ R i) as T. rewrite E in T. destruct T. contradiction. Qed.

Lemma asim_inv p me ca h i o g :
  arel (ATSt p me ca h) g -> ca i = None -> client o ->
  asimulated g (Some (EInv i (spec_op sc o))) (ATSt p me (fupd ca i (Some (o, CWait))) h).
Proof.
  intros R E CL. destruct g as [v mp gm mg th].
  pose proof (ae_thr _ _ R i) as T. cbn in T. rewrite E in T. cbn in T.
  eapply asim_one; [eapply g_inv; eauto|now apply same_undisturbed|reflexivity|].
  destruct R as [R1 R2 R3 R4 R5 R6 R7 R8]; cbn in *. split; cbn; auto.
  - intros j. unfold fupd. destruct (N.eqb_spec j i) as [->|NE]; [reflexivity|apply R6].
  - intros j. unfold fupd. destruct (N.eqb_spec j i) as [->|NE]; [discriminate|apply R7].
Qed.

Lemma asim_ret p me ca h i o r g :
  arel (ATSt p me ca h) g -> ca i = Some (o, CFin r) ->
  asimulated g (Some (ERet i (gobs o r))) (ATSt p me (fupd ca i None) h).
Proof.
  intros R E. destruct g as [v mp gm mg th].
  pose proof (ae_thr _ _ R i) as T. cbn in T. rewrite E in T. cbn in T. destruct T as (T1 & u & T2).
  eapply asim_one; [eapply g_ret; eauto|now apply same_undisturbed|reflexivity|].
  destruct R as [R1 R2 R3 R4 R5 R6 R7 R8]; cbn in *. split; cbn; auto.
  - intros j. unfold fupd. destruct (N.eqb_spec j i) as [->|NE]; [reflexivity|apply R6].
  - intros j. unfold fupd. destruct (N.eqb_spec j i) as [->|NE]; [discriminate|apply R7].
Qed.

Lemma asim_get p me ca h i p' g :
  arel (ATSt p me ca h) g -> y_pc p i = AIdle \/ y_pc p i = AWait true -> ago c B maps p i = Some p' ->
  asimulated g None
    (ATSt p' me (match y_pc p' i with AOp => fupd ca i (begun c maps (y_loc p' i) (ca i)) | _ => ca end) h).
Proof.
  intros R P GO. pose proof (ae_inv _ _ R) as G. cbn in G.
  assert (NR : forall o pc, ca i <> Some (o, CRun pc)).
  { apply (not_running _ _ i R). cbn. destruct P as [-> | ->]; discriminate. }
  assert (MVI : is_mv (y_pc p i) = false) by (destruct P as [-> | ->]; reflexivity).
  assert (Q : (y_pc p' i <> AOp /\ is_mv (y_pc p' i) = false \/ y_pc p' i = AOp /\ y_loc p' i = y_epoch p) /\
    (forall j, j <> i -> y_pc p' j = y_pc p j /\ y_loc p' j = y_loc p j) /\
    y_next p' = y_next p /\ y_block p' = y_block p /\ y_epoch p' = y_epoch p).
  { pose proof (ai_th _ _ G i) as [_ T]. pose proof (ae_lep _ _ R i) as LE. cbn in LE.
    unfold ago in GO. destruct p as [tb ep hp nx bl mv pc lo le]. cbn in *.
    destruct P as [P|P]; rewrite P in *.
    - cbn in *. specialize (LE eq_refl). destruct (N.ltb_spec (le i) ep); injection GO as <-; cbn; rewrite fupd_eq; (split; [|split; [intros j NE; now rewrite fupd_neq|auto]]).
      + left. split; [discriminate|reflexivity].
      + right. split; [reflexivity|lia].
    - destruct (N.eqb_spec (lo i) ep); injection GO as <-; cbn; rewrite ?fupd_eq, ?P; (split; [|split; [intros j NE; rewrite ?fupd_neq by exact NE; auto|auto]]).
      + right. auto.
      + left. split; [discriminate|reflexivity]. }
  destruct Q as (Q & PC & NX & BL & EP).
  destruct Q as [[Q MV]|[Q LO]].
  - assert (X : ATSt p' me (match y_pc p' i with AOp => fupd ca i (begun c maps (y_loc p' i) (ca i)) | _ => ca end) h
       = ATSt p' me ca h) by (destruct (y_pc p' i); congruence).
    rewrite X. apply asim_none.
    apply (arel_quiet _ _ i p' (YGo i) R GO); cbn; auto. now rewrite BL.
  - rewrite Q, LO.
    assert (DO : forall g' x, gver g' = gver g -> gmem g' = gmem g -> gmap g' = gmap g -> gmig g' = gmig g ->
      (forall j, j <> i -> gthr g' j = gthr g j) -> athrel (y_epoch p) AOp x (gthr g' i) -> wants_help x = false ->
      arel (ATSt p' me (fupd ca i x) h) g').
    { intros g' x E1 E2 E3 E4 E5 E6 E7.
      apply (arel_call _ g g' i p' x (YGo i) R GO); cbn; rewrite ?Q, ?BL, ?LO; auto. congruence. }
    pose proof (ae_thr _ _ R i) as T. cbn in T.
    destruct (ca i) as [[o [|pc|r]]|] eqn:E; cbn [begun].
    + destruct g as [gv mp gm mg th]. cbn in T.
      pose proof (ae_ver _ _ R) as VR. cbn in VR. subst gv.
      eapply asim_one; [eapply g_get; eauto|now apply same_undisturbed|reflexivity|].
      apply DO; cbn; auto.
      * intros j NE. now rewrite fupd_neq.
      * rewrite fupd_eq. split; auto. pose proof (ae_map _ _ R (y_epoch p)) as RM. cbn in RM. rewrite RM; auto. lia.
    + now elim (NR o pc).
    + apply asim_none. apply DO; auto.
    + apply asim_none. apply DO; auto.
Qed.

(** Tables that are not being migrated have no marked cells. *)
Lemma unmarked s g x v q cell :
  arel s g -> grel c B client g x -> v <= y_epoch (a_p s) -> y_next (a_p s) v = false ->
  rd c (maps v) (a_mem s v) q = Some cell -> is_marked sc cell = false.
Proof.
  intros R GR LE NX RD. pose proof (ae_inv _ _ R) as G.
  assert (VE : v = y_epoch (a_p s)).
  { destruct (N.lt_ge_cases v (y_tab (a_p s))) as [L|L].
    - destruct (ai_prev _ _ G v L). congruence.
    - pose proof (ai_ep _ _ G). lia. }
  subst v. pose proof (ae_mig _ _ R) as M. unfold amigrel in M. rewrite NX in M.
  destruct GR as (ct & mk & l & (lg & W & CI) & _). rewrite M in CI. destruct CI as [-> TI].
  rewrite (ae_ver _ _ R), (ae_map _ _ R), (ae_mem _ _ R) in TI by lia.
  unfold rd in RD. destruct (N.ltb_spec q (total_slots mc (maps (y_epoch (a_p s))))) as [L|]; [|discriminate].
  destruct (ti_cell _ _ _ _ _ TI q L) as [E OK]. rewrite E in RD. injection RD as <-.
  exact (enc_is_marked sc (cell_type_wf _ CT) (ct q) false OK).
Qed.

Lemma asim_run p me ca h i o pc b t' pc' g x :
  arel (ATSt p me ca h) g -> grel c B client g x ->
  y_pc p i = AOp -> ca i = Some (o, CRun pc) -> (forall r, pc <> PDone r) ->
  bstep c (maps (y_loc p i)) (me (y_loc p i)) b o pc = (t', pc') ->
  a_undisturbed c maps (ATSt p me ca h)
    (ATSt p (fupd me (y_loc p i) t') (fupd ca i (Some (o, CRun pc'))) h) ->
  asimulated g None (ATSt p (fupd me (y_loc p i) t') (fupd ca i (Some (o, CRun pc'))) h).
Proof.
  intros R GR P E ND BS U. destruct g as [gv mp gm mg th].
  pose proof (ae_inv _ _ R) as G. cbn in G. pose proof (ai_th _ _ G i) as [_ LE]. rewrite P in LE.
  pose proof (ae_thr _ _ R i) as T. cbn in T. rewrite E in T. destruct T as [_ T2]. cbn in T2.
  pose proof (ae_map _ _ R _ LE) as RM. pose proof (ae_mem _ _ R (y_loc p i)) as RE. cbn in RM, RE.
  assert (ME : forall v, fupd gm (y_loc p i) t' v = fupd me (y_loc p i) t' v).
  { intros v. unfold fupd. destruct (v =? y_loc p i); auto. apply (ae_mem _ _ R). }
  eapply asim_one; [eapply g_run; [exact T2|exact ND|rewrite RM, RE; exact BS]| |reflexivity|].
  { eapply (undisturbed_of _ _ _ _ R); [|exact U]. exact ME. }
  split; cbn [a_p a_mem a_call a_h gver gmap gmem gmig gthr].
  - apply (ae_reach _ _ R).
  - apply (ae_lep _ _ R).
  - apply (ae_ver _ _ R).
  - exact ME.
  - apply (ae_map _ _ R).
  - intros j. unfold fupd. destruct (N.eqb_spec j i) as [->|NE]; [|apply (ae_thr _ _ R)]. cbn. auto.
  - intros j. unfold fupd. destruct (N.eqb_spec j i) as [->|NE]; [|apply (ae_bad _ _ R)].
    intros W. destruct pc'; try discriminate W. cbn in W. apply andb_prop in W. destruct W as [_ W].
    apply N.eqb_eq in W. destruct (invalid_marked _ _ _ _ _ _ _ _ ND BS W) as (q & cell & RD & MK).
    destruct (y_next p (y_loc p i)) eqn:NX; auto. exfalso.
    pose proof (unmarked _ _ _ (y_loc p i) q cell R GR LE NX RD). congruence.
  - apply (ae_mig _ _ R).
Qed.

(** The call of a thread leaves its table. *)
Lemma asim_off p me ca h i p' y x l g :
  arel (ATSt p me ca h) g -> finish (ca i) = Some x ->
  async_run1 nblk p l = Some p' -> y_pc p i = AOp -> p' = with_pc p i y -> is_mv y = false ->
  asimulated g None (ATSt p' me (fupd ca i x) h).
Proof.
  intros R F GO P Q MV.
  pose proof (ae_thr _ _ R i) as T. cbn in T.
  assert (DO : forall g' x, gver g' = gver g -> gmem g' = gmem g -> gmap g' = gmap g -> gmig g' = gmig g ->
    (forall j, j <> i -> gthr g' j = gthr g j) -> (forall v, athrel v y x (gthr g' i)) -> wants_help x = false ->
    arel (ATSt p' me (fupd ca i x) h) g').
  { intros g' z E1 E2 E3 E4 E5 E6 E7. apply (arel_call _ g g' i _ z _ R GO); cbn; rewrite ?Q; cbn; rewrite ?fupd_eq, ?P; auto.
    - intros j NE. now rewrite fupd_neq.
    - congruence. }
  destruct (ca i) as [[o [|pc|r]]|] eqn:E; cbn [finish] in F.
  - injection F as <-. apply asim_none. apply DO; auto.
  - destruct pc; try discriminate F. injection F as <-. destruct T as [T1 T2].
    destruct (retries o r) eqn:RT.
    + destruct g as [gv mp gm mg th]. cbn in T2.
      eapply asim_one; [eapply g_retry; eauto|now apply same_undisturbed|reflexivity|].
      apply DO; cbn; auto.
      * intros j NE. now rewrite fupd_neq.
      * now rewrite fupd_eq.
    + apply asim_none. apply DO; auto. cbn. split; eauto.
  - injection F as <-. apply asim_none. apply DO; auto.
  - injection F as <-. apply asim_none. apply DO; auto.
Qed.

(** Plain accesses other than the announcement of a new version. *)
Lemma aplain_step p i p' :
  aplain (y_pc p i) = true -> y_pc p i <> AEnd4 -> ago c B maps p i = Some p' ->
  (forall j, j <> i -> y_pc p' j = y_pc p j /\ y_loc p' j = y_loc p j) /\
  y_next p' = y_next p /\ y_block p' = y_block p /\ y_epoch p' = y_epoch p /\
  is_mv (y_pc p' i) = false /\ is_mv (y_pc p i) = false /\ y_pc p i <> AOp.
Proof.
  destruct p as [tb ep hp nx bl mv pc lo le]. unfold ago. cbn. intros PL N4 GO.
  destruct (pc i) eqn:P; try discriminate PL; try congruence.
  all: repeat match type of GO with
      | (if ?a then Some _ else _) = _ => destruct a eqn:?
      end; try discriminate GO; injection GO as <-; cbn; rewrite ?fupd_eq, ?P.
  all: split; [intros j NE; rewrite ?fupd_neq by exact NE; auto|].
  all: repeat (split; [reflexivity|]).
  all: try (split; [|split; [reflexivity|discriminate]]).
  all: try reflexivity; try discriminate.
  - destruct op; [discriminate|reflexivity].
  - now destruct (nx v).
Qed.

Lemma asim_go p me ca h i p' g :
  arel (ATSt p me ca h) g -> aplain (y_pc p i) = true -> ago c B maps p i = Some p' ->
  a_room c maps (ATSt p me ca h) (ATSt p' me ca h) -> asimulated g None (ATSt p' me ca h).
Proof.
  intros R PL GO RM.
  assert (D : y_pc p i = AEnd4 \/ y_pc p i <> AEnd4) by (destruct (y_pc p i); auto; right; discriminate).
  destruct D as [P|N4].
  2:{ destruct (aplain_step _ _ _ PL N4 GO) as (PC & NX & BL & EP & M1 & M2 & NO).
      apply asim_none. apply (arel_quiet _ _ i _ (YGo i) R); cbn; auto; [now rewrite BL|].
      now apply (not_running _ _ i R). }
  (* the successor is announced *)
  pose proof (ae_inv _ _ R) as G. cbn in G.
  pose proof (ai_th _ _ G i) as [_ T]. rewrite P in T. destruct T as [LO TB].
  destruct (ai_prev _ _ G (y_epoch p)) as [NX DN]; [lia|].
  destruct DN as (D1 & D2 & D3).
  pose proof (ae_mig _ _ R) as M. unfold amigrel in M. cbn in M. rewrite NX in M.
  destruct M as (M1 & hh & M2 & M3 & M4).
  destruct g as [gv mp gm mg th]. cbn in M1, M2. subst mg.
  pose proof (ae_ver _ _ R) as VR. cbn in VR. subst gv.
  assert (Q : p' = ASt (y_tab p) (y_epoch p + 1) (y_help p) (y_next p) (y_block p) (y_moved p)
      (fupd (y_pc p) i (ALoad false)) (y_loc p) (y_lep p)).
  { unfold ago in GO. destruct p as [tb ep hp nx bl mv pc lo le]. cbn in *. rewrite P in GO. injection GO as <-.
    now rewrite LO. }
  assert (NP : y_next p (y_epoch p + 1) = false).
  { destruct (y_next p (y_epoch p + 1)) eqn:X; auto. apply (ai_next _ _ G) in X. lia. }
  assert (NR : forall o pc, ca i <> Some (o, CRun pc)).
  { apply (not_running _ _ i R). cbn. rewrite P. discriminate. }
  assert (R' : arel (ATSt p' me ca h) (GSys (y_epoch p + 1) mp gm None th)).
  { split; cbn [a_p a_mem a_call a_h gver gmap gmem gmig gthr].
    - eapply ar_step; [apply (ae_reach _ _ R)|]. exists (YGo i). exact GO.
    - eapply (linv_step _ _ (YGo i)); [apply (ae_lep _ _ R)|exact GO].
    - now rewrite Q.
    - exact (ae_mem _ _ R).
    - rewrite Q. cbn. intros v LE. destruct (N.eq_dec v (y_epoch p + 1)) as [->|NE]; auto.
      apply (ae_map _ _ R). cbn. lia.
    - rewrite Q. cbn. intros j. pose proof (ae_thr _ _ R j) as T. cbn in T.
      destruct (N.eq_dec j i) as [->|NE]; [|now rewrite fupd_neq].
      destruct (ca i) as [[o1 [|pc|r]]|] eqn:E; auto. now elim (NR o1 pc).
    - rewrite Q. cbn. apply (ae_bad _ _ R).
    - rewrite Q. unfold amigrel. cbn. now rewrite NP. }
  exists (GSys (y_epoch p + 1) mp gm None th). split; [|exact R'].
  eapply ls_tau; [|constructor].
  split; [|split].
  - apply g_publish; [auto|].
    intros j pc E. specialize (M3 j). unfold ahrel in M3.
    destruct (is_mv (y_pc p j)) eqn:IM.
    + exfalso. destruct (y_pc p j) eqn:PJ; try discriminate IM.
      pose proof (ai_th _ _ G j) as [_ T]. rewrite PJ in T. destruct T as (_ & _ & _ & VT & NV & _).
      subst v. rewrite TB in NV. congruence.
    + destruct M3 as [M3|[M3|M3]]; rewrite E in M3; try discriminate M3; injection M3 as ->; auto.
  - now apply same_undisturbed.
  - intros CP _. cbn. destruct (RM CP) as [q V]; [rewrite Q; cbn; lia|]. cbn in V.
    pose proof (ae_map _ _ R (y_epoch p) (N.le_refl _)) as RMM. pose proof (ae_mem _ _ R (y_epoch p)) as RE.
    cbn in RMM, RE. rewrite RMM, RE. eauto.
Qed.

Lemma grow_step p i p' : y_pc p i = AGrow -> ago c B maps p i = Some p' ->
  p' = ASt (y_tab p) (y_epoch p) (y_help p) (fupd (y_next p) (y_loc p i) true) (y_block p) (y_moved p)
      (fupd (y_pc p) i AMig1) (y_loc p) (y_lep p).
Proof. unfold ago. destruct p. cbn. intros -> [= <-]. reflexivity. Qed.

Lemma asim_open p me ca h i v ins del p' g :
  arel (ATSt p me ca h) g -> y_pc p i = AGrow -> v = y_loc p i -> y_next p v = false ->
  addressable_slots mc (maps v) < 2 ^ 32 ->
  maps (v + 1) = resize mc (maps v) ins del -> ago c B maps p i = Some p' ->
  a_undisturbed c maps (ATSt p me ca h) (ATSt p' (fupd me (v + 1) (target_mem mc (maps (v + 1)))) ca h) ->
  asimulated g None (ATSt p' (fupd me (v + 1) (target_mem mc (maps (v + 1)))) ca h).
Proof.
  intros R P LV NX AD RS GO U. pose proof (ae_inv _ _ R) as G. cbn in G.
  pose proof (ai_th _ _ G i) as [_ T]. rewrite P in T. rewrite <- LV in T.
  assert (VE : v = y_epoch p /\ y_tab p = y_epoch p).
  { destruct (N.lt_ge_cases v (y_tab p)) as [L|L].
    - destruct (ai_prev _ _ G v L). congruence.
    - pose proof (ai_ep _ _ G). lia. }
  destruct VE as [VE VT].
  pose proof (grow_step _ _ _ P GO) as Q. rewrite <- LV in Q. clear LV. subst v.
  destruct g as [gv mp gm mg th]. pose proof (ae_ver _ _ R) as VR. cbn in VR. subst gv.
  pose proof (ae_mig _ _ R) as M. unfold amigrel in M. cbn in M. rewrite NX in M. subst mg.
  pose proof (ae_map _ _ R (y_epoch p) (N.le_refl _)) as RM. cbn in RM.
  assert (NR : forall o pc, ca i <> Some (o, CRun pc)).
  { apply (not_running _ _ i R). cbn. rewrite P. discriminate. }
  assert (ME : forall w, fupd gm (y_epoch p + 1) (target_mem mc (maps (y_epoch p + 1))) w =
                         fupd me (y_epoch p + 1) (target_mem mc (maps (y_epoch p + 1))) w).
  { intros w. unfold fupd. destruct (w =? y_epoch p + 1); auto. apply (ae_mem _ _ R). }
  eapply asim_one; [eapply (g_grow c B client _ _ _ _ ins del); rewrite RM; exact AD| |reflexivity|].
  { rewrite RM, <- RS. eapply (undisturbed_of _ _ _ _ R); [|exact U]. exact ME. }
  rewrite RM, <- RS.
  split; cbn [a_p a_mem a_call a_h gver gmap gmem gmig gthr].
  - eapply ar_step; [apply (ae_reach _ _ R)|]. exists (YGo i). exact GO.
  - eapply (linv_step _ _ (YGo i)); [apply (ae_lep _ _ R)|exact GO].
  - now rewrite Q.
  - exact ME.
  - rewrite Q. cbn. intros w LE. rewrite fupd_neq by lia. now apply (ae_map _ _ R).
  - rewrite Q. cbn. intros j. pose proof (ae_thr _ _ R j) as T'. cbn in T'.
    destruct (N.eq_dec j i) as [->|NE]; [|now rewrite fupd_neq].
    destruct (ca i) as [[o1 [|pc|r]]|] eqn:E; auto. now elim (NR o1 pc).
  - rewrite Q. cbn. intros j W. apply (ae_bad _ _ R) in W. cbn in W. unfold fupd. now destruct (_ =? _).
  - rewrite Q. unfold amigrel. cbn. rewrite fupd_eq. split; [now rewrite fupd_eq|].
    assert (B0 : y_block p (y_epoch p) = 0).
    { destruct (N.eq_dec (y_block p (y_epoch p)) 0) as [|NB]; auto.
      rewrite (ai_block _ _ G (y_epoch p)) in NX by lia. discriminate. }
    rewrite B0. exists (fun _ => None). split; [reflexivity|]. split; [|lia].
    intros j. unfold ahrel. destruct (is_mv (fupd (y_pc p) i AMig1 j)) eqn:IM; auto. exfalso.
    unfold fupd in IM. destruct (N.eqb_spec j i); [discriminate|].
    destruct (y_pc p j) eqn:PJ; try discriminate IM.
    pose proof (ai_th _ _ G j) as [_ T']. rewrite PJ in T'. destruct T' as (_ & _ & _ & VV & NV & _). congruence.
Qed.

Lemma asim_lost p me ca h i p' g :
  arel (ATSt p me ca h) g -> y_pc p i = AGrow -> y_next p (y_loc p i) = true -> ago c B maps p i = Some p' ->
  asimulated g None (ATSt p' me ca h).
Proof.
  intros R P NX GO. pose proof (grow_step _ _ _ P GO) as Q.
  assert (NR : forall o pc, ca i <> Some (o, CRun pc)).
  { apply (not_running _ _ i R). cbn. rewrite P. discriminate. }
  assert (SAME : forall w, y_next p' w = y_next p w).
  { intros w. rewrite Q. cbn. unfold fupd. destruct (N.eqb_spec w (y_loc p i)) as [->|]; auto. }
  apply asim_none. split; cbn [a_p a_mem a_call a_h].
  - eapply ar_step; [apply (ae_reach _ _ R)|]. exists (YGo i). exact GO.
  - eapply (linv_step _ _ (YGo i)); [apply (ae_lep _ _ R)|exact GO].
  - rewrite Q. exact (ae_ver _ _ R).
  - exact (ae_mem _ _ R).
  - rewrite Q. exact (ae_map _ _ R).
  - rewrite Q. cbn. intros j. pose proof (ae_thr _ _ R j) as T'. cbn in T'.
    destruct (N.eq_dec j i) as [->|NE]; [|now rewrite fupd_neq].
    destruct (ca i) as [[o1 [|pc|r]]|] eqn:E; auto. now elim (NR o1 pc).
  - intros j W. rewrite SAME. rewrite Q. cbn. now apply (ae_bad _ _ R).
  - pose proof (ae_mig _ _ R) as M. unfold amigrel in *. rewrite SAME. rewrite Q. cbn in *.
    destruct (y_next p (y_epoch p)); auto.
    destruct M as (M1 & hh & M2 & M3 & M4). split; auto. exists hh. split; auto. split; auto.
    intros j. specialize (M3 j). unfold fupd. destruct (N.eqb_spec j i) as [->|]; auto.
    unfold ahrel in *. rewrite P in M3. exact M3.
Qed.

Lemma ajoin_first g hh k i :
  gmig g = Some (k, hh) -> hh i = None \/ hh i = Some HEnd \/ hh i = Some HClaim ->
  exists h2, lts_steps gstep g [] (GSys (gver g) (gmap g) (gmem g) (Some (k, h2)) (gthr g)) /\
    h2 i = Some HClaim /\ (forall j, j <> i -> h2 j = hh j).
Proof.
  destruct g as [v mp me mg th]. cbn. intros -> H.
  assert (J : hh i = None \/ hh i = Some HEnd ->
    exists h2, lts_steps gstep (GSys v mp me (Some (k, hh)) th) [] (GSys v mp me (Some (k, h2)) th) /\
    h2 i = Some HClaim /\ (forall j, j <> i -> h2 j = hh j)).
  { intros H'. exists (fupd hh i (Some HClaim)). split; [|split; [now rewrite fupd_eq|intros; now rewrite fupd_neq]].
    eapply ls_tau; [|constructor]. split; [now apply g_join|]. split; [now apply same_undisturbed|now apply room_same]. }
  destruct H as [H|[H|H]]; auto. exists hh. split; [constructor|auto].
Qed.

Lemma claim_step p i v p' : y_pc p i = AMig4 v -> ago c B maps p i = Some p' ->
  p' = ASt (y_tab p) (y_epoch p) (y_help p) (y_next p) (fupd (y_block p) v (y_block p v + 1)) (y_moved p)
      (fupd (y_pc p) i (if y_block p v <? nblk v then AMig5 v (y_block p v) else AMig6 v)) (y_loc p) (y_lep p).
Proof. unfold ago. destruct p. cbn. intros -> [= <-]. reflexivity. Qed.

Lemma asim_claim p me ca h i v p' g :
  arel (ATSt p me ca h) g -> y_pc p i = AMig4 v -> ago c B maps p i = Some p' ->
  asimulated g None
    (ATSt p' me ca
       (match y_pc p' i with
        | AMig5 _ b =>
            fupd h i (enter c (maps v) (maps (v + 1)) (b * B)
                        (block_end B (addressable_slots mc (maps v)) (b * B)))
        | _ => h
        end)).
Proof.
  intros R P GO. pose proof (ae_inv _ _ R) as G. cbn in G.
  pose proof (ai_th _ _ G i) as [_ T]. rewrite P in T. destruct T as (_ & _ & LV & NX).
  pose proof (claim_step _ _ _ _ P GO) as Q.
  assert (NR : forall o pc, ca i <> Some (o, CRun pc)).
  { apply (not_running _ _ i R). cbn. rewrite P. discriminate. }
  assert (TR : forall j, athrel (y_loc p' j) (y_pc p' j) (ca j) (gthr g j)).
  { intros j. rewrite Q. cbn. pose proof (ae_thr _ _ R j) as T'. cbn in T'.
    destruct (N.eq_dec j i) as [->|NE]; [|now rewrite fupd_neq].
    destruct (ca i) as [[o1 [|pc|r]]|] eqn:E; auto. now elim (NR o1 pc). }
  pose proof (ai_next _ _ G _ NX) as LE.
  destruct (N.eq_dec v (y_epoch p)) as [->|NE].
  - (* the current migration *)
    pose proof (ae_mig _ _ R) as M. unfold amigrel in M. cbn in M. rewrite NX in M.
    destruct M as (M1 & hh & M2 & M3 & M4).
    assert (HI : hh i = None \/ hh i = Some HEnd \/ hh i = Some HClaim).
    { specialize (M3 i). unfold ahrel in M3. rewrite P in M3. exact M3. }
    destruct (ajoin_first _ _ _ i M2 HI) as (h2 & LS & H2 & H2').
    destruct g as [gv mp gm mg th]. cbn [gver gmap gmem gmig gthr] in *.
    pose proof (ae_ver _ _ R) as VR. cbn in VR. subst gv mg.
    pose proof (ae_map _ _ R (y_epoch p) (N.le_refl _)) as RM. cbn in RM.
    set (b := y_block p (y_epoch p)) in *.
    set (x := if b <? nblk (y_epoch p) then AMig5 (y_epoch p) b else AMig6 (y_epoch p)) in *.
    assert (PX : y_pc p' i = x) by (rewrite Q; cbn; apply fupd_eq).
    rewrite PX.
    set (h' := match x with
               | AMig5 _ b => fupd h i (enter c (maps (y_epoch p)) (maps (y_epoch p + 1)) (b * B)
                    (block_end B (addressable_slots mc (maps (y_epoch p))) (b * B)))
               | _ => h end).
    assert (HS : hstep c (mp (y_epoch p)) (mp (y_epoch p + 1)) B (gm (y_epoch p)) (gm (y_epoch p + 1)) (b * B) HClaim =
      (gm (y_epoch p), gm (y_epoch p + 1), (b + 1) * B,
        match x with AMig5 _ _ => h' i | _ => HEnd end)).
    { cbn [hstep]. rewrite RM, M1, <- blocks_lt by lia. unfold h', x. fold (nblk (y_epoch p)).
      unfold anblk. destruct (b <? blocks mc B (maps (y_epoch p))); [rewrite fupd_eq|]; do 2 f_equal; lia. }
    assert (ME : forall u, fupd (fupd gm (y_epoch p) (gm (y_epoch p))) (y_epoch p + 1) (gm (y_epoch p + 1)) u = me u).
    { intros u. apply fupd_id. apply (ae_mem _ _ R). }
    eexists. split.
    + apply (lts_app _ _ [] _ [] _ LS). eapply ls_tau; [|constructor].
      split; [eapply g_help; [exact H2|exact HS]|]. split; [|now apply room_same].
      intros k' h3 tid j curr _ _. left. cbn. rewrite ME. now rewrite (ae_mem _ _ R).
    + split; cbn [a_p a_mem a_call a_h gver gmap gmem gmig gthr].
      * eapply ar_step; [apply (ae_reach _ _ R)|]. exists (YGo i). exact GO.
      * eapply (linv_step _ _ (YGo i)); [apply (ae_lep _ _ R)|exact GO].
      * now rewrite Q.
      * exact ME.
      * rewrite Q. apply (ae_map _ _ R).
      * exact TR.
      * rewrite Q. apply (ae_bad _ _ R).
      * rewrite Q. unfold amigrel. cbn. rewrite NX, fupd_eq. split; auto. eexists. split; [reflexivity|]. split.
        -- intros j. destruct (N.eq_dec j i) as [->|NJ]; [rewrite !fupd_eq|rewrite !fupd_neq by exact NJ].
           ++ unfold ahrel, h', x. destruct (b <? nblk (y_epoch p)); cbn; auto.
           ++ rewrite H2' by exact NJ. specialize (M3 j). unfold h', x.
              destruct (b <? nblk (y_epoch p)); auto. now rewrite fupd_neq.
        -- intros L. unfold x. destruct (N.ltb_spec b (nblk (y_epoch p))); [lia|].
           exists i. now rewrite fupd_eq.
  - (* a late helper *)
    destruct (ai_prev _ _ G v) as [_ (BL & _)]; [pose proof (ai_ep _ _ G); lia|].
    assert (QB : (y_block p v <? nblk v) = false) by (apply N.ltb_ge; lia).
    rewrite QB in Q.
    assert (PX : y_pc p' i = AMig6 v) by (rewrite Q; cbn; apply fupd_eq). rewrite PX.
    apply asim_none. apply (arel_quiet _ _ i _ (YGo i) R GO); cbn; rewrite ?PX, ?P; auto; rewrite Q; cbn; auto.
    + intros j NJ. now rewrite fupd_neq.
    + now rewrite fupd_neq by auto.
Qed.

(** The block a thread moves belongs to the current version. *)
Lemma moves_current p i v b : ainv nblk p -> y_pc p i = AMig5 v b -> v = y_epoch p /\ y_next p v = true.
Proof.
  intros G P. pose proof (ai_th _ _ G i) as [_ T]. rewrite P in T.
  destruct T as (_ & _ & _ & VT & NV & _).
  split; auto. pose proof (ai_next _ _ G _ NV); pose proof (ai_ep _ _ G); lia.
Qed.

Lemma asim_move p me ca h i v b s' t' k' pc' g :
  arel (ATSt p me ca h) g -> y_pc p i = AMig5 v b -> h i <> HClaim ->
  hstep c (maps v) (maps (v + 1)) B (me v) (me (v + 1)) 0 (h i) = (s', t', k', pc') ->
  a_undisturbed c maps (ATSt p me ca h) (ATSt p (fupd (fupd me v s') (v + 1) t') ca (fupd h i pc')) ->
  asimulated g None (ATSt p (fupd (fupd me v s') (v + 1) t') ca (fupd h i pc')).
Proof.
  intros R P NC HS U. pose proof (ae_inv _ _ R) as G. cbn in G.
  destruct (moves_current _ _ _ _ G P) as [-> NX].
  pose proof (ae_mig _ _ R) as M. unfold amigrel in M. cbn in M. rewrite NX in M.
  destruct M as (M1 & hh & M2 & M3 & M4).
  assert (HI : hh i = Some (h i)) by (specialize (M3 i); unfold ahrel in M3; rewrite P in M3; exact M3).
  destruct g as [gv mp gm mg th]. cbn [gver gmap gmem gmig gthr] in *.
  pose proof (ae_ver _ _ R) as VR. cbn in VR. subst gv mg.
  pose proof (ae_map _ _ R (y_epoch p) (N.le_refl _)) as RM. cbn in RM.
  pose proof (ae_mem _ _ R) as RE. cbn in RE.
  assert (ME : forall u, fupd (fupd gm (y_epoch p) s') (y_epoch p + 1) t' u =
                         fupd (fupd me (y_epoch p) s') (y_epoch p + 1) t' u).
  { intros u. unfold fupd. destruct (u =? y_epoch p + 1); auto. destruct (u =? y_epoch p); auto. }
  eapply asim_one; [eapply g_help; [exact HI|rewrite RM, M1, !RE; eapply hstep_ctr; [exact NC|exact HS]]| |reflexivity|].
  { eapply (undisturbed_of _ _ _ _ R); [|exact U]. exact ME. }
  split; cbn [a_p a_mem a_call a_h gver gmap gmem gmig gthr].
  - apply (ae_reach _ _ R).
  - apply (ae_lep _ _ R).
  - reflexivity.
  - exact ME.
  - apply (ae_map _ _ R).
  - apply (ae_thr _ _ R).
  - apply (ae_bad _ _ R).
  - unfold amigrel. rewrite NX. split; auto. eexists. split; [reflexivity|]. split.
    + intros j. specialize (M3 j). unfold fupd. destruct (N.eqb_spec j i) as [->|NE]; auto.
      unfold ahrel. rewrite P. reflexivity.
    + intros L. destruct (M4 L) as [j Hj]. exists j. destruct (N.eq_dec j i) as [->|NE]; [|now rewrite fupd_neq].
      rewrite fupd_eq. rewrite HI in Hj. injection Hj as Hj. rewrite Hj in HS. cbn in HS. now injection HS as _ _ _ <-.
Qed.

Lemma moved_step p i v b p' : y_pc p i = AMig5 v b -> ago c B maps p i = Some p' ->
  p' = ASt (y_tab p) (y_epoch p) (y_help p) (y_next p) (y_block p) (fupd (y_moved p) v (fupd (y_moved p v) b true))
      (fupd (y_pc p) i (AMig4 v)) (y_loc p) (y_lep p).
Proof. unfold ago. destruct p. cbn. intros -> [= <-]. reflexivity. Qed.

Lemma asim_moved p me ca h i v b p' g :
  arel (ATSt p me ca h) g -> y_pc p i = AMig5 v b -> h i = HClaim -> ago c B maps p i = Some p' ->
  asimulated g None (ATSt p' me ca h).
Proof.
  intros R P NC GO. pose proof (ae_inv _ _ R) as G. cbn in G.
  destruct (moves_current _ _ _ _ G P) as [-> NX].
  pose proof (moved_step _ _ _ _ _ P GO) as Q.
  assert (NR : forall o pc, ca i <> Some (o, CRun pc)).
  { apply (not_running _ _ i R). cbn. rewrite P. discriminate. }
  apply asim_none. split; cbn [a_p a_mem a_call a_h].
  - eapply ar_step; [apply (ae_reach _ _ R)|]. exists (YGo i). exact GO.
  - eapply (linv_step _ _ (YGo i)); [apply (ae_lep _ _ R)|exact GO].
  - rewrite Q. exact (ae_ver _ _ R).
  - exact (ae_mem _ _ R).
  - rewrite Q. exact (ae_map _ _ R).
  - rewrite Q. cbn. intros j. pose proof (ae_thr _ _ R j) as T'. cbn in T'.
    destruct (N.eq_dec j i) as [->|NE]; [|now rewrite fupd_neq].
    destruct (ca i) as [[o1 [|pc|r]]|] eqn:E; auto. now elim (NR o1 pc).
  - rewrite Q. apply (ae_bad _ _ R).
  - pose proof (ae_mig _ _ R) as M. unfold amigrel in *. rewrite Q. cbn in *. rewrite NX in *.
    destruct M as (M1 & hh & M2 & M3 & M4). split; auto. exists hh. split; auto. split; auto.
    intros j. specialize (M3 j). unfold fupd. destruct (N.eqb_spec j i) as [->|]; auto.
    unfold ahrel in *. rewrite P, NC in M3. cbn in *. auto.
Qed.

Lemma asim_destroy p me ca h i g :
  arel (ATSt p me ca h) g -> ca i = None -> y_pc p i = AIdle ->
  asimulated g None (ATSt (with_pc p i AUnreg) me ca h).
Proof.
  intros R E P. apply asim_none.
  apply (arel_quiet _ _ i _ (YDestroy i) R); cbn; rewrite ?fupd_eq, ?P; auto.
  - intros j NE. now rewrite fupd_neq.
  - intros o pc. rewrite E. discriminate.
Qed.

Lemma asim s l s' g x : arel s g -> grel c B client g x -> atab_calm c B maps client s l s' -> asimulated g l s'.
Proof.
  intros R GR (S & U & RM). destruct S.
  - now apply asim_inv.
  - now apply asim_ret.
  - eapply asim_go; eauto.
  - eapply asim_get; eauto.
  - eapply asim_run; eauto.
  - eapply (asim_off _ _ _ _ _ _ Async.AIdle _ (YGo i)); eauto.
    unfold ago in *. destruct p. cbn in *. rewrite H in H3. now injection H3 as <-.
  - eapply (asim_off _ _ _ _ _ _ AGrow _ (YWant i)); eauto. cbn. now rewrite H.
  - eapply (asim_off _ _ _ _ _ _ AMig1 _ (YInvalid i)); eauto. cbn. rewrite H.
    pose proof (ae_bad _ _ R i H1) as NX. cbn in NX. now rewrite NX.
  - eapply asim_open; eauto.
  - eapply asim_lost; eauto.
  - eapply asim_claim; eauto.
  - eapply asim_move; eauto.
  - eapply asim_moved; eauto.
  - eapply asim_destroy; eauto.
Qed.

Lemma asims s tr s' g x : arel s g -> grel c B client g x ->
  lts_steps (atab_calm c B maps client) s tr s' ->
  exists g', lts_steps gstep g tr g' /\ arel s' g'.
Proof.
  intros R GR ST. revert g x R GR.
  induction ST as [s|s s1 s2 tr S ST IH|s e s1 s2 tr S ST IH]; intros g x R GR.
  - exists g. split; [constructor|auto].
  - destruct (asim _ _ _ _ _ R GR S) as (g1 & L1 & R1).
    destruct (async_sim c B client (cell_type_wf _ CT) CO CF HB _ _ _ _ SM GR L1) as (x1 & _ & GR1).
    destruct (IH _ _ R1 GR1) as (g2 & L2 & R2).
    exists g2. split; [|auto]. exact (lts_app _ _ [] _ _ _ L1 L2).
  - destruct (asim _ _ _ _ _ R GR S) as (g1 & L1 & R1).
    destruct (async_sim c B client (cell_type_wf _ CT) CO CF HB _ _ _ _ SM GR L1) as (x1 & _ & GR1).
    destruct (IH _ _ R1 GR1) as (g2 & L2 & R2).
    exists g2. split; [|auto]. exact (lts_app _ _ [e] _ _ _ L1 L2).
Qed.

Lemma arel_init lg : maps 0 = mk_mapper mc (2 ^ lg) 0 -> arel (atab_init c maps) (gsys_init c lg).
Proof.
  intros E. split; cbn.
  - constructor.
  - intros i H. reflexivity.
  - reflexivity.
  - intros v. now rewrite E.
  - intros v L. assert (v = 0) as -> by lia. auto.
  - auto.
  - discriminate.
  - reflexivity.
Qed.

Lemma atab_run lg tr s : 1 <= lg <= 63 -> maps 0 = mk_mapper mc (2 ^ lg) 0 ->
  lts_steps (atab_calm c B maps client) (atab_init c maps) tr s ->
  exists g, lts_steps gstep (gsys_init c lg) tr g /\ arel s g.
Proof.
  intros LG E ST. exact (asims _ _ _ _ _ (arel_init lg E) (ginit_rel c B client (cell_type_wf _ CT) lg LG) ST).
Qed.

Lemma atab_linearizable lg : 1 <= lg <= 63 -> maps 0 = mk_mapper mc (2 ^ lg) 0 ->
  linearizable (mspec false false) (atab_calm c B maps client) (atab_init c maps) amap_empty.
Proof.
  intros LG E tr s ST. destruct (atab_run lg tr s LG E ST) as (g & L & _).
  exact (async_linearizable c B client (cell_type_wf _ CT) CO CF HB lg LG SM tr g L).
Qed.
End R.
