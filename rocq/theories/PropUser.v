(** C69, C70: code of the user that runs inside of a call. *)
From Coq Require Import NArith Bool List Lia.
From Verif Require Import Words BaseInv Sync SyncInv SyncSpec SyncFacts SyncEndSpec SyncEnd Async AsyncInv AsyncSpec AsyncFacts AsyncEndSpec AsyncEnd UserCode UserCodeFacts PropSync.
Import ListNotations.
Open Scope N_scope.

(** Thread [i] has begun a call and has not protected a table yet; no call of thread [i]
    is in progress. *)
Definition call_begun (s : sst) (i : N) : Prop := s_pc s i = PGet1.
Definition outside (s : sst) (i : N) : Prop := s_pc s i = PIdle.

(** ** C69 *)

(** Synchronised growing, whatever functions throw and whenever: no thread moves elements
    while another one operates; operations are on existing tables whose predecessors have
    been moved completely; one thread at a time organises a growth step. *)
Theorem C69_exceptions_keep_exclusion :
  forall nblocks slot s, own_flags slot -> sync_reachable_thr false nblocks slot s ->
    (forall i v b, moving s i v b -> forall j w, ~ operating s j w) /\
    (forall i w, operating s i w -> s_deleted s w = false /\ forall v, v < w -> all_moved nblocks s v) /\
    (forall i v j w, organising s i v -> organising s j w -> i = j /\ v = w).
Proof.
  intros nb sl s INJ R. destruct (thr_inv false nb sl INJ s R) as (c & o & G & _). split; [|split].
  - intros i v b (k & g & E) j w O.
    pose proof (gi_th _ _ _ _ _ _ G i) as [_ T]. rewrite E in T. destruct T as (_ & _ & (-> & _ & _) & NX & _).
    pose proof (gi_th _ _ _ _ _ _ G j) as [_ T]. unfold operating in O. rewrite O in T.
    destruct T as (_ & T). destruct (T eq_refl) as (-> & _ & OP).
    destruct (gi_next _ _ _ _ _ _ G c NX) as [L|[_ ST]]; [lia|].
    destruct (opc s o) as [p|]; [|destruct ST]. destruct p; cbn in *; contradiction.
  - intros i w O. pose proof (gi_th _ _ _ _ _ _ G i) as [_ T]. unfold operating in O. rewrite O in T.
    destruct T as (_ & T). destruct (T eq_refl) as (-> & _ & OP). split.
    + destruct (s_deleted s c) eqn:D; auto. pose proof (gi_del _ _ _ _ _ _ G c D). lia.
    + intros v L. exact (proj2 (gi_old _ _ _ _ _ _ G v L)).
  - intros i v j w A B. apply organising_orgof in A, B.
    destruct (is_org _ _ _ c o s i v G A) as (-> & -> & _). destruct (is_org _ _ _ c _ s j w G B) as ([= ->] & -> & _). auto.
Qed.
Print Assumptions C69_exceptions_keep_exclusion.

(** But the table is lost if the next thing that happens to it is a growth step: whenever
    a function throws inside of an operation on table [v] and a growth step begins before
    the thread has made its next call, the table stays marked as growing forever, nobody
    gets to operate on it again, neither the call that grows the table nor any call that
    begins returns, also none of the thread whose function threw. *)
Theorem C69_growth_after_exception_is_fatal :
  forall nblocks slot s i v s1 s2, own_flags slot -> sync_reachable_thr false nblocks slot s ->
    operating s i v -> sync_throw s i = Some s1 ->
    sync_after false nblocks slot (fun k => k <> i) s1 s2 -> s_tab s2 <> TTab v ->
    forall s3, sync_after false nblocks slot anybody s2 s3 ->
      s_tab s3 = TMarked v /\
      (forall j w, operating s3 j w -> operating s2 j w) /\
      (forall j w, organising s2 j w -> ~ outside s3 j) /\
      (forall j s4, call_begun s3 j -> sync_after false nblocks slot anybody s3 s4 -> ~ outside s4 j).
Proof.
  intros nb sl s i v s1 s2 INJ R O T A NT s3 A3.
  pose proof (op_held false nb sl INJ s i v eq_refl R O) as H.
  destruct (held_throw false nb sl INJ (sl i) v s i s1 H T) as [H1 _].
  destruct (throw_fields s i s1 T) as (_ & _ & _ & PC1).
  destruct (idle_after false nb sl INJ i v s1 H1 s2 A) as [H2 P2]. rewrite PC1, fupd_eq in P2.
  assert (T2 : s_tab s2 = TMarked v) by (destruct (held_tab false nb sl (sl i) v s2 H2); congruence).
  assert (O2 : out_or_hang v (s_pc s2 i)) by (rewrite P2; exact Logic.I).
  destruct (left_after false nb sl INJ i v s2 eq_refl H2 T2 O2 s3 A3) as (O3 & H3 & T3 & J3).
  split; [exact T3|]. split; [intros j w; apply (J3 j)|]. split.
  { intros j w OR OUT. apply organising_orgof in OR. destruct (J3 j) as (_ & _ & J). destruct H2 as (o & G & _).
    destruct (is_org _ _ _ v o s2 j w G OR) as (_ & -> & _). specialize (J OR). unfold outside in OUT. rewrite OUT in J. discriminate. }
  intros j s4 B A4 OUT. destruct (left_after false nb sl INJ i v s3 eq_refl H3 T3 O3 s4 A4) as (_ & _ & _ & J4).
  destruct (J4 j) as (J5 & _). unfold call_begun in B. unfold outside in OUT. rewrite B, OUT in J5. destruct (J5 Logic.I).
Qed.
Print Assumptions C69_growth_after_exception_is_fatal.

(** No harm is done once the threads whose functions threw have made another call: if every
    announced table belongs to a call in progress, all waits end (compare C62). *)
Theorem C69_progress_without_leftovers :
  forall nblocks slot s, own_flags slot -> sync_reachable_thr false nblocks slot s ->
    (forall i v, s_ops s (slot i) = Some v -> announced (s_pc s i)) ->
    exists M, forall rs, (M <= length rs)%nat -> Forall (fair_round s) rs ->
      crashed (attempts false nblocks slot (concat rs) s) \/
      forall i, resting (attempts false nblocks slot (concat rs) s) i.
Proof.
  intros nb sl s INJ R H. apply sound_finish; [exact INJ| |now apply (thr_finite false nb sl INJ)].
  apply (settled_sound false nb sl INJ s R). intros i v F. destruct (thr_inv false nb sl INJ s R) as (c & o & G & _).
  unfold fops in F. rewrite (gi_buf _ _ _ _ _ _ G eq_refl i) in F. specialize (H i v F).
  destruct (s_pc s i); cbn in *; auto.
Qed.
Print Assumptions C69_progress_without_leftovers.

(** With a single handle the next call always gets its table. *)
Theorem C69_single_handle :
  forall nblocks slot i s, own_flags slot -> sync_after false nblocks slot (fun k => k = i) sync_init s ->
    call_begun s i -> exists v s', sync_run false nblocks slot s (go i 3) = Some s' /\ operating s' i v.
Proof.
  intros nb sl i s INJ A B.
  assert (R : sync_reachable_thr false nb sl s) by (apply (after_weaken _ _ _ (fun k => k = i)); [intros; exact Logic.I|exact A]).
  destruct (thr_inv false nb sl INJ s R) as (c & o & G & _).
  assert (OT : forall j, j <> i -> s_pc s j = PUnreg).
  { clear - A INJ. intros j NE. induction A as [|s1 k s2 A IH -> ST]; [reflexivity|].
    destruct (thr_cases false nb sl i s1 s2 ST) as [(l & <- & R)|T].
    - destruct (step_frame false nb sl INJ s1 l s2 R) as [FR _]. destruct (FR j NE) as [-> _]. exact IH.
    - destruct (throw_fields s1 i s2 T) as (_ & _ & _ & ->). rewrite fupd_neq; auto. }
  assert (o = None) as ->.
  { destruct o as [t|]; auto. destruct (gi_org _ _ _ _ _ _ G) as (E & _). destruct (N.eq_dec t i) as [->|NE].
    - rewrite B in E. discriminate.
    - rewrite (OT t NE) in E. discriminate. }
  destruct (gi_org _ _ _ _ _ _ G) as (T & _). exists c. unfold call_begun in B.
  eexists. split.
  - cbn. unfold sync_go at 1. rewrite B, T. unfold sync_go at 1. cbn [s_pc set_pc]. rewrite fupd_eq.
    unfold sync_go. cbn [s_pc set_pc]. rewrite fupd_eq. cbn [put_store s_tab commit set_pc]. rewrite T, N.eqb_refl. reflexivity.
  - unfold operating. cbn. apply fupd_eq.
Qed.
Print Assumptions C69_single_handle.

(** Asynchronous growing: for the strategy an exception is the same as a return. *)
Theorem C69_asynchronous_unaffected :
  forall nblocks s, async_reachable_thr nblocks s <-> async_reachable nblocks s.
Proof. exact areach_thr. Qed.
Print Assumptions C69_asynchronous_unaffected.

(** Such a thing happens with two handles: the function of the first throws, the second
    one grows the table; no call of either ever returns. *)
Lemma run_thr tso nb sl P ls : forall s0 s s', sync_after tso nb sl P s0 s -> (forall l, In l ls -> P (actor l)) ->
  sync_run tso nb sl s ls = Some s' -> sync_after tso nb sl P s0 s'.
Proof.
  induction ls as [|l ls IH]; cbn; intros s0 s s' R PL H; [now injection H as <-|].
  destruct (sync_run1 tso nb sl s l) as [s1|] eqn:E; [|discriminate].
  apply (IH s0 s1); auto. eapply sf_step; [exact R|apply (PL l); auto|]. left. exists l. split; [now destruct l|exact E].
Qed.
Definition exc_run : list slabel := go 0 2 ++ go 1 2 ++ go 0 4.
Definition exc_grow : list slabel := go 1 4 ++ [SWant 1] ++ go 1 5.
Theorem C69_usable_after_exception_refuted :
  own_flags self /\
  exists s s1 s2, sync_reachable_thr false two self s /\ operating s 0 0 /\ sync_throw s 0 = Some s1 /\
    outside s1 0 /\ outside s1 1 /\
    sync_after false two self (fun k => k <> 0) s1 s2 /\ organising s2 1 0 /\ outside s2 0 /\
    forall s3, sync_after false two self anybody s2 s3 ->
      ~ outside s3 1 /\ (forall j w, ~ operating s3 j w) /\
      (forall j s4, call_begun s3 j -> sync_after false two self anybody s3 s4 -> ~ outside s4 j).
Proof.
  assert (INJ : own_flags self) by (intros i j E; exact E). split; [exact INJ|].
  assert (X : exists s, sync_run false two self sync_init exc_run = Some s) by (eexists; vm_compute; reflexivity).
  destruct X as [s X]. assert (T : sync_throw s 0 = Some (set_pc s 0 PIdle)) by (vm_compute in X; injection X as <-; reflexivity).
  assert (Y : exists s2, sync_run false two self (set_pc s 0 PIdle) exc_grow = Some s2) by (vm_compute in X; injection X as <-; eexists; vm_compute; reflexivity).
  destruct Y as [s2 Y]. exists s, (set_pc s 0 PIdle), s2.
  assert (R : sync_reachable_thr false two self s).
  { apply (run_thr _ _ _ anybody exc_run sync_init sync_init s); [constructor|intros; exact Logic.I|exact X]. }
  assert (O : operating s 0 0) by (vm_compute in X; injection X as <-; vm_compute; reflexivity).
  assert (A : sync_after false two self (fun k => k <> 0) (set_pc s 0 PIdle) s2).
  { apply (run_thr _ _ _ _ exc_grow _ (set_pc s 0 PIdle) s2); [constructor| |exact Y].
    intros l I. cbn in I. repeat (destruct I as [<-|I]; [discriminate|]). destruct I. }
  split; [exact R|]. split; [exact O|]. split; [exact T|].
  split; [reflexivity|]. split; [vm_compute in X; injection X as <-; reflexivity|]. split; [exact A|].
  assert (Z : organising s2 1 0 /\ outside s2 0 /\ s_tab s2 = TMarked 0 /\ forall j w, ~ operating s2 j w).
  { vm_compute in X. injection X as <-. vm_compute in Y. injection Y as <-.
    split; [vm_compute; reflexivity|]. split; [vm_compute; reflexivity|]. split; [vm_compute; reflexivity|].
    intros [|[[]|[]|]] w O2; discriminate O2. }
  destruct Z as (Z1 & Z2 & Z3 & Z4). split; [exact Z1|]. split; [exact Z2|]. intros s3 A3.
  assert (NT : s_tab s2 <> TTab 0) by (rewrite Z3; discriminate).
  destruct (C69_growth_after_exception_is_fatal two self s 0 0 _ s2 INJ R O T A NT s3 A3) as (_ & F2 & F4 & F3).
  split; [exact (F4 1 0 Z1)|]. split; [|exact F3]. intros j w OP. apply (Z4 j w). now apply F2.
Qed.
Print Assumptions C69_usable_after_exception_refuted.

(** The function of handle 0 throws, and the handle makes another call: then handle 1 grows
    the table, and everybody returns. *)
Definition call_again : list slabel := go 0 4 ++ go 1 4 ++ [SWant 1] ++ go 1 7.
Example C69_case :
  exists s s1 s2, sync_run false two self sync_init exc_run = Some s /\ operating s 0 0 /\ sync_throw s 0 = Some s1 /\
    s_ops s1 0 = Some 0 /\ outside s1 0 /\
    sync_run false two self s1 call_again = Some s2 /\ organising s2 1 0 /\ operating s2 0 0 /\
    sync_reachable_thr false two self s2 /\ (forall i v, s_ops s2 (self i) = Some v -> announced (s_pc s2 i)) /\
    (forall i, resting (attempts false two self (concat (repeat [SGo 0; SGo 1] 40)) s2) i) /\
    s_tab (attempts false two self (concat (repeat [SGo 0; SGo 1] 40)) s2) = TTab 1.
Proof.
  assert (X : exists s, sync_run false two self sync_init exc_run = Some s) by (eexists; vm_compute; reflexivity).
  destruct X as [s X]. assert (T : sync_throw s 0 = Some (set_pc s 0 PIdle)) by (vm_compute in X; injection X as <-; reflexivity).
  assert (Y : exists s2, sync_run false two self (set_pc s 0 PIdle) call_again = Some s2) by (vm_compute in X; injection X as <-; eexists; vm_compute; reflexivity).
  destruct Y as [s2 Y]. exists s, (set_pc s 0 PIdle), s2.
  assert (R : sync_reachable_thr false two self s2).
  { apply (run_thr _ _ _ anybody call_again sync_init (set_pc s 0 PIdle) s2); [|intros; exact Logic.I|exact Y].
    apply (sf_step _ _ _ _ _ s 0); [|exact Logic.I|now right].
    apply (run_thr _ _ _ anybody exc_run sync_init sync_init s); [constructor|intros; exact Logic.I|exact X]. }
  split; [exact X|].
  split; [vm_compute in X; injection X as <-; vm_compute; reflexivity|]. split; [exact T|].
  split; [vm_compute in X; injection X as <-; vm_compute; reflexivity|]. split; [reflexivity|]. split; [exact Y|].
  vm_compute in X. injection X as <-. vm_compute in Y. injection Y as <-.
  split; [vm_compute; reflexivity|]. split; [vm_compute; reflexivity|]. split; [exact R|].
  split; [|split; [|vm_compute; reflexivity]].
  - intros [|[[]|[]|]] v E; vm_compute in E |- *; try discriminate E; exact Logic.I.
  - intros [|[[]|[]|]]; split; vm_compute; reflexivity.
Qed.

(** ** C70 *)

Definition rgo (i : N) (n : nat) : list rlabel := map RStep (go i n).
Definition nago (i : N) (n : nat) : list nlabel := map NStep (repeat (YGo i) n).

(** Synchronised growing, the same handle: the nested call withdraws the protection of
    the outer one.  A single thread whose function adds an element that makes the table
    grow goes on with the deleted table. *)
Theorem C70_same_handle_refuted :
  exists r, sync_nest false two self sync_nest_init
      (rgo 0 6 ++ [REnter 0] ++ rgo 0 4 ++ [RStep (SWant 0)] ++ rgo 0 24 ++ [RLeave 0]) = Some r /\
    operating (r_s r) 0 0 /\ s_deleted (r_s r) 0 = true.
Proof. eexists. split; [vm_compute; reflexivity|]. split; vm_compute; reflexivity. Qed.
Print Assumptions C70_same_handle_refuted.

(** Also when the function only looks something up, another thread may then move the
    elements of the table during the operation. *)
Theorem C70_nested_find_refuted :
  exists r, sync_nest false two self sync_nest_init
      (rgo 0 6 ++ [REnter 0] ++ rgo 0 6 ++ [RLeave 0] ++ rgo 1 6 ++ [RStep (SWant 1)] ++ rgo 1 14) = Some r /\
    operating (r_s r) 0 0 /\ moving (r_s r) 1 0 0.
Proof. eexists. split; [vm_compute; reflexivity|]. split; [vm_compute; reflexivity|]. do 2 eexists. vm_compute. reflexivity. Qed.
Print Assumptions C70_nested_find_refuted.

(** Synchronised growing, another handle of the same thread: handle [i] is inside of an
    operation for as long as the function runs.  As soon as a growth step has begun,
    by whomever, the table stays marked; calls that begin, through whichever handle, and
    the one that grows the table do not return before [i] goes on, so a function that has
    made one of them never returns. *)
Theorem C70_second_handle_blocks :
  forall nblocks slot s i v, own_flags slot -> sync_reachable false nblocks slot s ->
    operating s i v -> s_tab s <> TTab v ->
    forall s2, sync_after false nblocks slot (fun k => k <> i) s s2 ->
      s_tab s2 = TMarked v /\
      (forall j w, organising s j w -> ~ outside s2 j) /\
      (forall j, call_begun s j -> ~ outside s2 j).
Proof.
  intros nb sl s i v INJ R O NT s2 A.
  assert (RT : sync_reachable_thr false nb sl s).
  { induction R as [|s s' R IH [l ST]]; [constructor|]. clear - R ST.
    assert (Q : forall s, sync_reachable false nb sl s -> sync_reachable_thr false nb sl s).
    { induction 1 as [|s1 s2 R1 IH [l1 ST1]]; [constructor|]. eapply sf_step; [exact IH|exact Logic.I|]. left. exists l1. split; [|exact ST1]. instantiate (1 := actor l1). now destruct l1. }
    apply Q. eapply sr_step; [exact R|]. now exists l. }
  pose proof (op_held false nb sl INJ s i v eq_refl RT O) as H.
  assert (T : s_tab s = TMarked v) by (destruct (held_tab false nb sl (sl i) v s H); congruence).
  destruct (inside_after false nb sl INJ i v s H T s2 A) as (H2 & T2 & J). split; [exact T2|]. split.
  - intros j w OR OUT. apply organising_orgof in OR. destruct (J j) as (_ & _ & J3). destruct H as (o & G & _).
    destruct (is_org _ _ _ v o s j w G OR) as (_ & -> & _). specialize (J3 OR). unfold outside in OUT. rewrite OUT in J3. discriminate.
  - intros j B OUT. destruct (J j) as (J1 & _). unfold call_begun in B. unfold outside in OUT. rewrite B, OUT in J1. destruct (J1 Logic.I).
Qed.
Print Assumptions C70_second_handle_blocks.

(** The function of handle 0 adds an element through handle 1 of the same thread, and the
    table grows. *)
Example C70_second_handle_case :
  exists s, sync_run false two self sync_init (go 0 2 ++ go 1 2 ++ go 0 4 ++ go 1 4 ++ [SWant 1] ++ go 1 5) = Some s /\
    operating s 0 0 /\ s_tab s <> TTab 0 /\ organising s 1 0.
Proof. eexists. split; [vm_compute; reflexivity|]. repeat split; try (vm_compute; reflexivity); vm_compute; discriminate. Qed.

(** Asynchronous growing, another handle: operations do not block growing.  While handle
    [i] stays inside of an operation, all other calls in progress return after enough
    rounds, up to those of C21 (compare C65). *)
Theorem C70_asynchronous_second_handle :
  forall nblocks s i w, async_reachable nblocks s -> working s i w ->
    exists M, forall rs, (M <= length rs)%nat ->
      Forall (fun r => (forall l, In l r -> aactor l <> i) /\ forall j, j <> i -> ~ aresting s j -> In (YGo j) r) rs ->
      forall j, j <> i -> aresting (aattempts nblocks (concat rs) s) j \/ missed (aattempts nblocks (concat rs) s) j.
Proof. intros nb s i w R [P _]. now apply others_finish. Qed.
Print Assumptions C70_asynchronous_second_handle.

(** Asynchronous growing, the same handle, one thread: the function adds an element that
    makes the table grow, and the handle gives up the old table.  The operation goes on
    with a table that has been replaced and that nobody keeps. *)
Theorem C70_asynchronous_same_handle_refuted :
  exists n, async_nest two async_nest_init
      (nago 0 4 ++ [NEnter 0] ++ nago 0 1 ++ [NStep (YWant 0)] ++ nago 0 16 ++ [NLeave 0]) = Some n /\
    y_pc (n_s n) 0 = AOp /\ n_use n 0 = 0 /\ gone (n_s n) 0.
Proof.
  eexists. split; [vm_compute; reflexivity|]. split; [vm_compute; reflexivity|]. split; [vm_compute; reflexivity|].
  split; [vm_compute; reflexivity|]. intros [|i] K; vm_compute in K; [discriminate|exact K].
Qed.
Print Assumptions C70_asynchronous_same_handle_refuted.

(** There it meets a marked cell, and help_grow installs null as the table: the new table
    has no successor, and end_grow (330-332) does not test that. *)
Theorem C70_asynchronous_null_refuted :
  exists n, async_nest two async_nest_init
      (nago 0 4 ++ [NEnter 0] ++ nago 0 1 ++ [NStep (YWant 0)] ++ nago 0 16 ++ [NLeave 0; NInvalid 0] ++ nago 0 5) = Some n /\
    y_pc (n_s n) 0 = AEnd2 /\ y_loc (n_s n) 0 = y_tab (n_s n) /\ y_next (n_s n) (y_tab (n_s n)) = false.
Proof. eexists. split; [vm_compute; reflexivity|]. repeat split; vm_compute; reflexivity. Qed.
Print Assumptions C70_asynchronous_null_refuted.

(** What holds: as long as functions return to operations on the table their handle has
    cached, nested calls do no harm.  Every operation works on a table its handle keeps, all
    earlier tables have been moved completely, and the table is never replaced by null.
    Missing for C70: functions during which the table is replaced, see above. *)
Theorem C70_asynchronous_same_table_partial :
  forall nblocks n, async_nested nblocks same_table n ->
    (forall i, y_pc (n_s n) i = AOp -> keeps (n_s n) i (n_use n i) /\ forall v, v < n_use n i -> migrated nblocks (n_s n) v) /\
    (forall i, y_pc (n_s n) i = AEnd2 -> y_next (n_s n) (y_loc (n_s n) i) = true).
Proof.
  intros nb n R. destruct (nested_inv nb n R) as [G U]. split.
  - intros i P. split; [unfold keeps; rewrite P; symmetry; now apply U|]. intros v L. rewrite (U i P) in L.
    pose proof (ai_th _ _ G i) as [T _]. destruct (ai_prev _ _ G v) as [_ (_ & D1 & D2)]; [lia|]. split; [exact D1|exact D2].
  - intros i P. pose proof (ai_th _ _ G i) as [_ T]. rewrite P in T. apply T.
Qed.
Print Assumptions C70_asynchronous_same_table_partial.

(** Two calls, one inside of the other; another thread has begun to grow the table. *)
Definition nested_run : list nlabel :=
  nago 0 4 ++ nago 1 4 ++ [NStep (YWant 1)] ++ nago 1 3 ++ [NEnter 0] ++ nago 0 1 ++ [NEnter 0] ++ nago 0 2 ++ [NLeave 0; NEnter 0; NLeave 0].
Lemma nest_nested nb (P : nst -> nlabel -> Prop) ls : forall n n', async_nested nb P n ->
  (forall pre l post n1, ls = pre ++ l :: post -> async_nest nb n pre = Some n1 -> P n1 l) ->
  async_nest nb n ls = Some n' -> async_nested nb P n'.
Proof.
  induction ls as [|l ls IH]; cbn; intros n n' R H E; [now injection E as <-|].
  destruct (async_nest1 nb n l) as [n1|] eqn:E1; [|discriminate]. apply (IH n1); auto.
  - eapply an_step; eauto. now apply (H [] l ls).
  - intros pre l1 post n2 E2 E3. apply (H (l :: pre) l1 post); [cbn; now rewrite E2|]. cbn. now rewrite E1.
Qed.

Definition leaves_well (nb : N -> N) : nst -> list nlabel -> bool :=
  fix go n ls := match ls with
  | [] => true
  | l :: ls => match l with
               | NLeave i => match n_out n i with v :: _ => v =? y_loc (n_s n) i | [] => true end
               | _ => true
               end && match async_nest1 nb n l with Some n1 => go n1 ls | None => true end
  end.
Lemma leaves_same nb ls : forall n, leaves_well nb n ls = true ->
  forall pre l post n1, ls = pre ++ l :: post -> async_nest nb n pre = Some n1 -> same_table n1 l.
Proof.
  induction ls as [|l0 ls IH]; intros n W pre l post n1 E A; [destruct pre; discriminate|].
  cbn in W. apply andb_prop in W as [W1 W2]. destruct pre as [|l1 pre]; cbn in E; injection E as <- E.
  - cbn in A. injection A as <-. destruct l0; try exact Logic.I. intros v HV. destruct (n_out n i); [discriminate|].
    cbn in HV. injection HV as <-. now apply N.eqb_eq.
  - cbn in A. destruct (async_nest1 nb n l0) as [n2|]; [|discriminate]. eapply IH; eauto.
Qed.

Example C70_nested_case :
  exists n, async_nested two same_table n /\ y_pc (n_s n) 0 = AOp /\ n_use n 0 = 0 /\ y_next (n_s n) 0 = true.
Proof.
  assert (X : exists n, async_nest two async_nest_init nested_run = Some n) by (eexists; vm_compute; reflexivity).
  destruct X as [n X]. exists n. split.
  - apply (nest_nested two same_table nested_run async_nest_init); [constructor| |exact X]. apply leaves_same. vm_compute. reflexivity.
  - vm_compute in X. injection X as <-. repeat split; vm_compute; reflexivity.
Qed.

(** Handle 0 stays inside of an operation; handle 1 replaces the table and returns. *)
Example C70_asynchronous_second_handle_case :
  exists s, async_run two async_init (repeat (YGo 0) 4 ++ repeat (YGo 1) 4 ++ [YWant 1]) = Some s /\ async_reachable two s /\ working s 0 0 /\
    aresting (aattempts two (concat (repeat [YGo 1] 40)) s) 1 /\ y_epoch (aattempts two (concat (repeat [YGo 1] 40)) s) = 1.
Proof.
  assert (X : exists s, async_run two async_init (repeat (YGo 0) 4 ++ repeat (YGo 1) 4 ++ [YWant 1]) = Some s) by (eexists; vm_compute; reflexivity).
  destruct X as [s X]. exists s. split; [exact X|]. split; [eapply arun_reachable; [constructor|exact X]|].
  vm_compute in X. injection X as <-. split; [split; vm_compute; reflexivity|]. split; [|vm_compute; reflexivity].
  vm_compute. left. reflexivity.
Qed.
