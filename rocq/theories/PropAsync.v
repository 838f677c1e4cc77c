(** C20, C21: the asynchronous growing strategy with user threads. *)
From Coq Require Import NArith Bool List Lia.
From Verif Require Import Words BaseInv Async AsyncInv AsyncSpec AsyncFacts.
Import ListNotations.
Open Scope N_scope.

(** ** C20 *)

(** An operation is executed on a table only after every block of every earlier
    table has been migrated completely. *)
Theorem C20_published_complete :
  forall nblocks s, async_reachable nblocks s ->
    forall i w, working s i w -> forall v, v < w -> migrated nblocks s v.
Proof.
  intros nb s R i w [P L] v LT. pose proof (areach_inv nb s R) as G.
  pose proof (ai_th _ _ G i) as [T _]. destruct (ai_prev _ _ G v) as [_ (_ & D1 & D2)]; [lia|].
  split; [exact D1|]. exact D2.
Qed.
Print Assumptions C20_published_complete.

(** Over every execution the versions are published in order, each once, and the
    pointer that is published is not null. *)
Theorem C20_published_once :
  forall nblocks h s, publications nblocks h s ->
    h = first_successors (length h) /\
    forall i, y_pc s i = AEnd2 -> y_next s (y_loc s i) = true.
Proof.
  intros nb h s H. split.
  - rewrite (publications_tab nb h s H) at 1. f_equal. rewrite (publications_tab nb h s H).
    unfold first_successors. now rewrite map_length, seq_length.
  - intros i E. pose proof (ai_th _ _ (areach_inv nb s (pub_reachable nb h s H)) i) as [_ T].
    rewrite E in T. apply T.
Qed.
Print Assumptions C20_published_once.

Definition go (i : N) (n : nat) : list alabel := repeat (YGo i) n.
Definition two (_ : N) : N := 2.

(** Two threads move one block each; then one of them publishes, and the other
    operates on the new table. *)
Definition grow_run : list alabel :=
  go 0 4 ++ go 1 4 ++ [YWant 0] ++ go 0 5 ++ [YInvalid 1] ++ go 1 4.
Definition grow_end : list alabel := go 1 3 ++ go 0 7 ++ go 1 6.
Example C20_case :
  (exists s, async_run two async_init grow_run = Some s /\ shifting s 0 0 0 /\ shifting s 1 0 1) /\
  (exists s, async_run two async_init (grow_run ++ grow_end) = Some s /\ working s 1 1 /\ y_tab s = 1).
Proof.
  split; eexists; (split; [vm_compute; reflexivity|]); vm_compute; auto.
Qed.

(** ** C21 *)

(** Thread 1 reads the pointer to table 1 before that version is announced; by the
    time it looks, version 2 has been announced.  Whatever happens from then on, it
    keeps waiting. *)
Theorem C21_waits_forever_refuted :
  exists s, async_reachable two s /\ awaiting s 1 1 /\
    forall s', later two s s' -> awaiting s' 1 1.
Proof.
  assert (H : exists s, async_run two async_init
     (go 0 4 ++ [YWant 0] ++ go 0 13 ++ go 1 2 ++ go 0 4 ++ [YWant 0] ++ go 0 14) = Some s /\
     awaiting s 1 1 /\ 1 < y_epoch s).
  { eexists. split; [vm_compute; reflexivity|]. split; [|vm_compute; reflexivity].
    split; [eexists; vm_compute; reflexivity|vm_compute; reflexivity]. }
  destruct H as (s & R & A & L). exists s.
  assert (RE : async_reachable two s) by (eapply arun_reachable; [apply ar_init|exact R]).
  split; [exact RE|]. split; [exact A|]. intros s' LA. eapply stuck; eauto.
Qed.
Print Assumptions C21_waits_forever_refuted.

(** In general: a thread that waits for a version other than the announced one and
    older than it waits forever. *)
Theorem C21_missed_version_refuted :
  forall nblocks s i w, async_reachable nblocks s -> awaiting s i w -> w < y_epoch s ->
    forall s', later nblocks s s' -> awaiting s' i w.
Proof. intros nb s i w R A L s' LA. eapply stuck; eauto. Qed.
Print Assumptions C21_missed_version_refuted.

(** As long as no newer version is published, the thread proceeds: either its
    version is announced and its next step ends the wait, or some thread is about to
    announce it.  Missing for C21: the case that a newer version comes first. *)
Theorem C21_proceeds_partial :
  forall nblocks s, async_reachable nblocks s ->
    forall i w, awaiting s i w ->
      w <= y_tab s /\
      (w = y_tab s ->
        (exists s', async_go nblocks s i = Some s' /\ ~ awaiting s' i w) \/
        (exists j s', y_pc s j = AEnd4 /\ async_go nblocks s j = Some s' /\ y_epoch s' = w /\
           exists s'', async_go nblocks s' i = Some s'' /\ ~ awaiting s'' i w)).
Proof.
  intros nb s R i w [[o P] L]. pose proof (areach_inv nb s R) as G.
  pose proof (ai_th _ _ G i) as [T _]. split; [lia|]. intros E.
  assert (ST : forall s1, y_pc s1 i = AWait o -> y_loc s1 i = w -> y_epoch s1 = w ->
     exists s', async_go nb s1 i = Some s' /\ ~ awaiting s' i w).
  { intros [tb ep hp nx bl mv pc lo le]. cbn. intros -> E1 E2. rewrite E1, E2, N.eqb_refl. eexists. split; [reflexivity|].
    intros [[o' H] _]. cbn in H. rewrite fupd_eq in H. destruct o; discriminate. }
  destruct (N.eq_dec (y_epoch s) w) as [EP|NE]; [left; now apply ST|right].
  pose proof (ai_ep _ _ G). destruct (ai_pub _ _ G) as [j Hj]; [lia|]. exists j.
  pose proof (ai_th _ _ G j) as [_ X]. rewrite Hj in X. destruct X as [X1 X2].
  assert (IJ : i <> j) by congruence.
  destruct s as [tb ep hp nx bl mv pc lo le]. cbn in *. rewrite Hj. eexists. split; [reflexivity|].
  split; [reflexivity|]. split; [cbn; lia|]. apply ST; cbn; [now rewrite fupd_neq|auto|lia].
Qed.
Print Assumptions C21_proceeds_partial.

(** A thread that waits while another is about to announce the version. *)
Example C21_case :
  exists s, async_run two async_init (go 0 4 ++ [YWant 0] ++ go 0 13 ++ go 1 2) = Some s /\
    awaiting s 1 1 /\ y_tab s = 1 /\ y_epoch s = 0.
Proof.
  eexists. split; [vm_compute; reflexivity|]. split; [split; [eexists|]; vm_compute; reflexivity|].
  split; vm_compute; reflexivity.
Qed.
