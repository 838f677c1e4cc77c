(** C71: replaced tables are freed. *)
From Coq Require Import NArith Bool List Lia.
From Verif Require Import Words BaseInv Sync SyncSpec SyncInv SyncEndSpec Async AsyncInv AsyncSpec Reclaim ReclaimFacts.
Import ListNotations.
Open Scope N_scope.

(** ** Asynchronous growing *)

(** No step of any thread touches a table that has been freed. *)
Theorem C71_no_use_after_free :
  forall nblocks q, q_reachable nblocks q -> forall i v, accesses q i v -> q_frees q v = 0.
Proof. intros nb q R i v. apply (accessed_kept nb), q_reach_inv, R. Qed.
Print Assumptions C71_no_use_after_free.

(** No table is freed twice. *)
Theorem C71_no_double_free :
  forall nblocks q, q_reachable nblocks q -> forall v, q_frees q v <= 1.
Proof. intros nb q R v. rewrite (qi_free nb q (q_reach_inv nb q R)). destruct (_ && _); lia. Qed.
Print Assumptions C71_no_double_free.

(** Between calls exactly those tables have been freed that have been replaced, that no
    handle has cached, and that no handle had cached when it was destroyed. *)
Theorem C71_freed_at_rest_partial :
  forall nblocks q, q_reachable nblocks q -> all_rest q -> forall v,
    q_frees q v = 1 <-> v < y_tab (q_s q) /\ (forall i, ~ has_cached q i v) /\ q_lost q v = 0.
Proof.
  intros nb q R AR v. pose proof (q_reach_inv nb q R) as Q. split.
  - intros F. split; [|split].
    + destruct (N.lt_ge_cases v (y_tab (q_s q))) as [|GE]; auto. destruct (cur_free nb q v Q GE). lia.
    + intros i [P L]. assert (X : In v (held_by q i)) by (unfold held_by; rewrite P, L; now left). apply (held_kept nb q i v Q) in X. lia.
    + destruct (N.eq_dec (q_lost q v) 0) as [|NE]; auto. pose proof (lost_kept nb q v Q). lia.
  - intros (L & NC & Z). apply (unused_freed nb q v Q L Z). intros i I. unfold held_by in I.
    destruct (AR i) as [P|P]; rewrite P in I; [destruct I|]. destruct I as [I|[]]. now apply (NC i).
Qed.
Print Assumptions C71_freed_at_rest_partial.

(** The table a handle has cached when it is destroyed is never freed. *)
Theorem C71_destroyed_handle_keeps_table :
  forall nblocks q i v q1 q2, q_reachable nblocks q -> has_cached q i v ->
    q_run1 nblocks q (YDestroy i) = Some q1 -> q_after nblocks q1 q2 -> q_frees q2 v = 0.
Proof.
  intros nb q i v q1 q2 R [P L] D A. pose proof (q_reach_inv nb q R) as Q. pose proof (q_step_inv nb _ _ _ Q D) as Q1.
  apply (lost_kept nb); [exact (q_after_inv nb q1 q2 Q1 A)|].
  pose proof (lost_mono nb q1 q2 v A) as M. enough (0 < q_lost q1 v) by lia.
  destruct q as [s c m f td lo]. cbn in D, P, L. rewrite P in D. injection D as <-. cbn. rewrite L, fupd_eq. lia.
Qed.
Print Assumptions C71_destroyed_handle_keeps_table.

(** So a table may be replaced, be cached by no handle, and stay allocated forever: a
    handle is made and destroyed, another one grows the table. *)
Definition two (v : N) : N := 2.
Definition runs (i : N) (n : nat) : list alabel := repeat (YGo i) n.
Definition leak_run : list alabel := runs 0 3 ++ [YDestroy 0] ++ runs 1 4 ++ [YWant 1] ++ runs 1 21.
Theorem C71_replaced_tables_are_freed_refuted :
  exists q, q_reachable two q /\ all_rest q /\ 0 < y_tab (q_s q) /\ (forall i, ~ has_cached q i 0) /\
    forall q', q_after two q q' -> q_frees q' 0 = 0.
Proof.
  assert (X : exists q, q_run two q_init leak_run = Some q) by (eexists; vm_compute; reflexivity).
  destruct X as [q X]. assert (R : q_reachable two q) by (exists leak_run; exact X). exists q. split; [exact R|].
  assert (Z : all_rest q /\ 0 < y_tab (q_s q) /\ (forall i, ~ has_cached q i 0) /\ q_lost q 0 = 1).
  { clear R. vm_compute in X. injection X as <-. split; [|split; [|split; [|reflexivity]]].
    - intros [|[[]|[]|]]; cbn; auto.
    - reflexivity.
    - intros [|[[]|[]|]] [P L]; vm_compute in P, L; discriminate. }
  destruct Z as (Z1 & Z2 & Z3 & Z4). split; [exact Z1|]. split; [exact Z2|]. split; [exact Z3|]. intros q' A.
  apply (lost_kept two); [exact (q_after_inv two q q' (q_reach_inv two q R) A)|]. pose proof (lost_mono two q q' 0 A). lia.
Qed.
Print Assumptions C71_replaced_tables_are_freed_refuted.

(** The model with counters has the executions of the strategy and no others. *)
Theorem C71_same_executions :
  forall nblocks, (forall q, q_reachable nblocks q -> async_reachable nblocks (q_s q)) /\
    forall s, async_reachable nblocks s -> exists q, q_reachable nblocks q /\ q_s q = s.
Proof.
  intros nb. split; [apply q_reach_async|]. intros s R.
  enough (exists q, q_reachable nb q /\ q_s q = s /\ forall i, q_todo q i = []) as (q & A & B & _) by (exists q; auto).
  induction R as [|s s' R (q & [ls RQ] & ES & TD) [l ST]].
  { exists q_init. split; [exists []; reflexivity|]. split; reflexivity. }
  assert (RA : forall ls q0 q1, q_run nb q_init ls = Some q0 -> forall ls', q_run nb q0 ls' = Some q1 -> q_reachable nb q1).
  { intros l1 q0 q1 A l2 B. exists (l1 ++ l2). revert A. generalize q_init. induction l1 as [|x l1 IH]; cbn; intros z A; [now injection A as ->|].
    destruct (q_run1 nb z x); [|discriminate]. now apply IH. }
  (* all calls of the reclamation that are due *)
  assert (DO : forall n i q0, length (q_todo q0 i) = n -> (forall j, j <> i -> q_todo q0 j = []) ->
    exists q1, q_run nb q0 (runs i n) = Some q1 /\ q_s q1 = q_s q0 /\ forall j, q_todo q1 j = []).
  { induction n as [|n IH]; intros i [s0 c m f td lo] L O; cbn in *.
    - eexists. split; [reflexivity|]. split; [reflexivity|]. intros j. destruct (N.eq_dec j i) as [->|NE]; [|now apply O].
      cbn. now destruct (td i).
    - destruct (td i) as [|t ts]; [discriminate|]. injection L as L.
      destruct (IH i (q_do (QSt s0 c m f (fupd td i ts) lo) t)) as (q1 & A & B & C).
      + destruct t; cbn; now rewrite fupd_eq.
      + intros j NE. destruct t; cbn; rewrite fupd_neq by auto; now apply O.
      + exists q1. split; [exact A|]. split; [|exact C]. rewrite B. now destruct t. }
  destruct q as [s0 c m f td lo]. cbn in ES, TD. subst s0.
  destruct l as [i|i|i|i]; cbn in ST.
  - set (q1 := let q' := QSt s' c m f (fupd td i (todo_after s i)) lo in match prot_now s i with Some v => q_do q' (DProt v) | None => q' end).
    assert (S1 : q_run1 nb (QSt s c m f td lo) (YGo i) = Some q1) by (cbn; now rewrite (TD i), ST).
    assert (T1 : q_todo q1 = fupd td i (todo_after s i) /\ q_s q1 = s') by (unfold q1; destruct (prot_now s i); auto). destruct T1 as [T1 T2].
    destruct (DO _ i q1 eq_refl) as (q2 & A & B & C). { intros j NE. rewrite T1, fupd_neq by auto. apply TD. }
    exists q2. split; [|split; [congruence|exact C]]. eapply RA with (ls' := YGo i :: _); [exact RQ|]. cbn [q_run]. rewrite S1. exact A.
  - exists (QSt s' c m f td lo). split; [|split; auto]. eapply RA with (ls' := [YWant i]); [exact RQ|]. cbn. now rewrite ST.
  - exists (QSt s' c m f td lo). split; [|split; auto]. eapply RA with (ls' := [YInvalid i]); [exact RQ|]. cbn. now rewrite ST.
  - exists (QSt s' c m f td (fupd lo (y_loc s i) (lo (y_loc s i) + 1))). split; [|split; auto]. eapply RA with (ls' := [YDestroy i]); [exact RQ|]. cbn. now rewrite ST.
Qed.
Print Assumptions C71_same_executions.

(** A handle grows the table twice while another one keeps using nothing: the first table
    stays for the other handle, the second one has been freed. *)
Definition grow_again : list alabel := [YWant 1] ++ runs 1 21 ++ runs 1 1.
Example C71_case :
  exists q, q_run two q_init (runs 0 3 ++ runs 1 4 ++ grow_again ++ grow_again ++ runs 1 1) = Some q /\ all_rest q /\
    y_tab (q_s q) = 2 /\ has_cached q 0 0 /\ has_cached q 1 2 /\ q_frees q 0 = 0 /\ q_frees q 1 = 1 /\ q_lost q 0 = 0.
Proof.
  eexists. split; [vm_compute; reflexivity|]. split; [intros [|[[]|[]|]]; cbn; auto|]. repeat split; vm_compute; reflexivity.
Qed.

(** ** Synchronised growing *)

(** A table is deleted by one thread, once; when no call is in progress exactly the tables
    that have been replaced have been deleted.  (Also with store buffers.) *)
Theorem C71_synchronised :
  forall tso nblocks slot s, own_flags slot -> sync_reachable tso nblocks slot s ->
    (forall i v, s_pc s i = PDelete v -> s_deleted s v = false /\ forall j, s_pc s j = PDelete v -> j = i) /\
    ((forall i, resting s i) -> exists c, s_tab s = TTab c /\ forall v, s_deleted s v = true <-> v < c).
Proof.
  intros tso nb sl s INJ R. pose proof (reach_dinv tso nb sl INJ s R) as [D1 D2 D3].
  destruct (reach_inv tso nb sl INJ s R) as (c & o & G). split.
  - intros i v P. split; [now apply (D1 i)|]. intros j PJ. now apply (D2 j i v).
  - intros RS. assert (T : s_tab s = TTab c).
    { pose proof (gi_org _ _ _ _ _ _ G) as X. destruct o as [t|]; [|apply X]. destruct X as [X _]. destruct (RS t) as [Y _].
      destruct (s_pc s t); discriminate. }
    exists c. split; [exact T|]. intros v. split; [apply (gi_del _ _ _ _ _ _ G)|]. intros L.
    destruct (D3 v) as [|[i P]]; [unfold version; rewrite T; exact L|auto|]. destruct (RS i) as [X _]. rewrite P in X. discriminate.
Qed.
Print Assumptions C71_synchronised.

Definition self (i : N) : N := i.
Example C71_synchronised_case :
  exists s, sync_run false two self sync_init (repeat (SGo 0) 6 ++ [SWant 0] ++ repeat (SGo 0) 24) = Some s /\
    (forall i, resting s i) /\ s_tab s = TTab 1 /\ s_deleted s 0 = true.
Proof.
  eexists. split; [vm_compute; reflexivity|]. split; [intros [|[[]|[]|]]; split; vm_compute; reflexivity|]. split; vm_compute; reflexivity.
Qed.
