(** C25 - C27: the element counters of the growing table. *)
From Coq Require Import NArith ZArith List Bool Lia.
From Verif Require Import Mapper Count CountSpec CountFacts.
Import ListNotations.
Open Scope Z_scope.

(** ** C25 *)

(** If, while one table is in use, the number of elements known to the table
    passes the fill limit, then it does so by one addition, and the thread that
    made it starts a growth step, unless it found exactly the limit. *)
Theorem C25_growth_triggered_partial :
  forall lim s tr s',
    reachable lim s -> quiescent s ->
    csteps s tr s' -> one_version tr ->
    g_elems s <= g_limit s < g_elems s' ->
    exists i old ins grows,
      In (CFlush i old ins (g_limit s) grows) tr /\ old <= g_limit s < old + ins /\
      (old <> g_limit s -> grows = true).
Proof.
  intros lim s tr s' R Q ST OV C. eapply crossing; eauto using cinv_reachable.
  intros h I. destruct (Q h I) as [F _]. unfold uses. now rewrite F.
Qed.
Print Assumptions C25_growth_triggered_partial.

(** For every limit there are histories of any length in which every insertion is
    counted and no growth step is ever started: the number of elements is not
    bounded by the limit. *)
Theorem C25_never_triggered_refuted :
  forall lim n, exists tr s,
    csteps (cinit lim) tr s /\ g_limit s = lim /\ g_elems s = Z.of_nat n /\ g_inserted s = Z.of_nat n /\
    forall i old ins l g, In (CFlush i old ins l g) tr -> g = false.
Proof.
  intros lim n. destruct (visitors lim n) as (tr & ST & A). exists tr. eexists. split; [exact ST|].
  repeat split; auto.
Qed.
Print Assumptions C25_never_triggered_refuted.

(** The limit of a new table of 2^15 slots with circular probing, a handle that
    counts 22 elements beyond it and starts a growth step; and one that finds
    exactly the limit 65 and does not. *)
Example C25_case :
  thresh (2 ^ 15) = 21823 /\
  (let ks := [KNew] ++ repeat (KInsert 0) 65 ++ [KRun 0; KRun 0; KRun 0] ++ repeat (KInsert 0) 65 ++
             [KRun 0; KRun 0; KRun 0] in
   option_map fst (crun (cinit 108) ks) = Some [CFlush 0 0 65 108 false; CFlush 0 65 65 108 true] /\
   option_map fst (crun (cinit 65) ks) = Some [CFlush 0 0 65 65 false; CFlush 0 65 65 65 false]).
Proof. repeat split; vm_compute; reflexivity. Qed.

(** ** C26 *)

(** At every moment the published counters together with what the handles still
    have to publish make up the number of elements. *)
Theorem C26_conserved :
  forall lim s, reachable lim s ->
    g_elems s - g_dummies s + total owed (g_handles s) = g_inserted s - g_erased s.
Proof.
  intros lim s R. destruct (cinv_reachable _ _ R) as [_ _ _ _ _ (rem & _ & _ & _ & P3 & P4)].
  rewrite total_owed. lia.
Qed.
Print Assumptions C26_conserved.

(** Between calls a handle withholds at most 64 updates. *)
Theorem C26_withheld :
  forall lim s h, reachable lim s -> In (Some h) (g_handles s) -> at_rest h ->
    owed h = unpublished h /\ 0 <= h_ins h /\ 0 <= h_del h /\ h_ins h + h_del h <= 64.
Proof.
  intros lim s h R I [F X]. destruct (ci_h _ (cinv_reachable _ _ R) h I) as (H1 & H2 & _ & H4 & _).
  destruct (H4 F) as (H5 & H6 & _). unfold owed, unpublished. rewrite F, X. lia.
Qed.
Print Assumptions C26_withheld.

(** After all handles are destroyed the count is exact. *)
Theorem C26_exact :
  forall lim s, reachable lim s -> live (g_handles s) = 0 ->
    g_elems s - g_dummies s = g_inserted s - g_erased s.
Proof.
  intros lim s R L. pose proof (C26_conserved lim s R) as C.
  assert (Z : total owed (g_handles s) = 0); [|lia].
  revert L. clear. generalize (g_handles s) as l.
  assert (P : forall l, 0 <= live l).
  { induction l as [|[h|] l IH]; cbn [live]; lia. }
  induction l as [|[h|] l IH]; cbn [live total]; intros L; [reflexivity| |auto].
  specialize (P l). lia.
Qed.
Print Assumptions C26_exact.

(** Between calls it is off by at most 64 for each live handle. *)
Theorem C26_off_by :
  forall lim s, reachable lim s -> quiescent s ->
    Z.abs ((g_elems s - g_dummies s) - (g_inserted s - g_erased s)) <= 64 * live (g_handles s).
Proof.
  intros lim s R Q. pose proof (C26_conserved lim s R) as C.
  assert (B : forall h, In (Some h) (g_handles s) -> -64 <= owed h <= 64).
  { intros h I. destruct (C26_withheld lim s h R I (Q h I)) as (E & H). unfold unpublished in E. lia. }
  assert (K : forall l, (forall h, In (Some h) l -> -64 <= owed h <= 64) -> Z.abs (total owed l) <= 64 * live l).
  { clear. induction l as [|[h|] l IH]; cbn [total live]; intros B; [lia| |].
    - pose proof (B h (or_introl eq_refl)). specialize (IH (fun h I => B h (or_intror I))). lia.
    - apply IH. intros; apply B; now right. }
  specialize (K _ B). lia.
Qed.
Print Assumptions C26_off_by.

(** No counter leaves the range of int in the first 2^30 insertions. *)
Theorem C26_in_range :
  forall lim s, reachable lim s -> g_inserted s < 2 ^ 30 ->
    - 2 ^ 31 <= g_elems s < 2 ^ 31 /\ - 2 ^ 31 <= g_dummies s < 2 ^ 31 /\
    - 2 ^ 31 <= g_elems s - g_dummies s < 2 ^ 31.
Proof. intros lim s R L. pose proof (range lim s R). lia. Qed.
Print Assumptions C26_in_range.

(** Two handles, a move, erasures, both kinds of growth steps (one interleaved with
    a flush of the other handle) and the destruction of all handles. *)
Definition sched26 : list clabel :=
  [KNew; KNew] ++ repeat (KInsert 0) 65 ++ [KRun 0; KRun 0; KRun 0] ++ repeat (KErase 1) 40 ++
  repeat (KInsert 0) 30 ++ [KMove 0] ++ repeat (KErase 1) 25 ++ [KRun 1; KRun 1; KRun 1] ++
  repeat (KErase 1) 10 ++ [KAsync 2; KDestroy 1; KRun 1; KRun 1; KReset 2 90; KRun 1; KSync 2; KReset 2 90; KReset 2 90].

Definition counts (r : option (list cevent * cstate)) : option (Z * Z * Z * Z * Z) :=
  option_map (fun '(_, s) => (g_elems s, g_dummies s, g_inserted s, g_erased s, live (g_handles s))) r.

Example C26_case :
  counts (crun (cinit 90) sched26) = Some (-10, 0, 95, 75, 2) /\
  counts (crun (cinit 90) (sched26 ++ [KDestroy 0; KRun 0; KRun 0; KRun 0; KDestroy 2; KRun 2; KRun 2; KRun 2])) =
    Some (20, 0, 95, 75, 0).
Proof. split; vm_compute; reflexivity. Qed.

(** ** C27 *)

(** If the difference of the two loaded counters is not negative then the answer
    is at most the number of successful insertions at the end of the call,
    whatever happens between the two loads and in whichever order they are made. *)
Theorem C27_count_partial :
  forall lim sa tr sb s1 s2,
    reachable lim sa -> csteps sa tr sb ->
    (s1 = sa /\ s2 = sb \/ s1 = sb /\ s2 = sa) ->
    g_inserted sb < 2 ^ 30 ->
    g_dummies s2 <= g_elems s1 ->
    element_count_approx s1 s2 <= g_inserted sb.
Proof.
  intros lim sa tr sb s1 s2 R ST C L D. pose proof (inserted_mono _ _ _ ST) as M.
  assert (Rb : reachable lim sb) by (destruct R as [tr0 R]; eexists; eapply csteps_app; eauto).
  pose proof (range _ _ R). pose proof (range _ _ Rb).
  unfold element_count_approx. rewrite Z.mod_small; destruct C as [[-> ->]|[-> ->]]; lia.
Qed.
Print Assumptions C27_count_partial.

(** That is always so if nothing has been erased. *)
Theorem C27_no_erasures :
  forall lim sa tr sb s1 s2,
    reachable lim sa -> csteps sa tr sb ->
    (s1 = sa /\ s2 = sb \/ s1 = sb /\ s2 = sa) ->
    g_inserted sb < 2 ^ 30 -> g_erased sb = 0 ->
    element_count_approx s1 s2 <= g_inserted sb.
Proof.
  intros lim sa tr sb s1 s2 R ST C L E.
  assert (Rb : reachable lim sb) by (destruct R as [tr0 R]; eexists; eapply csteps_app; eauto).
  assert (M : g_erased sa <= g_erased sb).
  { clear - ST. induction ST as [|x1 x2 x3 tr H _ IH|x1 e x2 x3 tr H _ IH]; [lia| |];
      (etransitivity; [|exact IH]); destruct H; cbn; lia. }
  apply (C27_count_partial lim sa tr sb s1 s2 R ST C L).
  pose proof (range _ _ R). pose proof (range _ _ Rb). destruct C as [[-> ->]|[-> ->]]; lia.
Qed.
Print Assumptions C27_no_erasures.

(** Otherwise the answer can be about 2^64: two handles insert 65 elements and
    have not published them, a third one erases them and has. *)
Theorem C27_count_refuted :
  exists lim s, reachable lim s /\ quiescent s /\ g_inserted s = 65 /\ element_count_approx s s = 2 ^ 64 - 65.
Proof.
  pose (ks := [KNew; KNew; KNew] ++ repeat (KInsert 0) 64 ++ [KInsert 1] ++ repeat (KErase 2) 65 ++ [KRun 2; KRun 2; KRun 2]).
  destruct (crun (cinit 1000) ks) as [[tr s]|] eqn:E; [|vm_compute in E; discriminate].
  exists 1000, s. split; [exists tr; now apply crun_sound in E|].
  vm_compute in E. injection E as _ <-.
  split; [|split; reflexivity].
  intros h I. repeat destruct I as [[= <-]|I]; try (split; reflexivity). contradiction.
Qed.
Print Assumptions C27_count_refuted.
