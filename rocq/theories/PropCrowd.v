(** C79, C80: several threads and a growing table, with the counters that decide when it grows. *)
From Coq Require Import NArith ZArith Bool List Lia.
From Verif Require Import Words Slot SlotFacts Mapper MapperFacts ReturnCode MapSpec LinSpec HistSpec TraceSpec TraceFacts
  Base BaseInv BaseLin BaseExec TableSpec BaseFacts Migrate MigrateExec Growing GrowingSpec GrowingInv GrowingFacts
  Count GrowOom OneHandle OneHandleSpec OneHandleExec Crowd CrowdSpec CrowdExec CrowdFacts CrowdCount CrowdLive CrowdEnds.
Import ListNotations.
Open Scope N_scope.

(** ** C79 *)

(** Linear probing, synchronised growing: no restriction on executions. *)
Theorem C79_linear_probing :
  forall sc hash lg B n (client : op -> Prop),
    cell_type sc -> fair sc client -> 1 <= lg <= 63 -> 0 < B <= 2 ^ 31 ->
    let c := TCfg sc (MCfg false false) hash in
    let step := crowd_step true c B n client in
    linearizable (mspec false false) step (ksys_init c lg) amap_empty /\
    keeps_keys step (ksys_init c lg) /\ keeps_values step (ksys_init c lg) /\ one_winner step (ksys_init c lg).
Proof.
  intros sc hash lg B n client CT FR LG HB c step. pose proof (cell_type_wf _ CT) as W.
  assert (L : linearizable (mspec false false) step (ksys_init c lg) amap_empty).
  { intros tr s ST. apply (roomy_linearizable true c B n client W (fair_ok _ _ W FR) (or_introl eq_refl) HB lg LG ltac:(discriminate) tr s).
    clear -ST. induction ST; [constructor|eapply ls_tau|eapply ls_vis]; eauto; (split; [eassumption|]; split; [|discriminate]; intros X; discriminate). }
  sp; [exact L|eapply lin_keys; exact L|eapply lin_values; exact L|eapply lin_winner; exact L].
Qed.
Print Assumptions C79_linear_probing.

(** Both strategies and all configurations for which a single growth step is exact, if the table has a vacant
    cell whenever a growth step ends (and asynchronous growing: marking cells, nothing changes between load
    and mark, C18). *)
Theorem C79_with_room_partial :
  forall (sync : bool) sc mc hash lg B n (client : op -> Prop),
    cell_type sc -> fair sc client -> (cmap mc = false \/ cprob mc = true) -> (sync = false -> sc_mark sc = true) ->
    1 <= lg <= 63 -> 0 < B <= 2 ^ 31 ->
    let c := TCfg sc mc hash in
    let step := roomy_step sync c B n client in
    linearizable (mspec false false) step (ksys_init c lg) amap_empty /\
    keeps_keys step (ksys_init c lg) /\ keeps_values step (ksys_init c lg) /\ one_winner step (ksys_init c lg).
Proof.
  intros sync sc mc hash lg B n client CT FR CF SM LG HB c step. pose proof (cell_type_wf _ CT) as W.
  assert (L : linearizable (mspec false false) step (ksys_init c lg) amap_empty)
    by (apply (roomy_linearizable sync c B n client W (fair_ok _ _ W FR) CF HB lg LG SM)).
  sp; [exact L|eapply lin_keys; exact L|eapply lin_values; exact L|eapply lin_winner; exact L].
Qed.
Print Assumptions C79_with_room_partial.

(** Circular probing, synchronised growing, nothing is erased, at most one thread per 217 slots: the vacant
    cell is always there if no call begins to use the table between the moment when a thread has found it
    too full and the moment when this thread has closed it. *)
Theorem C79_closed_at_once_partial :
  forall sc cm hash lg B n (client : op -> Prop),
    cell_type sc -> fair sc client -> (forall o, client o -> ~ erasing o) ->
    9 <= lg <= 32 -> 217 * n <= 2 ^ lg -> 0 < B <= 2 ^ 31 ->
    let c := TCfg sc (MCfg cm true) hash in
    let step := closed_step true c B n client in
    linearizable (mspec false false) step (ksys_init c lg) amap_empty /\
    keeps_keys step (ksys_init c lg) /\ keeps_values step (ksys_init c lg) /\ one_winner step (ksys_init c lg) /\
    forall tr s, lts_steps step (ksys_init c lg) tr s ->
      exists p, vacant sc (total_slots (tmc c) (gmap (k_g s) (gver (k_g s)))) (gmem (k_g s) (gver (k_g s))) p.
Proof.
  intros sc cm hash lg B n client CT FR NE LG NL HB c step. pose proof (cell_type_wf _ CT) as W.
  pose proof (fair_ok _ _ W FR) as CO.
  assert (NLZ : (217 * Z.of_N n <= 2 ^ Z.of_N lg)%Z).
  { apply N2Z.inj_le in NL. rewrite N2Z.inj_mul, N2Z.inj_pow in NL. exact NL. }
  assert (CS : forall tr s, lts_steps step (ksys_init c lg) tr s ->
     lts_steps (roomy_step true c B n client) (ksys_init c lg) tr s /\ cinv c n client s).
  { intros tr s ST. eapply (closed_steps c B n client W CO NE eq_refl HB); eauto.
    - apply kwf_init.
    - apply (ginit_rel c B client W lg). lia.
    - apply (cinv_init c B n client W HB lg); auto. }
  assert (L : linearizable (mspec false false) step (ksys_init c lg) amap_empty).
  { intros tr s ST. apply CS in ST. destruct ST as [ST _].
    now apply (roomy_linearizable true c B n client W CO (or_intror eq_refl) HB lg ltac:(lia) ltac:(discriminate) tr s). }
  sp; [exact L|eapply lin_keys; exact L|eapply lin_values; exact L|eapply lin_winner; exact L|].
  intros tr s ST. destruct (CS tr s ST) as [RS I].
  destruct (roomy_sim true c B n client W CO (or_intror eq_refl) HB _ _ _ _ (kwf_init true c n lg) ltac:(discriminate)
     (ginit_rel c B client W lg ltac:(lia)) RS) as (x & _ & R & _).
  eapply cinv_vacant; eauto.
Qed.
Print Assumptions C79_closed_at_once_partial.

Definition c79 : tcfg := TCfg (simple_slot true) (MCfg true true) (fun k => k).
Definition client79 (o : op) : Prop := match o with OInsert k _ | OFind k => 0 < k < 1000 | _ => False end.

(** Two threads, 512 slots.  Thread 0 inserts 390 elements; with the last one it finds that the table is too full,
    but before it closes the table, thread 1 inserts 122 more. *)
Definition fill79 : list clabel :=
  map (fun k => CCall 0 (OInsert k k)) (nrange 1 389) ++ [CBegin 0 (OInsert 390 390)] ++
  map (fun k => CCall 1 (OInsert k k)) (nrange 391 122).
(** Then the table grows, and thread 1 looks for the first element. *)
Definition l79 : list clabel := fill79 ++ [CFinish 0; CInv 1 (OFind 1); CGo 1 2].

Definition acks (tr : list (event mop mres)) : nat := length (filter (fun e => match e with ERet _ RInserted => true | _ => false end) tr).
Definition head79 (tr : list (event mop mres)) : option (list (event mop mres)) :=
  match tr with
  | EInv a (MInsert b d) :: ERet a' RInserted :: tr' => if (a =? 0) && (b =? 1) && (d =? 1) && (a' =? 0) then Some tr' else None
  | _ => None
  end.
Definition last79 (tr : list (event mop mres)) : bool :=
  match tr with [EInv a (MFind b)] => (a =? 1) && (b =? 1) | _ => false end.

Lemma head79_sound tr tr' : head79 tr = Some tr' -> tr = EInv 0 (MInsert 1 1) :: ERet 0 RInserted :: tr'.
Proof.
  destruct tr as [|[a o|] [|[|a' r] tr]]; cbn; try discriminate; try (destruct o; discriminate).
  destruct o; try discriminate. destruct r; try discriminate.
  destruct ((a =? 0) && (k =? 1) && (d =? 1) && (a' =? 0)) eqn:E; [|discriminate]. intros [= <-].
  repeat (apply andb_prop in E; let X := fresh in destruct E as [E X]; apply N.eqb_eq in X). apply N.eqb_eq in E. now subst.
Qed.
Lemma last79_sound tr : last79 tr = true -> tr = [EInv 1 (MFind 1)].
Proof.
  destruct tr as [|[a o|] [|]]; cbn; try discriminate; destruct o; try discriminate.
  intros H. apply andb_prop in H. rewrite !N.eqb_eq in H. destruct H as [-> ->]. reflexivity.
Qed.

Definition lost79 (s : ksys) : bool :=
  (gver (k_g s) =? 1) && (total_slots (tmc c79) (gmap (k_g s) 1) =? 1024) && forallb (fun i => match gmem (k_g s) 1 i with None => true | Some _ => false end) (nrange 0 1024) &&
  match gthr (k_g s) 1 with Some (OFind k, GRun u PBad) => (k =? 1) && (u =? 1) | _ => false end.

Definition check79 (sync : bool) : bool :=
  match crowd_run sync c79 4096 2 3000 (ksys_init c79 9) l79 with
  | Some (tr, s) => match head79 tr with
                    | Some tr' => last79 (skipn (length tr' - 1) tr') && Nat.eqb (acks tr) 512 && lost79 s
                    | None => false
                    end
  | None => false
  end.

Lemma client79_ok : legal (simple_slot true) client79 /\ (forall o, client79 o -> ~ erasing o) /\ fair (simple_slot true) client79.
Proof.
  assert (A : legal (simple_slot true) client79).
  { intros o C. destruct o; try contradiction; cbn in C; (split; [|exact Logic.I]); unfold user_key; cbn [op_key simple_slot sc_mark sc_w];
      change (2 ^ (64 - 1)) with 9223372036854775808; lia. }
  split; [exact A|]. split; [intros o C; destruct o; try contradiction; cbn; auto|]. split; [exact A|now left].
Qed.

Lemma in_fill o : In o (clops fill79) -> client79 o.
Proof.
  unfold fill79, clops. rewrite !flat_map_app, !in_app_iff. intros [H|[H|H]].
  - apply in_flat_map in H. destruct H as (l & Hl & Ho). apply in_map_iff in Hl. destruct Hl as (k & <- & Hk). apply in_nrange in Hk.
    destruct Ho as [<-|[]]. cbn. lia.
  - destruct H as [<-|[]]. cbn. lia.
  - apply in_flat_map in H. destruct H as (l & Hl & Ho). apply in_map_iff in Hl. destruct Hl as (k & <- & Hk). apply in_nrange in Hk.
    destruct Ho as [<-|[]]. cbn. lia.
Qed.
Lemma in_l79 o : In o (clops l79) -> client79 o.
Proof.
  unfold l79, clops. rewrite flat_map_app, in_app_iff. intros [H|H]; [now apply in_fill|]. destruct H as [<-|[]]. cbn. lia.
Qed.

(** Both strategies: 512 insertions have been acknowledged, nothing has been erased; after the growth step no cell of the table
    has been written, and the lookup of the first element reads such a cell. *)
Theorem C79_elements_are_found_refuted :
  forall sync : bool, exists tr s,
    fair (simple_slot true) client79 /\ (forall o, client79 o -> ~ erasing o) /\
    lts_steps (crowd_step sync c79 4096 2 client79) (ksys_init c79 9) (EInv 0 (MInsert 1 1) :: ERet 0 RInserted :: tr ++ [EInv 1 (MFind 1)]) s /\
    acks (ERet 0 RInserted :: tr) = 512%nat /\
    let g := k_g s in
    (forall i, i < total_slots (tmc c79) (gmap g (gver g)) -> gmem g (gver g) i = None) /\
    gthr g 1 = Some (OFind 1, GRun (gver g) PBad).
Proof.
  intros sync. assert (X : check79 sync = true) by (destruct sync; vm_compute; reflexivity).
  unfold check79 in X. destruct (crowd_run sync c79 4096 2 3000 (ksys_init c79 9) l79) as [[tr s]|] eqn:E; [|discriminate].
  apply (crowd_run_sound sync c79 4096 2 client79 3000 l79 _ _ _ in_l79) in E.
  destruct (head79 tr) as [tr'|] eqn:H; [|discriminate]. apply head79_sound in H. subst tr.
  apply andb_prop in X. destruct X as [X L]. apply andb_prop in X. destruct X as [X A]. apply last79_sound in X. apply Nat.eqb_eq in A.
  assert (TR : tr' = firstn (length tr' - 1) tr' ++ [EInv 1 (MFind 1)]) by (rewrite <- X; symmetry; apply firstn_skipn).
  set (tr := firstn (length tr' - 1) tr') in *. clearbody tr. subst tr'.
  exists tr, s. split; [apply client79_ok|]. split; [apply client79_ok|]. split; [exact E|].
  split. { unfold acks in *. cbn [filter] in *. rewrite filter_app in A. cbn [filter app] in A. rewrite app_nil_r in A. exact A. }
  unfold lost79 in L. apply andb_prop in L. destruct L as [L T]. apply andb_prop in L. destruct L as [L F].
  apply andb_prop in L. destruct L as [V TS]. apply N.eqb_eq in V, TS. cbn zeta. rewrite V. split.
  - intros i Hi. rewrite TS in Hi. rewrite forallb_forall in F. specialize (F i). rewrite in_nrange in F. specialize (F ltac:(lia)).
    destruct (gmem (k_g s) 1 i); [discriminate|reflexivity].
  - destruct (gthr (k_g s) 1) as [[[| | | |k| |] [|u [| | | | |]]]|]; try discriminate. apply andb_prop in T. rewrite !N.eqb_eq in T.
    destruct T as [-> ->]. reflexivity.
Qed.
Print Assumptions C79_elements_are_found_refuted.

(** A case of C79: both threads use the table when thread 0 finds it too full; it waits for thread 1, the table grows,
    and both threads find what the other one has inserted. *)
Definition l79b : list clabel :=
  map (fun k => CCall 0 (OInsert k k)) (nrange 1 389) ++
  [CInv 1 (OInsert 391 7); CGo 1 2; CBegin 0 (OInsert 390 390)].
Definition l79c : list clabel := [CFinish 1; CFinish 0; CCall 1 (OFind 1); CCall 0 (OFind 391)].

Definition tail79 (tr : list (event mop mres)) : bool :=
  match tr with
  | [ERet a RInserted; ERet b RInserted; EInv d (MFind k); ERet e (RFound x); EInv f (MFind l); ERet g (RFound y)] =>
      (a =? 1) && (b =? 0) && (d =? 1) && (k =? 1) && (e =? 1) && (x =? 1) && (f =? 0) && (l =? 391) && (g =? 0) && (y =? 7)
  | _ => false
  end.
Lemma tail79_sound tr : tail79 tr = true ->
  tr = [ERet 1 RInserted; ERet 0 RInserted; EInv 1 (MFind 1); ERet 1 (RFound 1); EInv 0 (MFind 391); ERet 0 (RFound 7)].
Proof.
  unfold tail79. intros H.
  repeat match type of H with context [match ?x with _ => _ end] => is_var x; destruct x; try discriminate end.
  rewrite !andb_true_iff, !N.eqb_eq in H. repeat match goal with H : _ /\ _ |- _ => destruct H end. now subst.
Qed.

Lemma in_l79b o : In o (clops l79b) -> client79 o.
Proof.
  unfold l79b, clops. rewrite flat_map_app, in_app_iff. intros [H|H].
  - apply in_flat_map in H. destruct H as (l & Hl & Ho). apply in_map_iff in Hl. destruct Hl as (k & <- & Hk). apply in_nrange in Hk.
    destruct Ho as [<-|[]]. cbn. lia.
  - cbn in H. repeat destruct H as [<-|H]; try (cbn; lia).
Qed.
Lemma in_l79c o : In o (clops l79c) -> client79 o.
Proof. cbn. intros H. repeat destruct H as [<-|H]; try (cbn; lia). Qed.

Definition busy79 (s : ksys) : bool :=
  match gthr (k_g s) 0, gthr (k_g s) 1, k_ph s 0 with Some _, Some _, KWant u _ => u =? gver (k_g s) | _, _, _ => false end.

Lemma run79 : exists tr1 s1 s,
  lts_steps (closed_step true c79 4096 2 client79) (ksys_init c79 9) tr1 s1 /\
  (gthr (k_g s1) 0 <> None /\ gthr (k_g s1) 1 <> None /\ wanted 2 s1) /\
  lts_steps (closed_step true c79 4096 2 client79) s1
    [ERet 1 RInserted; ERet 0 RInserted; EInv 1 (MFind 1); ERet 1 (RFound 1); EInv 0 (MFind 391); ERet 0 (RFound 7)] s /\
  gver (k_g s) = 1.
Proof.
  assert (X : match closed_run true c79 4096 2 3000 (ksys_init c79 9) l79b with
              | Some (_, s1) => busy79 s1 && match closed_run true c79 4096 2 3000 s1 l79c with
                 | Some (tr, s) => tail79 tr && (gver (k_g s) =? 1) | None => false end
              | None => false end = true) by (vm_compute; reflexivity).
  destruct (closed_run true c79 4096 2 3000 (ksys_init c79 9) l79b) as [[tr1 s1]|] eqn:E; [|discriminate].
  apply andb_prop in X. destruct X as [BY X].
  destruct (closed_run true c79 4096 2 3000 s1 l79c) as [[tr s]|] eqn:E2; [|discriminate].
  apply (closed_run_sound true c79 4096 2 client79 3000 l79b _ _ _ in_l79b) in E.
  apply (closed_run_sound true c79 4096 2 client79 3000 l79c _ _ _ in_l79c) in E2.
  apply andb_prop in X. destruct X as [X V]. apply tail79_sound in X. apply N.eqb_eq in V. subst tr.
  exists tr1, s1, s. split; [exact E|]. split; [|split; [exact E2|exact V]].
  unfold busy79 in BY. destruct (gthr (k_g s1) 0); [|discriminate]. destruct (gthr (k_g s1) 1); [|discriminate].
  destruct (k_ph s1 0) as [|u w|] eqn:P; try discriminate. apply N.eqb_eq in BY. subst u.
  split; [discriminate|]. split; [discriminate|]. exists 0, w. split; [reflexivity|exact P].
Qed.

Example C79_case : exists tr s,
  fair (simple_slot true) client79 /\ (forall o, client79 o -> ~ erasing o) /\ cell_type (simple_slot true) /\ 217 * 2 <= 2 ^ 9 /\
  lts_steps (closed_step true c79 4096 2 client79) (ksys_init c79 9)
    (tr ++ [ERet 1 RInserted; ERet 0 RInserted; EInv 1 (MFind 1); ERet 1 (RFound 1); EInv 0 (MFind 391); ERet 0 (RFound 7)]) s /\
  gver (k_g s) = 1.
Proof.
  destruct run79 as (tr1 & s1 & s & E & _ & E2 & V).
  exists tr1, s. split; [apply client79_ok|]. split; [apply client79_ok|]. split; [exists true; now left|].
  split; [discriminate|]. split; [|exact V]. eapply steps_app; eauto.
Qed.

(** ** C80 *)

(** Thread 1 goes round a table all of whose cells are used; thread 0 waits until no call uses the table. *)
Section Stuck.
Context (c : tcfg) (B : N) (client : op -> Prop).

Definition stuck80 (v : N) (mp : N -> mapper) (t : mem) (k d : N) (s : ksys) : Prop :=
  exists me th e du l p i w o, s = KSys (GSys v mp me None th) e du l p /\ me v = t /\ th 1 = Some (OInsert k d, GRun v (PLoad i)) /\
    p 1 = KCall /\ p 0 = KWant v w /\ th 0 = Some o.

Lemma stuck_step v mp t k d s l s' :
  (forall q, q < total_slots (tmc c) (mp v) -> busy c k (t q) = true) ->
  (forall i, remap (tmc c) (mp v) i < total_slots (tmc c) (mp v)) ->
  stuck80 v mp t k d s -> crowd_step true c B 2 client s l s' -> l = None /\ stuck80 v mp t k d s'.
Proof.
  intros BZ RM (me & th & e & du & lc & p & i & w & o & -> & <- & T1 & P1 & P0 & T0) ST.
  assert (TT : forall t, t < 2 -> t = 0 \/ t = 1) by (intros; lia).
  inversion ST; subst;
    try (match goal with H : ?t < 2 |- _ => destruct (TT t H); subst t end; congruence);
    try (match goal with H : ?t < 2 |- _ => destruct (TT t H); subst t end; try congruence;
         match goal with H : th 1 = Some (_, GRun _ _) |- _ => rewrite T1 in H; injection H as <- <- <- end).
  - match goal with H : bstep _ _ _ _ _ _ = _ |- _ => rename H into BS end.
    cbn [bstep] in BS. unfold rd in BS. specialize (RM i). specialize (BZ _ RM).
    destruct (N.ltb_spec (remap (tmc c) (mp v) i) (total_slots (tmc c) (mp v))); [|lia].
    destruct (me v (remap (tmc c) (mp v) i)) as [y|] eqn:Y; [|discriminate].
    cbn [busy] in BZ. apply andb_prop in BZ. destruct BZ as [BZ B3]. apply andb_prop in BZ. destruct BZ as [B1 B2].
    apply negb_true_iff in B1, B2, B3. cbn [after_load] in BS. rewrite B1, B2, B3 in BS. injection BS as <- <-.
    split; auto. eexists _, _, _, _, _, _, (i + 1), w, o. split; [reflexivity|]. rewrite !fupd_eq. rewrite fupd_neq by lia. auto 10.
  - exfalso. match goal with H : true = true -> no_operation 2 th |- _ => specialize (H eq_refl 1 ltac:(lia)); rewrite T1 in H; destruct H; discriminate end.
  - exfalso. match goal with H : t < 2 |- _ => destruct (TT t H); subst t end; [|congruence].
    match goal with H : p 0 = KWant u _ |- _ => rewrite P0 in H; injection H as <- <- end.
    match goal with H : _ \/ _ |- _ => destruct H; congruence end.
Qed.
End Stuck.

Definition l80 : list clabel := fill79 ++ [CInv 1 (OInsert 513 1); CGo 1 1].

Definition full80 (s : ksys) : bool :=
  match s with
  | KSys (GSys v mp me None th) _ _ _ p =>
      match th 0, th 1, p 0, p 1 with
      | Some _, Some (OInsert k d, GRun u (PLoad _)), KWant w _, KCall =>
          (k =? 513) && (d =? 1) && (u =? v) && (w =? v) && (probe_helper (mp v) =? 511) && forallb (fun q => busy c79 k (me v q)) (nrange 0 512)
      | _, _, _, _ => false
      end
  | _ => false
  end.

Definition last80 (tr : list (event mop mres)) : bool :=
  match tr with [EInv a (MInsert b d)] => (a =? 1) && (b =? 513) && (d =? 1) | _ => false end.
Lemma last80_sound tr : last80 tr = true -> tr = [EInv 1 (MInsert 513 1)].
Proof.
  destruct tr as [|[a o|] [|]]; cbn; try discriminate; destruct o; try discriminate.
  intros H. rewrite !andb_true_iff, !N.eqb_eq in H. destruct H as [[-> ->] ->]. reflexivity.
Qed.
Lemma in_l80 o : In o (clops l80) -> client79 o.
Proof.
  unfold l80, clops. rewrite flat_map_app, in_app_iff. intros [H|H]; [now apply in_fill|]. destruct H as [<-|[]]. cbn. lia.
Qed.

(** Synchronised growing: neither of the two calls in progress ever returns, and no other call can begin. *)
Theorem C80_every_call_returns_refuted :
  exists tr s,
    fair (simple_slot true) client79 /\ (forall o, client79 o -> ~ erasing o) /\
    lts_steps (crowd_step true c79 4096 2 client79) (ksys_init c79 9) (tr ++ [EInv 1 (MInsert 513 1)]) s /\
    acks tr = 511%nat /\ gthr (k_g s) 0 <> None /\ gthr (k_g s) 1 <> None /\
    forall tr' s', lts_steps (crowd_step true c79 4096 2 client79) s tr' s' -> tr' = [] /\ gthr (k_g s') 0 <> None /\ gthr (k_g s') 1 <> None.
Proof.
  assert (X : match crowd_run true c79 4096 2 3000 (ksys_init c79 9) l80 with
              | Some (tr, s) => last80 (skipn (length tr - 1) tr) && Nat.eqb (acks tr) 511 && full80 s | None => false end = true) by (vm_compute; reflexivity).
  destruct (crowd_run true c79 4096 2 3000 (ksys_init c79 9) l80) as [[tr0 s]|] eqn:E; [|discriminate].
  apply (crowd_run_sound true c79 4096 2 client79 3000 l80 _ _ _ in_l80) in E.
  apply andb_prop in X. destruct X as [X F]. apply andb_prop in X. destruct X as [X A]. apply last80_sound in X. apply Nat.eqb_eq in A.
  assert (TR : tr0 = firstn (length tr0 - 1) tr0 ++ [EInv 1 (MInsert 513 1)]) by (rewrite <- X; symmetry; apply firstn_skipn).
  set (tr := firstn (length tr0 - 1) tr0) in *. clearbody tr. subst tr0.
  exists tr, s. split; [apply client79_ok|]. split; [apply client79_ok|]. split; [exact E|].
  split. { unfold acks in *. rewrite filter_app in A. cbn [filter app] in A. rewrite app_nil_r in A. exact A. }
  clear E A X. destruct s as [[v mp me [mg|] th] e d lc p]; [discriminate|]. cbn [full80] in F.
  destruct (th 0) eqn:T0; [|discriminate]. destruct (th 1) as [[[k d'| | | | | |] [|u [j| | | | |]]]|] eqn:T1; try discriminate.
  destruct (p 0) as [|w0 w|] eqn:P0; try discriminate. destruct (p 1) eqn:P1; try discriminate.
  repeat (apply andb_prop in F; let X := fresh "X" in destruct F as [F X]).
  apply N.eqb_eq in F, X0, X1, X2, X3. subst k d' u w0. rename X0 into PH, X into BZ.
  cbn [k_g gthr]. split; [congruence|]. split; [congruence|].
  intros tr' s' ST.
  assert (SK : stuck80 v mp (me v) 513 1 (KSys (GSys v mp me None th) e d lc p)) by (exists me, th, e, d, lc, p, j, w, p0; auto 10).
  assert (BZ' : forall q, q < total_slots (tmc c79) (mp v) -> busy c79 513 (me v q) = true).
  { intros q Hq. unfold total_slots in Hq. cbn [c79 tmc cprob] in Hq. rewrite PH in Hq.
    rewrite forallb_forall in BZ. apply BZ. apply in_nrange. lia. }
  assert (RM : forall q, remap (tmc c79) (mp v) q < total_slots (tmc c79) (mp v)).
  { intros q. unfold remap, total_slots. cbn [c79 tmc cprob]. rewrite PH. change 511 with (N.ones 9).
    rewrite N.land_ones. change (N.ones 9 + 1) with (2 ^ 9). apply N.mod_lt. discriminate. }
  set (s0 := KSys (GSys v mp me None th) e d lc p) in *. set (t0 := me v) in *. clearbody s0 t0.
  induction ST as [s|s s1 s2 tr' S ST IH|s ev s1 s2 tr' S ST IH].
  - destruct SK as (? & ? & ? & ? & ? & ? & ? & ? & ? & -> & ? & ? & ? & ? & ?). cbn [k_g gthr]. split; [reflexivity|]. split; congruence.
  - destruct (stuck_step _ _ _ _ _ _ _ _ _ _ _ BZ' RM SK S) as [_ L]. auto.
  - destruct (stuck_step _ _ _ _ _ _ _ _ _ _ _ BZ' RM SK S) as [L _]. discriminate.
Qed.
Print Assumptions C80_every_call_returns_refuted.

(** Synchronised growing, circular probing, no elements erased, enough slots for the threads, and no call that begins to use
    the table between the moment when a thread finds it too full and the moment when it is closed: from every reachable
    state all calls in progress can return, without any new call, unless the table has reached 2^32 slots. *)
Theorem C80_closed_at_once_partial :
  forall sc cm hash lg B n (client : op -> Prop),
    cell_type sc -> fair sc client -> (forall o, client o -> ~ erasing o) ->
    9 <= lg <= 32 -> 217 * n <= 2 ^ lg -> 0 < B <= 2 ^ 31 ->
    let c := TCfg sc (MCfg cm true) hash in
    let step := closed_step true c B n client in
    forall tr s, lts_steps step (ksys_init c lg) tr s ->
      exists tr' s', lts_steps step s tr' s' /\ (forall t o, ~ In (EInv t o) tr') /\
        ((forall t, t < n -> gthr (k_g s') t = None) \/
         2 ^ 32 <= addressable_slots (tmc c) (gmap (k_g s') (gver (k_g s')))).
Proof.
  intros sc cm hash lg B n client CT FR NE LG NL HB c step tr s ST. pose proof (cell_type_wf _ CT) as W.
  pose proof (fair_ok _ _ W FR) as CO.
  assert (NLZ : (217 * Z.of_N n <= 2 ^ Z.of_N lg)%Z).
  { apply N2Z.inj_le in NL. rewrite N2Z.inj_mul, N2Z.inj_pow in NL. exact NL. }
  pose proof (linv_init c B n client W HB lg LG NLZ) as I.
  pose proof (linv_steps c B n client W CO NE eq_refl HB _ _ _ I ST) as I'.
  destruct (no_dead_end c B n client W CO NE eq_refl HB s I') as (s' & (tr' & G & Q) & E). exists tr', s'. auto.
Qed.
Print Assumptions C80_closed_at_once_partial.

(** Moreover all calls return whatever the threads do next, as long as no further call begins.  (A thread that waits makes no
    step, so there is no fairness to ask for: some thread can go on until all calls have returned, and only for finitely many
    steps.) *)
Theorem C80_all_calls_return_partial :
  forall sc cm hash lg B n (client : op -> Prop),
    cell_type sc -> fair sc client -> (forall o, client o -> ~ erasing o) ->
    9 <= lg <= 32 -> 217 * n <= 2 ^ lg -> 0 < B <= 2 ^ 31 ->
    let c := TCfg sc (MCfg cm true) hash in
    let step := closed_step true c B n client in
    forall tr s, lts_steps step (ksys_init c lg) tr s ->
      inevitable step (fun s' => (forall t, t < n -> gthr (k_g s') t = None) \/
         2 ^ 32 <= addressable_slots (tmc c) (gmap (k_g s') (gver (k_g s')))) s.
Proof.
  intros sc cm hash lg B n client CT FR NE LG NL HB c step tr s ST. pose proof (cell_type_wf _ CT) as W.
  pose proof (fair_ok _ _ W FR) as CO.
  assert (NLZ : (217 * Z.of_N n <= 2 ^ Z.of_N lg)%Z).
  { apply N2Z.inj_le in NL. rewrite N2Z.inj_mul, N2Z.inj_pow in NL. exact NL. }
  pose proof (linv_init c B n client W HB lg LG NLZ) as I.
  pose proof (linv_steps c B n client W CO NE eq_refl HB _ _ _ I ST) as I'.
  exact (all_return c B n client W CO NE eq_refl HB s I').
Qed.
Print Assumptions C80_all_calls_return_partial.

(** A state of this kind: both threads are in a call, thread 0 is about to grow the table. *)
Example C80_case : exists tr s,
  fair (simple_slot true) client79 /\ (forall o, client79 o -> ~ erasing o) /\ cell_type (simple_slot true) /\ 217 * 2 <= 2 ^ 9 /\
  lts_steps (closed_step true c79 4096 2 client79) (ksys_init c79 9) tr s /\
  gthr (k_g s) 0 <> None /\ gthr (k_g s) 1 <> None /\ wanted 2 s.
Proof.
  destruct run79 as (tr1 & s1 & s & E & F & _).
  exists tr1, s1. split; [apply client79_ok|]. split; [apply client79_ok|]. split; [exists true; now left|].
  split; [discriminate|]. split; auto.
Qed.

(** Under the same conditions, in a schedule that goes on for ever, with as many calls as one likes and growth steps in
    between, calls return again and again.  (Nothing is said about each single call: the others may always be faster.) *)
Theorem C80_calls_return_again_partial :
  forall sc cm hash lg B n (client : op -> Prop),
    cell_type sc -> fair sc client -> (forall o, client o -> ~ erasing o) ->
    9 <= lg <= 32 -> 217 * n <= 2 ^ lg -> 0 < B <= 2 ^ 31 ->
    let c := TCfg sc (MCfg cm true) hash in
    let step := closed_step true c B n client in
    forall (run : nat -> ksys) (label : nat -> option (event mop mres)),
      run O = ksys_init c lg -> (forall i, step (run i) (label i) (run (S i))) ->
      forall m, exists i t r, (m <= i)%nat /\ label i = Some (ERet t r).
Proof.
  intros sc cm hash lg B n client CT FR NE LG NL HB c step run label R0 ST m. pose proof (cell_type_wf _ CT) as W.
  pose proof (fair_ok _ _ W FR) as CO.
  assert (NLZ : (217 * Z.of_N n <= 2 ^ Z.of_N lg)%Z).
  { apply N2Z.inj_le in NL. rewrite N2Z.inj_mul, N2Z.inj_pow in NL. exact NL. }
  pose proof (linv_init c B n client W HB lg LG NLZ) as I. rewrite <- R0 in I.
  destruct (returns_again c B n client W CO NE eq_refl HB run label I ST m) as (i & L & R).
  destruct (label i) as [[t o|t r]|] eqn:E; try discriminate. exists i, t, r. auto.
Qed.
Print Assumptions C80_calls_return_again_partial.

(** There are such schedules: a thread that looks for key 5 for ever. *)
Definition m80 : mapper := mk_mapper (tmc c79) (2 ^ 9) 0.
Definition again (i : nat) : option (op * gpc) :=
  match Nat.modulo i 4 with
  | O => None
  | S O => Some (OFind 5, GGet)
  | S (S O) => Some (OFind 5, GRun 0 (start c79 m80 (OFind 5)))
  | _ => Some (OFind 5, GRun 0 (snd (bstep c79 m80 (fresh_mem c79 m80) false (OFind 5) (start c79 m80 (OFind 5)))))
  end.
Fixpoint again_thr (i : nat) : N -> option (op * gpc) :=
  match i with O => fun _ => None | S j => fupd (again_thr j) 0 (again i) end.
Fixpoint again_mem (i : nat) : N -> mem :=
  match i with
  | O => fun _ => fresh_mem c79 m80
  | S j => if Nat.eqb (Nat.modulo j 4) 2 then fupd (again_mem j) 0 (fresh_mem c79 m80) else again_mem j
  end.
Definition again_run (i : nat) : ksys :=
  KSys (GSys 0 (fun _ => m80) (again_mem i) None (again_thr i)) 0 0 (fun _ => (0, 0, 0)%Z) (fun _ => KCall).
Definition again_label (i : nat) : option (event mop mres) :=
  match Nat.modulo i 4 with O => Some (EInv 0 (MFind 5)) | S (S (S O)) => Some (ERet 0 RAbsent) | _ => None end.
Example C80_again_case :
  again_run O = ksys_init c79 9 /\
  forall i, closed_step true c79 4096 2 client79 (again_run i) (again_label i) (again_run (S i)).
Proof.
  split; [reflexivity|]. intros i.
  assert (T : again_thr i 0 = again i) by (destruct i; [reflexivity|apply fupd_eq]).
  assert (M : again_mem i 0 = fresh_mem c79 m80).
  { induction i as [|i IH]; [reflexivity|]. cbn [again_mem]. destruct (Nat.eqb (Nat.modulo i 4) 2); [apply fupd_eq|].
    apply IH. destruct i; [reflexivity|apply fupd_eq]. }
  split.
  - unfold again_run, again_label. cbn [again_thr again_mem].
    assert (NX : again (S i) = match Nat.modulo i 4 with
      | O => Some (OFind 5, GGet)
      | S O => Some (OFind 5, GRun 0 (start c79 m80 (OFind 5)))
      | S (S O) => Some (OFind 5, GRun 0 (snd (bstep c79 m80 (fresh_mem c79 m80) false (OFind 5) (start c79 m80 (OFind 5)))))
      | _ => None end).
    { unfold again. pose proof (PeanoNat.Nat.mod_upper_bound i 4 ltac:(discriminate)) as U.
      assert (E : Nat.modulo (S i) 4 = Nat.modulo (S (Nat.modulo i 4)) 4).
      { change (S i) with (1 + i)%nat. change (S (Nat.modulo i 4)) with (1 + Nat.modulo i 4)%nat.
        rewrite PeanoNat.Nat.add_mod_idemp_r by discriminate. reflexivity. }
      rewrite E. destruct (Nat.modulo i 4) as [|[|[|[|k]]]]; try reflexivity. lia. }
    rewrite NX. unfold again in T. pose proof (PeanoNat.Nat.mod_upper_bound i 4 ltac:(discriminate)) as U.
    destruct (Nat.modulo i 4) as [|[|[|[|k]]]]; [| | | |lia]; cbn [Nat.eqb].
    + apply (kc_inv true c79 4096 2 client79 0 _ _ None _ 0%Z 0%Z _ (fun _ => KCall) 0 (OFind 5)); auto; try reflexivity. split; reflexivity.
    + apply (kc_get true c79 4096 2 client79 0 (fun _ => m80) _ None _ 0%Z 0%Z _ (fun _ => KCall) 0 (OFind 5)); auto; reflexivity.
    + eapply (kc_run true c79 4096 2 client79 0 (fun _ => m80) _ None _ 0%Z 0%Z _ (fun _ => KCall) 0 (OFind 5) 0); [reflexivity|exact T|reflexivity|intros r; unfold start; discriminate|].
      rewrite M. instantiate (1 := false). vm_compute. reflexivity.
    + change (Some (ERet 0 RAbsent)) with (Some (@ERet mop mres 0 (gobs (OFind 5) (ret_end RC_ERROR)))).
      eapply (kc_ret true c79 4096 2 client79 0 (fun _ => m80) _ None _ 0%Z 0%Z _ (fun _ => KCall) 0 (OFind 5) 0); auto; try discriminate; try reflexivity.
  - intros t o u pc _ _ (t' & w & _ & X). discriminate X.
Qed.
