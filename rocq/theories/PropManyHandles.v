(** C78: a growing table used by one thread through several handles. *)
From Coq Require Import NArith ZArith Bool List Lia.
From Verif Require Import Words Slot SlotFacts Mapper MapperFacts ReturnCode MapSpec LinSpec Base BaseInv BaseLin TableSpec BaseFacts
  Migrate MigrateExec Growing GrowingSpec GrowingFacts Count GrowOom OneHandle OneHandleSpec OneHandleFacts OneHandleExec ManyHandles ManyHandlesFacts.
Import ListNotations.
Open Scope N_scope.

(** Executions that never have a table at its limit. *)
Definition off_limit_many (c : tcfg) (B : N) (bo : bool) (client : op -> Prop) (n : N)
  (s : mhsys) (l : option (event mop mres)) (s' : mhsys) : Prop :=
  many_step c B bo client n s l s' /\ ~ at_limit c (mh_s s').

Lemma legal_op sc client o : wf_scfg sc -> legal sc client -> client o -> op_ok sc o.
Proof.
  intros W L C. destruct (L o C) as [K F]. split; [now apply user_key_valid|].
  destruct o; cbn; try (intros g x; discriminate); exact F.
Qed.

Lemma many_handles c B bo client (ne : Prop) n lg tr s :
  wf_scfg (tsc c) -> cprob (tmc c) = true -> 0 < B <= 2 ^ 31 -> legal (tsc c) client ->
  (ne -> forall o, client o -> ~ erasing o) -> 9 <= lg <= 31 -> 1 <= n -> 214 * n <= 2 ^ lg -> N.of_nat (length tr) <= 2 ^ 31 ->
  lts_steps (off_many c B bo client ne n) (mhsys_init c lg) tr s ->
  exists ps a, answers amap_empty ps a /\
    ((tr = in_turn 0 ps /\ forall o, client o -> exists s', many_step c B bo client n s (Some (EInv 0 (spec_op (tsc c) o))) s') \/
     exists o r a', tr = in_turn 0 ps ++ [EInv 0 o] /\ mspec false false a o a' r /\ will_return (many_step c B bo client n) r s).
Proof.
  intros W CP HB L NE LG N1 NL LEN ST.
  assert (K0 : mkinv c B bo client ne n [] (mhsys_init c lg)).
  { exists [], amap_empty. split; [constructor|]. left. split; auto. now apply (minv_init c B). }
  destruct (mkinv_steps c B bo client ne n W CP HB (fun o => legal_op _ _ o W L) NE _ _ _ ST [] K0 LEN)
    as (ps & a & AN & [(E & I)|(o & r & a2 & s2 & E & SP & LS & _)]).
  - exists ps, a. split; auto. left. split; auto. intros o CL. destruct s as [s loc i]. destruct I as (_ & _ & I). cbn [mh_s] in I.
    destruct I as (v & mp & me & th & e & d & u & i1 & x & lg1 & ct & -> & TH & _). eexists. apply mh_one. now apply h_inv.
  - exists ps, a. split; auto. right. exists o, r, a2. split; auto. split; auto. destruct s as [s loc i]. eapply many_will_ret; eauto.
Qed.

(** [n] handles on a table that starts with at least 214 [n] slots; nothing is erased. *)
Theorem C78_every_call_returns_partial :
  forall (sc : scfg) (mc : mcfg) (hash : N -> N) (lg B n : N) (backoff : bool) (client : op -> Prop)
         (tr : list (event mop mres)) (s : mhsys),
    cell_type sc -> cprob mc = true -> 9 <= lg <= 31 -> 0 < B <= 2 ^ 31 -> 1 <= n -> 214 * n <= 2 ^ lg ->
    legal sc client -> (forall o, client o -> ~ erasing o) ->
    N.of_nat (length tr) <= 2 ^ 31 ->
    lts_steps (many_step (TCfg sc mc hash) B backoff client n) (mhsys_init (TCfg sc mc hash) lg) tr s ->
    exists calls m, answers amap_empty calls m /\
      ((tr = in_turn 0 calls /\
        forall o, client o -> exists s', many_step (TCfg sc mc hash) B backoff client n s (Some (EInv 0 (spec_op sc o))) s') \/
       exists o r m', tr = in_turn 0 calls ++ [EInv 0 o] /\ mspec false false m o m' r /\
         will_return (many_step (TCfg sc mc hash) B backoff client n) r s).
Proof.
  intros sc mc hash lg B n bo client tr s CT CP LG HB N1 NL L NE LEN ST.
  apply (many_handles (TCfg sc mc hash) B bo client True n lg tr s); auto using cell_type_wf.
  clear -ST. induction ST; econstructor; eauto; split; auto.
Qed.
Print Assumptions C78_every_call_returns_partial.

(** With erasing: as long as no table has counted exactly as many elements as its limit says. *)
Theorem C78_with_erasing_partial :
  forall (sc : scfg) (mc : mcfg) (hash : N -> N) (lg B n : N) (backoff : bool) (client : op -> Prop)
         (tr : list (event mop mres)) (s : mhsys),
    cell_type sc -> cprob mc = true -> 9 <= lg <= 31 -> 0 < B <= 2 ^ 31 -> 1 <= n -> 214 * n <= 2 ^ lg ->
    legal sc client -> N.of_nat (length tr) <= 2 ^ 31 ->
    lts_steps (off_limit_many (TCfg sc mc hash) B backoff client n) (mhsys_init (TCfg sc mc hash) lg) tr s ->
    exists calls m, answers amap_empty calls m /\
      ((tr = in_turn 0 calls /\
        forall o, client o -> exists s', many_step (TCfg sc mc hash) B backoff client n s (Some (EInv 0 (spec_op sc o))) s') \/
       exists o r m', tr = in_turn 0 calls ++ [EInv 0 o] /\ mspec false false m o m' r /\
         will_return (many_step (TCfg sc mc hash) B backoff client n) r s).
Proof.
  intros sc mc hash lg B n bo client tr s CT CP LG HB N1 NL L LEN ST.
  apply (many_handles (TCfg sc mc hash) B bo client False n lg tr s); auto using cell_type_wf; try tauto.
  clear -ST. induction ST as [|s s1 s2 tr [S O] ST IH|s e s1 s2 tr [S O] ST IH]; econstructor; eauto; split; auto.
Qed.
Print Assumptions C78_with_erasing_partial.

(** *** Programs that use several handles *)

Section Exec.
Context (c : tcfg) (B : N) (bo : bool) (client : op -> Prop) (n : N).

Lemma many_of s tr s' loc i : lts_steps (one_step c B bo client) s tr s' -> lts_steps (many_step c B bo client n) (MHSys s loc i) tr (MHSys s' loc i).
Proof. induction 1; [constructor|eapply ls_tau|eapply ls_vis]; eauto; constructor; eauto. Qed.

Definition turn_to (j : N) (s : mhsys) : mhsys :=
  let h := mh_s s in let l := fupd (mh_loc s) (mh_cur s) (hs_loc h) in
  MHSys (HSys (hs_g h) (hs_el h) (hs_du h) (l j) HCall) l j.

(** Several calls through one handle, then several through another one, and so on. *)
Fixpoint segments (f : nat) (s : mhsys) (l : list (N * list op)) : option (list (list mres) * mhsys) :=
  match l with
  | [] => Some ([], s)
  | (j, os) :: l => if can_call (mh_s s) && (j <? n) then
      match program c B bo f (mh_s (turn_to j s)) os with
      | Some (r, s1) => match segments f (MHSys s1 (mh_loc (turn_to j s)) j) l with Some (rs, s2) => Some (r :: rs, s2) | None => None end
      | None => None
      end else None
  end.

Fixpoint calls_of (l : list (N * list op)) (rs : list (list mres)) : list (mop * mres) :=
  match l, rs with
  | (_, os) :: l, r :: rs => combine (map (spec_op (tsc c)) os) r ++ calls_of l rs
  | _, _ => []
  end.

Lemma segments_sound f : forall l s rs s', (forall j os o, In (j, os) l -> In o os -> client o) -> segments f s l = Some (rs, s') ->
  lts_steps (many_step c B bo client n) s (in_turn 0 (calls_of l rs)) s'.
Proof.
  induction l as [|[j os] l IH]; intros s rs s' CL; cbn [segments].
  - intros [= <- <-]. constructor.
  - destruct (can_call (mh_s s)) eqn:CC; [|discriminate]. destruct (N.ltb_spec j n) as [J|]; [|discriminate]. cbn [andb].
    destruct (program c B bo f _ os) as [[r s1]|] eqn:P; [|discriminate].
    destruct (segments f _ l) as [[rs1 s2]|] eqn:S; [|discriminate]. intros [= <- <-]. cbn [calls_of]. rewrite in_turn_app.
    pose proof (program_sound c B bo client f os _ _ _ (fun o I => CL j os o (or_introl eq_refl) I) P) as PS.
    destruct s as [[g e d lc ph] loc i]. unfold can_call in CC. cbn [mh_s hs_g hs_ph] in CC.
    destruct (gthr g 0) eqn:G; [discriminate|]. destruct (gmig g); [discriminate|]. destruct ph; try discriminate.
    eapply ls_tau; [apply (mh_switch c B bo client n g e d lc loc i j); auto|].
    eapply steps_app; [eapply many_of; exact PS|]. apply IH; [|exact S]. intros j' os' o I. apply (CL j' os'). now right.
Qed.

Lemma many_loop v mp t k d s tr s' loc i :
  (forall p, p < total_slots (tmc c) (mp v) -> busy c k (t p) = true) ->
  (forall i, remap (tmc c) (mp v) i < total_slots (tmc c) (mp v)) ->
  looping v mp t k d s -> lts_steps (many_step c B bo client n) (MHSys s loc i) tr s' -> tr = [].
Proof.
  intros BZ RM L ST. remember (MHSys s loc i) as x eqn:E. revert s loc i E L. induction ST as [|y y1 y2 tr S ST IH|y e y1 y2 tr S ST IH]; auto; intros s loc i -> L.
  - inversion S; subst.
    + match goal with H : one_step _ _ _ _ _ _ _ |- _ => destruct (loop_step _ _ _ _ _ _ _ _ _ _ _ _ BZ RM L H) as [_ L'] end. eauto.
    + exfalso. destruct L as (me & th & e0 & du & l0 & i0 & X & _ & T). injection X as -> -> -> ->. cbn in *. congruence.
  - inversion S; subst. match goal with H : one_step _ _ _ _ _ _ _ |- _ => destruct (loop_step _ _ _ _ _ _ _ _ _ _ _ _ BZ RM L H) as [X _] end. discriminate.
Qed.
End Exec.

Definition ins_from (a n : nat) : list op := map (fun k => OInsert (N.of_nat k) (N.of_nat k)) (seq a n).
Definition c78 : tcfg := TCfg (simple_slot true) (MCfg true true) (fun k => k).

(** 389 insertions through the first handle (it has published 325), 64 through the second and 59 through
    the third.  The table is full, and nobody has noticed. *)
Definition segs78 : list (N * list op) := [(0, ins_from 1 389); (1, ins_from 390 64); (2, ins_from 454 59)].
Definition last78 : op := OInsert 513 1.
Definition client78 (o : op) : Prop := exists k d, o = OInsert k d /\ 0 < k < 600.

Definition full78 (s : mhsys) : bool :=
  can_call (mh_s s) && match one_next c78 4096 true (start_call last78 (mh_s s)) with
  | Some (None, HSys (GSys v mp me None th) _ _ _ HCall) =>
      match th 0 with
      | Some (OInsert k d, GRun u (PLoad _)) =>
          (k =? 513) && (d =? 1) && (u =? v) && (probe_helper (mp v) =? 511) && forallb (fun p => busy c78 k (me v p)) (nrange 0 512)
      | _ => false
      end
  | _ => false
  end.

Lemma in_ins a n o : In o (ins_from a n) -> exists k, o = OInsert (N.of_nat k) (N.of_nat k) /\ (a <= k < a + n)%nat.
Proof. unfold ins_from. rewrite in_map_iff. intros (k & <- & I). apply in_seq in I. eauto. Qed.

Lemma filled78 : exists rs s, segments c78 4096 true 3 600 (mhsys_init c78 9) segs78 = Some (rs, s) /\ full78 s = true /\
  length (calls_of c78 segs78 rs) = 512%nat.
Proof.
  assert (X : match segments c78 4096 true 3 600 (mhsys_init c78 9) segs78 with
              | Some (rs, s) => full78 s && Nat.eqb (length (calls_of c78 segs78 rs)) 512 | None => false end = true) by (vm_compute; reflexivity).
  destruct (segments _ _ _ _ _ _ _) as [[rs s]|]; [|discriminate]. apply andb_prop in X. destruct X as [X1 X2].
  apply Nat.eqb_eq in X2. eauto.
Qed.

(** Three handles, a table of 512 slots: 512 insertions, and then one that never returns. *)
Theorem C78_every_call_returns_refuted :
  exists (calls : list (mop * mres)) (s : mhsys),
    legal (simple_slot true) client78 /\ (forall o, client78 o -> ~ erasing o) /\ length calls = 512%nat /\
    lts_steps (many_step c78 4096 true client78 3) (mhsys_init c78 9) (in_turn 0 calls ++ [EInv 0 (MInsert 513 1)]) s /\
    forall tr s', lts_steps (many_step c78 4096 true client78 3) s tr s' -> tr = [].
Proof.
  destruct filled78 as (rs & s & P & H & LEN).
  exists (calls_of c78 segs78 rs).
  assert (S1 : lts_steps (many_step c78 4096 true client78 3) (mhsys_init c78 9) (in_turn 0 (calls_of c78 segs78 rs)) s).
  { eapply segments_sound; [|exact P]. intros j os o IN I. cbn [segs78 In] in IN.
    destruct IN as [X|[X|[X|[]]]]; injection X as <- <-; apply in_ins in I; destruct I as (k & -> & R);
      exists (N.of_nat k), (N.of_nat k); split; auto; lia. }
  clear P. unfold full78 in H. apply andb_prop in H. destruct H as [CC H].
  destruct s as [s loc i]. cbn [mh_s] in *.
  remember (one_next c78 4096 true (start_call last78 s)) as nx eqn:ON. symmetry in ON.
  destruct nx as [[[e|] s1]|]; try discriminate.
  destruct s1 as [[v mp me [mg|] th] e d lc [|dn|dn]]; try discriminate.
  destruct (th 0) as [[[k d'| | | | | |] [|u [j| | | | |]]]|] eqn:T; try discriminate.
  repeat (apply andb_prop in H; let X := fresh "X" in destruct H as [H X]).
  apply N.eqb_eq in H, X2, X1, X0. subst k d' u. rename X0 into PH, X into BZ.
  exists (MHSys (HSys (GSys v mp me None th) e d lc HCall) loc i). split; [|split; [|split; [|split]]].
  - intros o (k & d' & -> & R). split; [|exact I]. unfold user_key. cbn [op_key simple_slot sc_mark sc_w].
    change (2 ^ (64 - 1)) with 9223372036854775808. lia.
  - intros o (k & d' & -> & R). intros [].
  - exact LEN.
  - eapply steps_app; [exact S1|].
    eapply ls_vis; [apply mh_one; apply (start_call_sound c78 4096 true _ last78 s CC); exists 513, 1; split; [reflexivity|lia]|].
    eapply ls_tau; [apply mh_one; eapply one_next_sound; exact ON|constructor].
  - intros tr s' ST. eapply (many_loop c78 4096 true _ 3 v mp (me v) 513 1); [| | |exact ST].
    + intros p Hp. unfold total_slots in Hp. cbn [c78 tmc cprob] in Hp. rewrite PH in Hp.
      rewrite forallb_forall in BZ. apply BZ. apply in_nrange. lia.
    + intros q. unfold remap, total_slots. cbn [c78 tmc cprob]. rewrite PH. change 511 with (N.ones 9).
      rewrite N.land_ones. change (N.ones 9 + 1) with (2 ^ 9). apply N.mod_lt. discriminate.
    + exists me, th, e, d, lc, j. auto.
Qed.
Print Assumptions C78_every_call_returns_refuted.

(** A case of C78: two handles insert 200 elements each; the second one makes the table grow, and the first
    one finds an element of the second. *)
Definition segs78b : list (N * list op) := [(0, ins_from 1 200); (1, ins_from 201 200); (0, [OFind 300; OInsert 300 1])].

Definition ends78 (rs : list (list mres)) : bool :=
  match skipn 2 rs with [[RFound a; RPresent b]] => (a =? 300) && (b =? 300) | _ => false end.

Lemma ends78_sound rs : ends78 rs = true -> skipn 2 rs = [[RFound 300; RPresent 300]].
Proof.
  unfold ends78. generalize (skipn 2 rs). clear rs. intros l. destruct l as [|x l]; [discriminate|]. destruct x as [|a x]; [discriminate|].
  destruct a; try discriminate. destruct x as [|b x]; [discriminate|]. destruct b; try discriminate. destruct x; [|discriminate].
  destruct l; [|discriminate]. intros H. apply andb_prop in H. rewrite !N.eqb_eq in H. destruct H as [-> ->]. reflexivity.
Qed.

Example C78_case :
  214 * 2 <= 2 ^ 9 /\
  exists rs s, lts_steps (many_step c78 4096 true (fun o => exists j os, In (j, os) segs78b /\ In o os) 2) (mhsys_init c78 9)
                 (in_turn 0 (calls_of c78 segs78b rs)) s /\
    skipn 2 rs = [[RFound 300; RPresent 300]] /\ gver (hs_g (mh_s s)) = 1.
Proof.
  split; [vm_compute; discriminate|].
  assert (X : match segments c78 4096 true 2 4000 (mhsys_init c78 9) segs78b with
              | Some (rs, s) => ends78 rs && (gver (hs_g (mh_s s)) =? 1) | None => false end = true) by (vm_compute; reflexivity).
  destruct (segments _ _ _ _ _ _ _) as [[rs s]|] eqn:P; [|discriminate]. apply andb_prop in X. destruct X as [X1 X2]. apply N.eqb_eq in X2.
  exists rs, s. split; [|split; [now apply ends78_sound|exact X2]].
  eapply segments_sound; [|exact P]. intros j os o I1 I2. eauto.
Qed.
