(** C82: a growing table whose handles are destroyed, made anew and moved. *)
From Coq Require Import NArith ZArith Bool List Lia.
From Verif Require Import Words Slot SlotFacts Mapper MapperFacts ReturnCode MapSpec LinSpec Base BaseInv BaseLin TableSpec BaseFacts
  Migrate MigrateExec Growing GrowingSpec GrowingFacts Count GrowOom OneHandle OneHandleSpec OneHandleFacts OneHandleExec
  ManyHandles ManyHandlesFacts HandleLife HandleLifeSpec HandleLifeFacts.
Import ListNotations.
Open Scope N_scope.

(** At most [n] handles at a time on a table that starts with at least 214 [n] slots, as long as no table has
    counted exactly as many elements as its limit says.  [tr] has the calls; what happens to handles is
    not visible in it.  Between two calls the next call can begin, at once or when a destructor has returned. *)
Theorem C82_every_call_returns_partial :
  forall (sc : scfg) (mc : mcfg) (hash : N -> N) (lg B n : N) (backoff : bool) (client : op -> Prop)
         (tr : list (event mop mres)) (s : mhsys),
    cell_type sc -> cprob mc = true -> 9 <= lg <= 31 -> 0 < B <= 2 ^ 31 -> 1 <= n -> 214 * n <= 2 ^ lg ->
    legal sc client -> N.of_nat (length tr) <= 2 ^ 31 ->
    lts_steps (off_limit_life (TCfg sc mc hash) B backoff client n) (mhsys_init (TCfg sc mc hash) lg) tr s ->
    exists calls m, answers amap_empty calls m /\
      ((tr = in_turn 0 calls /\
        will_be (life_step (TCfg sc mc hash) B backoff client n) (ready sc client (life_step (TCfg sc mc hash) B backoff client n)) s) \/
       exists o r m', tr = in_turn 0 calls ++ [EInv 0 o] /\ mspec false false m o m' r /\
         will_return (life_step (TCfg sc mc hash) B backoff client n) r s).
Proof.
  intros sc mc hash lg B n bo client tr s CT CP LG HB N1 NL L LEN ST.
  pose proof (cell_type_wf _ CT) as W.
  apply (handle_life (TCfg sc mc hash) B bo client n W CP HB) with (lg := lg); auto.
  intros o CL. destruct (L o CL) as [K F]. split; [now apply user_key_valid|]. destruct o; cbn; try (intros g x; discriminate); exact F.
Qed.
Print Assumptions C82_every_call_returns_partial.

(** *** Programs *)

Section Exec.
Context (c : tcfg) (B : N) (bo : bool) (client : op -> Prop) (n : N).

(** Calls through the handle in use; destroying it and making a new one. *)
Inductive act := ACalls (l : list op) | ARenew.

(** Up to [f] steps of a growth step. *)
Fixpoint until_back (f : nat) (s : hsys) : option hsys :=
  match hs_ph s with
  | HBack true => Some s
  | _ => match f with
         | O => None
         | S f => match one_next c B bo s with Some (None, s1) => until_back f s1 | _ => None end
         end
  end.

Lemma until_back_sound f : forall s s', until_back f s = Some s' -> lts_steps (one_step c B bo client) s [] s' /\ hs_ph s' = HBack true.
Proof.
  induction f as [|f IH]; intros s s'; cbn [until_back]; destruct (hs_ph s) as [| |[|]] eqn:P; try discriminate;
    try (intros [= <-]; split; [constructor|exact P]);
    (destruct (one_next c B bo s) as [[[e|] s1]|] eqn:E; try discriminate; intros H; apply IH in H; destruct H as [H1 H2]; split; auto;
     eapply ls_tau; [eapply one_next_sound; exact E|exact H1]).
Qed.

Definition renew (f : nat) (s : hsys) : option hsys :=
  if can_call s then
    match s with
    | HSys (GSys v mp me None th) e d (u, i, x) HCall =>
        if crosses e i (thresh (total_slots (tmc c) (mp v)))
        then if addressable_slots (tmc c) (mp v) <? 2 ^ 32
             then match until_back f (HSys (begin_grow c v mp me th (e + i) (d + x)) (e + i) (d + x) (0%Z, i, x) (HGrow true)) with
                  | Some (HSys (GSys v' mp' me' None th') e' d' _ _) =>
                      match th' 0 with None => Some (HSys (GSys v' mp' me' None th') e' d' (0, 0, 0)%Z HCall) | Some _ => None end
                  | _ => None
                  end
             else None
        else Some (HSys (GSys v mp me None th) (e + i) (d + x) (0, 0, 0)%Z HCall)
    | _ => None
    end
  else None.

Lemma life_of s tr s' loc i : lts_steps (one_step c B bo client) s tr s' -> lts_steps (life_step c B bo client n) (MHSys s loc i) tr (MHSys s' loc i).
Proof. induction 1; [constructor|eapply ls_tau|eapply ls_vis]; eauto; repeat constructor; eauto. Qed.

Lemma renew_sound f s s' loc i : renew f s = Some s' -> lts_steps (life_step c B bo client n) (MHSys s loc i) [] (MHSys s' loc i).
Proof.
  unfold renew. destruct (can_call s) eqn:CC; [|discriminate].
  destruct s as [[v mp me [mg|] th] e d [[u k] x] [|dn|dn]]; try discriminate.
  unfold can_call in CC. cbn in CC. destruct (th 0) eqn:T; [discriminate|].
  destruct (crosses e k (thresh (total_slots (tmc c) (mp v)))) eqn:CR.
  - destruct (N.ltb_spec (addressable_slots (tmc c) (mp v)) (2 ^ 32)) as [AD|]; [|discriminate].
    destruct (until_back f _) as [[[v' mp' me' [mg|] th'] e' d' l' ph']|] eqn:U; try discriminate.
    destruct (th' 0) eqn:T'; [discriminate|]. intros [= <-]. apply until_back_sound in U. destruct U as [U1 U2]. cbn [hs_ph] in U2. subst ph'.
    eapply ls_tau; [apply lf_cross; auto|]. change (@nil (event mop mres)) with (@nil (event mop mres) ++ []).
    eapply steps_app; [apply life_of; exact U1|]. eapply ls_tau; [apply lf_done; exact T'|constructor].
  - intros [= <-]. eapply ls_tau; [apply lf_flush; auto|constructor].
Qed.

Fixpoint script (f : nat) (s : hsys) (l : list act) : option (list (list mres) * hsys) :=
  match l with
  | [] => Some ([], s)
  | ACalls os :: l =>
      match program c B bo f s os with
      | Some (r, s1) => match script f s1 l with Some (rs, s2) => Some (r :: rs, s2) | None => None end
      | None => None
      end
  | ARenew :: l => match renew f s with Some s1 => script f s1 l | None => None end
  end.

Fixpoint acts_calls (l : list act) (rs : list (list mres)) : list (mop * mres) :=
  match l with
  | [] => []
  | ACalls os :: l => match rs with r :: rs => combine (map (spec_op (tsc c)) os) r ++ acts_calls l rs | [] => [] end
  | ARenew :: l => acts_calls l rs
  end.

Lemma script_sound f loc i : forall l s rs s', (forall os o, In (ACalls os) l -> In o os -> client o) -> script f s l = Some (rs, s') ->
  lts_steps (life_step c B bo client n) (MHSys s loc i) (in_turn 0 (acts_calls l rs)) (MHSys s' loc i).
Proof.
  induction l as [|[os|] l IH]; intros s rs s' CL; cbn [script].
  - intros [= <- <-]. constructor.
  - destruct (program c B bo f s os) as [[r s1]|] eqn:P; [|discriminate].
    destruct (script f s1 l) as [[rs1 s2]|] eqn:S; [|discriminate]. intros [= <- <-]. cbn [acts_calls]. rewrite in_turn_app.
    eapply steps_app; [apply life_of; eapply program_sound; eauto; intros o I; apply (CL os o); auto; now left|].
    apply IH; auto. intros os' o I. apply (CL os'). now right.
  - destruct (renew f s) as [s1|] eqn:R; [|discriminate]. intros S. cbn [acts_calls].
    change (in_turn 0 (acts_calls l rs)) with ([] ++ in_turn 0 (acts_calls l rs)).
    eapply steps_app; [eapply renew_sound; eauto|]. apply IH; auto. intros os' o I. apply (CL os'). now right.
Qed.

Lemma life_loop v mp t k d s tr s' loc i :
  (forall p, p < total_slots (tmc c) (mp v) -> busy c k (t p) = true) ->
  (forall i, remap (tmc c) (mp v) i < total_slots (tmc c) (mp v)) ->
  looping v mp t k d s -> lts_steps (life_step c B bo client n) (MHSys s loc i) tr s' -> tr = [].
Proof.
  intros BZ RM L ST. remember (MHSys s loc i) as x eqn:E. revert s loc i E L.
  assert (KEY : forall s loc i l y, looping v mp t k d s -> life_step c B bo client n (MHSys s loc i) l y ->
     l = None /\ exists s1, y = MHSys s1 loc i /\ looping v mp t k d s1).
  { clear - BZ RM. intros s loc i l y L S.
    assert (T : gthr (hs_g s) 0 <> None /\ hs_ph s = HCall) by (destruct L as (me & th & e0 & du & l0 & i0 & -> & _ & T); cbn; split; congruence).
    destruct T as [T P].
    inversion S as [? ? ? M| | | |]; subst; cbn in T, P; try congruence.
    inversion M as [s1 l1 s2 ? ? H|]; subst; cbn in T, P; try congruence.
    destruct (loop_step _ _ _ _ _ _ _ _ _ _ _ _ BZ RM L H) as [E1 E2]. eauto. }
  induction ST as [|y y1 y2 tr S ST IH|y e y1 y2 tr S ST IH]; auto; intros s loc i -> L; destruct (KEY _ _ _ _ _ L S) as [E (s1 & -> & L1)].
  - eauto.
  - discriminate.
Qed.
End Exec.

Definition ins_from (a n : nat) : list op := map (fun k => OInsert (N.of_nat k) (N.of_nat k)) (seq a n).
Definition c82 : tcfg := TCfg (simple_slot true) (MCfg true true) (fun k => k).

(** One handle at a time: 340 insertions, the handle is destroyed, a new handle, 172 insertions.  The counted elements are exactly the
    limit, and no publication will go from below it to above it. *)
Definition acts82 : list act := [ACalls (ins_from 1 340); ARenew; ACalls (ins_from 341 172)].
Definition last82 : op := OInsert 513 1.
Definition client82 (o : op) : Prop := exists k d, o = OInsert k d /\ 0 < k < 600.

Definition full82 (s : hsys) : bool :=
  can_call s && match one_next c82 4096 true (start_call last82 s) with
  | Some (None, HSys (GSys v mp me None th) _ _ _ HCall) =>
      match th 0 with
      | Some (OInsert k d, GRun u (PLoad _)) =>
          (k =? 513) && (d =? 1) && (u =? v) && (probe_helper (mp v) =? 511) && forallb (fun p => busy c82 k (me v p)) (nrange 0 512)
      | _ => false
      end
  | _ => false
  end.

Lemma in_ins a n o : In o (ins_from a n) -> exists k, o = OInsert (N.of_nat k) (N.of_nat k) /\ (a <= k < a + n)%nat.
Proof. unfold ins_from. rewrite in_map_iff. intros (k & <- & I). apply in_seq in I. eauto. Qed.

Lemma filled82 : exists rs s, script c82 4096 true 600 (hsys_init c82 9) acts82 = Some (rs, s) /\ full82 s = true /\
  length (acts_calls c82 acts82 rs) = 512%nat.
Proof.
  assert (X : match script c82 4096 true 600 (hsys_init c82 9) acts82 with
              | Some (rs, s) => full82 s && Nat.eqb (length (acts_calls c82 acts82 rs)) 512 | None => false end = true) by (vm_compute; reflexivity).
  destruct (script _ _ _ _ _ _) as [[rs s]|]; [|discriminate]. apply andb_prop in X. destruct X as [X1 X2].
  apply Nat.eqb_eq in X2. eauto.
Qed.

(** One handle at a time, nothing erased, 512 slots: 512 insertions, and then one that never returns. *)
Theorem C82_every_call_returns_refuted :
  exists (calls : list (mop * mres)) (s : mhsys),
    legal (simple_slot true) client82 /\ (forall o, client82 o -> ~ erasing o) /\ length calls = 512%nat /\
    lts_steps (life_step c82 4096 true client82 1) (mhsys_init c82 9) (in_turn 0 calls ++ [EInv 0 (MInsert 513 1)]) s /\
    forall tr s', lts_steps (life_step c82 4096 true client82 1) s tr s' -> tr = [].
Proof.
  destruct filled82 as (rs & s & P & H & LEN).
  exists (acts_calls c82 acts82 rs).
  assert (S1 : lts_steps (life_step c82 4096 true client82 1) (mhsys_init c82 9) (in_turn 0 (acts_calls c82 acts82 rs)) (MHSys s (fun _ => (0, 0, 0)%Z) 0)).
  { eapply script_sound; [|exact P]. intros os o IN I. cbn [acts82 In] in IN.
    destruct IN as [X|[X|[X|[]]]]; [|discriminate X|]; (assert (Y : os = match ACalls os with ACalls l => l | ARenew => [] end) by reflexivity); rewrite <- X in Y; subst os; apply in_ins in I; destruct I as (k & -> & R);
      exists (N.of_nat k), (N.of_nat k); split; auto; lia. }
  clear P. unfold full82 in H. apply andb_prop in H. destruct H as [CC H].
  remember (one_next c82 4096 true (start_call last82 s)) as nx eqn:ON. symmetry in ON.
  destruct nx as [[[e|] s1]|]; try discriminate.
  destruct s1 as [[v mp me [mg|] th] e d lc [|dn|dn]]; try discriminate.
  destruct (th 0) as [[[k d'| | | | | |] [|u [j| | | | |]]]|] eqn:T; try discriminate.
  repeat (apply andb_prop in H; let X := fresh "X" in destruct H as [H X]).
  apply N.eqb_eq in H, X2, X1, X0. subst k d' u. rename X0 into PH, X into BZ.
  exists (MHSys (HSys (GSys v mp me None th) e d lc HCall) (fun _ => (0, 0, 0)%Z) 0). split; [|split; [|split; [|split]]].
  - intros o (k & d' & -> & R). split; [|exact I]. unfold user_key. cbn [op_key simple_slot sc_mark sc_w].
    change (2 ^ (64 - 1)) with 9223372036854775808. lia.
  - intros o (k & d' & -> & R). intros [].
  - exact LEN.
  - eapply steps_app; [exact S1|].
    eapply ls_vis; [apply lf_many, mh_one; apply (start_call_sound c82 4096 true _ last82 s CC); exists 513, 1; split; [reflexivity|lia]|].
    eapply ls_tau; [apply lf_many, mh_one; eapply one_next_sound; exact ON|constructor].
  - intros tr s' ST. eapply (life_loop c82 4096 true _ 1 v mp (me v) 513 1); [| | |exact ST].
    + intros p Hp. unfold total_slots in Hp. cbn [c82 tmc cprob] in Hp. rewrite PH in Hp.
      rewrite forallb_forall in BZ. apply BZ. apply in_nrange. lia.
    + intros q. unfold remap, total_slots. cbn [c82 tmc cprob]. rewrite PH. change 511 with (N.ones 9).
      rewrite N.land_ones. change (N.ones 9 + 1) with (2 ^ 9). apply N.mod_lt. discriminate.
    + exists me, th, e, d, lc, j. auto.
Qed.
Print Assumptions C82_every_call_returns_refuted.

(** A case of C82: a handle inserts 345 elements and is destroyed, which makes the table grow; a new handle finds one. *)
Definition acts82b : list act := [ACalls (ins_from 1 345); ARenew; ACalls [OFind 300; OInsert 300 1]].

Definition ends82 (rs : list (list mres)) : bool :=
  match skipn 1 rs with [[RFound a; RPresent b]] => (a =? 300) && (b =? 300) | _ => false end.

Lemma ends82_sound rs : ends82 rs = true -> skipn 1 rs = [[RFound 300; RPresent 300]].
Proof.
  unfold ends82. generalize (skipn 1 rs). clear rs. intros l. destruct l as [|x l]; [discriminate|]. destruct x as [|a x]; [discriminate|].
  destruct a; try discriminate. destruct x as [|b x]; [discriminate|]. destruct b; try discriminate. destruct x; [|discriminate].
  destruct l; [|discriminate]. intros H. apply andb_prop in H. rewrite !N.eqb_eq in H. destruct H as [-> ->]. reflexivity.
Qed.

Example C82_case :
  214 * 1 <= 2 ^ 9 /\
  exists rs s, lts_steps (life_step c82 4096 true (fun o => exists os, In (ACalls os) acts82b /\ In o os) 1) (mhsys_init c82 9)
                 (in_turn 0 (acts_calls c82 acts82b rs)) s /\
    skipn 1 rs = [[RFound 300; RPresent 300]] /\ gver (hs_g (mh_s s)) = 1.
Proof.
  split; [vm_compute; discriminate|].
  assert (X : match script c82 4096 true 4000 (hsys_init c82 9) acts82b with
              | Some (rs, s) => ends82 rs && (gver (hs_g s) =? 1) | None => false end = true) by (vm_compute; reflexivity).
  destruct (script _ _ _ _ _ _) as [[rs s]|] eqn:P; [|discriminate]. apply andb_prop in X. destruct X as [X1 X2]. apply N.eqb_eq in X2.
  exists rs, (MHSys s (fun _ => (0, 0, 0)%Z) 0). split; [|split; [now apply ends82_sound|exact X2]].
  eapply script_sound; [|exact P]. intros os o I1 I2. eauto.
Qed.
