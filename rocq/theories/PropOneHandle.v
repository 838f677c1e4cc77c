(** C76, C77: a growing table used through one handle by one thread. *)
From Coq Require Import NArith ZArith Bool List Lia.
From Verif Require Import Words Slot SlotFacts Mapper MapperFacts ReturnCode MapSpec LinSpec Base BaseInv BaseLin TableSpec BaseFacts
  Migrate MigrateExec Growing GrowingSpec GrowingFacts Count GrowOom OneHandle OneHandleSpec OneHandleFacts OneHandleExec.
Import ListNotations.
Open Scope N_scope.

Lemma legal_ok sc client o : wf_scfg sc -> legal sc client -> client o -> op_ok sc o.
Proof.
  intros W L C. destruct (L o C) as [K F]. split; [now apply user_key_valid|].
  destruct o; cbn; try (intros g x; discriminate); exact F.
Qed.

Lemma oinv_calls c B bo (client : op -> Prop) ne s a q : oinv c ne 1 0 0 s a q ->
  forall o, client o -> exists s', one_step c B bo client s (Some (EInv 0 (spec_op (tsc c) o))) s'.
Proof.
  intros (v & mp & me & th & e & d & u & i & x & lg & ct & -> & TH & _) o CL. eexists. now apply h_inv.
Qed.

Lemma one_handle c B bo client (ne : Prop) lg tr s :
  wf_scfg (tsc c) -> cprob (tmc c) = true -> 0 < B <= 2 ^ 31 -> legal (tsc c) client ->
  (ne -> forall o, client o -> ~ erasing o) -> 9 <= lg <= 31 -> N.of_nat (length tr) <= 2 ^ 31 ->
  lts_steps (off_step c B bo client ne) (hsys_init c lg) tr s ->
  exists ps a, answers amap_empty ps a /\
    ((tr = in_turn 0 ps /\ forall o, client o -> exists s', one_step c B bo client s (Some (EInv 0 (spec_op (tsc c) o))) s') \/
     exists o r a', tr = in_turn 0 ps ++ [EInv 0 o] /\ mspec false false a o a' r /\ will_return (one_step c B bo client) r s).
Proof.
  intros W CP HB L NE LG LEN ST.
  assert (K0 : kinv c B bo client ne [] (hsys_init c lg)).
  { exists [], amap_empty. split; [constructor|]. left. split; auto. apply (oinv_init c B); auto; try lia. pose proof (fl_bounds lg (proj1 LG)); lia. }
  destruct (kinv_steps c B bo client ne W CP HB (fun o => legal_ok _ _ o W L) NE _ _ _ ST [] K0 LEN)
    as (ps & a & AN & [(E & I)|(o & r & a2 & s2 & E & SP & LS & _)]).
  - exists ps, a. split; auto. left. split; auto. intros. eapply oinv_calls; eauto.
  - exists ps, a. split; auto. right. exists o, r, a2. split; auto. split; auto. eapply will_ret; eauto.
Qed.

(** *** C76 *)

(** A growing table with circular probing that one thread uses through one handle, without
    erasing: at every point of every execution the answered calls were answered as by a
    sequential map, and either another call can be made, or the call in progress will
    return the right answer, after finitely many steps, growth steps included. *)
Theorem C76_every_call_returns :
  forall (sc : scfg) (mc : mcfg) (hash : N -> N) (lg B : N) (backoff : bool) (client : op -> Prop)
         (tr : list (event mop mres)) (s : hsys),
    cell_type sc -> cprob mc = true -> 9 <= lg <= 31 -> 0 < B <= 2 ^ 31 ->
    legal sc client -> (forall o, client o -> ~ erasing o) ->
    N.of_nat (length tr) <= 2 ^ 31 ->
    lts_steps (one_step (TCfg sc mc hash) B backoff client) (hsys_init (TCfg sc mc hash) lg) tr s ->
    exists calls m, answers amap_empty calls m /\
      ((tr = in_turn 0 calls /\
        forall o, client o -> exists s', one_step (TCfg sc mc hash) B backoff client s (Some (EInv 0 (spec_op sc o))) s') \/
       exists o r m', tr = in_turn 0 calls ++ [EInv 0 o] /\ mspec false false m o m' r /\
         will_return (one_step (TCfg sc mc hash) B backoff client) r s).
Proof.
  intros sc mc hash lg B bo client tr s CT CP LG HB L NE LEN ST.
  apply (one_handle (TCfg sc mc hash) B bo client True lg tr s); auto using cell_type_wf.
  clear -ST. induction ST; econstructor; eauto; split; auto.
Qed.
Print Assumptions C76_every_call_returns.

(** *** C77 *)

(** With erasing: the same as long as no table has counted exactly as many elements as its
    limit says. *)
Theorem C77_every_call_returns_partial :
  forall (sc : scfg) (mc : mcfg) (hash : N -> N) (lg B : N) (backoff : bool) (client : op -> Prop)
         (tr : list (event mop mres)) (s : hsys),
    cell_type sc -> cprob mc = true -> 9 <= lg <= 31 -> 0 < B <= 2 ^ 31 ->
    legal sc client -> N.of_nat (length tr) <= 2 ^ 31 ->
    lts_steps (off_limit_step (TCfg sc mc hash) B backoff client) (hsys_init (TCfg sc mc hash) lg) tr s ->
    exists calls m, answers amap_empty calls m /\
      ((tr = in_turn 0 calls /\
        forall o, client o -> exists s', one_step (TCfg sc mc hash) B backoff client s (Some (EInv 0 (spec_op sc o))) s') \/
       exists o r m', tr = in_turn 0 calls ++ [EInv 0 o] /\ mspec false false m o m' r /\
         will_return (one_step (TCfg sc mc hash) B backoff client) r s).
Proof.
  intros sc mc hash lg B bo client tr s CT CP LG HB L LEN ST.
  apply (one_handle (TCfg sc mc hash) B bo client False lg tr s); auto using cell_type_wf; try tauto.
  clear -ST. induction ST as [|s s1 s2 tr [S O] ST IH|s e s1 s2 tr [S O] ST IH]; econstructor; eauto; split; auto.
Qed.
Print Assumptions C77_every_call_returns_partial.

(** Keys 1 to [n], inserted or erased. *)
Definition ins_keys (a n : nat) : list op := map (fun k => OInsert (N.of_nat k) (N.of_nat k)) (seq a n).
Definition del_keys (a n : nat) : list op := map (fun k => OErase (N.of_nat k)) (seq a n).

Definition c76 : tcfg := TCfg (simple_slot true) (MCfg true true) (fun k => k).

(** 325 insertions are counted as 325 elements, 15 insertions and 50 erasures more as 340,
    the limit of a table of 512 slots.  From then on the table does not grow. *)
Definition filling : list op := ins_keys 1 340 ++ del_keys 1 50 ++ ins_keys 341 172.

Definition next_key : op := OInsert 513 1.

(** What can be computed about the state that is reached. *)
Definition hanging (s : hsys) : bool :=
  can_call s && match one_next c76 4096 true (start_call next_key s) with
  | Some (None, HSys (GSys v mp me None th) _ _ _ HCall) =>
      match th 0 with
      | Some (OInsert k d, GRun u (PLoad _)) =>
          (k =? 513) && (d =? 1) && (u =? v) && (probe_helper (mp v) =? 511) && forallb (fun p => busy c76 k (me v p)) (nrange 0 512)
      | _ => false
      end
  | _ => false
  end.

Lemma filled : exists rs s,
  program c76 4096 true 600 (hsys_init c76 9) filling = Some (rs, s) /\ hanging s = true /\ length rs = length filling.
Proof.
  assert (X : match program c76 4096 true 600 (hsys_init c76 9) filling with
              | Some (rs, s) => hanging s && Nat.eqb (length rs) (length filling) | None => false end = true) by (vm_compute; reflexivity).
  destruct (program _ _ _ _ _ _) as [[rs s]|]; [|discriminate]. apply andb_prop in X. destruct X as [X1 X2].
  apply Nat.eqb_eq in X2. eauto.
Qed.

(** A program of 563 calls, the last of which, an insertion of a new key, never returns. *)
Theorem C77_every_call_returns_refuted :
  exists (client : op -> Prop) (calls : list (mop * mres)) (s : hsys),
    legal (simple_slot true) client /\ length calls = 562%nat /\
    lts_steps (one_step c76 4096 true client) (hsys_init c76 9) (in_turn 0 calls ++ [EInv 0 (MInsert 513 1)]) s /\
    forall tr s', lts_steps (one_step c76 4096 true client) s tr s' -> tr = [].
Proof.
  exists (fun o => In o (next_key :: filling)).
  destruct filled as (rs & s & P & H & LEN).
  exists (combine (map (spec_op (simple_slot true)) filling) rs).
  assert (S1 := program_sound c76 4096 true (fun o => In o (next_key :: filling)) 600 filling _ _ _ (fun o I => or_intror I) P).
  clear P. unfold hanging in H. apply andb_prop in H. destruct H as [CC H].
  remember (one_next c76 4096 true (start_call next_key s)) as nx eqn:ON. symmetry in ON.
  destruct nx as [[[e|] s1]|]; try discriminate.
  destruct s1 as [[v mp me [mg|] th] e d lc [|dn|dn]]; try discriminate.
  destruct (th 0) as [[[k d'| | | | | |] [|u [i| | | | |]]]|] eqn:T; try discriminate.
  repeat (apply andb_prop in H; let X := fresh "X" in destruct H as [H X]).
  apply N.eqb_eq in H, X2, X1, X0. subst k d' u. rename X0 into PH, X into BZ.
  exists (HSys (GSys v mp me None th) e d lc HCall). split; [|split; [|split]].
  - intros o IN. split.
    + assert (Q : forallb (fun o => (0 <? op_key o) && (op_key o <? 600)) (next_key :: filling) = true) by (vm_compute; reflexivity).
      rewrite forallb_forall in Q. specialize (Q o IN). unfold user_key. cbn [simple_slot sc_mark sc_w].
      apply andb_prop in Q. rewrite !N.ltb_lt in Q. change (2 ^ (64 - 1)) with 9223372036854775808. cbn. lia.
    + assert (Q : forallb (fun o => match o with OUpdate _ _ | OUpdateB _ _ | OIou _ _ _ => false | _ => true end) (next_key :: filling) = true) by (vm_compute; reflexivity).
      rewrite forallb_forall in Q. specialize (Q o IN). now destruct o.
  - rewrite combine_length, LEN, map_length, PeanoNat.Nat.min_id. reflexivity.
  - eapply steps_app; [exact S1|].
    eapply ls_vis; [apply (start_call_sound c76 4096 true _ next_key s CC); now left|].
    eapply ls_tau; [eapply one_next_sound; exact ON|constructor].
  - intros tr s' ST. eapply (loop_forever c76 4096 true _ v mp (me v) 513 1); [| | |exact ST].
    + intros p Hp. unfold total_slots in Hp. cbn [c76 tmc cprob] in Hp. rewrite PH in Hp.
      rewrite forallb_forall in BZ. apply BZ. apply in_nrange. lia.
    + intros j. unfold remap, total_slots. cbn [c76 tmc cprob]. rewrite PH. change 511 with (N.ones 9).
      rewrite N.land_ones. change (N.ones 9 + 1) with (2 ^ 9). apply N.mod_lt. discriminate.
    + exists me, th, e, d, lc, i. auto.
Qed.
Print Assumptions C77_every_call_returns_refuted.

(** A case of C76: 400 insertions, an update, a lookup and an insertion of a key that is present.  The
    table grows once, after 390 insertions. *)
Definition l76 : list op :=
  ins_keys 1 400 ++ [OUpdate 7 (Functor (fun x => x + 1) None); OFind 7; OInsert 7 3].

Example C76_case :
  legal (simple_slot true) (fun o => In o l76) /\ (forall o, In o l76 -> ~ erasing o) /\
  exists rs s, lts_steps (one_step c76 4096 true (fun o => In o l76)) (hsys_init c76 9)
                 (in_turn 0 (combine (map (spec_op (simple_slot true)) l76) rs)) s /\
    skipn 400 rs = [RUpdated 8; RFound 8; RPresent 8] /\ gver (hs_g s) = 1 /\
    addressable_slots (tmc c76) (gmap (hs_g s) 1) = 1024.
Proof.
  split; [|split].
  - intros o IN. split.
    + assert (Q : forallb (fun o => (0 <? op_key o) && (op_key o <? 600)) l76 = true) by (vm_compute; reflexivity).
      rewrite forallb_forall in Q. specialize (Q o IN). unfold user_key. cbn [simple_slot sc_mark sc_w].
      apply andb_prop in Q. rewrite !N.ltb_lt in Q. change (2 ^ (64 - 1)) with 9223372036854775808. cbn. lia.
    + apply in_app_iff in IN. destruct IN as [IN|IN].
      * unfold ins_keys in IN. apply in_map_iff in IN. destruct IN as (k & <- & _). exact I.
      * destruct IN as [<-|[<-|[<-|[]]]]; cbn; auto. discriminate.
  - intros o IN. assert (Q : forallb (fun o => match o with OErase _ | OEraseIf _ _ => false | _ => true end) l76 = true) by (vm_compute; reflexivity).
    rewrite forallb_forall in Q. specialize (Q o IN). destruct o; cbn; auto; discriminate.
  - assert (X : match program c76 4096 true 4000 (hsys_init c76 9) l76 with
              | Some (rs, s) => match skipn 400 rs with [RUpdated a; RFound b; RPresent d] => (a =? 8) && (b =? 8) && (d =? 8) | _ => false end &&
                  (gver (hs_g s) =? 1) && (addressable_slots (tmc c76) (gmap (hs_g s) 1) =? 1024)
              | None => false end = true) by (vm_compute; reflexivity).
    destruct (program _ _ _ _ _ _) as [[rs s]|] eqn:P; [|discriminate].
    apply andb_prop in X. destruct X as [X X3]. apply andb_prop in X. destruct X as [X1 X2]. apply N.eqb_eq in X2, X3.
    exists rs, s. split; [exact (program_sound c76 4096 true (fun o => In o l76) 4000 l76 _ _ _ (fun o I => I) P)|].
    clear P. split; auto. destruct (skipn 400 rs) as [|[] [|[] [|[] [|]]]]; try discriminate.
    apply andb_prop in X1. destruct X1 as [X1 X4]. apply andb_prop in X1. destruct X1 as [X1 X5]. apply N.eqb_eq in X1, X4, X5. now subst.
Qed.

(** A case of C77: 300 insertions, 100 erasures, 180 insertions.  The table grows once, with
    100 tombstones, and is doubled. *)
Definition l77 : list op := ins_keys 1 300 ++ del_keys 1 100 ++ ins_keys 301 180 ++ [OFind 50; OFind 150; OErase 150; OFind 150].

Definition off_limit (s : hsys) : bool := negb (hs_el s =? limit c76 (hs_g s))%Z.

Lemma off_tested s tr s' : lts_steps (tested c76 4096 true (fun o => In o l77) off_limit) s tr s' ->
  lts_steps (off_limit_step c76 4096 true (fun o => In o l77)) s tr s'.
Proof.
  intros ST. induction ST as [|s s1 s2 tr [S O] ST IH|s e s1 s2 tr [S O] ST IH]; [constructor|eapply ls_tau|eapply ls_vis]; eauto; split; auto;
    unfold off_limit in O; apply negb_true_iff in O; apply Z.eqb_neq in O; exact O.
Qed.

Definition last77 (l : list mres) : bool :=
  match l with [RAbsent; RFound b; RErased; RAbsent] => (b =? 150) | _ => false end.

Lemma last77_sound l : last77 l = true -> l = [RAbsent; RFound 150; RErased; RAbsent].
Proof.
  destruct l as [|a l]; [discriminate|]. destruct a; try discriminate.
  destruct l as [|a l]; [discriminate|]. destruct a; try discriminate.
  destruct l as [|a l]; [discriminate|]. destruct a; try discriminate.
  destruct l as [|a l]; [discriminate|]. destruct a; try discriminate.
  destruct l as [|a l]; [|discriminate]. cbn. intros X. apply N.eqb_eq in X. now subst.
Qed.

Example C77_case :
  exists rs s, lts_steps (off_limit_step c76 4096 true (fun o => In o l77)) (hsys_init c76 9)
                 (in_turn 0 (combine (map (spec_op (simple_slot true)) l77) rs)) s /\
    skipn 580 rs = [RAbsent; RFound 150; RErased; RAbsent] /\ gver (hs_g s) = 1.
Proof.
  assert (X : match program_ok c76 4096 true off_limit 4000 (hsys_init c76 9) l77 with
            | Some (rs, s) => last77 (skipn 580 rs) &&
                (gver (hs_g s) =? 1)
            | None => false end = true) by (vm_compute; reflexivity).
  destruct (program_ok _ _ _ _ _ _ _) as [[rs s]|] eqn:P; [|discriminate].
  apply andb_prop in X. destruct X as [X1 X2]. apply N.eqb_eq in X2.
  exists rs, s. split.
  - pose proof (program_ok_sound c76 4096 true (fun o => In o l77) off_limit 4000 l77 _ _ _ (fun o I => I) P) as ST.
    exact (off_tested _ _ _ ST).
  - split; [now apply last77_sound|exact X2].
Qed.
