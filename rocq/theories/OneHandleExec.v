(** Growing tables used through one handle: running them. *)
From Coq Require Import NArith ZArith Bool List Lia.
From Verif Require Import Words Slot SlotFacts Mapper ReturnCode MapSpec LinSpec Base BaseInv BaseExec
  TableSpec Migrate MigrateExec Growing GrowingSpec Count GrowOom OneHandle OneHandleSpec.
Import ListNotations.
Open Scope N_scope.

Section Exec.
Context (c : tcfg) (B : N) (bo : bool) (client : op -> Prop).

Definition counts (r : mres) : bool := match r with RInserted | RErased => true | _ => false end.

(** The next step of the call in progress. *)
Definition one_next (s : hsys) : option (option (event mop mres) * hsys) :=
  let '(HSys (GSys v mp me mg th) e d l ph) := s in
  match ph, mg with
  | HCall, None =>
      match th 0 with
      | None => None
      | Some (o, GGet) => Some (None, HSys (GSys v mp me None (fupd th 0 (Some (o, GRun v (start c (mp v) o))))) e d l HCall)
      | Some (o, GRun u (PDone r)) =>
          if retries o r then
            if rcode r =? RC_INVALID then Some (None, HSys (GSys v mp me None (fupd th 0 (Some (o, GGet)))) e d l HCall)
            else if addressable_slots (tmc c) (mp v) <? 2 ^ 32
                 then Some (None, HSys (begin_grow c v mp me th e d) e d l (HGrow false)) else None
          else if counts (gobs o r) then
            let '(n, i, x) := count1 (gobs o r) l in
            if (n <=? 64)%Z then Some (Some (ERet 0 (gobs o r)), HSys (GSys v mp me None (fupd th 0 None)) e d (n, i, x) HCall)
            else if crosses e i (thresh (total_slots (tmc c) (mp v)))
                 then if addressable_slots (tmc c) (mp v) <? 2 ^ 32
                      then Some (None, HSys (begin_grow c v mp me th (e + i) (d + x)) (e + i) (d + x) (0%Z, i, x) (HGrow true))
                      else None
                 else Some (Some (ERet 0 (gobs o r)), HSys (GSys v mp me None (fupd th 0 None)) (e + i) (d + x) (0, 0, 0)%Z HCall)
          else Some (Some (ERet 0 (gobs o r)), HSys (GSys v mp me None (fupd th 0 None)) e d l HCall)
      | Some (o, GRun u pc) =>
          let '(t', pc') := bstep c (mp u) (me u) bo o pc in
          Some (None, HSys (GSys v mp (fupd me u t') None (fupd th 0 (Some (o, GRun u pc')))) e d l HCall)
      end
  | HGrow dn, Some (k, h) =>
      match h 0 with
      | None => Some (None, HSys (GSys v mp me (Some (k, fupd h 0 (Some HClaim))) th) e d l (HGrow dn))
      | Some HEnd => Some (None, HSys (GSys (v + 1) mp me None th) (e - d) 0 l (HBack dn))
      | Some pc =>
          let '(s', t', k', pc') := hstep c (mp v) (mp (v + 1)) B (me v) (me (v + 1)) k pc in
          Some (None, HSys (GSys v mp (fupd (fupd me v s') (v + 1) t') (Some (k', fupd h 0 (Some pc'))) th) e d l (HGrow dn))
      end
  | HBack dn, None =>
      match th 0 with
      | Some (o, GRun u (PDone r)) =>
          if dn then Some (Some (ERet 0 (gobs o r)), HSys (GSys v mp me None (fupd th 0 None)) e d (0, 0, 0)%Z HCall)
          else Some (None, HSys (GSys v mp me None (fupd th 0 (Some (o, GGet)))) e d l HCall)
      | _ => None
      end
  | _, _ => None
  end.

Lemma one_next_sound s l s' : one_next s = Some (l, s') -> one_step c B bo client s l s'.
Proof.
  destruct s as [[v mp me mg th] e d lc ph]. cbn [one_next].
  destruct ph as [|dn|dn]; destruct mg as [[k h]|]; try discriminate.
  - destruct (th 0) as [[o [|u pc]]|] eqn:T; [| |discriminate].
    + intros [= <- <-]. now apply h_get.
    + assert (RUN : (forall r, pc <> PDone r) -> (let '(t', pc') := bstep c (mp u) (me u) bo o pc in
        Some (@None (event mop mres), HSys (GSys v mp (fupd me u t') None (fupd th 0 (Some (o, GRun u pc')))) e d lc HCall)) = Some (l, s') ->
        one_step c B bo client (HSys (GSys v mp me None th) e d lc HCall) l s').
      { intros ND. destruct (bstep c (mp u) (me u) bo o pc) as [t' pc'] eqn:ST. intros [= <- <-]. eapply h_run; eauto. }
      destruct pc as [| | | |r|]; try (apply RUN; discriminate). clear RUN.
      destruct (retries o r) eqn:R.
      * destruct (N.eqb_spec (rcode r) RC_INVALID) as [X|X]; [intros [= <- <-]; eapply h_invalid; eauto|].
        destruct (N.ltb_spec (addressable_slots (tmc c) (mp v)) (2 ^ 32)); [|discriminate]. intros [= <- <-]. eapply h_full; eauto.
      * destruct (counts (gobs o r)) eqn:C.
        -- assert (G : gobs o r = RInserted \/ gobs o r = RErased) by (destruct (gobs o r); try discriminate; auto).
           destruct (count1 (gobs o r) lc) as [[n i] x] eqn:C1.
           destruct (Z.leb_spec n 64); [intros [= <- <-]; eapply h_count; eauto|].
           destruct (crosses e i (thresh (total_slots (tmc c) (mp v)))) eqn:CR.
           ++ destruct (N.ltb_spec (addressable_slots (tmc c) (mp v)) (2 ^ 32)); [|discriminate]. intros [= <- <-]. eapply h_cross; eauto.
           ++ intros [= <- <-]. eapply h_flush; eauto.
        -- intros [= <- <-]. eapply h_ret; eauto; intros X; rewrite X in C; discriminate.
  - destruct (h 0) as [pc|] eqn:H; [|intros [= <- <-]; now apply h_join].
    assert (HELP : pc <> HEnd -> (let '(s0, t0, k0, pc0) := hstep c (mp v) (mp (v + 1)) B (me v) (me (v + 1)) k pc in
       Some (@None (event mop mres), HSys (GSys v mp (fupd (fupd me v s0) (v + 1) t0) (Some (k0, fupd h 0 (Some pc0))) th) e d lc (HGrow dn))) = Some (l, s') ->
       one_step c B bo client (HSys (GSys v mp me (Some (k, h)) th) e d lc (HGrow dn)) l s').
    { intros NE. destruct (hstep c (mp v) (mp (v + 1)) B (me v) (me (v + 1)) k pc) as [[[s0 t0] k0] pc0] eqn:ST. intros [= <- <-].
      eapply h_help; eauto. }
    destruct pc; try (apply HELP; discriminate). intros [= <- <-]. now apply h_publish.
  - destruct (th 0) as [[o [|u [| | | |r|]]]|] eqn:T; try discriminate. destruct dn; intros [= <- <-].
    + eapply h_done; eauto.
    + eapply h_again; eauto.
Qed.

(** Up to [n] steps, until the call returns. *)
Fixpoint until_ret (n : nat) (s : hsys) : option (mres * hsys) :=
  match n with
  | O => None
  | S n => match one_next s with
           | Some (None, s') => until_ret n s'
           | Some (Some (ERet _ r), s') => Some (r, s')
           | _ => None
           end
  end.

Lemma until_ret_sound : forall n s r s', until_ret n s = Some (r, s') -> lts_steps (one_step c B bo client) s [ERet 0 r] s'.
Proof.
  induction n as [|n IH]; intros s r s'; cbn [until_ret]; [discriminate|].
  destruct (one_next s) as [[[[t o|t x]|] s1]|] eqn:E; try discriminate; pose proof (one_next_sound _ _ _ E) as S.
  - intros [= <- <-]. assert (t = 0) by (inversion S; auto). subst t. eapply ls_vis; [exact S|constructor].
  - intros H. eapply ls_tau; [exact S|]. now apply IH.
Qed.

(** A call beginning. *)
Definition start_call (o : op) (s : hsys) : hsys :=
  let g := hs_g s in
  HSys (GSys (gver g) (gmap g) (gmem g) (gmig g) (fupd (gthr g) 0 (Some (o, GGet)))) (hs_el s) (hs_du s) (hs_loc s) (hs_ph s).
Definition can_call (s : hsys) : bool :=
  match gthr (hs_g s) 0, gmig (hs_g s), hs_ph s with None, None, HCall => true | _, _, _ => false end.

Lemma start_call_sound o s : can_call s = true -> client o -> one_step c B bo client s (Some (EInv 0 (spec_op (tsc c) o))) (start_call o s).
Proof.
  destruct s as [[v mp me mg th] e d lc ph]. unfold can_call. cbn. destruct (th 0) eqn:T; [discriminate|]. destruct mg; [discriminate|].
  destruct ph; try discriminate. intros _ CL. now apply h_inv.
Qed.

(** A program: the answers and the state at the end. *)
Fixpoint program (f : nat) (s : hsys) (l : list op) : option (list mres * hsys) :=
  match l with
  | [] => Some ([], s)
  | o :: l => if can_call s then
      match until_ret f (start_call o s) with
      | Some (r, s1) => match program f s1 l with Some (rs, s2) => Some (r :: rs, s2) | None => None end
      | None => None
      end else None
  end.

Lemma program_sound f : forall l s rs s', (forall o, In o l -> client o) -> program f s l = Some (rs, s') ->
  lts_steps (one_step c B bo client) s (in_turn 0 (combine (map (spec_op (tsc c)) l) rs)) s'.
Proof.
  induction l as [|o l IH]; intros s rs s' CL; cbn [program].
  - intros [= <- <-]. constructor.
  - destruct (can_call s) eqn:CC; [|discriminate]. destruct (until_ret f (start_call o s)) as [[r s1]|] eqn:U; [|discriminate].
    destruct (program f s1 l) as [[rs1 s2]|] eqn:P; [|discriminate]. intros [= <- <-]. cbn [map combine in_turn].
    eapply ls_vis; [apply start_call_sound; auto; apply CL; now left|].
    change (ERet 0 r :: in_turn 0 (combine (map (spec_op (tsc c)) l) rs1)) with ([ERet 0 r] ++ in_turn 0 (combine (map (spec_op (tsc c)) l) rs1)).
    eapply steps_app; [eapply until_ret_sound; eauto|]. apply IH; auto. intros o' I. apply CL. now right.
Qed.

(** The same, testing every state on the way. *)
Section Tested.
Context (ok : hsys -> bool).
Definition tested (s : hsys) (l : option (event mop mres)) (s' : hsys) : Prop := one_step c B bo client s l s' /\ ok s' = true.

Fixpoint until_ret_ok (n : nat) (s : hsys) : option (mres * hsys) :=
  match n with
  | O => None
  | S n => match one_next s with
           | Some (None, s') => if ok s' then until_ret_ok n s' else None
           | Some (Some (ERet _ r), s') => if ok s' then Some (r, s') else None
           | _ => None
           end
  end.

Lemma until_ret_ok_sound : forall n s r s', until_ret_ok n s = Some (r, s') -> lts_steps tested s [ERet 0 r] s'.
Proof.
  induction n as [|n IH]; intros s r s'; cbn [until_ret_ok]; [discriminate|].
  destruct (one_next s) as [[[[t o|t x]|] s1]|] eqn:E; try discriminate; pose proof (one_next_sound _ _ _ E) as S;
    destruct (ok s1) eqn:O; try discriminate.
  - intros [= <- <-]. assert (t = 0) by (inversion S; auto). subst t. eapply ls_vis; [split; [exact S|exact O]|constructor].
  - intros H. eapply ls_tau; [split; [exact S|exact O]|]. now apply IH.
Qed.

Fixpoint program_ok (f : nat) (s : hsys) (l : list op) : option (list mres * hsys) :=
  match l with
  | [] => Some ([], s)
  | o :: l => if can_call s && ok (start_call o s) then
      match until_ret_ok f (start_call o s) with
      | Some (r, s1) => match program_ok f s1 l with Some (rs, s2) => Some (r :: rs, s2) | None => None end
      | None => None
      end else None
  end.

Lemma program_ok_sound f : forall l s rs s', (forall o, In o l -> client o) -> program_ok f s l = Some (rs, s') ->
  lts_steps tested s (in_turn 0 (combine (map (spec_op (tsc c)) l) rs)) s'.
Proof.
  induction l as [|o l IH]; intros s rs s' CL; cbn [program_ok].
  - intros [= <- <-]. constructor.
  - destruct (can_call s) eqn:CC; [|discriminate]. destruct (ok (start_call o s)) eqn:O; [|discriminate]. cbn [andb].
    destruct (until_ret_ok f (start_call o s)) as [[r s1]|] eqn:U; [|discriminate].
    destruct (program_ok f s1 l) as [[rs1 s2]|] eqn:P; [|discriminate]. intros [= <- <-]. cbn [map combine in_turn].
    eapply ls_vis; [split; [apply start_call_sound; auto; apply CL; now left|exact O]|].
    change (ERet 0 r :: in_turn 0 (combine (map (spec_op (tsc c)) l) rs1)) with ([ERet 0 r] ++ in_turn 0 (combine (map (spec_op (tsc c)) l) rs1)).
    eapply steps_app; [eapply until_ret_ok_sound; eauto|]. apply IH; auto. intros o' I. apply CL. now right.
Qed.
End Tested.

(** A call that goes round a table all of whose cells are used by other keys never returns. *)
Definition busy (k : N) (x : option slot) : bool :=
  match x with Some y => negb (is_marked (tsc c) y) && negb (is_empty (tsc c) y) && negb (compare_key (tsc c) y k) | None => false end.

Definition looping (v : N) (mp : N -> mapper) (t : mem) (k d : N) (s : hsys) : Prop :=
  exists me th e du l i, s = HSys (GSys v mp me None th) e du l HCall /\ me v = t /\ th 0 = Some (OInsert k d, GRun v (PLoad i)).

Lemma loop_step v mp t k d s l s' :
  (forall p, p < total_slots (tmc c) (mp v) -> busy k (t p) = true) ->
  (forall i, remap (tmc c) (mp v) i < total_slots (tmc c) (mp v)) ->
  looping v mp t k d s -> one_step c B bo client s l s' -> l = None /\ looping v mp t k d s'.
Proof.
  intros BZ RM (me & th & e & du & lc & i & -> & <- & T) ST. inversion ST; subst; try congruence.
  match goal with H : th 0 = Some (_, GRun _ _) |- _ => rewrite T in H; injection H as <- <- <- end.
  match goal with H : bstep _ _ _ _ _ _ = _ |- _ => rename H into BS end.
  cbn [bstep] in BS. unfold rd in BS. specialize (RM i). specialize (BZ _ RM).
  destruct (N.ltb_spec (remap (tmc c) (mp v) i) (total_slots (tmc c) (mp v))); [|lia].
  destruct (me v (remap (tmc c) (mp v) i)) as [y|] eqn:Y; [|discriminate].
  cbn [busy] in BZ. apply andb_prop in BZ. destruct BZ as [BZ B3]. apply andb_prop in BZ. destruct BZ as [B1 B2].
  apply negb_true_iff in B1, B2, B3. cbn [after_load] in BS. rewrite B1, B2, B3 in BS. injection BS as <- <-.
  split; auto. eexists _, _, _, _, _, (i + 1). split; [reflexivity|]. rewrite !fupd_eq. auto.
Qed.

Lemma loop_forever v mp t k d s tr s' :
  (forall p, p < total_slots (tmc c) (mp v) -> busy k (t p) = true) ->
  (forall i, remap (tmc c) (mp v) i < total_slots (tmc c) (mp v)) ->
  looping v mp t k d s -> lts_steps (one_step c B bo client) s tr s' -> tr = [].
Proof.
  intros BZ RM L ST. induction ST as [|s s1 s2 tr S ST IH|s e s1 s2 tr S ST IH]; auto.
  - destruct (loop_step _ _ _ _ _ _ _ _ BZ RM L S) as [_ L']. auto.
  - destruct (loop_step _ _ _ _ _ _ _ _ BZ RM L S) as [X _]. discriminate.
Qed.

End Exec.
