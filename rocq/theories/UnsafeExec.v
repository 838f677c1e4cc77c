(** An executable scheduler for tables with unsafe updates. *)
From Coq Require Import NArith Bool List Lia.
From Verif Require Import Words Slot Mapper ReturnCode MapSpec LinSpec Base TableSpec Migrate MigrateExec
  GrowSpec Tso Unsafe UnsafeSpec.
Import ListNotations.
Open Scope N_scope.

(** Scheduling decisions; [VHelp]: the migration moves on. *)
Inductive vlabel :=
| VInv (u : N) (q : call)
| VRun (u : N) (b : bool)
| VRet (u : N)
| VHelp (l : mlabel).

Definition unsafeb (q : call) : bool := match q with Safe _ => false | _ => true end.
Lemma unsafeb_iff q : unsafeb q = true <-> unsafe q.
Proof. destruct q; cbn; split; auto; try discriminate; contradiction. Qed.

Section Exec.
Context (c : tcfg) (m : mapper).

Definition vexec1 (s : usys) (l : vlabel) : option (option (event mop mres) * usys) :=
  match l with
  | VInv u q =>
      match uthr s u with
      | None => Some (Some (EInv u (spec_op (tsc c) (as_safe q))),
                      USys (umem s) (fupd (uthr s) u (Some (q, UAt (start c m (as_safe q))))))
      | Some _ => None
      end
  | VRun u b =>
      match uthr s u with
      | Some (q, UStore i curr) =>
          Some (None,
            USys (store_word (umem s) (remap (tmc c) m i, fn (op_fun (as_safe q)) (sdata curr)))
              (fupd (uthr s) u (Some (q, UAt (PDone (BRet RC_SUCCESS_UP
                 (fst (non_atomic_update (tsc c) curr (op_fun (as_safe q)))) (Some (remap (tmc c) m i))))))))
      | Some (q, UAt (PUpd i x)) =>
          if unsafeb q then
            match rd c m (umem s) (remap (tmc c) m i) with
            | Some curr => Some (None, USys (umem s) (fupd (uthr s) u (Some (q, UStore i curr))))
            | None => None
            end
          else
            let '(t', pc') := bstep c m (umem s) b (as_safe q) (PUpd i x) in
            Some (None, USys t' (fupd (uthr s) u (Some (q, UAt pc'))))
      | Some (q, UAt (PDone _)) => None
      | Some (q, UAt pc) =>
          let '(t', pc') := bstep c m (umem s) b (as_safe q) pc in
          Some (None, USys t' (fupd (uthr s) u (Some (q, UAt pc'))))
      | None => None
      end
  | VRet u =>
      match uthr s u with
      | Some (q, UAt (PDone r)) => Some (Some (ERet u (obs (as_safe q) r)), USys (umem s) (fupd (uthr s) u None))
      | _ => None
      end
  | VHelp _ => None
  end.

Definition calls_of (l : vlabel) : list call := match l with VInv _ q => [q] | _ => [] end.

Lemma vexec1_sound (client : call -> Prop) s l e s' :
  (forall q, In q (calls_of l) -> client q) -> vexec1 s l = Some (e, s') -> call_step c m client s e s'.
Proof.
  destruct s as [t th]. intros CL E. destruct l as [u q|u b|u|l]; cbn [vexec1 umem uthr] in E; [| | |discriminate].
  - destruct (th u) eqn:Eu; [discriminate|]. injection E as <- <-. apply us_inv; auto. apply CL. now left.
  - destruct (th u) as [[q x]|] eqn:Eu; [|discriminate]. destruct x as [pc|i curr].
    + destruct pc as [i|i y|i y|i y|r|] eqn:Ep.
      all: try (match type of E with context [bstep ?c0 ?m0 ?t0 ?b0 ?o0 ?p] =>
             destruct (bstep c0 m0 t0 b0 o0 p) as [t' pc'] eqn:S end).
      all: try (injection E as <- <-; eapply us_run with (b := b); [exact Eu|discriminate|discriminate|exact S]).
      * destruct (unsafeb q) eqn:U.
        -- destruct (rd c m t (remap (tmc c) m i)) as [curr|] eqn:R; [|discriminate]. injection E as <- <-.
           eapply us_read; eauto. now apply unsafeb_iff.
        -- injection E as <- <-. eapply us_run with (b := b); [exact Eu|discriminate| |exact S].
           intros X. apply unsafeb_iff in X. congruence.
      * discriminate.
    + injection E as <- <-. now apply us_store.
  - destruct (th u) as [[q [pc|i curr]]|] eqn:Eu; try discriminate. destruct pc; try discriminate.
    injection E as <- <-. now apply us_ret.
Qed.

Fixpoint vexec (s : usys) (ls : list vlabel) : option (list (event mop mres) * usys) :=
  match ls with
  | [] => Some ([], s)
  | l :: ls =>
      match vexec1 s l with
      | None => None
      | Some (e, s') =>
          match vexec s' ls with
          | None => None
          | Some (tr, s'') => Some (match e with Some e => e :: tr | None => tr end, s'')
          end
      end
  end.

Lemma vexec_sound (client : call -> Prop) s ls tr s' :
  (forall q, In q (flat_map calls_of ls) -> client q) -> vexec s ls = Some (tr, s') ->
  lts_steps (u_step c m client) s tr s'.
Proof.
  revert s tr. induction ls as [|l ls IH]; intros s tr CL E; cbn [vexec] in E.
  - injection E as <- <-. constructor.
  - destruct (vexec1 s l) as [[e s1]|] eqn:E1; [|discriminate].
    destruct (vexec s1 ls) as [[tr1 s2]|] eqn:E2; [|discriminate]. injection E as <- <-.
    assert (S : u_step c m client s e s1).
    { apply u_call. eapply vexec1_sound; eauto. intros q I. apply CL. cbn. apply in_or_app. now left. }
    assert (L : lts_steps (u_step c m client) s1 tr1 s2).
    { apply IH; auto. intros q I. apply CL. cbn. apply in_or_app. now right. }
    destruct e; [eapply ls_vis|eapply ls_tau]; eauto.
Qed.

(** *** Careful executions *)

Definition changingb (q : call) : bool :=
  match as_safe q with OInsert _ _ | OFind _ => false | _ => true end.
Lemma changingb_iff q : changing q -> changingb q = true.
Proof. unfold changing, changingb. destruct (as_safe q); cbn; tauto. Qed.

Definition threads_of (l : vlabel) : list N := match l with VInv u _ => [u] | _ => [] end.

(** [apart], for the threads in [us]. *)
Definition apartb (us : list N) (s : usys) : bool :=
  forallb (fun u => forallb (fun v =>
    (u =? v) ||
    match uthr s u, uthr s v with
    | Some (q, _), Some (q', _) => negb (unsafeb q && changingb q' && (call_key q =? call_key q'))
    | _, _ => true
    end) us) us.

Lemma apartb_sound us s :
  (forall u, ~ In u us -> uthr s u = None) -> apartb us s = true -> apart s.
Proof.
  intros D A u v q q' x y NE Eu Ev U CH EK.
  assert (In u us) by (destruct (in_dec N.eq_dec u us) as [|X]; auto; rewrite (D u X) in Eu; discriminate).
  assert (In v us) by (destruct (in_dec N.eq_dec v us) as [|X]; auto; rewrite (D v X) in Ev; discriminate).
  unfold apartb in A. rewrite forallb_forall in A. specialize (A u H). cbn in A. rewrite forallb_forall in A.
  specialize (A v H0). rewrite Eu, Ev in A. apply unsafeb_iff in U. apply changingb_iff in CH.
  rewrite U, CH, EK, N.eqb_refl in A. cbn in A. rewrite orb_false_r in A. apply N.eqb_eq in A. contradiction.
Qed.

Lemma vexec1_dom s l e s' u :
  vexec1 s l = Some (e, s') -> ~ In u (threads_of l) -> uthr s u = None -> uthr s' u = None.
Proof.
  destruct s as [t th]. intros E NI H. cbn in H.
  assert (X : forall v (w : option (call * upc)), v <> u -> fupd th v w u = None).
  { intros v w N. unfold fupd. destruct (N.eqb_spec u v); congruence. }
  assert (Y : forall v z, th v = Some z -> v <> u) by (intros v z Z ->; cbn in H; congruence).
  destruct l as [v q|v b|v|l]; cbn [vexec1 umem uthr] in *; [| | |discriminate].
  - destruct (th v) eqn:Ev; [discriminate|]. injection E as <- <-. cbn. apply X. intros ->. apply NI. now left.
  - destruct (th v) as [[q x]|] eqn:Ev; [|discriminate]. specialize (Y v _ Ev). destruct x as [pc|i curr].
    + destruct pc as [i|i y|i y|i y|r|] eqn:Ep.
      all: try (match type of E with context [bstep ?c0 ?m0 ?t0 ?b0 ?o0 ?p] =>
             destruct (bstep c0 m0 t0 b0 o0 p) as [t' pc'] eqn:S end).
      all: try (injection E as <- <-; cbn; now apply X).
      * destruct (unsafeb q).
        -- destruct (rd c m t (remap (tmc c) m i)); [|discriminate]. injection E as <- <-. cbn. now apply X.
        -- injection E as <- <-. cbn. now apply X.
      * discriminate.
    + injection E as <- <-. cbn. now apply X.
  - destruct (th v) as [[q [pc|i curr]]|] eqn:Ev; try discriminate. specialize (Y v _ Ev). destruct pc; try discriminate.
    injection E as <- <-. cbn. now apply X.
Qed.

Fixpoint vcareful (us : list N) (s : usys) (ls : list vlabel) : bool :=
  apartb us s &&
  match ls with
  | [] => true
  | l :: ls =>
      forallb (fun u => existsb (N.eqb u) us) (threads_of l) &&
      match vexec1 s l with None => true | Some (_, s') => vcareful us s' ls end
  end.

Lemma vexec_careful (client : call -> Prop) us s ls tr s' :
  (forall u, ~ In u us -> uthr s u = None) ->
  (forall q, In q (flat_map calls_of ls) -> client q) -> vcareful us s ls = true -> vexec s ls = Some (tr, s') ->
  lts_steps (careful (u_step c m client)) s tr s' /\ (forall u, ~ In u us -> uthr s' u = None).
Proof.
  revert s tr. induction ls as [|l ls IH]; intros s tr D CL V E; cbn [vexec vcareful] in E, V.
  - injection E as <- <-. split; auto. constructor.
  - destruct (vexec1 s l) as [[e s1]|] eqn:E1; [|discriminate].
    destruct (vexec s1 ls) as [[tr1 s2]|] eqn:E2; [|discriminate]. injection E as <- <-.
    apply andb_true_iff in V. destruct V as [V1 V]. apply andb_true_iff in V. destruct V as [V2 V3].
    assert (D1 : forall u, ~ In u us -> uthr s1 u = None).
    { intros u NI. eapply vexec1_dom; eauto. intros I. rewrite forallb_forall in V2. specialize (V2 u I).
      apply existsb_exists in V2. destruct V2 as (y & I' & EQ). apply N.eqb_eq in EQ. subst y. auto. }
    assert (V4 : apartb us s1 = true) by (destruct ls; cbn in V3; apply andb_true_iff in V3; apply V3).
    assert (S : careful (u_step c m client) s e s1).
    { split; [|split; eapply apartb_sound; eauto].
      apply u_call. eapply vexec1_sound; eauto. intros q I. apply CL. cbn. apply in_or_app. now left. }
    destruct (IH s1 tr1) as [L D2]; auto.
    { intros q I. apply CL. cbn. apply in_or_app. now right. }
    split; auto. destruct e; [eapply ls_vis|eapply ls_tau]; eauto.
Qed.

End Exec.

(** *** During a migration *)
Section Move.
Context (c : tcfg) (ms mt : mapper) (B : N).

Definition wexec1 (s : msys * (N -> option (call * upc))) (l : vlabel)
  : option (option (event mop mres) * (msys * (N -> option (call * upc)))) :=
  match l with
  | VHelp l =>
      match mops_of [l], mexec1 c ms mt B (fst s) l with
      | [], Some (None, x') => Some (None, (x', snd s))
      | _, _ => None
      end
  | l =>
      match vexec1 c ms (USys (msrc (fst s)) (snd s)) l with
      | Some (e, s') =>
          let x := fst s in
          Some (e, (MSys (umem s') (mtgt x) (mctr x) (mhlp x) (mthr x), uthr s'))
      | None => None
      end
  end.

Fixpoint wexec (s : msys * (N -> option (call * upc))) (ls : list vlabel)
  : option (list (event mop mres) * (msys * (N -> option (call * upc)))) :=
  match ls with
  | [] => Some ([], s)
  | l :: ls =>
      match wexec1 s l with
      | None => None
      | Some (e, s') =>
          match wexec s' ls with
          | None => None
          | Some (tr, s'') => Some (match e with Some e => e :: tr | None => tr end, s'')
          end
      end
  end.

Lemma help_lift client x tr x' th :
  lts_steps (msys_step c ms mt B nobody) x tr x' -> tr = [] ->
  lts_steps (um_step c ms mt B client) (x, th) [] (x', th).
Proof.
  intros ST. induction ST as [x|x y z tr S ST IH|]; intros E; [constructor| |discriminate].
  eapply ls_tau; [apply um_help; exact S|auto].
Qed.

Lemma wexec1_sound (client : call -> Prop) s l e s' :
  (forall q, In q (calls_of l) -> client q) -> wexec1 s l = Some (e, s') ->
  lts_steps (um_step c ms mt B client) s (match e with Some e => [e] | None => [] end) s'.
Proof.
  destruct s as [x th]. intros CL E.
  assert (K : forall e s', vexec1 c ms (USys (msrc x) th) l = Some (e, s') ->
    lts_steps (um_step c ms mt B client) (x, th) (match e with Some e => [e] | None => [] end)
      (MSys (umem s') (mtgt x) (mctr x) (mhlp x) (mthr x), uthr s')).
  { intros e0 [t' th'] X. pose proof (vexec1_sound c ms client _ _ _ _ CL X) as S. cbn [umem uthr].
    destruct e0; [eapply ls_vis|eapply ls_tau]; try (apply um_call; exact S); constructor. }
  destruct l as [u q|u b|u|l]; unfold wexec1 in E; cbn [fst snd] in E.
  1-3: destruct (vexec1 _ _ _ _) as [[e1 s1]|] eqn:V; [|discriminate]; injection E as <- <-; now apply K.
  destruct (mops_of [l]) eqn:M; [|discriminate].
  destruct (mexec1 c ms mt B x l) as [[[e1|] x']|] eqn:V; try discriminate. injection E as <- <-.
  pose proof (mexec1_sound c ms mt B nobody x l None x') as S. eapply help_lift; [apply S; auto|reflexivity].
  rewrite M. intros o [].
Qed.

Lemma um_app client x tr y tr' z :
  lts_steps (um_step c ms mt B client) x tr y -> lts_steps (um_step c ms mt B client) y tr' z ->
  lts_steps (um_step c ms mt B client) x (tr ++ tr') z.
Proof. induction 1; cbn; intros; auto; [eapply ls_tau|eapply ls_vis]; eauto. Qed.

Lemma wexec_sound (client : call -> Prop) s ls tr s' :
  (forall q, In q (flat_map calls_of ls) -> client q) -> wexec s ls = Some (tr, s') ->
  lts_steps (um_step c ms mt B client) s tr s'.
Proof.
  revert s tr. induction ls as [|l ls IH]; intros s tr CL E; cbn [wexec] in E.
  - injection E as <- <-. constructor.
  - destruct (wexec1 s l) as [[e s1]|] eqn:E1; [|discriminate].
    destruct (wexec s1 ls) as [[tr1 s2]|] eqn:E2; [|discriminate]. injection E as <- <-.
    replace (match e with Some e => e :: tr1 | None => tr1 end)
      with ((match e with Some e => [e] | None => [] end) ++ tr1) by (destruct e; reflexivity).
    eapply um_app.
    + eapply wexec1_sound; eauto. intros q I. apply CL. cbn. apply in_or_app. now left.
    + apply IH; auto. intros q I. apply CL. cbn. apply in_or_app. now right.
Qed.

(** Only the helpers that joined are helping. *)
Fixpoint wjoined (ls : list vlabel) : list N :=
  match ls with
  | [] => []
  | VHelp (MJoin u) :: ls => u :: wjoined ls
  | _ :: ls => wjoined ls
  end.

Lemma wexec1_dom s l e s' u :
  wexec1 s l = Some (e, s') -> ~ In u (wjoined [l]) -> mhlp (fst s) u = None -> mhlp (fst s') u = None.
Proof.
  destruct s as [x th]. intros E NI H. destruct l as [v q|v b|v|l]; unfold wexec1 in E; cbn [fst snd] in *.
  1-3: destruct (vexec1 _ _ _ _) as [[e1 s1]|] eqn:V; [|discriminate]; injection E as <- <-; exact H.
  destruct (mops_of [l]) eqn:M; [|discriminate].
  destruct (mexec1 c ms mt B x l) as [[[e1|] x']|] eqn:V; try discriminate. injection E as <- <-. cbn.
  eapply (mexec_dom c ms mt B x [l] [] x' u); auto.
  - cbn [mexec]. rewrite V. reflexivity.
Qed.

Lemma wexec_dom s ls tr s' u :
  wexec s ls = Some (tr, s') -> ~ In u (wjoined ls) -> mhlp (fst s) u = None -> mhlp (fst s') u = None.
Proof.
  revert s tr. induction ls as [|l ls IH]; intros s tr E NI H; cbn [wexec] in E.
  - now injection E as <- <-.
  - destruct (wexec1 s l) as [[e s1]|] eqn:E1; [|discriminate].
    destruct (wexec s1 ls) as [[tr1 s2]|] eqn:E2; [|discriminate]. injection E as <- <-.
    eapply IH; eauto.
    + intros X. apply NI. destruct l as [| | |[]]; cbn; auto.
    + eapply wexec1_dom; eauto. intros X. apply NI. destruct l as [| | |[]]; cbn in *; auto; tauto.
Qed.

Lemma wexec_finished src th ls tr s' :
  wexec (msys_init c mt src idle, th) ls = Some (tr, s') ->
  wjoined ls <> [] -> forallb (at_end (fst s')) (wjoined ls) = true -> finished (fst s').
Proof.
  intros E NE A. rewrite forallb_forall in A. unfold at_end in A. split.
  - destruct (wjoined ls) as [|u l] eqn:J; [congruence|]. exists u.
    specialize (A u (or_introl eq_refl)). destruct (mhlp (fst s') u) as [[]|]; try discriminate. reflexivity.
  - intros u pc Eu. destruct (in_dec N.eq_dec u (wjoined ls)) as [I|NI].
    + specialize (A u I). rewrite Eu in A. destruct pc; try discriminate. reflexivity.
    + rewrite (wexec_dom _ _ _ _ u E NI eq_refl) in Eu. discriminate.
Qed.

End Move.
