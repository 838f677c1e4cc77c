(** Several threads using a growing table: running them. *)
From Coq Require Import NArith ZArith Bool List Lia.
From Verif Require Import Words Slot SlotFacts Mapper ReturnCode MapSpec LinSpec Base BaseInv BaseExec
  TableSpec Migrate MigrateExec Growing GrowingSpec GrowingFacts Count GrowOom OneHandle OneHandleExec Crowd CrowdSpec.
Import ListNotations.
Open Scope N_scope.

Section Exec.
Context (sync : bool) (c : tcfg) (B n : N) (client : op -> Prop).

Definition donepc (pc : bpc) : bool := match pc with PDone _ => true | _ => false end.
Definition no_opb (th : N -> option (op * gpc)) : bool :=
  forallb (fun t => match th t with Some (_, GRun _ pc) => donepc pc | _ => true end) (nrange 0 (N.to_nat n)).

Lemma no_opb_sound th : no_opb th = true -> no_operation n th.
Proof.
  unfold no_opb. rewrite forallb_forall. intros H t L. specialize (H t). rewrite in_nrange in H. specialize (H ltac:(lia)).
  destruct (th t) as [[o [|u pc]]|]; auto. destruct pc; try discriminate. eauto.
Qed.

Definition endedb (h : N -> option hpc) : bool :=
  forallb (fun t => match h t with Some HEnd | None => true | _ => false end) (nrange 0 (N.to_nat n)).

Lemma endedb_sound h : endedb h = true -> forall t pc, t < n -> h t = Some pc -> pc = HEnd.
Proof.
  unfold endedb. rewrite forallb_forall. intros H t pc L E. specialize (H t). rewrite in_nrange in H. specialize (H ltac:(lia)).
  rewrite E in H. destruct pc; try discriminate. reflexivity.
Qed.

(** The next step of thread [t]. *)
Definition crowd_next (t : N) (s : ksys) : option (option (event mop mres) * ksys) :=
  let '(KSys (GSys v mp me mg th) e d l p) := s in
  if negb (t <? n) then None else
  match p t with
  | KCall =>
      match th t with
      | None => None
      | Some (o, GGet) =>
          match (if sync then mg else None) with
          | Some _ => Some (None, KSys (GSys v mp me mg th) e d l (fupd p t (KIn v false)))
          | None => Some (None, KSys (GSys v mp me mg (fupd th t (Some (o, GRun v (start c (mp v) o))))) e d l p)
          end
      | Some (o, GRun u (PDone r)) =>
          if retries o r then
            Some (None, KSys (GSys v mp me mg th) e d l (fupd p t (if rcode r =? RC_INVALID then KIn u false else KWant u false)))
          else if counts (gobs o r) then
            let '(m, i, x) := count1 (gobs o r) (l t) in
            if (m <=? 64)%Z then Some (Some (ERet t (gobs o r)), KSys (GSys v mp me mg (fupd th t None)) e d (fupd l t (m, i, x)) p)
            else match (if sync then mg else None) with
                 | Some _ => None
                 | None =>
                     if crosses e i (thresh (total_slots (tmc c) (mp v)))
                     then Some (None, KSys (GSys v mp me mg th) (e + i) (d + x) (fupd l t (0%Z, i, x)) (fupd p t (KWant v true)))
                     else Some (Some (ERet t (gobs o r)), KSys (GSys v mp me mg (fupd th t None)) (e + i) (d + x) (fupd l t (0, 0, 0)%Z) p)
                 end
          else Some (Some (ERet t (gobs o r)), KSys (GSys v mp me mg (fupd th t None)) e d l p)
      | Some (o, GRun u pc) =>
          let '(t', pc') := bstep c (mp u) (me u) true o pc in
          Some (None, KSys (GSys v mp (fupd me u t') mg (fupd th t (Some (o, GRun u pc')))) e d l p)
      end
  | KWant u w =>
      match mg with
      | None => if u =? v then
                  if (negb sync || no_opb th) && (addressable_slots (tmc c) (mp v) <? 2 ^ 32)
                  then Some (None, KSys (begin_grow c v mp me th e d) e d l (fupd p t (KIn v w))) else None
                else Some (None, KSys (GSys v mp me mg th) e d l (fupd p t (KIn u w)))
      | Some _ => Some (None, KSys (GSys v mp me mg th) e d l (fupd p t (KIn u w)))
      end
  | KIn u w =>
      if u <? v then
        match th t, w with
        | Some (o, GRun _ (PDone r)), true =>
            Some (Some (ERet t (gobs o r)), KSys (GSys v mp me mg (fupd th t None)) e d (fupd l t (0, 0, 0)%Z) (fupd p t KCall))
        | Some (o, GGet), false => Some (None, KSys (GSys v mp me mg th) e d l (fupd p t KCall))
        | Some (o, GRun _ (PDone r)), false =>
            Some (None, KSys (GSys v mp me mg (fupd th t (Some (o, GGet)))) e d l (fupd p t KCall))
        | _, _ => None
        end
      else
        match mg with
        | None => None
        | Some (k, h) =>
            match h t with
            | None => Some (None, KSys (GSys v mp me (Some (k, fupd h t (Some HClaim))) th) e d l p)
            | Some HEnd => if endedb h then Some (None, KSys (GSys (v + 1) mp me None th) (e - d) 0 l p) else None
            | Some pc =>
                let '(s', t', k', pc') := hstep c (mp v) (mp (v + 1)) B (me v) (me (v + 1)) k pc in
                Some (None, KSys (GSys v mp (fupd (fupd me v s') (v + 1) t') (Some (k', fupd h t (Some pc'))) th) e d l p)
            end
        end
  end.

Lemma crowd_next_sound t s l s' : crowd_next t s = Some (l, s') -> crowd_step sync c B n client s l s'.
Proof.
  destruct s as [[v mp me mg th] e d lc p]. cbn [crowd_next]. destruct (N.ltb_spec t n) as [TN|]; [|discriminate]. cbn [negb].
  assert (SY : (if sync then mg else None) = None -> sync = true -> mg = None) by (intros X Y; now rewrite Y in X).
  destruct (p t) as [|u w|u w] eqn:P.
  - destruct (th t) as [[o [|u pc]]|] eqn:T; [| |discriminate].
    + destruct (if sync then mg else None) eqn:M.
      * destruct sync eqn:S0; [|discriminate]. destruct mg as [[k h]|]; [|discriminate]. intros [= <- <-]. eapply kc_wait; eauto.
      * intros [= <- <-]. apply kc_get; auto.
    + assert (RUN : (forall r, pc <> PDone r) -> (let '(t', pc') := bstep c (mp u) (me u) true o pc in
        Some (@None (event mop mres), KSys (GSys v mp (fupd me u t') mg (fupd th t (Some (o, GRun u pc')))) e d lc p)) = Some (l, s') ->
        crowd_step sync c B n client (KSys (GSys v mp me mg th) e d lc p) l s').
      { intros ND. destruct (bstep c (mp u) (me u) true o pc) as [t' pc'] eqn:ST. intros [= <- <-]. eapply kc_run; eauto. }
      destruct pc as [| | | |r|]; try (apply RUN; discriminate). clear RUN.
      destruct (retries o r) eqn:R.
      * destruct (N.eqb_spec (rcode r) RC_INVALID) as [X|X]; intros [= <- <-]; [eapply kc_invalid|eapply kc_full]; eauto.
      * destruct (counts (gobs o r)) eqn:C.
        -- assert (G : gobs o r = RInserted \/ gobs o r = RErased) by (destruct (gobs o r); try discriminate; auto).
           destruct (count1 (gobs o r) (lc t)) as [[m i] x] eqn:C1.
           destruct (Z.leb_spec m 64); [intros [= <- <-]; eapply kc_count; eauto|].
           destruct (if sync then mg else None) eqn:M; [discriminate|]. specialize (SY eq_refl).
           destruct (crosses e i (thresh (total_slots (tmc c) (mp v)))) eqn:CR; intros [= <- <-].
           ++ eapply kc_cross; eauto.
           ++ eapply kc_flush; eauto.
        -- intros [= <- <-]. eapply kc_ret; eauto; intros X; rewrite X in C; discriminate.
  - destruct mg as [[k h]|].
    + intros [= <- <-]. eapply kc_late; eauto. right. discriminate.
    + destruct (N.eqb_spec u v) as [->|NE].
      * destruct (negb sync || no_opb th) eqn:G; [|discriminate]. destruct (N.ltb_spec (addressable_slots (tmc c) (mp v)) (2 ^ 32)); [|discriminate].
        intros [= <- <-]. eapply kc_start; eauto. intros S0. rewrite S0 in G. now apply no_opb_sound.
      * intros [= <- <-]. eapply kc_late; eauto.
  - destruct (N.ltb_spec u v) as [L|L].
    + destruct (th t) as [[o g]|] eqn:T; [|discriminate]. destruct w.
      * destruct g as [|x [| | | |r|]]; try discriminate. intros [= <- <-]. eapply kc_done; eauto.
      * destruct g as [|x [| | | |r|]]; try discriminate; intros [= <- <-]; [eapply kc_waited|eapply kc_again]; eauto.
    + destruct mg as [[k h]|]; [|discriminate]. destruct (h t) as [pc|] eqn:H; [|intros [= <- <-]; eapply kc_join; eauto].
      assert (HELP : pc <> HEnd -> (let '(s0, t0, k0, pc0) := hstep c (mp v) (mp (v + 1)) B (me v) (me (v + 1)) k pc in
         Some (@None (event mop mres), KSys (GSys v mp (fupd (fupd me v s0) (v + 1) t0) (Some (k0, fupd h t (Some pc0))) th) e d lc p)) = Some (l, s') ->
         crowd_step sync c B n client (KSys (GSys v mp me (Some (k, h)) th) e d lc p) l s').
      { intros NE. destruct (hstep c (mp v) (mp (v + 1)) B (me v) (me (v + 1)) k pc) as [[[s0 t0] k0] pc0] eqn:ST. intros [= <- <-].
        eapply kc_help; eauto. }
      destruct pc; try (apply HELP; discriminate). destruct (endedb h) eqn:E; [|discriminate]. intros [= <- <-].
      apply kc_publish; eauto using endedb_sound.
Qed.

(** The same, unless a thread is about to grow the published table and [t] would begin to use it. *)
Definition wantedb (s : ksys) : bool :=
  existsb (fun t => match k_ph s t with KWant u _ => u =? gver (k_g s) | _ => false end) (nrange 0 (N.to_nat n)).
Definition closed_next (t : N) (s : ksys) : option (option (event mop mres) * ksys) :=
  match gthr (k_g s) t with
  | Some (_, GGet) => if wantedb s then None else crowd_next t s
  | _ => crowd_next t s
  end.

Lemma wantedb_false s : wantedb s = false -> ~ wanted n s.
Proof.
  intros H (t & w & T & P). unfold wantedb in H. assert (X : existsb (fun t => match k_ph s t with KWant u _ => u =? gver (k_g s) | _ => false end) (nrange 0 (N.to_nat n)) = true).
  { apply existsb_exists. exists t. split; [apply in_nrange; lia|]. rewrite P. apply N.eqb_refl. }
  congruence.
Qed.

(** A step of one thread does not make another one begin to use the table. *)
Lemma next_others t s l s' t' : crowd_next t s = Some (l, s') -> t' <> t -> gthr (k_g s') t' = gthr (k_g s) t'.
Proof.
  destruct s as [[v mp me mg th] e d lc p]. cbn [crowd_next k_g gthr]. intros H N.
  repeat first [ discriminate
    | match type of H with context [match ?x with _ => _ end] => destruct x eqn:? end
    | injection H as <- <- ];
  cbn [k_g gthr begin_grow]; rewrite ?fupd_neq by congruence; try reflexivity.
Qed.

Lemma closed_next_sound t s l s' : closed_next t s = Some (l, s') -> closed_step sync c B n client s l s'.
Proof.
  intros H. assert (X : crowd_next t s = Some (l, s')).
  { unfold closed_next in H. destruct (gthr (k_g s) t) as [[o [|]]|]; auto. destruct (wantedb s); [discriminate|auto]. }
  split; [eapply crowd_next_sound; eauto|]. intros t' o u pc G G'.
  destruct (N.eq_dec t' t) as [->|NE]; [|rewrite (next_others _ _ _ _ _ X NE) in G'; congruence].
  unfold closed_next in H. rewrite G in H. destruct (wantedb s) eqn:W; [discriminate|]. now apply wantedb_false.
Qed.

Definition invoke (t : N) (o : op) (s : ksys) : option (list (event mop mres) * ksys) :=
  let '(KSys (GSys v mp me mg th) e d l p) := s in
  match th t, p t with
  | None, KCall => if t <? n then Some ([EInv t (spec_op (tsc c) o)], KSys (GSys v mp me mg (fupd th t (Some (o, GGet)))) e d l p) else None
  | _, _ => None
  end.

Lemma invoke_sound t o s tr s' : client o -> invoke t o s = Some (tr, s') -> lts_steps (crowd_step sync c B n client) s tr s'.
Proof.
  intros CL. destruct s as [[v mp me mg th] e d lc p]. cbn [invoke]. destruct (th t) eqn:T; [discriminate|]. destruct (p t) eqn:P; try discriminate.
  destruct (N.ltb_spec t n); [|discriminate]. intros [= <- <-]. eapply ls_vis; [|constructor]. now apply kc_inv.
Qed.

Lemma invoke_closed t o s tr s' : client o -> invoke t o s = Some (tr, s') -> lts_steps (closed_step sync c B n client) s tr s'.
Proof.
  intros CL. destruct s as [[v mp me mg th] e d lc p]. cbn [invoke]. destruct (th t) eqn:T; [discriminate|]. destruct (p t) eqn:P; try discriminate.
  destruct (N.ltb_spec t n); [|discriminate]. intros [= <- <-]. eapply ls_vis; [|constructor]. split; [now apply kc_inv|].
  cbn [k_g gthr]. intros t' o' u pc G G'. destruct (N.eq_dec t' t) as [->|NE]; [congruence|]. rewrite fupd_neq in G' by auto. congruence.
Qed.
End Exec.

Section Run.
Context (c : tcfg) (n : N) (client : op -> Prop).
Context (nxt : N -> ksys -> option (option (event mop mres) * ksys)) (step : ksys -> option (event mop mres) -> ksys -> Prop).
Context (NS : forall t s l s', nxt t s = Some (l, s') -> step s l s').
Context (IS : forall t o s tr s', client o -> invoke c n t o s = Some (tr, s') -> lts_steps step s tr s').

(** [CCall t o]: a whole call.  [CBegin t o]: a call up to the moment when it has released the table and
    is about to grow it.  [CFinish t]: the call in progress, to its end.  [CInv t o]: a call begins.
    [CGo t k]: [k] steps of the call in progress. *)
Inductive clabel := CCall (t : N) (o : op) | CBegin (t : N) (o : op) | CFinish (t : N) | CInv (t : N) (o : op) | CGo (t k : N).

Fixpoint run_until (stop : ksys -> bool) (f : nat) (t : N) (s : ksys) : option (list (event mop mres) * ksys) :=
  if stop s then Some ([], s) else
  match f with
  | O => None
  | S f => match nxt t s with
           | Some (l, s1) => match run_until stop f t s1 with
                             | Some (tr, s2) => Some (match l with Some x => x :: tr | None => tr end, s2)
                             | None => None
                             end
           | None => None
           end
  end.

Lemma run_until_sound stop t : forall f s tr s', run_until stop f t s = Some (tr, s') -> lts_steps (step) s tr s'.
Proof.
  induction f as [|f IH]; intros s tr s'; cbn [run_until]; destruct (stop s); try (intros [= <- <-]; constructor); try discriminate.
  destruct (nxt t s) as [[l s1]|] eqn:E; [|discriminate]. destruct (run_until stop f t s1) as [[tr1 s2]|] eqn:R; [|discriminate].
  intros [= <- <-]. destruct l; [eapply ls_vis|eapply ls_tau]; eauto.
Qed.

Fixpoint run_steps (k : nat) (t : N) (s : ksys) : option (list (event mop mres) * ksys) :=
  match k with
  | O => Some ([], s)
  | S k => match nxt t s with
           | Some (l, s1) => match run_steps k t s1 with
                             | Some (tr, s2) => Some (match l with Some x => x :: tr | None => tr end, s2)
                             | None => None
                             end
           | None => None
           end
  end.

Lemma run_steps_sound t : forall f s tr s', run_steps f t s = Some (tr, s') -> lts_steps (step) s tr s'.
Proof.
  induction f as [|f IH]; intros s tr s'; cbn [run_steps]; try (intros [= <- <-]; constructor).
  destruct (nxt t s) as [[l s1]|] eqn:E; [|discriminate]. destruct (run_steps f t s1) as [[tr1 s2]|] eqn:R; [|discriminate].
  intros [= <- <-]. destruct l; [eapply ls_vis|eapply ls_tau]; eauto.
Qed.

Definition rests (t : N) (s : ksys) : bool := match gthr (k_g s) t with None => true | Some _ => false end.
Definition wanting (t : N) (s : ksys) : bool := match k_ph s t with KWant _ _ => true | _ => false end.

Definition then_ (x : option (list (event mop mres) * ksys)) (f : ksys -> option (list (event mop mres) * ksys)) :=
  match x with
  | Some (tr, s) => match f s with Some (tr2, s2) => Some (tr ++ tr2, s2) | None => None end
  | None => None
  end.

Definition crun1 (f : nat) (s : ksys) (l : clabel) : option (list (event mop mres) * ksys) :=
  match l with
  | CCall t o => then_ (invoke c n t o s) (run_until (rests t) f t)
  | CBegin t o => then_ (invoke c n t o s) (run_until (wanting t) f t)
  | CFinish t => run_until (rests t) f t s
  | CInv t o => invoke c n t o s
  | CGo t k => run_steps (N.to_nat k) t s
  end.

Fixpoint crun (f : nat) (s : ksys) (ls : list clabel) : option (list (event mop mres) * ksys) :=
  match ls with
  | [] => Some ([], s)
  | l :: ls => then_ (crun1 f s l) (fun s1 => crun f s1 ls)
  end.

Definition clops (ls : list clabel) : list op :=
  flat_map (fun l => match l with CCall _ o | CBegin _ o | CInv _ o => [o] | _ => [] end) ls.

Lemma then_sound x f s tr s' : (forall tr1 s1, x = Some (tr1, s1) -> lts_steps (step) s tr1 s1) ->
  (forall s1 tr2 s2, f s1 = Some (tr2, s2) -> lts_steps (step) s1 tr2 s2) ->
  then_ x f = Some (tr, s') -> lts_steps (step) s tr s'.
Proof.
  intros HX HF. unfold then_. destruct x as [[tr1 s1]|]; [|discriminate]. destruct (f s1) as [[tr2 s2]|] eqn:E; [|discriminate].
  intros [= <- <-]. eapply steps_app; eauto.
Qed.

Lemma crun_sound f : forall ls s tr s', (forall o, In o (clops ls) -> client o) -> crun f s ls = Some (tr, s') ->
  lts_steps (step) s tr s'.
Proof.
  induction ls as [|l ls IH]; intros s tr s' CL; cbn [crun].
  - intros [= <- <-]. constructor.
  - apply then_sound.
    + intros tr1 s1. assert (CI : forall o, In o (clops [l]) -> client o).
      { intros o I. apply CL. unfold clops in *. cbn [flat_map] in *. rewrite app_nil_r in I. apply in_app_iff. now left. }
      destruct l as [t o|t o|t|t o|t k]; cbn [crun1].
      * apply then_sound; [intros tr2 s2 X; apply (IS t o s tr2 s2); [|exact X]; apply CI; now left|intros s2 tr2 s3; apply run_until_sound].
      * apply then_sound; [intros tr2 s2 X; apply (IS t o s tr2 s2); [|exact X]; apply CI; now left|intros s2 tr2 s3; apply run_until_sound].
      * apply run_until_sound.
      * apply IS. apply CI. now left.
      * apply run_steps_sound.
    + intros s1 tr2 s2. apply IH. intros o I. apply CL. unfold clops in *. cbn [flat_map]. apply in_app_iff. now right.
Qed.

End Run.

Definition crowd_run (sync : bool) (c : tcfg) (B n : N) := crun c n (crowd_next sync c B n).
Lemma crowd_run_sound sync c B n (client : op -> Prop) f ls s tr s' : (forall o, In o (clops ls) -> client o) ->
  crowd_run sync c B n f s ls = Some (tr, s') -> lts_steps (crowd_step sync c B n client) s tr s'.
Proof.
  apply (crun_sound c n client (crowd_next sync c B n) (crowd_step sync c B n client)).
  - apply crowd_next_sound.
  - apply invoke_sound.
Qed.

Definition closed_run (sync : bool) (c : tcfg) (B n : N) := crun c n (closed_next sync c B n).
Lemma closed_run_sound sync c B n (client : op -> Prop) f ls s tr s' : (forall o, In o (clops ls) -> client o) ->
  closed_run sync c B n f s ls = Some (tr, s') -> lts_steps (closed_step sync c B n client) s tr s'.
Proof.
  apply (crun_sound c n client (closed_next sync c B n) (closed_step sync c B n client)).
  - apply closed_next_sound.
  - apply invoke_closed.
Qed.
