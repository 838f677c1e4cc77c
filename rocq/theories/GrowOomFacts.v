(** Calls of the growing table when memory may run out: proofs. *)
From Coq Require Import NArith ZArith Bool List Lia.
From Verif Require Import Words Slot SlotFacts Mapper MapperFacts ReturnCode MapSpec LinSpec
  Base BaseInv BaseLin BaseExec TableSpec BaseFacts HistSpec Migrate Growing GrowingSpec GrowingInv GrowingFacts
  Count OomSpec GrowOom.
Import ListNotations.
Open Scope N_scope.

Lemma asteps_tsteps x tr y : asteps (mspec false false) x tr y -> lts_steps tstep x (map OCall tr) y.
Proof.
  induction 1 as [|a b d tr S _ IH|a e b d tr S _ IH]; cbn; [constructor|eapply ls_tau|eapply ls_vis]; eauto.
  - exact (t_call _ None _ S).
  - exact (t_call _ (Some e) _ S).
Qed.

Section G.
Context (c : tcfg) (B : N) (client : op -> Prop).
Context (CT : cell_type (tsc c)) (CO : client_ok (tsc c) client).
Context (CF : cmap (tmc c) = false \/ cprob (tmc c) = true) (HB : 0 < B <= 2 ^ 31).
Context (SM : sc_mark (tsc c) = true).

Definition oevs (e : option oevent) : list oevent := match e with Some e => [e] | None => [] end.

Lemma room_req sc o : grows_on_full o = true -> may_need_room (spec_op sc o) = true.
Proof. destruct o; cbn; congruence. Qed.

Lemma full_retries o r : grows_on_full o = true -> rcode r = RC_FULL -> retries o r = true.
Proof. intros G E. destruct o; try discriminate; unfold retries; rewrite E; reflexivity. Qed.

(** A call that would return may throw instead. *)
Lemma ret_throws m th t r y :
  asteps (mspec false false) (AObj m th) [ERet t r] y -> r = RInserted \/ r = RErased ->
  lts_steps tstep (AObj m th) [OThrow t] y.
Proof.
  intros A R. remember (AObj m th) as x eqn:Ex. clear m th Ex.
  remember [ERet t r] as tr eqn:Etr. revert Etr.
  induction A as [|a b d tr S A IH|a e b d tr S A IH]; intros E; [discriminate| |].
  - eapply ls_tau; [exact (t_call _ None _ S)|]. now apply IH.
  - injection E as -> ->. inversion S as [| |m th t0 r0 E0]; subst.
    eapply ls_vis; [eapply t_after; eauto|].
    exact (asteps_tsteps _ [] _ A).
Qed.

Lemma osim s x e s' :
  grel c B client (os_g s) x -> ostep c B client s e s' ->
  exists x', lts_steps tstep x (oevs e) x' /\ grel c B client (os_g s') x'.
Proof.
  intros R ST.
  assert (SIM : forall g g' ev, os_g s = g -> async_step c B client g ev g' ->
    exists x', asteps (mspec false false) x (match ev with Some e => [e] | None => [] end) x' /\ grel c B client g' x').
  { intros g g' ev <- (S & U & RM). exact (gsim c B client (cell_type_wf _ CT) CO CF HB _ _ _ _ R S (or_introl (conj SM U)) RM). }
  inversion ST as [g e0 d l g' S|g e0 d l g' t o S|g e0 d l g' t r S N1 N2|g e0 d l g' t r u i z S Q E1 L|g e0 d l g' t r u i z S Q E1 L
    |g e0 d l g' t r u i z S Q E1 L CR|v mp me mg th e0 d l t o u r E GF RF]; subst; cbn [os_g] in *.
  - destruct (SIM _ _ _ eq_refl S) as (x' & A & G). exists x'. split; auto. exact (asteps_tsteps _ [] _ A).
  - destruct (SIM _ _ _ eq_refl S) as (x' & A & G). exists x'. split; auto. exact (asteps_tsteps _ [_] _ A).
  - destruct (SIM _ _ _ eq_refl S) as (x' & A & G). exists x'. split; auto. exact (asteps_tsteps _ [_] _ A).
  - destruct (SIM _ _ _ eq_refl S) as (x' & A & G). exists x'. split; auto. exact (asteps_tsteps _ [_] _ A).
  - destruct (SIM _ _ _ eq_refl S) as (x' & A & G). exists x'. split; auto. exact (asteps_tsteps _ [_] _ A).
  - destruct (SIM _ _ _ eq_refl S) as (x' & A & G). exists x'. split; auto.
    destruct x as [m th]. eapply ret_throws; eauto.
  - destruct R as (ct & mk & l0 & CI & A & T & FS). destruct x as [a th'].
    pose proof (T t) as Tt. cbn [gthr ath] in Tt. rewrite E in Tt. destruct Tt as [CL Tt].
    unfold fin_stat in Tt. rewrite (full_retries _ _ GF RF) in Tt.
    eexists. split.
    + eapply ls_vis; [|apply ls_nil]. eapply t_before; eauto. now apply room_req.
    + eapply (thr_step c B client _ (AObj a th') ct mk l0 t None _ CI A T FS). reflexivity.
Qed.

Lemma tsteps_trans x tr y tr' z : lts_steps tstep x tr y -> lts_steps tstep y tr' z -> lts_steps tstep x (tr ++ tr') z.
Proof. induction 1; cbn; intros; auto; [eapply ls_tau|eapply ls_vis]; eauto. Qed.

Lemma osims s tr s' : lts_steps (ostep c B client) s tr s' -> forall x, grel c B client (os_g s) x ->
  exists x', lts_steps tstep x tr x' /\ grel c B client (os_g s') x'.
Proof.
  induction 1 as [s|s s1 s2 tr S _ IH|s e s1 s2 tr S _ IH]; intros x R.
  - exists x. split; [constructor|auto].
  - destruct (osim _ _ _ _ R S) as (x1 & A1 & R1). destruct (IH _ R1) as (x2 & A2 & R2). exists x2. split; auto.
    exact (tsteps_trans _ [] _ _ _ A1 A2).
  - destruct (osim _ _ _ _ R S) as (x1 & A1 & R1). destruct (IH _ R1) as (x2 & A2 & R2). exists x2. split; auto.
    exact (tsteps_trans _ [e] _ _ _ A1 A2).
Qed.

End G.

(** *** Executing schedules without growth steps *)

Inductive olabel := LInv (t : N) (o : op) | LGet (t : N) | LRun (t : N) | LRet (t : N) | LThrow (t : N).

Definition orun1 (c : tcfg) (s : osys) (k : olabel) : option (option oevent * osys) :=
  match s with
  | OSys (GSys v mp me None th) e d l =>
      let put t y := GSys v mp me None (fupd th t y) in
      match k with
      | LInv t o =>
          match th t with
          | None => Some (Some (OCall (EInv t (spec_op (tsc c) o))), OSys (put t (Some (o, GGet))) e d l)
          | Some _ => None
          end
      | LGet t =>
          match th t with
          | Some (o, GGet) => Some (None, OSys (put t (Some (o, GRun v (start c (mp v) o)))) e d l)
          | _ => None
          end
      | LRun t =>
          match th t with
          | Some (o, GRun u pc) =>
              if running pc then
                let '(t', pc') := bstep c (mp u) (me u) true o pc in
                Some (None, OSys (GSys v mp (fupd me u t') None (fupd th t (Some (o, GRun u pc')))) e d l)
              else None
          | _ => None
          end
      | LRet t =>
          match th t with
          | Some (o, GRun u (PDone r)) =>
              if retries o r then None
              else match gobs o r with
                   | RInserted | RErased =>
                       let '(n, i, x) := count1 (gobs o r) (l t) in
                       Some (Some (OCall (ERet t (gobs o r))),
                             if (n <=? 64)%Z then OSys (put t None) e d (fupd l t (n, i, x))
                             else OSys (put t None) (e + i)%Z (d + x)%Z (fupd l t (0, 0, 0)%Z))
                   | q => Some (Some (OCall (ERet t q)), OSys (put t None) e d l)
                   end
          | _ => None
          end
      | LThrow t =>
          match th t with
          | Some (o, GRun u (PDone r)) =>
              if retries o r then
                if grows_on_full o && (rcode r =? RC_FULL) then Some (Some (OThrow t), OSys (put t None) e d l) else None
              else match gobs o r with
                   | RInserted | RErased =>
                       let '(n, i, x) := count1 (gobs o r) (l t) in
                       if (64 <? n)%Z && crosses e i (thresh (total_slots (tmc c) (mp v))) then
                         Some (Some (OThrow t), OSys (put t None) (e + i)%Z (d + x)%Z (fupd l t (0%Z, i, x)))
                       else None
                   | _ => None
                   end
          | _ => None
          end
      end
  | _ => None
  end.

Fixpoint orun (c : tcfg) (s : osys) (ks : list olabel) : option (list oevent * osys) :=
  match ks with
  | [] => Some ([], s)
  | k :: ks =>
      match orun1 c s k with
      | None => None
      | Some (e, s') =>
          match orun c s' ks with
          | None => None
          | Some (tr, s'') => Some (oevs e ++ tr, s'')
          end
      end
  end.

Definition oops (ks : list olabel) : list op := flat_map (fun k => match k with LInv _ o => [o] | _ => [] end) ks.

Lemma quiet_step c B client v mp me th ev me' th' :
  gsys_step c B client (GSys v mp me None th) ev (GSys v mp me' None th') ->
  async_step c B client (GSys v mp me None th) ev (GSys v mp me' None th').
Proof.
  intros S. split; [exact S|]. split.
  - intros k h t i curr X. discriminate.
  - intros _ X. now elim X.
Qed.

Lemma orun1_sound c B (client : op -> Prop) s k e s' :
  (forall o, In o (oops [k]) -> client o) -> orun1 c s k = Some (e, s') -> ostep c B client s e s'.
Proof.
  destruct s as [[v mp me mg th] el d l]. intros CL. cbn [orun1]. destruct mg; [discriminate|].
  destruct k as [t o|t|t|t|t].
  - destruct (th t) eqn:E; [discriminate|]. intros [= <- <-]. apply o_inv. apply quiet_step. apply g_inv; auto.
    apply CL. now left.
  - destruct (th t) as [[o [|u pc]]|] eqn:E; try discriminate. intros [= <- <-].
    replace el with (if v =? v then el else (el - d)%Z) at 2 by now rewrite N.eqb_refl.
    replace d with (if v =? v then d else 0%Z) at 3 by now rewrite N.eqb_refl.
    apply o_quiet. apply quiet_step. now apply g_get.
  - destruct (th t) as [[o [|u pc]]|] eqn:E; try discriminate. destruct (running pc) eqn:RU; [|discriminate].
    destruct (bstep c (mp u) (me u) true o pc) as [t' pc'] eqn:ST. intros [= <- <-].
    replace el with (if v =? v then el else (el - d)%Z) at 2 by now rewrite N.eqb_refl.
    replace d with (if v =? v then d else 0%Z) at 3 by now rewrite N.eqb_refl.
    apply o_quiet. apply quiet_step. eapply g_run; eauto. now apply running_nd.
  - destruct (th t) as [[o [|u [| | | |r|]]]|] eqn:E; try discriminate. destruct (retries o r) eqn:RT; [discriminate|].
    assert (S : async_step c B client (GSys v mp me None th) (Some (ERet t (gobs o r))) (GSys v mp me None (fupd th t None))).
    { apply quiet_step. eapply g_ret; eauto. }
    revert S. generalize (gobs o r) as q. intros q S.
    destruct q; try (intros [= <- <-]; apply o_ret; auto; discriminate);
      destruct (count1 _ (l t)) as [[n i] x] eqn:C1; intros [= <- <-];
      (destruct (Z.leb_spec n 64) as [L|L]; [eapply o_count|eapply o_flush]; eauto).
  - destruct (th t) as [[o [|u [| | | |r|]]]|] eqn:E; try discriminate. destruct (retries o r) eqn:RT.
    + destruct (grows_on_full o) eqn:GF; [|discriminate]. destruct (N.eqb_spec (rcode r) RC_FULL); [|discriminate].
      intros [= <- <-]. eapply o_thrown_full; eauto.
    + assert (S : async_step c B client (GSys v mp me None th) (Some (ERet t (gobs o r))) (GSys v mp me None (fupd th t None))).
      { apply quiet_step. eapply g_ret; eauto. }
      revert S. generalize (gobs o r) as q. intros q S.
      destruct q; try discriminate;
        destruct (count1 _ (l t)) as [[n i] x] eqn:C1; destruct (Z.ltb_spec 64 n); try discriminate;
        destruct (crosses _ _ _) eqn:CR; try discriminate; intros [= <- <-]; eapply o_thrown_count; eauto.
Qed.

Lemma orun_sound c B (client : op -> Prop) : forall ks s tr s',
  (forall o, In o (oops ks) -> client o) -> orun c s ks = Some (tr, s') -> lts_steps (ostep c B client) s tr s'.
Proof.
  induction ks as [|k ks IH]; intros s tr s' CL E; cbn [orun] in E; [injection E as <- <-; constructor|].
  destruct (orun1 c s k) as [[e s1]|] eqn:E1; [|discriminate].
  destruct (orun c s1 ks) as [[tr2 s2]|] eqn:E2; [|discriminate]. injection E as <- <-.
  apply (orun1_sound c B client) in E1.
  - apply IH in E2.
    + destruct e; cbn; [eapply ls_vis|eapply ls_tau]; eauto.
    + intros o I. apply CL. unfold oops in *. cbn [flat_map]. apply in_app_iff. now right.
  - intros o I. apply CL. unfold oops in *. cbn [flat_map] in *. rewrite app_nil_r in I. apply in_app_iff. now left.
Qed.
