(** An exhaustive check that a concrete history is not linearizable.  [lin_run]
    computes every state of the atomic map that is compatible with a history. *)
From Coq Require Import NArith Bool List Lia.
From Verif Require Import Words MapSpec LinSpec BaseInv.
Import ListNotations.
Open Scope N_scope.

(** All outcomes of an operation. *)
Definition outcomes (inv full : bool) (m : amap) (o : mop) : list (amap * mres) :=
  let fl := if full then [(m, RFull)] else [] in
  let iv := if inv then [(m, RInvalid)] else [] in
  match o with
  | MInsert k d => match m k with None => (fupd m k (Some d), RInserted) :: fl
                             | Some v => [(m, RPresent v)] end ++ iv
  | MFind k => match m k with None => [(m, RAbsent)] | Some v => [(m, RFound v)] end
  | MUpdate k f r => match m k with None => [(m, RAbsent)]
                               | Some v => [(fupd m k (Some (f v)), RUpdated (r v))] end ++ iv
  | MUpdateB k f r => match m k with None => [(m, RAbsent)]
                               | Some v => [(fupd m k (Some (f v)), RUpdated (r v))] end
                      ++ (m, RBackoff) :: iv
  | MInsertOrUpdate k d f r => match m k with None => (fupd m k (Some d), RInserted) :: fl
                               | Some v => [(fupd m k (Some (f v)), RUpdated (r v))] end ++ iv
  | MErase k => match m k with None => [(m, RAbsent)] | Some v => [(fupd m k None, RErased)] end ++ iv
  | MEraseIf k d => match m k with
                    | None => [(m, RAbsent)]
                    | Some v => if v =? d then [(fupd m k None, RErased)] else [(m, RAbsent)]
                    end ++ iv
  end.

Lemma outcomes_complete inv full m o m' r :
  mspec inv full m o m' r -> In (m', r) (outcomes inv full m o).
Proof.
  intros S. destruct S; cbn;
    repeat match goal with
           | H : m ?k = _ |- context [m ?k] => rewrite H
           | H : _ = true |- _ => rewrite H
           | _ => rewrite in_app_iff
           | _ => rewrite N.eqb_refl
           | _ => progress cbn
           end; auto 6.
  - destruct (m k) as [v|] eqn:E; cbn; auto.
    destruct (N.eqb_spec v d); [congruence|cbn; auto].
  - destruct o; cbn; rewrite ?in_app_iff; cbn; auto.
    match goal with H : forall k, _ <> _ |- _ => exfalso; eapply H; reflexivity end.
Qed.

Definition st := aobj amap mop mres.

Definition res_eqb (a b : mres) : bool :=
  match a, b with
  | RInserted, RInserted | RAbsent, RAbsent | RErased, RErased | RFull, RFull
  | RInvalid, RInvalid | RBackoff, RBackoff => true
  | RPresent v, RPresent w | RFound v, RFound w | RUpdated v, RUpdated w => v =? w
  | _, _ => false
  end.
Lemma res_eqb_refl a : res_eqb a a = true.
Proof. destruct a; cbn; auto using N.eqb_refl. Qed.

Section Run.
Context (inv full : bool) (tids : list N) (ND : NoDup tids).

Definition taus (x : st) : list st :=
  flat_map (fun t => match ath x t with
                     | APend o => map (fun mr => AObj (fst mr) (fupd (ath x) t (ADone (snd mr))))
                                      (outcomes inv full (ast x) o)
                     | _ => []
                     end) tids.
Fixpoint closure (n : nat) (xs : list st) : list st :=
  match n with O => xs | S n => xs ++ closure n (flat_map taus xs) end.
Definition vis (e : event mop mres) (x : st) : list st :=
  match e with
  | EInv t o => match ath x t with AIdle => [AObj (ast x) (fupd (ath x) t (APend o))] | _ => [] end
  | ERet t r => match ath x t with
                | ADone r' => if res_eqb r r' then [AObj (ast x) (fupd (ath x) t AIdle)] else []
                | _ => [] end
  end.
Fixpoint lin_run (tr : list (event mop mres)) (xs : list st) : list st :=
  match tr with
  | [] => closure (length tids) xs
  | e :: tr => lin_run tr (flat_map (vis e) (closure (length tids) xs))
  end.

Definition within (x : st) : Prop := forall t, ~ In t tids -> ath x t = AIdle.

Fixpoint npend (th : N -> astat mop mres) (l : list N) : nat :=
  match l with
  | [] => O
  | t :: l => (match th t with APend _ => 1 | _ => 0 end + npend th l)%nat
  end.

Lemma npend_ext th th' l : (forall t, In t l -> th t = th' t) -> npend th l = npend th' l.
Proof.
  induction l as [|t l IH]; cbn; intros H; auto. rewrite (H t) by auto. f_equal. apply IH. auto.
Qed.

Lemma npend_done th t o r : In t tids -> th t = APend o ->
  npend th tids = S (npend (fupd th t (ADone r)) tids).
Proof.
  intros I E. induction ND as [|u l NI ND' IH]; [contradiction|]. cbn.
  destruct (N.eq_dec u t) as [->|NE].
  - rewrite E, fupd_eq. cbn. f_equal. apply npend_ext. intros v Hv. rewrite fupd_neq; auto.
    intros ->. contradiction.
  - destruct I as [->|I]; [congruence|]. rewrite (fupd_neq th t _ u NE).
    rewrite IH; auto.
Qed.

Lemma npend_le th l : (npend th l <= length l)%nat.
Proof. induction l as [|t l IH]; cbn; auto. destruct (th t); lia. Qed.

Lemma in_closure n x xs : In x xs -> In x (closure n xs).
Proof. destruct n; cbn; auto. intros. apply in_app_iff. auto. Qed.

Lemma closure_mono n xs ys : incl xs ys -> incl (closure n xs) (closure n ys).
Proof.
  revert xs ys. induction n as [|n IH]; cbn; auto. intros xs ys H.
  apply incl_app; [apply incl_appl; auto|apply incl_appr; apply IH].
  intros x I. apply in_flat_map in I as (y & I & J). apply in_flat_map. eauto.
Qed.

Inductive tau_path : st -> st -> Prop :=
| tp_nil x : tau_path x x
| tp_cons x y z : astep (mspec inv full) x None y -> tau_path y z -> tau_path x z.

Lemma tau_in x y : within x -> astep (mspec inv full) x None y -> In y (taus x) /\ within y /\
  npend (ath x) tids = S (npend (ath y) tids).
Proof.
  intros W S. inversion S as [|s th t o s' r E SP|]; subst. cbn in *.
  assert (I : In t tids).
  { destruct (in_dec N.eq_dec t tids); auto. exfalso. specialize (W t n). cbn in W. congruence. }
  split; [|split].
  - apply in_flat_map. exists t. split; auto. cbn. rewrite E.
    apply in_map_iff. exists (s', r). split; auto. now apply outcomes_complete.
  - intros u NI. cbn. rewrite fupd_neq; [apply W; auto|]. intros ->. contradiction.
  - cbn. eapply npend_done; eauto.
Qed.

Lemma closure_path x y : tau_path x y -> within x ->
  forall n, (npend (ath x) tids <= n)%nat -> In y (closure n [x]) /\ within y.
Proof.
  induction 1 as [x|x y z S P IH]; intros W n L.
  - split; auto. apply in_closure. now left.
  - destruct (tau_in x y W S) as (I & W' & E). rewrite E in L.
    destruct n as [|n]; [lia|]. destruct (IH W' n ltac:(lia)) as [IN Wz]. split; auto.
    cbn [closure]. apply in_app_iff. right.
    refine (closure_mono n [y] _ _ z IN). intros w [<-|[]].
    apply in_flat_map. exists x. split; [now left|auto].
Qed.

Definition ev_in (e : event mop mres) : Prop :=
  match e with EInv t _ | ERet t _ => In t tids end.

Lemma vis_in x e y : within x -> ev_in e -> astep (mspec inv full) x (Some e) y ->
  In y (vis e x) /\ within y.
Proof.
  intros W EI S. inversion S as [s th t o E| |s th t r E]; subst; cbn in *; rewrite E.
  - split; [now left|]. intros u NI. cbn. rewrite fupd_neq; [apply W; auto|]. intros ->. contradiction.
  - rewrite res_eqb_refl. split; [now left|].
    intros u NI. cbn. rewrite fupd_neq; [apply W; auto|]. intros ->. contradiction.
Qed.

Lemma lin_run_mono tr xs ys : incl xs ys -> incl (lin_run tr xs) (lin_run tr ys).
Proof.
  revert xs ys. induction tr as [|e tr IH]; cbn; intros xs ys H.
  - now apply closure_mono.
  - apply IH. intros x I. apply in_flat_map in I as (y & I & J). apply in_flat_map.
    exists y. split; auto. eapply closure_mono; eauto.
Qed.

Lemma steps_split x tr y :
  asteps (mspec inv full) x tr y ->
  match tr with
  | [] => tau_path x y
  | e :: tr' => exists x1 x2, tau_path x x1 /\ astep (mspec inv full) x1 (Some e) x2 /\
                              asteps (mspec inv full) x2 tr' y
  end.
Proof.
  induction 1 as [a|a b c tr S1 S IH|a e b c tr S1 S IH].
  - constructor.
  - destruct tr as [|e tr'].
    + econstructor; eauto.
    + destruct IH as (x1 & x2 & P & Q & R). exists x1, x2. split; auto. econstructor; eauto.
  - exists a, b. split; [constructor|auto].
Qed.

Lemma lin_run_complete tr x y :
  asteps (mspec inv full) x tr y -> within x -> Forall ev_in tr -> In y (lin_run tr [x]).
Proof.
  revert x. induction tr as [|e tr IH]; intros x S W F; apply steps_split in S; cbn.
  - apply closure_path; auto. apply npend_le.
  - destruct S as (x1 & x2 & P & Q & R). inversion F; subst.
    destruct (closure_path _ _ P W _ (npend_le _ _)) as [I1 W1].
    destruct (vis_in _ _ _ W1 H1 Q) as [I2 W2].
    refine (lin_run_mono tr [x2] _ _ y (IH x2 R W2 H2)).
    intros w [<-|[]]. apply in_flat_map. eauto.
Qed.

End Run.

(** Decide whether the threads of a history are listed. *)
Definition tids_of (tr : list (event mop mres)) : list N :=
  nodup N.eq_dec (map (fun e => match e with EInv t _ | ERet t _ => t end) tr).

Lemma not_linearizable inv full tr :
  lin_run inv full (tids_of tr) tr [AObj amap_empty (fun _ => AIdle)] = [] ->
  ~ linearizable_trace (mspec inv full) amap_empty tr.
Proof.
  intros E [x S]. eapply lin_run_complete with (tids := tids_of tr) in S.
  - rewrite E in S. contradiction.
  - apply NoDup_nodup.
  - intros t _. reflexivity.
  - apply Forall_forall. intros e I. unfold ev_in, tids_of.
    destruct e; apply nodup_In, in_map_iff; eexists; (split; [|exact I]); reflexivity.
Qed.
