(** Traces of the canonical atomic object are exactly the histories that are
    linearizable in the sense of Herlihy and Wing. *)
From Coq Require Import NArith Arith List Lia.
From Verif Require Import Words LinSpec BaseInv HWSpec.
Import ListNotations.
Open Scope nat_scope.

Section HW.
Context {St Op Res : Type} (spec : St -> Op -> St -> Res -> Prop) (s0 : St).
Notation ev := (event Op Res).
Notation hist := (list ev).
Notation calls := (list (nat * Op * Res)).

Lemma nth_prefix (h : hist) e i x : nth_error h i = Some x -> nth_error (h ++ [e]) i = Some x.
Proof. intros H. rewrite nth_error_app1; auto. apply nth_error_Some. congruence. Qed.

Lemma nth_snoc (h : hist) e i x :
  nth_error (h ++ [e]) i = Some x -> (i < length h /\ nth_error h i = Some x) \/ (i = length h /\ x = e).
Proof.
  intros H. destruct (lt_dec i (length h)) as [L|L].
  - left. rewrite nth_error_app1 in H; auto.
  - right. assert (i = length h).
    { assert (i < length (h ++ [e])) by (apply nth_error_Some; congruence). rewrite app_length in H0. cbn in H0. lia. }
    subst i. rewrite nth_error_app2, Nat.sub_diag in H by lia. cbn in H. split; congruence.
Qed.

Lemma nth_len (h : hist) i x : nth_error h i = Some x -> i < length h.
Proof. intros H. apply nth_error_Some. congruence. Qed.

Lemma responds_snoc (h : hist) e i j r : responds (h ++ [e]) i j r ->
  responds h i j r \/
  (j = length h /\ exists t o, e = ERet t r /\ nth_error h i = Some (EInv t o) /\
     forall k x, i < k -> nth_error h k = Some x -> thread_of x <> t).
Proof.
  intros (t & o & H1 & H2 & L & Q).
  apply nth_snoc in H2 as [[Lj H2]|[-> H2]].
  - left. exists t, o. apply nth_snoc in H1 as [[_ H1]|[-> H1]]; [|lia]. repeat split; auto.
    intros k x Lk Hk. apply (Q k); auto. now apply nth_prefix.
  - right. split; auto. exists t, o. split; auto.
    apply nth_snoc in H1 as [[_ H1]|[-> H1]]; [|lia]. split; auto.
    intros k x Lk Hk. apply (Q k); [|now apply nth_prefix]. apply nth_len in Hk. lia.
Qed.

Lemma responds_prefix (h : hist) e i j r : responds h i j r -> responds (h ++ [e]) i j r.
Proof.
  intros (t & o & H1 & H2 & L & Q). exists t, o. repeat split; auto using nth_prefix.
  intros k x Lk Hk. apply nth_snoc in Hk as [[_ Hk]|[-> Hk]]; [eauto|]. apply nth_len in H2. lia.
Qed.

Lemma legal_app l : forall s s' l' s'', legal spec s l s' -> legal spec s' l' s'' -> legal spec s (l ++ l') s''.
Proof.
  induction l as [|[[i o] r] l IH]; intros s s' l' s'' H1 H2; inversion H1; subst; cbn; [exact H2|].
  econstructor; eauto.
Qed.

Lemma legal_split l : forall s l' s'', legal spec s (l ++ l') s'' -> exists s', legal spec s l s' /\ legal spec s' l' s''.
Proof.
  induction l as [|[[i o] r] l IH]; intros s l' s'' H; cbn in H; [exists s; split; [constructor|exact H]|].
  inversion H as [|? ? ? ? s1 ? ? SP H7]; subst. destruct (IH _ _ _ H7) as (s' & A & B). exists s'.
  split; auto. econstructor; eauto.
Qed.

(** *** From the atomic object to a linearization *)

Definition open_at (h : hist) (t : N) (i : nat) (o : Op) : Prop :=
  nth_error h i = Some (EInv t o) /\ forall k x, i < k -> nth_error h k = Some x -> thread_of x <> t.

Record linv (h : hist) (l : calls) (a : aobj St Op Res) : Prop := {
  li_wf : well_formed h;
  li_legal : legal spec s0 l (ast a);
  li_nodup : NoDup (map call_at l);
  li_call : forall i o r, In (i, o, r) l -> exists t, nth_error h i = Some (EInv t o);
  li_done : forall i j r, responds h i j r -> exists o, In (i, o, r) l;
  li_order : forall i j r k, responds h i j r -> j < k -> In k (map call_at l) -> precedes l i k;
  li_thr : forall t, match ath a t with
    | AIdle => forall i o, nth_error h i = Some (EInv t o) -> exists j r, i < j /\ nth_error h j = Some (ERet t r)
    | APend o => exists i, open_at h t i o /\ ~ In i (map call_at l)
    | ADone r => exists i o, open_at h t i o /\ In (i, o, r) l
    end }.

Lemma call_in (i : nat) (o : Op) (r : Res) l : In (i, o, r) l -> In i (map call_at l).
Proof. intros H. apply in_map_iff. exists (i, o, r). auto. Qed.

Lemma linv_step h l a e b : linv h l a -> astep spec a e b ->
  exists l', linv (match e with Some e => h ++ [e] | None => h end) l' b.
Proof.
  intros V ST. inversion ST as [s th t o E|s th t o s' r E SP|s th t r E]; subst; clear ST.
  - exists l. destruct V as [[W1 W2] LG ND LC LD LO LT]. cbn [ast ath] in *. constructor; cbn [ast ath]; auto.
    + split.
      * intros i j u o1 o2 H1 H2 L. apply nth_snoc in H2 as [[Lj H2]|[-> H2]].
        -- apply nth_snoc in H1 as [[_ H1]|[-> _]]; [|lia].
           destruct (W1 i j u o1 o2 H1 H2 L) as (k & r & K1 & K2). exists k, r. split; auto using nth_prefix.
        -- injection H2 as -> ->. apply nth_snoc in H1 as [[_ H1]|[-> _]]; [|lia].
           specialize (LT t). rewrite E in LT. destruct (LT i o1 H1) as (j & r & K1 & K2).
           exists j, r. split; [apply nth_len in K2; lia|]. now apply nth_prefix.
      * intros j u r H. apply nth_snoc in H as [[_ H]|[_ H]]; [|discriminate].
        destruct (W2 j u r H) as [i R]. exists i. now apply responds_prefix.
    + intros i o1 r1 H. destruct (LC i o1 r1 H) as [u H']. exists u. now apply nth_prefix.
    + intros i j r R. apply responds_snoc in R as [R|(_ & u & o1 & X & _)]; [eauto|discriminate].
    + intros i j r k R L I. apply responds_snoc in R as [R|(-> & u & o1 & X & _)]; [eauto|discriminate].
    + intros u. unfold fupd. destruct (N.eqb_spec u t) as [->|NE].
      * exists (length h). split.
        -- split; [rewrite nth_error_app2, Nat.sub_diag by lia; reflexivity|].
           intros k x Lk Hk. apply nth_len in Hk. rewrite app_length in Hk. cbn in Hk. lia.
        -- intros I. apply in_map_iff in I as ([[i o1] r1] & X & I). cbn in X. subst i.
           destruct (LC _ _ _ I) as [u H]. apply nth_len in H. lia.
      * assert (OP : forall i o1, open_at h u i o1 -> open_at (h ++ [EInv t o]) u i o1).
        { intros i o1 [H1 H2]. split; [now apply nth_prefix|]. intros k x Lk Hk.
          apply nth_snoc in Hk as [[_ Hk]|[_ ->]]; [eauto|]. cbn. congruence. }
        specialize (LT u). destruct (th u) as [|o1|r].
        -- intros i o1 H. apply nth_snoc in H as [[_ H]|[_ H]]; [|congruence].
           destruct (LT i o1 H) as (j & r & K1 & K2). exists j, r. split; auto using nth_prefix.
        -- destruct LT as (i & H1 & H2). exists i. auto.
        -- destruct LT as (i & o1 & H1 & H2). exists i, o1. auto.
  - destruct V as [W LG ND LC LD LO LT]. cbn [ast ath] in *.
    pose proof (LT t) as LTt. rewrite E in LTt. destruct LTt as (i & [OA OQ] & NI).
    exists (l ++ [(i, o, r)]). constructor; cbn [ast ath]; auto.
    + eapply legal_app; [exact LG|]. econstructor; [exact SP|constructor].
    + rewrite map_app. cbn [map]. change (call_at (i, o, r)) with i.
      apply NoDup_rev in ND. rewrite <- (rev_involutive (map call_at l ++ [i])). apply NoDup_rev.
      rewrite rev_app_distr. cbn. constructor; auto. now rewrite <- in_rev.
    + intros i1 o1 r1 H. apply in_app_or in H as [H|[H|[]]]; [eauto|]. injection H as -> -> ->. eauto.
    + intros i1 j r1 R. destruct (LD _ _ _ R) as [o1 H]. exists o1. apply in_or_app. auto.
    + intros i1 j r1 k R L I. rewrite map_app in I. apply in_app_or in I as [I|[I|[]]].
      * destruct (LO _ _ _ _ R L I) as (l1 & l2 & -> & P1 & P2). exists l1, (l2 ++ [(i, o, r)]).
        rewrite app_assoc. split; auto. split; auto. rewrite map_app. apply in_or_app. auto.
      * change (call_at (i, o, r)) with i in I. subst k. exists l, [(i, o, r)]. split; auto.
        destruct (LD _ _ _ R) as [o1 H]. split; [eapply call_in; eauto|]. now left.
    + intros u. unfold fupd. destruct (N.eqb_spec u t) as [->|NE].
      * exists i, o. split; [split; auto|]. apply in_or_app. right. now left.
      * specialize (LT u). destruct (th u) as [|o1|r1]; auto.
        -- destruct LT as (i1 & H1 & H2). exists i1. split; auto. rewrite map_app.
           intros I. apply in_app_or in I as [I|[I|[]]]; [auto|]. change (call_at (i, o, r)) with i in I. subst i1.
           destruct H1 as [H1 _]. rewrite OA in H1. congruence.
        -- destruct LT as (i1 & o1 & H1 & H2). exists i1, o1. split; auto. apply in_or_app. auto.
  - exists l. destruct V as [[W1 W2] LG ND LC LD LO LT]. cbn [ast ath] in *.
    pose proof (LT t) as LTt. rewrite E in LTt. destruct LTt as (i0 & o0 & [OA OQ] & I0).
    assert (R0 : responds (h ++ [ERet t r]) i0 (length h) r).
    { exists t, o0. split; [now apply nth_prefix|].
      split; [rewrite nth_error_app2, Nat.sub_diag by lia; reflexivity|].
      split; [eapply nth_len; eauto|]. intros k x Lk Hk.
      apply nth_snoc in Hk as [[_ Hk]|[-> Hk]]; [apply (OQ k); [lia|exact Hk]|lia]. }
    constructor; cbn [ast ath]; auto.
    + split.
      * intros i j u o1 o2 H1 H2 L. apply nth_snoc in H2 as [[Lj H2]|[-> H2]]; [|discriminate].
        apply nth_snoc in H1 as [[_ H1]|[-> _]]; [|lia].
        destruct (W1 i j u o1 o2 H1 H2 L) as (k & r1 & K1 & K2). exists k, r1. split; auto using nth_prefix.
      * intros j u r1 H. apply nth_snoc in H as [[_ H]|[-> H]].
        -- destruct (W2 j u r1 H) as [i R]. exists i. now apply responds_prefix.
        -- injection H as -> ->. eauto.
    + intros i o1 r1 H. destruct (LC i o1 r1 H) as [u H']. exists u. now apply nth_prefix.
    + intros i j r1 R. apply responds_snoc in R as [R|(_ & u & o1 & X & H1 & H2)]; [eauto|].
      injection X as <- <-. assert (i = i0).
      { destruct (lt_eq_lt_dec i i0) as [[L|EQ]|L]; auto.
        - now elim (H2 i0 _ L OA).
        - now elim (OQ i _ L H1). }
      subst i. eauto.
    + intros i j r1 k R L I. apply responds_snoc in R as [R|(-> & _)]; [eauto|].
      apply in_map_iff in I as ([[i1 o1] r2] & X & I). cbn in X. subst i1.
      destruct (LC _ _ _ I) as [u H]. apply nth_len in H. lia.
    + intros u. unfold fupd. destruct (N.eqb_spec u t) as [->|NE].
      * intros i o1 H. apply nth_snoc in H as [[_ H]|[_ H]]; [|discriminate].
        exists (length h), r. split; [eapply nth_len; eauto|]. rewrite nth_error_app2, Nat.sub_diag by lia. reflexivity.
      * assert (OP : forall i o1, open_at h u i o1 -> open_at (h ++ [ERet t r]) u i o1).
        { intros i o1 [H1 H2]. split; [now apply nth_prefix|]. intros k x Lk Hk.
          apply nth_snoc in Hk as [[_ Hk]|[_ ->]]; [eauto|]. cbn. congruence. }
        specialize (LT u). destruct (th u) as [|o1|r1].
        -- intros i o1 H. apply nth_snoc in H as [[_ H]|[_ H]]; [|congruence].
           destruct (LT i o1 H) as (j & r1 & K1 & K2). exists j, r1. split; auto using nth_prefix.
        -- destruct LT as (i & H1 & H2). exists i. auto.
        -- destruct LT as (i & o1 & H1 & H2). exists i, o1. auto.
Qed.

Lemma linv_steps a tr b : asteps spec a tr b -> forall h l, linv h l a -> exists l', linv (h ++ tr) l' b.
Proof.
  induction 1 as [a|a b c tr S _ IH|a e b c tr S _ IH]; intros h l V.
  - exists l. now rewrite app_nil_r.
  - destruct (linv_step h l a None b V S) as [l' V']. eauto.
  - destruct (linv_step h l a (Some e) b V S) as [l' V']. destruct (IH _ _ V') as [l2 V2].
    exists l2. now rewrite <- app_assoc in V2.
Qed.

Lemma linv_init : linv [] [] (AObj s0 (fun _ => AIdle)).
Proof.
  assert (N : forall (i : nat) (x : ev), nth_error (@nil ev) i = Some x -> False) by (intros [|i] x; discriminate).
  constructor.
  - split; intros; exfalso; eauto.
  - constructor.
  - constructor.
  - intros i o r [].
  - intros i j r (t & o & H & _). exfalso. eauto.
  - intros i j r k _ _ [].
  - intros t. cbn. intros i o H. exfalso. eauto.
Qed.

Lemma trace_hw h : linearizable_trace spec s0 h -> hw_linearizable spec s0 h.
Proof.
  intros [a S]. destruct (linv_steps _ _ _ S [] [] linv_init) as [l V]. cbn in V.
  destruct V. split; auto. exists l, (ast a). auto.
Qed.

(** *** From a linearization to the atomic object *)

Lemma inv_responds (h : hist) : well_formed h -> forall n i t o o', nth_error h i = Some (EInv t o) ->
  nth_error h n = Some (EInv t o') -> i < n -> exists j r, j < n /\ responds h i j r.
Proof.
  intros [W1 W2] n. induction n as [n IH] using (well_founded_induction lt_wf).
  intros i t o o' H1 H2 L. destruct (W1 i n t o o' H1 H2 L) as (k & r & Lk & Hk).
  destruct (W2 k t r Hk) as [i' R]. pose proof R as (t' & o1 & P1 & P2 & P3 & P4).
  assert (t' = t) by congruence. subst t'.
  destruct (lt_eq_lt_dec i i') as [[L'|EQ]|L'].
  - destruct (IH i' ltac:(lia) i t o o1 H1 P1 L') as (j & r' & Lj & Rj). exists j, r'. split; [lia|auto].
  - subst i'. exists k, r. split; [lia|auto].
  - elim (P4 i _ ltac:(lia) H1). reflexivity.
Qed.

Section Converse.
Context (h : hist) (l : calls) (sf : St).
Context (WF : well_formed h) (LG : legal spec s0 l sf) (ND : NoDup (map call_at l)).
Context (LC : forall i o r, In (i, o, r) l -> exists t, nth_error h i = Some (EInv t o)).
Context (LD : forall i j r, responds h i j r -> exists o, In (i, o, r) l).
Context (LO : forall i j r k, responds h i j r -> j < k -> In k (map call_at l) -> precedes l i k).

(** The first [n] events are done, the calls of [d] have taken effect. *)
Record cinv (n : nat) (d td : calls) (a : aobj St Op Res) : Prop := {
  ci_split : l = d ++ td;
  ci_legal : legal spec s0 d (ast a);
  ci_rest : legal spec (ast a) td sf;
  ci_lt : forall k, In k (map call_at d) -> k < n;
  ci_done : forall i j r, responds h i j r -> j < n -> In i (map call_at d);
  ci_thr : forall t,
    (ath a t = AIdle /\ forall i o, i < n -> nth_error h i = Some (EInv t o) -> exists j r, j < n /\ responds h i j r) \/
    (exists i o, i < n /\ nth_error h i = Some (EInv t o) /\
       (forall k x, i < k < n -> nth_error h k = Some x -> thread_of x <> t) /\
       ((ath a t = APend o /\ ~ In i (map call_at d)) \/ (exists r, ath a t = ADone r /\ In (i, o, r) d))) }.

Lemma same_call i o r o' r' : In (i, o, r) l -> In (i, o', r') l -> (o, r) = (o', r').
Proof.
  clear LG LC LD LO. induction l as [|[[i1 o1] r1] l' IH]; intros H1 H2; [destruct H1|].
  cbn in ND. inversion ND as [|? ? NI ND']; subst. destruct H1 as [H1|H1], H2 as [H2|H2].
  - congruence.
  - injection H1 as -> -> ->. elim NI. eapply call_in; eauto.
  - injection H2 as -> -> ->. elim NI. eapply call_in; eauto.
  - eauto.
Qed.

(** The next call takes effect. *)
Lemma lin_one n d i o r td a : cinv n d ((i, o, r) :: td) a -> i < n ->
  exists b, astep spec a None b /\ cinv n (d ++ [(i, o, r)]) td b.
Proof.
  intros [SP L1 L2 LT DN TH] Li. inversion L2 as [|? ? ? ? s' ? ? SPEC L2']; subst.
  assert (IN : In (i, o, r) l) by (rewrite SP; apply in_or_app; right; now left).
  assert (NI : ~ In i (map call_at d)).
  { rewrite SP, map_app in ND. cbn in ND. apply NoDup_remove_2 in ND. intros I. apply ND. apply in_or_app. auto. }
  destruct (LC i o r IN) as [t Ht].
  assert (PT : ath a t = APend o).
  { destruct (TH t) as [[_ H]|(i' & o' & Li' & Hi' & Q & H)].
    - destruct (H i o Li Ht) as (j & r' & Lj & R). elim NI. eapply DN; eauto.
    - destruct (lt_eq_lt_dec i i') as [[L'|EQ]|L'].
      + destruct (inv_responds h WF i' i t o o' Ht Hi' L') as (j & r' & Lj & R). elim NI. eapply DN; eauto. lia.
      + subst i'. rewrite Ht in Hi'. injection Hi' as <-. destruct H as [[H _]|(r' & _ & H)]; auto.
        elim NI. eapply call_in; eauto.
      + elim (Q i _ ltac:(lia) Ht). reflexivity. }
  destruct a as [s th]. cbn [ast ath] in *.
  exists (AObj s' (fupd th t (ADone r))). split; [eapply a_lin; eauto|].
  constructor; cbn [ast ath]; auto.
  - now rewrite <- app_assoc.
  - eapply legal_app; [exact L1|]. econstructor; [exact SPEC|constructor].
  - intros k I. rewrite map_app in I. apply in_app_or in I as [I|[<-|[]]]; auto.
  - intros i' j r' R Lj. rewrite map_app. apply in_or_app. left. eauto.
  - intros u. unfold fupd. destruct (N.eqb_spec u t) as [->|NE].
    + right. destruct (TH t) as [[H _]|(i' & o' & Li' & Hi' & Q & H)]; [congruence|].
      exists i', o'. repeat split; auto. right. exists r. split; auto. apply in_or_app. right. left.
      destruct H as [[H NI']|(r' & H & _)]; [|congruence].
      rewrite PT in H. injection H as <-.
      destruct (lt_eq_lt_dec i i') as [[L'|EQ]|L'].
      * destruct (inv_responds h WF i' i t o o Ht Hi' L') as (j & r' & Lj & R). elim NI. eapply DN; eauto. lia.
      * congruence.
      * elim (Q i _ ltac:(lia) Ht). reflexivity.
    + destruct (TH u) as [H|(i' & o' & Li' & Hi' & Q & H)]; [now left|]. right. exists i', o'. repeat split; auto.
      destruct H as [[H NI']|(r' & H & I')].
      * left. split; auto. rewrite map_app. intros I. apply in_app_or in I as [I|[I|[]]]; auto.
        change (call_at (i, o, r)) with i in I. subst i'. congruence.
      * right. exists r'. split; auto. apply in_or_app. auto.
Qed.

Lemma lin_many n p : forall d td a, cinv n d (p ++ td) a -> (forall k, In k (map call_at p) -> k < n) ->
  exists b, asteps spec a [] b /\ cinv n (d ++ p) td b.
Proof.
  induction p as [|[[i o] r] p IH]; intros d td a V L; cbn [app] in V.
  - exists a. rewrite app_nil_r. split; [constructor|exact V].
  - destruct (lin_one n d i o r (p ++ td) a V) as (b & S & V').
    { apply L. now left. }
    destruct (IH _ _ _ V') as (c & S' & V2); [intros k I; apply L; now right|].
    exists c. split; [eapply as_tau; eauto|]. now rewrite <- app_assoc in V2.
Qed.

Lemma asteps_trans a tr b tr' c : asteps spec a tr b -> asteps spec b tr' c -> asteps spec a (tr ++ tr') c.
Proof.
  induction 1 as [a|a b1 c1 tr S _ IH|a e b1 c1 tr S _ IH]; intros H; cbn; auto.
  - eapply as_tau; eauto.
  - eapply as_vis; eauto.
Qed.

Lemma one_event n d td a e : cinv n d td a -> nth_error h n = Some e ->
  exists d' td' b, asteps spec a [e] b /\ cinv (S n) d' td' b.
Proof.
  intros V E. destruct e as [t o|t r].
  - destruct a as [s th]. pose proof V as [SP L1 L2 LT DN TH]. cbn [ast ath] in *.
    assert (ID : th t = AIdle).
    { destruct (TH t) as [[H _]|(i & o' & Li & Hi & Q & _)]; auto.
      destruct (proj1 WF i n t o' o Hi E Li) as (k & r & Lk & Hk). elim (Q k _ Lk Hk). reflexivity. }
    exists d, td, (AObj s (fupd th t (APend o))). split; [eapply as_vis; [now apply a_inv|constructor]|].
    constructor; cbn [ast ath]; auto.
    + intros k I. apply LT in I. lia.
    + intros i j r R Lj. destruct (Nat.eq_dec j n) as [->|]; [|eapply DN; eauto; lia].
      destruct R as (t' & o' & _ & H & _). congruence.
    + intros u. unfold fupd. destruct (N.eqb_spec u t) as [->|NE].
      * right. exists n, o. repeat split; auto. { intros k x Lk. lia. }
        left. split; auto. intros I. apply LT in I. lia.
      * destruct (TH u) as [[H1 H2]|(i & o' & Li & Hi & Q & H)].
        -- left. split; auto. intros i o1 Li Hi. destruct (Nat.eq_dec i n) as [->|]; [congruence|].
           destruct (H2 i o1 ltac:(lia) Hi) as (j & r & Lj & R). exists j, r. split; auto.
        -- right. exists i, o'. repeat split; auto. intros k x Lk Hk.
           destruct (Nat.eq_dec k n) as [->|]; [|apply (Q k); auto; lia].
           rewrite E in Hk. injection Hk as <-. cbn. congruence.
  - destruct (proj2 WF n t r E) as [i R]. pose proof R as (t' & o & Hi & Hn & Lin & Q).
    assert (t' = t) by congruence. subst t'. clear Hn.
    destruct (LD _ _ _ R) as [o' IN]. destruct (LC _ _ _ IN) as [t' Hi'].
    assert (o' = o) by congruence. subst o'. clear t' Hi'.
    assert (W : exists d' td' b, asteps spec a [] b /\ cinv n d' td' b /\ In i (map call_at d')).
    { destruct (in_dec Nat.eq_dec i (map call_at d)) as [I|NI].
      { exists d, td, a. split; [constructor|auto]. }
      pose proof (ci_split _ _ _ _ V) as SP.
      assert (IT : In (i, o, r) td).
      { rewrite SP in IN. apply in_app_or in IN as [IN|IN]; auto. elim NI. eapply call_in; eauto. }
      apply in_split in IT as (p & q & ->).
      destruct (lin_many n (p ++ [(i, o, r)]) d q a) as (b & S & V').
      { now rewrite <- app_assoc. }
      { intros k I. rewrite map_app in I. apply in_app_or in I as [I|[<-|[]]]; [|exact Lin].
        destruct (le_lt_dec k n) as [L|L].
        - destruct (Nat.eq_dec k n) as [->|]; [|lia].
          apply in_map_iff in I as ([[k' o2] r2] & X & I). cbn in X. subst k'.
          destruct (LC n o2 r2) as [u Hu]; [rewrite SP; apply in_or_app; right; apply in_or_app; now left|]. congruence.
        - exfalso. destruct (LO i n r k R L) as (l1 & l2 & SP' & I1 & I2).
          { rewrite SP, !map_app. apply in_or_app. right. apply in_or_app. now left. }
          (* k before i in l, and i before k *)
          rewrite SP in SP'. clear - SP' I I1 I2 ND SP. rewrite SP in ND.
          apply in_split in I as (p1 & p2 & EP).
          assert (X : exists x1 x2 x3, map call_at l1 ++ map call_at l2 = x1 ++ k :: x2 ++ i :: x3).
          { rewrite <- map_app, <- SP', !map_app, EP. cbn [map]. exists (map call_at d ++ p1), p2, (map call_at q).
            now rewrite <- !app_assoc. }
          destruct X as (x1 & x2 & x3 & X).
          assert (ND' : NoDup (map call_at l1 ++ map call_at l2)) by (rewrite <- map_app, <- SP'; exact ND).
          remember (map call_at l1) as m1. remember (map call_at l2) as m2. clear - X ND' I1 I2.
          revert m1 X ND' I1. induction x1 as [|y x1 IH]; intros m1 X ND' I1.
          + destruct m1 as [|z m1]; [destruct I1|]. cbn in X. injection X as -> X.
            cbn in ND'. inversion ND' as [|? ? N1 N2]; subst. apply N1. apply in_or_app. now right.
          + destruct m1 as [|z m1]; [destruct I1|]. cbn in X. injection X as -> X.
            cbn in ND'. inversion ND' as [|? ? N1 N2]; subst.
            destruct I1 as [->|I1]; [|eapply (IH m1); eauto].
            apply N1. rewrite X. apply in_or_app. right. right. apply in_or_app. right. now left. }
      exists (d ++ p ++ [(i, o, r)]), q, b. split; [exact S|]. split; [exact V'|].
      rewrite !map_app. apply in_or_app. right. apply in_or_app. right. now left. }
    destruct W as (d' & td' & b & S & V' & I). destruct b as [s th].
    pose proof V' as [SP L1 L2 LT DN TH]. cbn [ast ath] in *.
    assert (ID : In (i, o, r) d').
    { apply in_map_iff in I as ([[i' o2] r2] & X & I). cbn in X. subst i'.
      assert (I' : In (i, o2, r2) l) by (rewrite SP; apply in_or_app; auto).
      pose proof (same_call _ _ _ _ _ IN I') as Y. injection Y as -> ->. exact I. }
    assert (DT : th t = ADone r).
    { destruct (TH t) as [[_ H]|(i' & o2 & Li' & Hi' & Q' & H)].
      - destruct (H i o Lin Hi) as (j & r' & Lj & (t2 & o2 & A1 & A2 & A3 & A4)).
        assert (t2 = t) by congruence. subst t2. elim (Q j _ ltac:(lia) A2). reflexivity.
      - assert (i' = i).
        { destruct (lt_eq_lt_dec i i') as [[L'|EQ]|L']; auto.
          - elim (Q i' _ ltac:(lia) Hi'). reflexivity.
          - elim (Q' i _ ltac:(lia) Hi). reflexivity. }
        subst i'. destruct H as [[_ H]|(r' & H & I')]; [elim H; exact I|].
        assert (I2 : In (i, o2, r') l) by (rewrite SP; apply in_or_app; auto).
        pose proof (same_call _ _ _ _ _ IN I2) as Y. injection Y as -> ->. exact H. }
    exists d', td', (AObj s (fupd th t AIdle)). split.
    { change [@ERet Op Res t r] with ([] ++ [@ERet Op Res t r]). eapply asteps_trans; [exact S|].
      eapply as_vis; [now apply a_ret|constructor]. }
    constructor; cbn [ast ath]; auto.
    + intros k Ik. apply LT in Ik. lia.
    + intros i' j r' R' Lj. destruct (Nat.eq_dec j n) as [->|]; [|eapply DN; eauto; lia].
      destruct R' as (t2 & o2 & A1 & A2 & A3 & A4). assert (t2 = t) by congruence. subst t2.
      assert (i' = i); [|subst; exact I].
      destruct (lt_eq_lt_dec i i') as [[L'|EQ]|L']; auto.
      * elim (Q i' _ ltac:(lia) A1). reflexivity.
      * elim (A4 i _ ltac:(lia) Hi). reflexivity.
    + intros u. unfold fupd. destruct (N.eqb_spec u t) as [->|NE].
      * left. split; auto. intros i' o2 Li' Hi'. destruct (Nat.eq_dec i' n) as [->|]; [congruence|].
        destruct (lt_eq_lt_dec i i') as [[L'|EQ]|L'].
        -- elim (Q i' _ ltac:(lia) Hi'). reflexivity.
        -- subst i'. exists n, r. split; [lia|exact R].
        -- destruct (inv_responds h WF i i' t o2 o Hi' Hi L') as (j & r' & Lj & R'). exists j, r'. split; [lia|auto].
      * destruct (TH u) as [[H1 H2]|(i' & o' & Li & Hi' & Q' & H)].
        -- left. split; auto. intros i' o1 Li Hi'. destruct (Nat.eq_dec i' n) as [->|]; [congruence|].
           destruct (H2 i' o1 ltac:(lia) Hi') as (j & r' & Lj & R'). exists j, r'. split; auto.
        -- right. exists i', o'. repeat split; auto. intros k x Lk Hk.
           destruct (Nat.eq_dec k n) as [->|]; [|apply (Q' k); auto; lia].
           rewrite E in Hk. injection Hk as <-. cbn. congruence.
Qed.

Lemma all_events : forall rest pre d td a, h = pre ++ rest -> cinv (length pre) d td a ->
  exists b, asteps spec a rest b.
Proof.
  induction rest as [|e rest IH]; intros pre d td a E V; [exists a; constructor|].
  assert (N : nth_error h (length pre) = Some e).
  { rewrite E, nth_error_app2, Nat.sub_diag by lia. reflexivity. }
  destruct (one_event _ d td a e V N) as (d' & td' & b & S & V').
  destruct (IH (pre ++ [e]) d' td' b) as [c S'].
  - now rewrite <- app_assoc.
  - rewrite app_length. cbn. now rewrite Nat.add_1_r.
  - exists c. change (e :: rest) with ([e] ++ rest). eapply asteps_trans; eauto.
Qed.

Lemma hw_trace : linearizable_trace spec s0 h.
Proof.
  destruct (all_events h [] [] l (AObj s0 (fun _ => AIdle))) as [b S]; [reflexivity| |exists b; exact S].
  constructor; cbn [ast ath]; auto.
  - constructor.
  - intros k [].
  - intros i j r _ L. cbn in L. lia.
  - intros t. left. split; auto. intros i o L. cbn in L. lia.
Qed.

End Converse.

Lemma hw_iff h : linearizable_trace spec s0 h <-> hw_linearizable spec s0 h.
Proof.
  split; [apply trace_hw|]. intros [WF (l & s' & A & B & C & D & E)]. eapply hw_trace; eauto.
Qed.

End HW.
