(** Proofs about the pool allocator. *)
From Coq Require Import NArith Bool List Lia.
From Verif Require Import Words BaseInv PoolAlloc.
Import ListNotations.
Open Scope N_scope.

(** The thread makes the pool of type [t]. *)
Definition makes (p : qpc) : option N :=
  match p with QInit3 _ t _ | QInit4 _ t _ | QInit5 _ t _ => Some t | _ => None end.

Definition ok_pc (s : qst) (p : qpc) : Prop :=
  match p with
  | QIdle => True
  | QCtor t n | QInit1 _ t n | QInit2 _ t n => n <> 1
  | QInit3 _ t n | QInit4 _ t n => n <> 1 /\ q_init s t = 1 /\ q_pool s t = None /\ q_made s t = 0
  | QInit5 _ t n => n <> 1 /\ q_init s t = 1 /\ q_pool s t = Some (pool_size n) /\ q_made s t = 1
  | QSpin t => q_init s t <> 0
  | QHas t => 2 <= q_init s t
  | _ => False
  end.

Record pinv (s : qst) : Prop := {
  pi_one : forall i j t, makes (q_pc s i) = Some t -> makes (q_pc s j) = Some t -> i = j;
  pi_pc : forall i, ok_pc s (q_pc s i);
  pi_mk : forall t, q_init s t = 1 -> exists i, makes (q_pc s i) = Some t;
  pi_none : forall t, q_init s t = 0 -> q_pool s t = None /\ q_made s t = 0;
  pi_some : forall t, 2 <= q_init s t -> q_pool s t = Some (q_init s t) /\ q_made s t = 1 }.

Lemma pinv_init : pinv pool_init.
Proof. split; cbn; auto; intros; try discriminate; lia. Qed.

Lemma size_two n : n <> 1 -> 2 <= pool_size n.
Proof. intros H. unfold pool_size. destruct (N.eqb_spec n 0); [unfold default_pool_size; lia|lia]. Qed.

(** A thread goes from one position that makes no pool to another one. *)
Lemma pinv_at s i p : pinv s -> makes (q_pc s i) = makes p -> ok_pc s p -> pinv (q_at s i p).
Proof.
  intros G MK OK. destruct G as [G1 G2 G3 G4 G5].
  assert (M : forall j, makes (fupd (q_pc s) i p j) = makes (q_pc s j)).
  { intros j. destruct (N.eq_dec j i) as [->|NE]; [now rewrite fupd_eq|now rewrite fupd_neq]. }
  split; cbn; auto.
  - intros j k t. rewrite !M. apply G1.
  - intros j. destruct (N.eq_dec j i) as [->|NE]; [now rewrite fupd_eq|rewrite fupd_neq by auto; exact (G2 j)].
  - intros t H. destruct (G3 t H) as [j E]. exists j. now rewrite M.
Qed.

(** Changes at one type. *)
Lemma pinv_new s i p t ini po ma :
  pinv s -> (makes (q_pc s i) = None \/ makes (q_pc s i) = Some t) -> (makes p = None \/ makes p = Some t) ->
  (forall j, j <> i -> makes (q_pc s j) <> Some t) ->
  (forall u, u <> t -> ini u = q_init s u /\ po u = q_pool s u /\ ma u = q_made s u) ->
  ini t <> 0 -> q_init s t < 2 ->
  let s' := QSt ini po ma (fupd (q_pc s) i p) in
  ok_pc s' p -> (ini t = 1 -> makes p = Some t) -> (2 <= ini t -> po t = Some (ini t) /\ ma t = 1) -> pinv s'.
Proof.
  intros G MI MP OTH FR V LT s' OK V1 V2. destruct G as [G1 G2 G3 G4 G5]. split; cbn.
  - intros j k u. destruct (N.eq_dec j i) as [->|NJ], (N.eq_dec k i) as [->|NK]; rewrite ?fupd_eq, ?fupd_neq by auto; auto.
    + intros A B. destruct MP as [MP|MP]; rewrite MP in A; [discriminate|]. injection A as <-. now apply OTH in B.
    + intros A B. destruct MP as [MP|MP]; rewrite MP in B; [discriminate|]. injection B as <-. now apply OTH in A.
    + apply G1.
  - intros j. destruct (N.eq_dec j i) as [->|NJ]; [rewrite fupd_eq; exact OK|]. rewrite fupd_neq by auto.
    pose proof (G2 j) as T. specialize (OTH j NJ). destruct (q_pc s j) as [| | | | | |c u| | | | | | |] eqn:P; cbn in T, OTH |- *; auto;
      (match goal with |- context [ini ?u] => destruct (N.eq_dec u t) as [->|NE]; [try congruence; lia|] end;
       destruct (FR _ NE) as (-> & E2 & E3); rewrite ?E2, ?E3; auto).
  - intros u H. destruct (N.eq_dec u t) as [->|NE].
    + exists i. rewrite fupd_eq. auto.
    + rewrite (proj1 (FR u NE)) in H. destruct (G3 u H) as [j E]. exists j. destruct (N.eq_dec j i) as [->|NJ]; [|rewrite fupd_neq; auto].
      exfalso. destruct MI as [MI|MI]; rewrite MI in E; congruence.
  - intros u H. destruct (N.eq_dec u t) as [->|NE]; [congruence|]. destruct (FR u NE) as (E1 & -> & ->). apply G4. congruence.
  - intros u H. destruct (N.eq_dec u t) as [->|NE]; [auto|]. destruct (FR u NE) as (E1 & -> & ->). rewrite E1 in *. auto.
Qed.

Lemma upd_frame {A} (f : N -> A) t v u : u <> t -> fupd f t v u = f u.
Proof. intros H. now apply fupd_neq. Qed.

Lemma pinv_step s l s' : pinv s -> proper l -> pool_run1 s l = Some s' -> pinv s'.
Proof.
  intros G PR R. destruct l as [i ok|i t n|i t n|i t|i|i|i t]; cbn in PR, R; try contradiction.
  - subst ok. unfold pool_go in R. pose proof (pi_pc _ G i) as T.
    assert (ME := pi_one _ G i).
    destruct (q_pc s i) eqn:P; try discriminate; try contradiction; cbn in T, ME.
    + injection R as <-. apply pinv_at; auto; rewrite ?P; destruct (N.leb_spec 2 (q_init s t)); auto.
    + injection R as <-. apply pinv_at; auto; rewrite ?P; destruct (N.eqb_spec (q_init s t) 0); auto; destruct c; cbn; auto.
    + destruct (N.eqb_spec (q_init s t) 0) as [E|E].
      * injection R as <-. destruct (pi_none _ G t E) as [E1 E2].
        apply (pinv_new s i _ t); auto; rewrite ?fupd_eq, ?P; cbn; rewrite ?fupd_eq; auto; try lia.
        -- intros j NE M. pose proof (pi_pc _ G j) as TJ. destruct (q_pc s j); try discriminate; injection M as ->; cbn in TJ; lia.
        -- intros u NU. rewrite upd_frame by auto. auto.
      * injection R as <-. apply pinv_at; auto; rewrite ?P; destruct c; cbn; auto.
    + injection R as <-. apply pinv_at; auto. now rewrite P.
    + injection R as <-. destruct T as (T1 & T2 & T3 & T4).
      apply (pinv_new s i _ t); auto; rewrite ?P; cbn; rewrite ?fupd_eq; auto; try lia.
      * intros j NE M. apply NE. symmetry. now apply (ME j t).
      * intros u NU. rewrite !upd_frame by auto. auto.
      * rewrite T4. auto.
    + injection R as <-. destruct T as (T1 & T2 & T3 & T4). pose proof (size_two n T1) as SZ.
      apply (pinv_new s i _ t); auto; rewrite ?P; cbn; rewrite ?fupd_eq; auto; try lia.
      * destruct c; auto.
      * intros j NE M. apply NE. symmetry. now apply (ME j t).
      * intros u NU. rewrite !upd_frame by auto. auto.
      * destruct c; cbn; rewrite ?fupd_eq; auto. lia.
    + destruct (N.ltb_spec (q_init s t) 2); injection R as <-; auto. apply pinv_at; auto. now rewrite P.
  - destruct (q_pc s i) eqn:P; try discriminate. injection R as <-. apply pinv_at; auto. now rewrite P.
  - destruct (q_pc s i) eqn:P; try discriminate. injection R as <-. apply pinv_at; auto. now rewrite P.
  - destruct (q_pc s i) eqn:P; try discriminate. pose proof (pi_pc _ G i) as T. rewrite P in T. cbn in T.
    destruct (pi_some _ G t T) as [E _]. rewrite E in R. injection R as <-. auto.
  - destruct (q_pc s i) eqn:P; try discriminate. injection R as <-. apply pinv_at; cbn; auto. now rewrite P.
Qed.

Lemma runs_pinv s s' : pinv s -> pool_runs proper s s' -> pinv s'.
Proof. intros G R. induction R; auto. eapply pinv_step; eauto. Qed.

(** ** The thread that makes the pool *)
Definition to_make (p : qpc) (t : N) : N :=
  match p with
  | QInit3 _ u _ => if u =? t then 3 else 0
  | QInit4 _ u _ => if u =? t then 2 else 0
  | QInit5 _ u _ => if u =? t then 1 else 0
  | _ => 0
  end.

Lemma to_make_step s l s' t j : pinv s -> proper l -> pool_run1 s l = Some s' -> q_init s t <> 0 ->
  q_init s' t <> 0 /\ (2 <= q_init s t -> 2 <= q_init s' t) /\
  (makes (q_pc s j) = Some t ->
     2 <= q_init s' t \/ makes (q_pc s' j) = Some t /\
     to_make (q_pc s' j) t + (match l with QGo i _ => if i =? j then 1 else 0 | _ => 0 end) <= to_make (q_pc s j) t).
Proof.
  intros G PR R NZ. destruct l as [i ok|i u n|i u n|i u|i|i|i u]; cbn in PR, R; try contradiction.
  - subst ok. unfold pool_go in R. pose proof (pi_pc _ G i) as T.
    destruct (q_pc s i) eqn:P; try discriminate; try contradiction; cbn in T.
    all: repeat match type of R with context [if ?b then _ else _] => destruct b eqn:? end.
    all: injection R as <-; cbn.
    all: try (apply N.eqb_eq in Heqb).
    all: unfold fupd.
    all: try (destruct (N.eqb_spec t t0) as [->|NT]).
    all: try (pose proof (size_two n (proj1 T))).
    all: split; [congruence || lia|split; [intros; congruence || lia|]].
    all: intros M; destruct (N.eqb_spec i j) as [<-|NE]; rewrite ?N.eqb_refl.
    all: try (rewrite P in M; cbn in M; try discriminate M; injection M as M).
    all: try (left; lia).
    all: try (right; rewrite ?P; cbn; subst; rewrite ?N.eqb_refl; split; auto; lia).
    all: try (right; destruct (N.eqb_spec j i); [congruence|]; split; auto; lia).
    all: try congruence.
  - destruct (q_pc s i) eqn:P; try discriminate. injection R as <-. cbn. split; auto. split; auto.
    intros M. right. unfold fupd. destruct (N.eqb_spec j i) as [->|NE]; [rewrite P in M; discriminate|]. split; auto. lia.
  - destruct (q_pc s i) eqn:P; try discriminate. injection R as <-. cbn. split; auto. split; auto.
    intros M. right. unfold fupd. destruct (N.eqb_spec j i) as [->|NE]; [rewrite P in M; discriminate|]. split; auto. lia.
  - destruct (q_pc s i) eqn:P; try discriminate. destruct (q_pool s t0); injection R as <-; cbn.
    + split; auto. split; auto. intros M. right. split; auto. lia.
    + split; auto. split; auto. intros M. right. unfold fupd. destruct (N.eqb_spec j i) as [->|NE]; [rewrite P in M; discriminate|]. split; auto. lia.
  - destruct (q_pc s i) eqn:P; try discriminate. injection R as <-. cbn. split; auto. split; auto.
    intros M. right. unfold fupd. destruct (N.eqb_spec j i) as [->|NE]; [rewrite P in M; discriminate|]. split; auto. lia.
Qed.

Lemma made_after t j ls : forall s s', pinv s -> Forall proper ls -> pool_list s ls = Some s' ->
  q_init s t <> 0 -> 2 <= q_init s t \/ makes (q_pc s j) = Some t /\ to_make (q_pc s j) t <= steps_of j ls ->
  pinv s' /\ 2 <= q_init s' t.
Proof.
  induction ls as [|l ls IH]; intros s s' G F R NZ H; cbn in R.
  - injection R as <-. split; auto. destruct H as [H|[M H]]; auto. exfalso. cbn in H.
    destruct (q_pc s j); try discriminate; injection M as ->; cbn in H; rewrite N.eqb_refl in H; lia.
  - inversion F as [|x y F1 F2]. subst. destruct (pool_run1 s l) as [s1|] eqn:E; [|discriminate].
    pose proof (pinv_step s l s1 G F1 E) as G1. destruct (to_make_step s l s1 t j G F1 E NZ) as (N1 & K1 & K2).
    apply (IH s1 s'); auto. destruct H as [H|[M H]]; [left; auto|].
    destruct (K2 M) as [X|[M1 X]]; [left; auto|right]. split; auto.
    unfold steps_of in H |- *. cbn [filter] in H. destruct l as [i ok|i u n|i u n|i u|i|i|i u]; try lia.
    destruct (i =? j); cbn [length] in H; lia.
Qed.

(** ** A type whose pool nobody will ever make *)
Definition forgotten (s : qst) (t : N) : Prop :=
  q_init s t = 1 /\ forall i, makes (q_pc s i) <> Some t /\ q_pc s i <> QReset2 t /\ q_pc s i <> QReset3 t.

Lemma forgotten_step s l s' t : forgotten s t -> pool_run1 s l = Some s' -> forgotten s' t.
Proof.
  intros [F1 F2] R.
  assert (AT : forall i p, makes p <> Some t -> p <> QReset2 t -> p <> QReset3 t -> forall j,
     makes (fupd (q_pc s) i p j) <> Some t /\ fupd (q_pc s) i p j <> QReset2 t /\ fupd (q_pc s) i p j <> QReset3 t).
  { intros i p A B C j. unfold fupd. destruct (j =? i); auto. }
  destruct l as [i ok|i u n|i u n|i u|i|i|i u]; cbn in R.
  - unfold pool_go in R. pose proof (F2 i) as T.
    destruct (q_pc s i) as [|u n|c u n|c u n|c u n|c u n|c u n|u|u|u|u|u| |u] eqn:P; try discriminate; destruct T as (T1 & T2 & T3); cbn in T1;
      repeat match type of R with context [if ?b then _ else _] => destruct b eqn:? end;
      injection R as <-; (split; [cbn|exact F2 || apply AT]); auto; try discriminate; try congruence;
      try (unfold fupd; destruct (N.eqb_spec t u); [congruence|auto]);
      try (cbn; congruence);
      try (destruct c; cbn; discriminate).
    all: try (apply N.eqb_eq in Heqb; cbn; congruence).
    all: try (intros [= ->]; rewrite F1 in Heqb; discriminate).
  - destruct (q_pc s i) eqn:P; try discriminate. injection R as <-. split; [auto|apply AT; discriminate].
  - destruct (q_pc s i) eqn:P; try discriminate. injection R as <-. split; [auto|apply AT; discriminate].
  - destruct (q_pc s i) eqn:P; try discriminate. injection R as <-. split; [auto|apply AT; discriminate].
  - destruct (q_pc s i) eqn:P; try discriminate. destruct (q_pool s t0); injection R as <-; [split; auto|split; [auto|apply AT; discriminate]].
  - destruct (q_pc s i) eqn:P; try discriminate. injection R as <-. split; [auto|apply AT; discriminate].
  - destruct (q_pc s i) eqn:P; try discriminate. injection R as <-. split; [auto|apply AT; discriminate].
Qed.

Lemma spins_on s l s' t i : forgotten s t -> q_pc s i = QSpin t -> pool_run1 s l = Some s' -> q_pc s' i = QSpin t.
Proof.
  intros [F _] P R. assert (K : forall k p, k <> i -> fupd (q_pc s) k p i = QSpin t) by (intros; rewrite fupd_neq; auto).
  destruct l as [k ok|k u n|k u n|k u|k|k|k u]; cbn in R.
  - destruct (N.eq_dec k i) as [->|NE].
    + unfold pool_go in R. rewrite P, F in R. injection R as <-. exact P.
    + unfold pool_go in R. destruct (q_pc s k); try discriminate;
        repeat match type of R with context [if ?b then _ else _] => destruct b end; injection R as <-; cbn; auto.
  - destruct (q_pc s k) eqn:Q; try discriminate. injection R as <-. cbn. apply K. congruence.
  - destruct (q_pc s k) eqn:Q; try discriminate. injection R as <-. cbn. apply K. congruence.
  - destruct (q_pc s k) eqn:Q; try discriminate. injection R as <-. cbn. apply K. congruence.
  - destruct (q_pc s k) eqn:Q; try discriminate. destruct (q_pool s t0); injection R as <-; cbn; auto. apply K. congruence.
  - destruct (q_pc s k) eqn:Q; try discriminate. injection R as <-. cbn. apply K. congruence.
  - destruct (q_pc s k) eqn:Q; try discriminate. injection R as <-. cbn. apply K. congruence.
Qed.

Lemma spins_forever P s t i s' : forgotten s t -> q_pc s i = QSpin t -> pool_runs P s s' -> q_pc s' i = QSpin t.
Proof.
  intros F Q R. assert (X : forgotten s' t /\ q_pc s' i = QSpin t); [|apply X].
  induction R as [|s1 l s2 R (F1 & Q1) _ E]; auto. split; [eapply forgotten_step; eauto|eapply spins_on; eauto].
Qed.
