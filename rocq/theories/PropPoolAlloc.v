(** C64: the pool allocator. *)
From Coq Require Import NArith Bool List Lia.
From Verif Require Import Words BaseInv PoolAlloc PoolAllocFacts.
Import ListNotations.
Open Scope N_scope.

(** The pool of a type is made at most once, no allocation uses a pool that does not
    exist, and whoever has an allocator has a pool, whose size has been announced. *)
Theorem C64_pool_made_once :
  forall s, pool_runs proper pool_init s ->
    (forall t, q_made s t <= 1) /\
    (forall i t, q_pc s i <> QNullPool t) /\
    (forall i t, q_pc s i = QHas t -> exists n, 2 <= n /\ q_pool s t = Some n /\ q_init s t = n).
Proof.
  intros s R. pose proof (runs_pinv _ _ pinv_init R) as G. split; [|split].
  - intros t. destruct (N.eq_dec (q_init s t) 0) as [E|NZ]; [destruct (pi_none _ G t E); lia|].
    destruct (N.eq_dec (q_init s t) 1) as [E|NO].
    + destruct (pi_mk _ G t E) as [i M]. pose proof (pi_pc _ G i) as T. destruct (q_pc s i); try discriminate; injection M as ->; cbn in T; lia.
    + destruct (pi_some _ G t); lia.
  - intros i t E. pose proof (pi_pc _ G i) as T. rewrite E in T. exact T.
  - intros i t E. pose proof (pi_pc _ G i) as T. rewrite E in T. cbn in T. exists (q_init s t). destruct (pi_some _ G t T). auto.
Qed.
Print Assumptions C64_pool_made_once.

(** A constructor that waits for the pool waits for at most three steps of one thread;
    then it returns as soon as it has a turn. *)
Theorem C64_constructors_return :
  forall s, pool_runs proper pool_init s -> forall i t, q_pc s i = QSpin t ->
    exists j, forall ls s', Forall proper ls -> pool_list s ls = Some s' -> 3 <= steps_of j ls ->
      q_pc s' i = QSpin t ->
      exists s'', pool_run1 s' (QGo i true) = Some s'' /\ q_pc s'' i = QHas t.
Proof.
  intros s R i t P. pose proof (runs_pinv _ _ pinv_init R) as G.
  pose proof (pi_pc _ G i) as T. rewrite P in T. cbn in T.
  assert (X : exists j, 2 <= q_init s t \/ makes (q_pc s j) = Some t).
  { destruct (N.eq_dec (q_init s t) 1) as [E|NE]; [destruct (pi_mk _ G t E) as [j M]; eauto|exists i; left; lia]. }
  destruct X as [j X]. exists j. intros ls s' F L S3 P'.
  destruct (made_after t j ls s s' G F L T) as [G' K].
  { destruct X as [X|X]; auto. right. split; auto. destruct (q_pc s j); cbn; try lia; destruct (_ =? _); lia. }
  cbn. unfold pool_go. rewrite P'. destruct (N.ltb_spec (q_init s' t) 2); [lia|].
  eexists. split; [reflexivity|]. cbn. apply fupd_eq.
Qed.
Print Assumptions C64_constructors_return.

(** Two threads construct allocators of the same type at once, a third one those of
    another type with an explicit size. *)
Definition qgo (i : N) (n : nat) : list qlabel := repeat (QGo i true) n.
Definition pool_case : list qlabel :=
  [QNew 0 0 0; QNew 1 0 0; QNew 2 1 4096] ++ qgo 0 1 ++ qgo 1 1 ++ qgo 0 1 ++ qgo 1 1 ++ qgo 0 1 ++ qgo 1 2 ++ qgo 2 7.
Example C64_case :
  Forall proper pool_case /\
  exists s s', pool_list pool_init pool_case = Some s /\ q_pc s 1 = QSpin 0 /\ q_pc s 2 = QHas 1 /\ q_pool s 1 = Some 4096 /\
    pool_list s (qgo 0 4 ++ qgo 1 1) = Some s' /\ q_pc s' 0 = QHas 0 /\ q_pc s' 1 = QHas 0 /\ q_pool s' 0 = Some (2 ^ 31).
Proof.
  split; [repeat (constructor; cbn; try discriminate; auto)|].
  do 2 eexists. split; [vm_compute; reflexivity|]. repeat (split; [vm_compute; reflexivity|]). vm_compute; reflexivity.
Qed.

Lemma pool_list_runs P ls : forall s s', Forall P ls -> pool_list s ls = Some s' -> forall s0, pool_runs P s0 s -> pool_runs P s0 s'.
Proof.
  induction ls as [|l ls IH]; intros s s' F R s0 H; cbn in R; [injection R as <-; auto|].
  inversion F. subst. destruct (pool_run1 s l) as [s1|] eqn:E; [|discriminate]. apply (IH s1); auto. econstructor; eauto.
Qed.

(** A pool of size 1: init announces its size, which is the value for a pool that is
    being made, and every constructor of the type waits forever. *)
Theorem C64_size_one_refuted :
  exists s, pool_runs (fun _ => True) pool_init s /\ q_pool s 0 = Some 1 /\ q_pc s 0 = QSpin 0 /\
    forall s', pool_runs (fun _ => True) s s' -> q_pc s' 0 = QSpin 0.
Proof.
  assert (H : exists s, pool_list pool_init (QNew 0 0 1 :: qgo 0 6) = Some s /\ q_pool s 0 = Some 1 /\ q_pc s 0 = QSpin 0 /\ forgotten s 0).
  { eexists. split; [vm_compute; reflexivity|]. split; [vm_compute; reflexivity|]. split; [vm_compute; reflexivity|].
    split; [vm_compute; reflexivity|]. intros [|i]; repeat split; discriminate. }
  destruct H as (s & R & P0 & Q & F). exists s. split.
  - eapply pool_list_runs; [|exact R|constructor]. repeat constructor.
  - split; [exact P0|]. split; [exact Q|]. intros s' R'. exact (spins_forever _ s 0 0 s' F Q R').
Qed.
Print Assumptions C64_size_one_refuted.

(** The memory for the pool cannot be allocated: the constructor throws, and every
    later constructor of the type waits forever instead of trying again or throwing. *)
Theorem C64_failed_pool_refuted :
  exists s, pool_runs (fun _ => True) pool_init s /\ q_pc s 0 = QThrown /\ q_pc s 1 = QSpin 0 /\
    forall s', pool_runs (fun _ => True) s s' -> q_pc s' 1 = QSpin 0.
Proof.
  assert (H : exists s, pool_list pool_init (QNew 0 0 0 :: qgo 0 3 ++ [QGo 0 false; QNew 1 0 0] ++ qgo 1 2) = Some s /\
    q_pc s 0 = QThrown /\ q_pc s 1 = QSpin 0 /\ forgotten s 0).
  { eexists. split; [vm_compute; reflexivity|]. split; [vm_compute; reflexivity|]. split; [vm_compute; reflexivity|].
    split; [vm_compute; reflexivity|]. intros [|[[]|[]|]]; repeat split; discriminate. }
  destruct H as (s & R & P0 & Q & F). exists s. split.
  - eapply pool_list_runs; [|exact R|constructor]. repeat constructor.
  - split; [exact P0|]. split; [exact Q|]. intros s' R'. exact (spins_forever _ s 0 1 s' F Q R').
Qed.
Print Assumptions C64_failed_pool_refuted.

(** An allocator that is made from one of another type: the pool of its type need
    not exist, and allocating uses it nevertheless. *)
Theorem C64_converted_refuted :
  exists s s', pool_runs (fun _ => True) pool_init s /\ q_pc s 0 = QHas 1 /\ q_pool s 1 = None /\
    pool_run1 s (QAllocate 0) = Some s' /\ q_pc s' 0 = QNullPool 1.
Proof.
  assert (H : exists s s', pool_list pool_init ([QNew 0 0 0] ++ qgo 0 7 ++ [QDrop 0; QConvert 0 1]) = Some s /\
    q_pc s 0 = QHas 1 /\ q_pool s 1 = None /\ pool_run1 s (QAllocate 0) = Some s' /\ q_pc s' 0 = QNullPool 1).
  { do 2 eexists. split; [vm_compute; reflexivity|]. repeat (split; [vm_compute; reflexivity|]). vm_compute; reflexivity. }
  destruct H as (s & s' & R & H). exists s, s'. split; [|exact H].
  eapply pool_list_runs; [|exact R|constructor]. repeat constructor.
Qed.
Print Assumptions C64_converted_refuted.
