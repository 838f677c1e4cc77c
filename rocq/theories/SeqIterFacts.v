(** Iterators of the sequential table keep showing their elements. *)
From Coq Require Import NArith Bool List Lia.
From Verif Require Import Words Slot Mapper MapperFacts MapSpec BaseLin Migrate MigrateGeo Seq SeqSpec SeqFacts SeqIter SeqIterSpec.
Import ListNotations.
Open Scope N_scope.

Section S.
Context (mc : mcfg) (hash : N -> N).
Notation rm s := (remap mc (q_map s)).
Notation tot s := (total_slots mc (q_map s)).
Notation good := (good mc hash).

(** The table has grown, or every element is where it was, with the exception of
    those with key [e]. *)
Definition keeps (e : N) (s s' : stab) : Prop :=
  tot s < tot s' \/
  (tot s' = tot s /\ forall p x, q_get mc s p = Some x -> skey x <> 0 -> skey x <> e ->
     exists y, q_get mc s' p = Some y /\ skey y = skey x).

Lemma keeps_refl e s : keeps e s s.
Proof. right. split; auto. intros p x G _ _. eauto. Qed.

Lemma keeps_set e s p x y n : q_get mc s p = Some x -> (skey x = 0 \/ skey x = skey y \/ skey x = e) ->
  keeps e s (Stab (q_map s) (fupd (q_mem s) p (Some y)) n).
Proof.
  intros G E. right. split; [reflexivity|]. intros q z Gq Z NE.
  rewrite (q_get_set mc hash) by (eapply q_get_lt; eauto).
  destruct (N.eqb_spec q p) as [->|]; [|eauto]. exists y. split; auto.
  assert (z = x) by congruence. subst z. destruct E as [E|[E|E]]; congruence.
Qed.

Lemma larger s lg a z s' lg' a' z' :
  sinv mc hash s lg a z -> sinv mc hash s' lg' a' z' -> lg < lg' -> tot s < tot s'.
Proof.
  intros I I' L. rewrite (total_val _ _ _ (si_map _ _ _ _ _ _ I)), (total_val _ _ _ (si_map _ _ _ _ _ _ I')).
  pose proof (N.pow_lt_mono_r 2 lg lg' ltac:(lia) L). destruct (cprob mc); lia.
Qed.

(** Growing enlarges the table. *)
Lemma grow_larger g s a z s2 : good s a z -> q_n s + 1 > fill_limit (tot s) -> q_n s <= 2 ^ 48 ->
  grow mc (insert_intern mc hash (S g)) (Stab (q_map s) (q_mem s) (q_n s + 1)) = ROk s2 ->
  tot s < tot s2.
Proof.
  intros (lg & I & L) F N E. pose proof (lg_bound mc hash _ _ _ _ I F N) as LB.
  pose proof (grow_spec mc hash g s lg a z I F) as GS.
  change (2 ^ 48) with 281474976710656 in N. change (2 ^ 64) with 18446744073709551616 in GS.
  specialize (GS ltac:(lia) ltac:(lia)). rewrite E in GS. destruct GS as (I3 & _).
  apply (larger _ _ _ _ _ _ _ _ I I3). lia.
Qed.

Lemma insert_keeps g s a z k d s' p b : good s a z -> k <> 0 -> q_n s <= 2 ^ 48 ->
  insert_intern mc hash (S (S g)) s k d = ROk (s', p, b) -> keeps 0 s s'.
Proof.
  intros GD K N. pose proof GD as (lg & I & L).
  remember (S g) as g1 eqn:Eg. cbn [insert_intern].
  pose proof (q_scan_spec _ _ _ _ _ _ k I K) as SC.
  destruct (q_scan mc hash s k) as [[i b0]| |]; cbn [bind]; try discriminate.
  destruct SC as (n & -> & B & x & G & X). destruct b0; cbn [fst snd].
  - intros [= <- _ _]. apply keeps_refl.
  - cbn [q_n q_map q_mem]. destruct (N.ltb_spec (fill_limit (tot s)) (q_n s + 1)) as [F|F].
    + subst g1. pose proof (good_grow mc hash g s a z GD ltac:(lia) N) as GG.
      destruct (grow _ _ _) as [s2| |] eqn:GR; cbn [bind]; try discriminate. cbv zeta in GG.
      destruct GG as ((lg3 & I3 & L3) & N3 & LIM).
      pose proof (insert_intern_new mc hash g _ lg3 a z k d I3 K
                    (blocked_absent _ _ _ _ _ _ _ _ _ I K B G X) LIM) as INS.
      intros E. rewrite E in INS. destruct INS as (_ & J2 & _). left. rewrite J2. cbn [q_map].
      exact (grow_larger g s a z s2 GD ltac:(lia) N GR).
    + intros [= <- _ _]. unfold q_set. cbn [q_map q_mem q_n]. eapply keeps_set; eauto.
Qed.

Lemma iou_keeps g s a z k d f s' p b : good s a z -> k <> 0 -> q_n s <= 2 ^ 48 ->
  insert_or_update_intern mc hash (S (S g)) s k d f = ROk (s', p, b) -> keeps 0 s s'.
Proof.
  intros GD K N. pose proof GD as (lg & I & L).
  remember (S g) as g1 eqn:Eg. cbn [insert_or_update_intern].
  pose proof (q_scan_spec _ _ _ _ _ _ k I K) as SC.
  destruct (q_scan mc hash s k) as [[i b0]| |]; cbn [bind]; try discriminate.
  destruct SC as (n & -> & B & x & G & X). destruct b0; cbn [fst snd].
  - rewrite G. intros [= <- _ _]. unfold q_set. eapply keeps_set; [exact G|]. now right; left.
  - cbn [q_n q_map q_mem]. destruct (N.ltb_spec (fill_limit (tot s)) (q_n s + 1)) as [F|F].
    + subst g1. pose proof (good_grow mc hash g s a z GD ltac:(lia) N) as GG.
      destruct (grow _ _ _) as [s2| |] eqn:GR; cbn [bind]; try discriminate. cbv zeta in GG.
      pose proof (grow_larger g s a z s2 GD ltac:(lia) N GR) as LA.
      set (s3 := Stab (q_map s2) (q_mem s2) (q_n s2 - 1)) in *.
      assert (LA3 : tot s < tot s3) by exact LA. clearbody s3.
      destruct GG as ((lg3 & I3 & L3) & N3 & LIM).
      pose proof (blocked_absent _ _ _ _ _ _ _ _ _ I K B G X) as AB.
      cbn [insert_or_update_intern].
      pose proof (q_scan_spec _ _ _ _ _ _ k I3 K) as SC.
      destruct (q_scan mc hash s3 k) as [[i' b']| |]; cbn [bind]; try discriminate.
      destruct SC as (n' & -> & B' & x' & G' & X'). destruct b'; cbn [fst snd].
      { pose proof (hit_present _ _ _ _ _ _ _ _ _ I3 K G' X'). congruence. }
      cbn [q_n q_map q_mem].
      destruct (N.ltb_spec (fill_limit (tot s3)) (q_n s3 + 1)); [lia|].
      intros [= <- _ _]. left. exact LA3.
    + intros [= <- _ _]. unfold q_set. cbn [q_map q_mem q_n]. eapply keeps_set; eauto.
Qed.

(** Erasing in front of a free cell empties one cell. *)
Lemma erase_shape fuel s lg a z k s' b : sinv mc hash s lg a z -> k <> 0 ->
  (forall p d, q_get mc s p = Some (Slot k d) ->
     exists x, q_get mc s (rm s (p + 1)) = Some x /\ skey x = 0) ->
  erase mc hash (S fuel) s k = ROk (s', b) ->
  s' = s \/ exists p d, q_get mc s p = Some (Slot k d) /\ s' = q_set s p empty_slot.
Proof.
  intros I K FR. unfold erase.
  pose proof (q_scan_spec _ _ _ _ _ _ k I K) as SC.
  destruct (q_scan mc hash s k) as [[i b0]| |]; cbn [bind]; try discriminate.
  destruct SC as (n & -> & B & y & Gy & Y). destruct b0; cbn [fst snd].
  2:{ intros [= <- _]. now left. }
  set (h := q_home mc hash s k) in *.
  assert (EL : N.land (h + n) (rm s (h + n)) = rm s (h + n)).
  { unfold remap. destruct (cprob mc); [now rewrite N.land_assoc, N.land_diag|apply N.land_diag]. }
  rewrite EL. set (p := rm s (h + n)) in *. clearbody p.
  assert (G : q_get mc s p = Some (Slot k (sdata y))) by (rewrite Gy; destruct y; cbn in *; congruence).
  destruct (FR _ _ G) as (x & GX & X). rewrite G. cbn [erase_loop].
  assert (NE : rm s (p + 1) <> p) by (intros C; rewrite C, G in GX; injection GX as <-; cbn in X; congruence).
  change (q_map (q_set s p empty_slot)) with (q_map s).
  unfold q_set at 1. rewrite (q_get_set mc hash) by (eapply q_get_lt; eauto).
  destruct (N.eqb_spec (rm s (p + 1)) p); [contradiction|]. rewrite GX.
  unfold q_empty. rewrite X, N.eqb_refl. cbn [bind]. intros [= <- _]. right. eauto.
Qed.

(** The key a call erases; 0 is no key. *)
Definition erased_key (o : sop) : N := match o with SErase k => k | _ => 0 end.

Lemma scall_keeps s a z o s' r : good s a z -> sop_key o <> 0 -> q_n s <= 2 ^ 48 -> free_after mc s o ->
  scall mc hash s o = ROk (s', r) -> keeps (erased_key o) s s'.
Proof.
  intros GD K N FA. pose proof GD as (lg & I & L).
  destruct o as [k d|k|k f|k d f|k]; cbn [scall sop_key erased_key] in *.
  - destruct (insert_intern mc hash depth s k d) as [[[s1 p] b]| |] eqn:E; cbn [bind]; try discriminate.
    intros [= <- _]. eapply (insert_keeps 2); eauto.
  - destruct (q_scan mc hash s k) as [[i b]| |]; cbn [bind]; try discriminate.
    intros [= <- _]. apply keeps_refl.
  - pose proof (q_scan_spec _ _ _ _ _ _ k I K) as SC.
    destruct (q_scan mc hash s k) as [[i b]| |]; cbn [bind]; try discriminate.
    destruct SC as (n & -> & B & x & G & X). destruct b; cbn [fst snd].
    + rewrite G. intros [= <- _]. unfold q_set. eapply keeps_set; [exact G|]. now right; left.
    + intros [= <- _]. apply keeps_refl.
  - destruct (insert_or_update_intern mc hash depth s k d f) as [[[s1 p] b]| |] eqn:E; cbn [bind]; try discriminate.
    intros [= <- _]. eapply (iou_keeps 2); eauto.
  - destruct (erase mc hash _ s k) as [[s1 b]| |] eqn:E; cbn [bind]; try discriminate. intros [= <- _].
    destruct (erase_shape _ s lg a z k s1 b I K (fun p d => FA k p d eq_refl) E) as [->|(p & d & G & ->)].
    + apply keeps_refl.
    + unfold q_set. eapply keeps_set; [exact G|]. cbn. auto.
Qed.

(** [scall] is [srun]. *)
Lemma srun_scall s o : srun mc hash s o =
  bind (scall mc hash s o) (fun '(s', (q, b)) =>
    ROk (s', (match q with Some p => shows mc s' p | None => None end, b))).
Proof.
  destruct o as [k d|k|k f|k d f|k]; cbn [srun scall].
  - destruct (insert_intern mc hash depth s k d) as [[[s1 p] b]| |]; reflexivity.
  - destruct (q_scan mc hash s k) as [[i []]| |]; reflexivity.
  - destruct (q_scan mc hash s k) as [[i []]| |]; cbn [bind fst snd]; try reflexivity.
    destruct (q_get mc s (rm s i)); reflexivity.
  - destruct (insert_or_update_intern mc hash depth s k d f) as [[[s1 p] b]| |]; reflexivity.
  - destruct (erase mc hash _ s k) as [[s1 b]| |]; reflexivity.
Qed.

(** A call that returned a cell returned one of the table. *)
Lemma scall_cell s a z o s' p b : good s a z -> sop_key o <> 0 -> q_n s <= 2 ^ 48 ->
  scall mc hash s o = ROk (s', (Some p, b)) -> exists x, q_get mc s' p = Some x.
Proof.
  intros GD K N. pose proof GD as (lg & I & L).
  destruct o as [k d|k|k f|k d f|k]; cbn [scall sop_key] in *.
  5:{ destruct (erase mc hash _ s k) as [[s1 b1]| |]; discriminate. }
  - pose proof (insert_spec mc hash 2 s a z k d GD K N) as P. change (S (S 2)) with depth in P.
    destruct (insert_intern mc hash depth s k d) as [[[s1 p1] b1]| |]; cbn [bind]; try discriminate.
    intros [= <- <- _]. destruct (a k); [destruct P as (-> & _ & P)|destruct P as (_ & _ & _ & P)]; eauto.
  - pose proof (q_scan_spec _ _ _ _ _ _ k I K) as SC.
    destruct (q_scan mc hash s k) as [[i b1]| |]; cbn [bind]; try discriminate.
    destruct SC as (n & -> & B & x & G & X). destruct b1; cbn [fst snd]; [|discriminate].
    intros [= <- <- _]. eauto.
  - pose proof (q_scan_spec _ _ _ _ _ _ k I K) as SC.
    destruct (q_scan mc hash s k) as [[i b1]| |]; cbn [bind]; try discriminate.
    destruct SC as (n & -> & B & x & G & X). destruct b1; cbn [fst snd]; [|discriminate].
    rewrite G. intros [= <- <- _]. unfold q_set. rewrite (q_get_set mc hash) by (eapply q_get_lt; eauto).
    rewrite N.eqb_refl. eauto.
  - pose proof (iou_spec mc hash 2 s a z k d f GD K N) as P. change (S (S 2)) with depth in P.
    destruct (insert_or_update_intern mc hash depth s k d f) as [[[s1 p1] b1]| |]; cbn [bind]; try discriminate.
    intros [= <- <- _]. destruct (a k); destruct P as (_ & _ & _ & P); eauto.
Qed.

(** *** The simulation *)

Definition var_ok (s : stab) (a : amap) (it : siter) (v : ivar) : Prop :=
  match v with
  | VEnd => si_ptr it = None
  | VGone => exists p, si_ptr it = Some p
  | VKey k => k <> 0 /\ a k <> None /\ skey (si_slot it) = k /\ si_ver it <= tot s /\
      exists p, si_ptr it = Some p /\
        (si_ver it = tot s -> exists x, q_get mc s p = Some x /\ skey x = k)
  end.

Definition irel (y : isys) (w : ispec) : Prop :=
  (exists z, good (i_tab y) (is_map w) z) /\ forall x, var_ok (i_tab y) (is_map w) (i_var y x) (is_var w x).

Lemma var_kept e s a s' a' it v :
  keeps e s s' -> (forall k, k <> e -> a k <> None -> a' k <> None) -> v <> VKey e ->
  var_ok s a it v -> var_ok s' a' it v.
Proof.
  intros KP AM NV. destruct v as [|k|]; cbn; auto.
  assert (NE : k <> e) by congruence.
  intros (K & A & E & V & p & P & H). sp; auto.
  - destruct KP as [KP|[KP _]]; lia.
  - exists p. split; auto. intros Ev. destruct KP as [KP|[KP C]]; [lia|].
    destruct (H ltac:(lia)) as (x & G & X). destruct (C p x G ltac:(congruence) ltac:(congruence)) as (y & Gy & Y).
    exists y. split; congruence.
Qed.

Lemma spec_keeps a o k : k <> 0 -> k <> erased_key o -> a k <> None -> fst (sq_spec a o) k <> None.
Proof.
  intros K NE A. destruct o as [k0 d|k0|k0 f|k0 d f|k0]; cbn [sq_spec erased_key] in *;
    destruct (a k0); cbn [fst]; auto; unfold fupd; destruct (N.eqb_spec k k0); auto; try discriminate; congruence.
Qed.

(** After a call an older iterator stands for its key or is forgotten. *)
Lemma var_call s a s' o it v : sop_key o <> 0 -> keeps (erased_key o) s s' -> forall x,
  var_ok s a it (v x) -> var_ok s' (fst (sq_spec a o)) it (forget o v x).
Proof.
  intros K KP x VO. destruct o as [k0 d|k0|k0 f|k0 d f|k0]; cbn [forget].
  5:{ cbn [erased_key] in KP. destruct (v x) as [|k|] eqn:V; try exact VO.
      destruct (N.eqb_spec k k0) as [->|NE].
      - destruct VO as (_ & _ & _ & _ & p & P & _). exists p. exact P.
      - apply (var_kept k0 s a); auto; [|congruence]. intros k' NK A.
        cbn [sq_spec]. destruct (a k0); cbn [fst]; auto. unfold fupd. destruct (N.eqb_spec k' k0); congruence. }
  all: cbn [erased_key] in KP; destruct (v x) as [|k|] eqn:V; try exact VO;
    assert (KZ : k <> 0) by apply VO;
    destruct VO as (K1 & A & E & VV & p & P & H);
    (split; [exact K1|]; split; [apply spec_keeps; auto|]; split; [exact E|];
     split; [destruct KP as [KP|[KP _]]; lia|]; exists p; split; [exact P|]; intros Ev;
     destruct KP as [KP|[KP C]]; [lia|]; destruct (H ltac:(lia)) as (y & G & X);
     destruct (C p y G ltac:(congruence) ltac:(congruence)) as (y' & Gy & Y); exists y'; split; congruence).
Qed.

Lemma deref_ok s a z it k d : good s a z -> var_ok s a it (VKey k) -> a k = Some d ->
  (cprob mc = false /\ si_deref mc hash s it = RBad) \/
  exists it' p, si_deref mc hash s it = ROk (it', p, Slot k d) /\ q_get mc s p = Some (Slot k d) /\
    var_ok s a it' (VKey k).
Proof.
  intros GD (K & A & E & V & p & P & H) D. pose proof GD as (lg & I & L). unfold si_deref, q_version.
  assert (ONE : forall q x, q_get mc s q = Some x -> skey x = k -> x = Slot k d).
  { intros q x G X. pose proof (hit_present _ _ _ _ _ _ _ _ _ I K G X). destruct x; cbn in *. congruence. }
  destruct (N.eqb_spec (tot s) (si_ver it)) as [Q|Q]; cbn [bind].
  - destruct (H (eq_sym Q)) as (x & G & X). rewrite P, G. assert (x = Slot k d) by eauto. subst x.
    right. exists it, p. split; [reflexivity|]. split; [exact G|]. repeat (split; [assumption|]).
    exists p. split; [assumption|]. intros _. exists (Slot k d). split; [assumption|reflexivity].
  - unfold si_refresh. rewrite E. pose proof (q_scan_spec _ _ _ _ _ _ k I K) as SC.
    destruct (q_scan mc hash s k) as [[i b]| |]; [|now left|contradiction].
    right. destruct SC as (n & -> & B & x & G & X). destruct b.
    + cbn [bind si_ptr fst snd]. rewrite G. assert (x = Slot k d) by eauto. subst x.
      eexists _, _. split; [reflexivity|]. split; [exact G|]. repeat (split; [assumption|]).
      split; [apply N.le_refl|]. eexists. split; [reflexivity|]. intros _. exists (Slot k d). auto.
    + pose proof (blocked_absent _ _ _ _ _ _ _ _ _ I K B G X). congruence.
Qed.

Definition icmd_free (y : isys) (c : icmd) : Prop :=
  forall x k p d, c = ICall x (SErase k) -> q_get mc (i_tab y) p = Some (Slot k d) ->
    exists z, q_get mc (i_tab y) (rm (i_tab y) (p + 1)) = Some z /\ skey z = 0.

Lemma icmd_ok y w c w' r : irel y w -> storable c -> icmd_free y c ->
  q_n (i_tab y) <= 2 ^ 48 -> icmd_spec w c = Some (w', r) ->
  (cprob mc = false /\ icmd_run mc hash y c = RBad) \/
  exists y', icmd_run mc hash y c = ROk (y', r) /\ irel y' w' /\ q_n (i_tab y') <= q_n (i_tab y) + 1.
Proof.
  intros [[z GD] VO] KE FR N. destruct y as [s var], w as [a v]. cbn [i_tab i_var is_map is_var] in *.
  destruct c as [x o|x|x e|x]; cbn [icmd_spec icmd_run storable i_tab i_var is_map is_var] in *.
  - assert (FA : free_after mc s o) by (intros k p d ->; eapply FR; reflexivity). pose proof KE as K.
    pose proof (srun_spec mc hash s a z o GD K N FA) as SP. rewrite srun_scall in SP.
    pose proof (fun s' it u KP => var_call s a s' o it v K KP u) as VC.
    destruct (sq_spec a o) as [a' [el b]] eqn:SQ. cbn [fst snd] in SP, VC. intros [= <- <-].
    destruct (scall mc hash s o) as [[s' [q b']]| |] eqn:SC; cbn [bind] in *; [right|now left|contradiction].
    destruct SP as ((z' & GD' & _) & [= EL EB] & NN). subst b'.
    pose proof (scall_keeps s a z o s' _ GD K N FA SC) as KP.
    assert (OTH : forall u, var_ok s' a' (var u) (forget o v u)) by (intros u; apply VC; auto).
    destruct q as [p|].
    + destruct (scall_cell s a z o s' p b GD K N SC) as [[k d] G].
      unfold shows in EL. rewrite G in EL. cbn in EL. subst el.
      cbn [make_it]. rewrite G. cbn [bind]. eexists. split; [reflexivity|]. cbn [i_tab]. split; [|exact NN].
      split; [eauto|]. cbn [i_tab i_var is_map is_var]. intros u. unfold fupd.
      destruct (u =? x); [|apply OTH]. cbn [var_ok si_ver si_slot si_ptr skey].
      assert (KZ : k = sop_key o).
      { destruct o as [k0 d0|k0|k0 f|k0 d0 f|k0]; cbn [sq_spec sop_key] in *;
          destruct (a k0); congruence. }
      assert (AK : a' k = Some d).
      { destruct GD' as (lg' & I' & _). apply (si_abs _ _ _ _ _ _ I'). split; [congruence|eauto]. }
      sp; try congruence.
      * unfold q_version. lia.
      * exists p. split; auto. intros _. exists (Slot k d). auto.
    + subst el. cbn [make_it bind]. eexists. split; [reflexivity|]. cbn [i_tab]. split; [|exact NN].
      split; [eauto|]. cbn [i_tab i_var is_map is_var]. intros u. unfold fupd.
      destruct (u =? x); [reflexivity|apply OTH].
  - destruct (v x) as [|k|] eqn:Vx; try discriminate. destruct (a k) as [d|] eqn:A; [|discriminate].
    intros [= <- <-]. specialize (VO x) as VX. rewrite Vx in VX.
    destruct (deref_ok s a z (var x) k d GD VX A) as [[CP E]|(it' & p & E & G & OK)]; rewrite E; [now left|right]. cbn [bind].
    eexists. split; [reflexivity|]. cbn [i_tab]. split; [|lia]. split; [eauto|].
    cbn [i_tab i_var is_map is_var]. intros u. unfold fupd.
    destruct (N.eqb_spec u x) as [->|]; [now rewrite Vx|apply VO].
  - destruct (v x) as [|k|] eqn:Vx; try discriminate. destruct (a k) as [d|] eqn:A; [|discriminate].
    intros [= <- <-]. specialize (VO x) as VX. rewrite Vx in VX.
    destruct (deref_ok s a z (var x) k d GD VX A) as [[CP E]|(it' & p & E & G & OK)]; rewrite E; [now left|right]. cbn [bind].
    eexists. split; [reflexivity|]. cbn [i_tab skey]. split; [|cbn; lia].
    assert (K : k <> 0) by apply VX.
    assert (KP : keeps 0 s (q_set s p (Slot k e))) by (unfold q_set; eapply keeps_set; [exact G|now right; left]).
    assert (AM : forall k', k' <> 0 -> a k' <> None -> fupd a k (Some e) k' <> None).
    { intros k' _ H. unfold fupd. destruct (k' =? k); [discriminate|exact H]. }
    assert (VK : forall it y, var_ok s a it y -> var_ok (q_set s p (Slot k e)) (fupd a k (Some e)) it y).
    { intros it y H. apply (var_kept 0 s a); auto. intros ->. destruct H as (H & _). congruence. }
    split.
    + destruct GD as (lg & I & L). exists z, lg. split; [|exact L]. eapply update_at; eauto.
    + cbn [i_tab i_var is_map is_var]. intros u. unfold fupd at 2.
      destruct (N.eqb_spec u x) as [->|]; [rewrite Vx|]; apply VK; auto.
  - intros [= <- <-]. right. eexists. split.
    + f_equal. f_equal. f_equal. specialize (VO x). destruct (v x) as [|k|]; cbn in VO.
      * now rewrite VO.
      * destruct VO as (_ & _ & _ & _ & p & -> & _). reflexivity.
      * destruct VO as (p & ->). reflexivity.
    + split; [split; eauto|]. cbn; lia.
Qed.

Lemma icmd_all_ok l : forall y w w' rs, irel y w ->
  (forall c, In c l -> storable c) -> itame mc hash y l -> q_n (i_tab y) + N.of_nat (length l) <= 2 ^ 48 ->
  icmd_spec_all w l = Some (w', rs) ->
  (cprob mc = false /\ icmd_all mc hash y l = RBad) \/
  exists y', icmd_all mc hash y l = ROk (y', rs) /\ irel y' w'.
Proof.
  induction l as [|c l IH]; intros y w w' rs R KE TM N; cbn [icmd_spec_all icmd_all length itame] in *.
  - intros [= <- <-]. right. eauto.
  - destruct (icmd_spec w c) as [[w1 r]|] eqn:S1; [|discriminate].
    destruct (icmd_spec_all w1 l) as [[w2 rs1]|] eqn:S2; [|discriminate]. intros [= <- <-]. destruct TM as [FR TM].
    destruct (icmd_ok y w c w1 r R (KE c (or_introl eq_refl)) FR ltac:(lia) S1) as [[CP E1]|(y1 & E1 & R1 & N1)];
      rewrite E1 in *; [now left|].
    destruct (IH y1 w1 w2 rs1 R1 (fun c H => KE c (or_intror H)) TM ltac:(lia) S2) as [[CP E2]|(y2 & E2 & R2)];
      cbn [bind]; rewrite E2; cbn [bind]; eauto.
Qed.

(** Histories without erase. *)
Lemma no_erase_itame l : forall y, (forall c, In c l -> no_erase c) -> itame mc hash y l.
Proof.
  induction l as [|c l IH]; intros y H; cbn [itame]; auto. split.
  - intros x k p d -> _. specialize (H _ (or_introl eq_refl)). cbn in H. tauto.
  - destruct (icmd_run mc hash y c) as [[y' r]| |]; auto. apply IH. intros c' I. apply H. now right.
Qed.

(** Checking [itame] by computation. *)
Fixpoint itameb (y : isys) (l : list icmd) : bool :=
  match l with
  | [] => true
  | c :: l =>
      (match c with ICall _ (SErase k) => free_afterb mc (i_tab y) k | _ => true end) &&
      match icmd_run mc hash y c with ROk (y', _) => itameb y' l | _ => true end
  end.
Lemma itameb_ok l : forall y, itameb y l = true -> itame mc hash y l.
Proof.
  induction l as [|c l IH]; intros y H; cbn [itame itameb] in *; auto.
  apply andb_prop in H as [H1 H2]. split.
  - intros x k p d -> G. unfold free_afterb in H1. rewrite forallb_forall in H1.
    specialize (H1 p). rewrite in_nseq_N in H1.
    pose proof (q_get_lt mc _ _ _ G) as L. specialize (H1 ltac:(lia)). rewrite G in H1.
    cbn [skey] in H1. rewrite N.eqb_refl in H1.
    destruct (q_get mc (i_tab y) (rm (i_tab y) (p + 1))) as [z|]; [|discriminate].
    exists z. split; auto. now apply N.eqb_eq.
  - destruct (icmd_run mc hash y c) as [[y' r]| |]; auto.
Qed.

End S.
