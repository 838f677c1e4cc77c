(** The invariant of the helpers of a migration and its preservation. *)
From Coq Require Import NArith Bool List Lia.
From Verif Require Import Words Slot SlotFacts Mapper MapperFacts MapSpec LinSpec Base BaseInv BaseLin
  Migrate MigrateGeo MigrateInv MigrateStep.
Import ListNotations.
Open Scope N_scope.

Section Run.
Context (c : tcfg) (ms mt : mapper) (lg g B : N) (MG : migr c ms mt lg g).
Context (Hsc : wf_scfg (tsc c)) (HB : 0 < B).
Set Default Proof Using "All".
Notation sc := (tsc c).
Notation mc := (tmc c).
Notation cap := (2 ^ lg).
Notation tcap := (2 ^ (lg + g)).
Notation ttot := (total_slots mc mt).
Notation stot := (total_slots mc ms).
Notation addr := (addressable_slots mc ms).
Notation sp := (remap mc ms).
Notation tp := (remap mc mt).
Notation hm := (home c ms).
Notation th := (home c mt).
Notation owner := (owner c lg g).
Notation bend := (bend lg B).
Notation extent := (extent lg B).
Notation fz := (fz c).
Notation proc := (proc c ms).
Notation flight := (flight c ms).
Notation start_ok := (start_ok c lg B).
Notation bst_ok := (bst_ok c ms lg B).
Notation inited := (inited c mt lg g).
Notation glob := (glob c ms mt lg g B).
Notation mkinv := (mkinv c ms).
Notation sfree := (sfree c ms).
Notation adv := (adv lg B).
Let Hm := mg_src _ _ _ _ _ MG.
Let Ht := mg_tgt _ _ _ _ _ MG.

(** What a helper at [pc] working on block [s] of status [b] knows. *)
Definition hinv (ct : N -> content) (mk : cmark) (tgt : mem) (tct : N -> content)
  (pc : hpc) (s : N) (b : bst) : Prop :=
  let ins (ph : option N) i' sl j :=
    exists r x k d n, i' = x + 1 /\
      match ph with
      | Some e => e = bend s /\ b = B1 r x true /\ (forall p, x <= p < e -> inited tgt p)
      | None => b = B2 r x true /\ inited tgt (sp x)
      end /\
      sp x < stot /\ ct (sp x) = CLive k d /\ fz mk (sp x) /\ sl = Slot k d /\
      j = th k + n /\ (forall j', j' < n -> tct (tp (th k + j')) <> CEmpty) in
  match pc with
  | H0Load e i => e = bend s /\ b = B0 i
  | H0Mark e i curr => e = bend s /\ b = B0 i /\ is_empty sc curr = true /\
                       (sc_mark sc = false -> ct i = CEmpty)
  | H1Init e i l => e = bend s /\ b = B1 i i false /\
      (forall q, In q l -> q < ttot /\ i <= owner q < e) /\
      (forall q, q < ttot -> i <= owner q < e -> tgt q = None -> In q l)
  | H1Load e i => e = bend s /\ exists r, b = B1 r i false /\
      (forall p, i <= p < e -> inited tgt p)
  | H1Mark e i curr => e = bend s /\ exists r, b = B1 r i false /\
      (forall p, i <= p < e -> inited tgt p) /\
      (sc_mark sc = false -> curr = enc sc (ct (sp i)) false)
  | H2Init i l => exists r, b = B2 r i false /\
      (forall q, In q l -> q < ttot /\ owner q = sp i) /\
      (forall q, q < ttot -> owner q = sp i -> tgt q = None -> In q l)
  | H2Load i => (exists r, b = B2 r i false) /\ inited tgt (sp i)
  | H2Mark i curr => (exists r, b = B2 r i false) /\ inited tgt (sp i) /\
      exists m0, curr = enc sc (ct (sp i)) m0 /\ ok_content sc (ct (sp i)) m0 /\
      (m0 = true -> mk (sp i) = true)
  | HIns ph i sl j => ins ph i sl j
  | HSet ph i sl j => ins ph i sl j /\ tct (tp j) = CEmpty
  | _ => False
  end.

Record thrinv (ct : N -> content) (mk : cmark) (tgt : mem) (tct : N -> content)
  (rg : N -> bst) (hs : N -> option hpc) (hb : N -> option N) : Prop := {
  t_pc : forall tid pc, hs tid = Some pc ->
         match hb tid with
         | None => pc = HClaim \/ pc = HEnd
         | Some s => hinv ct mk tgt tct pc s (rg s)
         end;
  t_dom : forall tid s, hb tid = Some s -> hs tid <> None;
  t_uniq : forall tid tid' s, hb tid = Some s -> hb tid' = Some s -> tid = tid';
  t_act : forall s, active (rg s) = true -> exists tid, hb tid = Some s
}.

(** The whole invariant. *)
Record sinv (src tgt : mem) (ctr : N) (hs : N -> option hpc) (ct : N -> content) (mk : cmark)
  (tct : N -> content) (rg : N -> bst) (hb : N -> option N) : Prop := {
  s_glob : glob src tgt ctr ct mk tct rg;
  s_mk : mkinv ct mk rg;
  s_thr : thrinv ct mk tgt tct rg hs hb
}.

(** *** Lemmas on marking *)

Lemma mark_step src ct mk p cell curr ok cell' curr' :
  tinv c ms src ct mk -> p < stot -> rd c ms src p = Some cell ->
  atomic_mark sc cell curr = (ok, cell', curr') ->
  exists mk', tinv c ms (fupd src p (Some cell')) ct mk' /\ mono mk mk' /\
    (forall q, q <> p -> mk' q = mk q) /\ cell = enc sc (ct p) (mk p) /\
    ((ok = true /\ fz mk' p /\ curr' = curr /\ (sc_mark sc = true -> curr = cell)) \/
     (ok = false /\ sc_mark sc = true /\ mk' p = mk p /\ curr <> cell /\
      (curr' = curr \/ curr' = cell))).
Proof.
  intros I L R A. unfold rd in R. destruct (N.ltb_spec p stot) as [_|]; [|lia].
  destruct (ti_cell _ _ _ _ _ I p L) as [E O].
  assert (EC : cell = enc sc (ct p) (mk p)) by congruence.
  unfold atomic_mark in A. destruct (sc_mark sc) eqn:M.
  - unfold cas in A. destruct (slot_eqb cell curr) eqn:Q.
    + apply slot_eqb_eq in Q. injection A as <- <- <-.
      exists (fupd mk p true). sp.
      * rewrite <- Q, EC. apply tinv_mark; auto.
      * intros q H. unfold fupd. destruct (q =? p); auto.
      * intros q H. now rewrite fupd_neq.
      * exact EC.
      * left. sp; auto. intros _. apply fupd_eq.
    + apply slot_eqb_neq in Q. injection A as <- <- <-.
      exists mk. sp; auto.
      * apply tinv_same; auto.
      * now intros q H.
      * right. sp; auto. destruct (sc_upd sc); auto.
  - injection A as <- <- <-. exists mk. sp; auto.
    + apply tinv_same; auto.
    + now intros q H.
    + left. sp; auto; [|discriminate]. intros X. congruence.
Qed.

(** *** Stability of the other helpers' knowledge *)

Lemma inited_mono (tgt tgt' : mem) p :
  (forall q, tgt q <> None -> tgt' q <> None) -> inited tgt p -> inited tgt' p.
Proof. intros M H q L O. apply M, H; auto. Qed.

Lemma hinv_stable ct mk mk' tgt tgt' (tct tct' : N -> content) pc s b :
  hinv ct mk tgt tct pc s b -> mono mk mk' ->
  (forall q, tgt q <> None -> tgt' q <> None) ->
  (forall q, tct q <> CEmpty -> tct' q <> CEmpty) ->
  (forall ph i sl j, pc = HSet ph i sl j -> tct' (tp j) = tct (tp j)) ->
  hinv ct mk' tgt' tct' pc s b.
Proof.
  intros H M T C S.
  assert (TN : forall q, tgt' q = None -> tgt q = None).
  { intros q E. destruct (tgt q) eqn:X; auto. exfalso. apply (T q); congruence. }
  assert (IN : forall p, inited tgt p -> inited tgt' p) by (intros p; now apply inited_mono).
  assert (INS : forall ph i sl j, hinv ct mk tgt tct (HIns ph i sl j) s b ->
                hinv ct mk' tgt' tct' (HIns ph i sl j) s b).
  { clear H. intros ph i sl j (r & x & k & d & n & H1 & H2 & H3 & H4 & H5 & H6 & H7 & H8).
    exists r, x, k, d, n. sp; auto.
    - destruct ph; destruct H2 as [H2 H2']; [destruct H2' as [H2' H2'']|]; sp; auto.
    - intros X. apply M, H5, X. }
  destruct pc; cbn in H |- *; try exact H.
  - destruct H as (H1 & H2 & H3 & H4). sp; auto.
  - destruct H as (H1 & r & H2 & H3). split; auto. exists r. sp; auto.
  - destruct H as (H1 & r & H2 & H3 & H4). split; auto. exists r. sp; auto.
  - destruct H as (r & H1 & H2 & H3). exists r. sp; auto.
  - destruct H as (H1 & H2). sp; auto.
  - destruct H as (H1 & H2 & m0 & H3 & H4 & H5). sp; auto. exists m0. sp; auto.
  - apply (INS ph i sl j). exact H.
  - destruct H as [H1 H2]. split; [apply (INS ph i sl j); exact H1|].
    rewrite (S ph i sl j eq_refl). exact H2.
Qed.

(** The cell a helper is about to fill belongs to its own region. *)
Lemma set_cell src tgt ctr ct mk tct rg s ph i sl j :
  glob src tgt ctr ct mk tct rg -> hinv ct mk tgt tct (HIns ph i sl j) s (rg s) ->
  exists r x e, rstart (rg s) = Some r /\ r <= x < e /\ sfree rg r e /\ sp x = owner (tp j).
Proof.
  intros GL (r & x & k & d & n & H1 & H2 & H3 & H4 & H5 & H6 & H7 & H8).
  assert (E : rg s = B1 r x true \/ rg s = B2 r x true) by (destruct ph; [left|right]; apply H2).
  destruct (probe_cell MG Hsc HB s r x true k d n GL E H3 H4 H8) as (_ & (y & Hy & Q) & _).
  exists r, y, (x + 1). sp.
  - destruct E as [E|E]; now rewrite E.
  - lia.
  - lia.
  - destruct E as [E|E]; [eapply (sfree_ext1 MG Hsc HB GL); eauto|].
    eapply (sfree_ext2 MG Hsc HB GL); eauto. congruence.
  - rewrite H7. exact Q.
Qed.

Lemma set_disjoint src tgt ctr ct mk tct rg s ph i sl j s' ph' i' sl' j' :
  glob src tgt ctr ct mk tct rg -> s <> s' ->
  hinv ct mk tgt tct (HIns ph i sl j) s (rg s) ->
  hinv ct mk tgt tct (HIns ph' i' sl' j') s' (rg s') -> tp j <> tp j'.
Proof.
  intros GL NE H H' Q.
  destruct (set_cell _ _ _ _ _ _ _ _ _ _ _ _ GL H) as (r & x & e & R & Hx & F & O).
  destruct (set_cell _ _ _ _ _ _ _ _ _ _ _ _ GL H') as (r' & x' & e' & R' & Hx' & F' & O').
  apply NE. eapply (disjoint MG Hsc HB GL s s' r r' e e' x x'); auto. congruence.
Qed.

(** *** Bookkeeping of the helpers *)

Lemma thr_keep ct mk tgt tct (rg : N -> bst) hs hb mk' tgt' (tct' : N -> content) rg' tid pc0 s pc' :
  thrinv ct mk tgt tct rg hs hb -> hs tid = Some pc0 -> hb tid = Some s ->
  (forall s', s' <> s -> rg' s' = rg s') ->
  (forall tid' pc s', s' <> s -> hb tid' = Some s' -> hs tid' = Some pc ->
     hinv ct mk tgt tct pc s' (rg s') -> hinv ct mk' tgt' tct' pc s' (rg s')) ->
  hinv ct mk' tgt' tct' pc' s (rg' s) ->
  thrinv ct mk' tgt' tct' rg' (fupd hs tid (Some pc')) hb.
Proof.
  intros T Hp Hh R ST H. split.
  - intros tid' pc E. destruct (N.eq_dec tid' tid) as [->|NE].
    + rewrite fupd_eq in E. injection E as <-. rewrite Hh. exact H.
    + rewrite fupd_neq in E by exact NE. pose proof (t_pc _ _ _ _ _ _ _ T _ _ E) as X.
      destruct (hb tid') as [s'|] eqn:Hb; auto.
      assert (NS : s' <> s) by (intros ->; apply NE; eapply (t_uniq _ _ _ _ _ _ _ T); eauto).
      rewrite R by exact NS. eauto.
  - intros tid' s' E. destruct (N.eq_dec tid' tid) as [->|NE].
    + rewrite fupd_eq. discriminate.
    + rewrite fupd_neq by exact NE. eapply (t_dom _ _ _ _ _ _ _ T); eauto.
  - apply T.
  - intros s' A. destruct (N.eq_dec s' s) as [->|NE]; [eauto|].
    rewrite R in A by exact NE. eapply (t_act _ _ _ _ _ _ _ T); eauto.
Qed.

Lemma thr_leave ct mk tgt tct (rg : N -> bst) hs hb mk' tgt' (tct' : N -> content) rg' tid pc0 s :
  thrinv ct mk tgt tct rg hs hb -> hs tid = Some pc0 -> hb tid = Some s ->
  (forall s', s' <> s -> rg' s' = rg s') ->
  (forall tid' pc s', s' <> s -> hb tid' = Some s' -> hs tid' = Some pc ->
     hinv ct mk tgt tct pc s' (rg s') -> hinv ct mk' tgt' tct' pc s' (rg s')) ->
  active (rg' s) = false ->
  thrinv ct mk' tgt' tct' rg' (fupd hs tid (Some HClaim)) (fupd hb tid None).
Proof.
  intros T Hp Hh R ST H. split.
  - intros tid' pc E. destruct (N.eq_dec tid' tid) as [->|NE].
    + rewrite fupd_eq in E. rewrite fupd_eq. injection E as <-. auto.
    + rewrite fupd_neq in E by exact NE. rewrite fupd_neq by exact NE.
      pose proof (t_pc _ _ _ _ _ _ _ T _ _ E) as X.
      destruct (hb tid') as [s'|] eqn:Hb; auto.
      assert (NS : s' <> s) by (intros ->; apply NE; eapply (t_uniq _ _ _ _ _ _ _ T); eauto).
      rewrite R by exact NS. eauto.
  - intros tid' s' E. destruct (N.eq_dec tid' tid) as [->|NE].
    + rewrite fupd_eq. discriminate.
    + rewrite fupd_neq by exact NE. rewrite fupd_neq in E by exact NE.
      eapply (t_dom _ _ _ _ _ _ _ T); eauto.
  - intros t1 t2 s' E1 E2.
    destruct (N.eq_dec t1 tid) as [->|N1]; [rewrite fupd_eq in E1; discriminate|].
    destruct (N.eq_dec t2 tid) as [->|N2]; [rewrite fupd_eq in E2; discriminate|].
    rewrite fupd_neq in E1, E2 by assumption. eapply (t_uniq _ _ _ _ _ _ _ T); eauto.
  - intros s' A. destruct (N.eq_dec s' s) as [->|NE]; [congruence|].
    rewrite R in A by exact NE. destruct (t_act _ _ _ _ _ _ _ T _ A) as [t' E].
    exists t'. rewrite fupd_neq; auto. intros ->. congruence.
Qed.

(** *** Program points after a move *)

Lemma start2_inv src tgt ctr ct mk tct rg s r i :
  glob src tgt ctr ct mk tct rg -> rg s = B2 r i false ->
  hinv ct mk tgt tct (start2 c ms mt i) s (rg s).
Proof.
  intros GL E. destruct (pos_bound MG Hsc HB GL s r i false E) as [L1 L2].
  pose proof (fun p => in_init_one c ms mt lg g MG p (sp i) L1 L2) as Q.
  unfold start2. destruct (init_one mc mt (sp i)) as [|a l] eqn:X.
  - cbn. split; [eauto|]. intros q Lq Oq. destruct (proj2 (Q q)); auto.
  - cbn. exists r. sp; auto.
    + intros q Iq. apply Q in Iq. exact Iq.
    + intros q Lq Oq _. apply Q. auto.
Qed.

Lemma next1_inv src tgt ctr ct mk tct rg s r i :
  glob src tgt ctr ct mk tct rg -> rg s = adv s r i ->
  (forall p, i <= p < bend s -> inited tgt p) ->
  hinv ct mk tgt tct (next1 c ms mt (bend s) i) s (rg s).
Proof.
  intros GL E IN. unfold next1. unfold MigrateStep.adv in E. destruct (N.ltb_spec i (bend s)) as [L|L].
  - cbn. split; auto. exists r. auto.
  - eapply start2_inv; eauto.
Qed.

Lemma after0_inv src tgt ctr ct mk tct rg s r :
  glob src tgt ctr ct mk tct rg -> rg s = B1 r r false ->
  hinv ct mk tgt tct (after0 c ms mt (bend s) r) s (rg s).
Proof.
  intros GL E. pose proof (g_st GL s) as O. rewrite E in O. destruct O as (_ & O & _).
  pose proof (bend_le MG Hsc HB s) as BL.
  assert (Q : forall p, In p (init_range mc mt r (bend s)) <-> p < tcap /\ r <= owner p < bend s).
  { intros p. apply (in_init_range c ms mt lg g MG); lia. }
  assert (TC : forall q, q < ttot -> owner q < bend s -> q < tcap).
  { intros q L X. rewrite (ttot_val c ms mt lg g MG) in L. destruct (cprob mc) eqn:CP; [lia|].
    destruct (N.lt_ge_cases q tcap) as [|G]; auto.
    pose proof (owner_ge c ms mt lg g MG q CP G). lia. }
  assert (CT : forall q, q < tcap -> q < ttot).
  { intros q L. rewrite (ttot_val c ms mt lg g MG). destruct (cprob mc); lia. }
  unfold after0. destruct (N.ltb_spec r (bend s)) as [_|]; [|lia].
  destruct (init_range mc mt r (bend s)) as [|a l] eqn:X.
  - unfold next1. destruct (N.ltb_spec r (bend s)) as [_|]; [|lia].
    cbn. split; auto. exists r. split; [exact E|]. intros p Hp q Lq Oq.
    exfalso. destruct (proj2 (Q q)). split; [apply TC; auto; lia|lia].
  - cbn. sp; auto.
    + intros q H. apply Q in H. split; [apply CT|]; apply H.
    + intros q Lq Oq _. apply Q. split; [apply TC; auto; lia|lia].
Qed.

(** *** Handing out a block *)

Lemma bend_val s : s < cap -> lg <= 31 -> B <= 2 ^ 31 ->
  N.min (w32 (s + B)) (w32 (addressable_slots mc ms)) = bend s.
Proof.
  intros L LG LB. rewrite (addressable_val _ _ _ Hm).
  assert (P : cap <= 2 ^ 31) by (apply N.pow_le_mono_r; lia).
  assert (X : 2 ^ 32 = 2 * 2 ^ 31) by reflexivity.
  unfold w32, MigrateInv.bend. rewrite !N.mod_small by lia. reflexivity.
Qed.

Lemma glob_new src tgt ctr ct mk tct rg b :
  glob src tgt ctr ct mk tct rg -> ctr < cap ->
  (b = B0 ctr /\ (cprob mc = true \/ 0 < ctr)) \/ (b = B1 0 0 false /\ cprob mc = false /\ ctr = 0) ->
  rg ctr = BNone /\
  glob src tgt (ctr + B) ct mk tct (fupd rg ctr b) /\
  (forall q, proc (fupd rg ctr b) q <-> proc rg q).
Proof.
  intros GL L Hb.
  assert (BL : ctr < bend ctr) by (unfold MigrateInv.bend; lia).
  assert (RN : rg ctr = BNone).
  { destruct (rg ctr) eqn:X; auto; exfalso;
    (destruct (g_blk GL ctr) as (_ & A & _); [congruence|lia]). }
  assert (NB : b <> BNone) by (destruct Hb as [[-> _]|[-> _]]; discriminate).
  assert (P : forall q, proc (fupd rg ctr b) q <-> proc rg q).
  { intros q. split; intros (s & r & i & x & R & Hx & Q); exists s, r, i, x; sp; auto; try lia.
    - destruct (N.eq_dec s ctr) as [->|NE]; [|now rewrite fupd_neq in R by exact NE].
      rewrite fupd_eq in R. destruct Hb as [[-> _]|[-> _]]; [discriminate|].
      injection R as <- <-. lia.
    - destruct (N.eq_dec s ctr) as [->|NE]; [|now rewrite fupd_neq by exact NE].
      rewrite RN in R. discriminate. }
  assert (NC : exists n, ctr + B = n * B).
  { destruct (g_ctr GL) as [n E]. exists (n + 1). rewrite E. lia. }
  sp; auto. split; try exact NC; try apply GL.
  - intros s H. destruct (N.eq_dec s ctr) as [->|NE].
    + sp; [apply GL|lia|lia].
    + rewrite fupd_neq in H by exact NE. destruct (g_blk GL s H) as (A1 & A2 & A3). sp; auto. lia.
  - intros n H1 H2. destruct (N.eq_dec (n * B) ctr) as [->|NE]; [now rewrite fupd_eq|].
    rewrite fupd_neq by exact NE. apply (g_all GL); auto.
    destruct (g_ctr GL) as [n0 E]. rewrite E in *.
    assert (n < n0 + 1).
    { destruct (N.lt_ge_cases n (n0 + 1)) as [|G]; auto.
      assert ((n0 + 1) * B <= n * B) by (apply N.mul_le_mono_r; lia). lia. }
    assert (n <> n0) by congruence. apply N.mul_lt_mono_pos_r; lia.
  - intros s. destruct (N.eq_dec s ctr) as [->|NE]; [|rewrite fupd_neq by exact NE; apply GL].
    rewrite fupd_eq. destruct Hb as [[-> Hb]|(-> & C & Z)].
    + cbn. sp; auto; try lia; intros; lia.
    + cbn. unfold MigrateInv.start_ok. rewrite Z in *. sp; auto; try lia; try (intros; lia).
  - intros s s' r e r' x E R Hx.
    assert (OLD : forall s1, s1 <> ctr -> rstart (rg s1) = Some r' -> sp x <> r' \/ True) by auto.
    destruct (N.eq_dec s ctr) as [->|NE].
    + rewrite fupd_eq in E. destruct Hb as [[-> _]|(-> & C & Z)]; [discriminate|].
      injection E as <- <-. rewrite (sp_val c ms mt lg g MG), C.
      destruct (N.eq_dec s' ctr) as [->|NE'].
      * rewrite fupd_eq in R. injection R as <-. lia.
      * rewrite fupd_neq in R by exact NE'.
        destruct (start_facts MG Hsc HB GL s' r' R) as [_ [_ [A _]]]. lia.
    + rewrite fupd_neq in E by exact NE. destruct (N.eq_dec s' ctr) as [->|NE'].
      * rewrite fupd_eq in R. destruct Hb as [[-> _]|(-> & C & Z)]; [discriminate|].
        injection R as <-. rewrite (sp_val c ms mt lg g MG), C. lia.
      * rewrite fupd_neq in R by exact NE'. eapply (g_sep GL s s'); eauto.
  - intros p Hp. apply P in Hp. now apply GL.
  - intros q Lq Hq. rewrite P. now apply GL.
  - intros q k d Lq Hq. destruct (g_l1 GL q k d Lq Hq) as (p & A1 & A2 & A3).
    exists p. rewrite P. auto.
  - intros p k d Hp. rewrite P in Hp. now apply GL.
Qed.

End Run.

Arguments t_pc {c ms mt lg g B ct mk tgt tct rg hs hb} _.
Arguments t_dom {c ms mt lg g B ct mk tgt tct rg hs hb} _.
Arguments t_uniq {c ms mt lg g B ct mk tgt tct rg hs hb} _.
Arguments t_act {c ms mt lg g B ct mk tgt tct rg hs hb} _.
Arguments s_glob {c ms mt lg g B src tgt ctr hs ct mk tct rg hb} _.
Arguments s_mk {c ms mt lg g B src tgt ctr hs ct mk tct rg hb} _.
Arguments s_thr {c ms mt lg g B src tgt ctr hs ct mk tct rg hb} _.
Arguments mark_step {c ms mt lg g B} MG Hsc HB {src ct mk p cell curr ok cell' curr'}.
Arguments hinv_stable {c ms mt lg g B} MG Hsc HB {ct mk} mk' {tgt} tgt' {tct} tct' {pc s b}.
Arguments set_disjoint {c ms mt lg g B} MG Hsc HB {src tgt ctr ct mk tct rg}.
Arguments thr_keep {c ms mt lg g B} MG Hsc HB {ct mk tgt tct rg hs hb} mk' tgt' tct' rg' tid {pc0}.
Arguments thr_leave {c ms mt lg g B} MG Hsc HB {ct mk tgt tct rg hs hb} mk' tgt' tct' rg' tid {pc0}.
Arguments start2_inv {c ms mt lg g B} MG Hsc HB {src tgt ctr ct mk tct rg}.
Arguments next1_inv {c ms mt lg g B} MG Hsc HB {src tgt ctr ct mk tct rg}.
Arguments after0_inv {c ms mt lg g B} MG Hsc HB {src tgt ctr ct mk tct rg}.
Arguments bend_val {c ms mt lg g B} MG Hsc HB.
Arguments glob_new {c ms mt lg g B} MG Hsc HB {src tgt ctr ct mk tct rg}.
