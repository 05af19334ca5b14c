(** The poses and the mass of a multibody made from a graph. *)
From Coq Require Import Reals String ZArith Bool Arith List Lia Lra Relations Permutation.
From Verif Require Import DynP Res ResP SMap Vec Mat Sva SvaP JointM JointP JointFinP MultiBodyM KinM GraphM Spec SpecDyn SpecCoM SpecGraph GraphP GraphWalkP GraphTreeP GraphUseP GraphTopP MbP CoMCtorP KinP KinPathP TreeP.
Import ListNotations.
Open Scope R_scope.
Local Open Scope nat_scope.

Lemma single_arc h a e e' : NoDup (map aNext (arcs_at h a)) -> In e (arcs_at h a) -> In e' (arcs_at h a) -> aNext e = aNext e' -> e = e'.
Proof.
  intros ND He He' E. apply in_split in He as (l1 & l2 & El). rewrite El in *. destruct (NoDup_map_remove _ _ _ _ ND) as (_ & Q).
  apply in_app_iff in He'. destruct He' as [H|[H|H]]; auto; exfalso; apply (Q e'); auto; apply in_app_iff; auto.
Qed.
Lemma idx_find (ord : list nat) i : NoDup ord -> i < length ord -> find (fun k => nth k ord 0 =? nth i ord 0) (seq 0 (length ord)) = Some i.
Proof.
  intros ND Li. destruct (find _ _) as [k|] eqn:F.
  - apply find_some in F as (F1 & F2). apply in_seq in F1. apply Nat.eqb_eq in F2. f_equal. apply (proj1 (NoDup_nth ord 0) ND); auto; lia.
  - exfalso. assert (HI : In i (seq 0 (length ord))) by (apply in_seq; lia). apply (find_none _ _ F) in HI. rewrite Nat.eqb_refl in HI. discriminate.
Qed.
Lemma ptinv_l' X Y : rigid X -> ptmul (ptinv X) (ptmul X Y) = Y.
Proof. intro H. rewrite ptmul_assoc, ptinv_l, ptmul_id_l; auto. Qed.
Lemma ptinv_r' X Y : rigid X -> ptmul X (ptmul (ptinv X) Y) = Y.
Proof. intro H. rewrite ptmul_assoc, ptinv_r, ptmul_id_l; auto. Qed.

Section Pose.
Variables (s : GSt) (r : nat) (j0 : Joint) (X0 Xb : PT) (ord : list nat) (base : list PT) (mb : MultiBody).
Hypothesis G : graph_ok s.
Hypothesis CF : cycle_free (fst s) (snd s).
Hypothesis GR : graph_rigid s.
Hypothesis M : mb_of_graph s r j0 X0 Xb ord base mb.
Hypothesis VV : forall b, In b ord -> In b (gNodes (snd s)).
Hypothesis WF : wf_mb mb.
Hypothesis RXb : rigid Xb.
Hypothesis RX0 : rigid X0.
Hypothesis LJ : link_joints joint_unit s.
Hypothesis J0 : joint_unit j0.

Let N : nrBodies mb = length ord. Proof. unfold nrBodies. apply (mg_bodies_len _ _ _ _ _ _ _ _ M). Qed.
Lemma base_rigid i : i < length ord -> rigid (nth i base ptid).
Proof.
  intro Li. destruct i as [|i].
  - rewrite (proj2 (proj2 (proj2 (mg_first _ _ _ _ _ _ _ _ M)))). exact RXb.
  - destruct (mg_next _ _ _ _ _ _ _ _ M (S i)) as (p & e & e' & L & _ & _ & _ & E1 & _ & _ & _ & ->); [lia|].
    eapply GR; eauto. apply VV. now apply nth_In.
Qed.
Lemma graph_mb_rigid : rigid_mb mb.
Proof.
  split.
  - intros j Hj. apply (In_nth _ _ jd) in Hj as (i & Hi & <-). rewrite (mg_joints_len _ _ _ _ _ _ _ _ M) in Hi. destruct i as [|i].
    + rewrite (proj1 (mg_first _ _ _ _ _ _ _ _ M)). exact J0.
    + destruct (mg_next _ _ _ _ _ _ _ _ M (S i)) as (p & e & e' & L & _ & E1 & _ & _ & _ & E2 & _); [lia|]. rewrite E2. eapply LJ; eauto.
      apply VV. apply nth_In. lia.
  - intros X HX. apply (In_nth _ _ ptid) in HX as (i & Hi & <-). rewrite (mg_Xt_len _ _ _ _ _ _ _ _ M) in Hi. destruct i as [|i].
    + rewrite (proj1 (proj2 (proj2 (mg_first _ _ _ _ _ _ _ _ M)))). exact RX0.
    + destruct (mg_next _ _ _ _ _ _ _ _ M (S i)) as (p & e & e' & L & _ & E1 & _ & _ & _ & _ & E2 & _); [lia|]. rewrite E2.
      apply rigid_mul; [|apply rigid_inv, base_rigid; lia]. eapply GR; eauto. apply VV. apply nth_In. lia.
Qed.

Variables (m m' : MBC) (qn : string -> list R).
Hypothesis OK : mbc_ok mb m.
Hypothesis CO : config_ok mb m.
Hypothesis FK : forwardKinematics mb m = Ok m'.
Hypothesis JP : joint_pos mb m qn.
Let FP : fk_post mb m m'.
Proof.
  destruct (FK_ok mb m WF) as (m2 & E & H); try apply OK.
  - rewrite (sized_length mb jdof); [auto|apply OK].
  - rewrite FK in E. injection E as <-. exact H.
Qed.
Definition gpose (a : nat) : PT :=
  match find (fun k => nth k ord 0 =? a) (seq 0 (length ord)) with
  | Some i => ptmul (ptinv (nth i base ptid)) (nth i (bodyPosW m') ptid) | None => ptid end.
Lemma gpose_at i : i < length ord -> gpose (nth i ord 0) = ptmul (ptinv (nth i base ptid)) (nth i (bodyPosW m') ptid).
Proof. intro L. unfold gpose. now rewrite (idx_find ord i (mg_once _ _ _ _ _ _ _ _ M) L). Qed.
Lemma lenq : length (q m) = nrJoints mb.
Proof. apply (sized_length mb jparams). apply OK. Qed.
Lemma W_rigid i : i < length ord -> rigid (nth i (bodyPosW m') ptid).
Proof. intro L. eapply (fk_rigid mb m m'); eauto using graph_mb_rigid, lenq. now rewrite N. Qed.
Lemma gpose_rigid i : i < length ord -> rigid (gpose (nth i ord 0)).
Proof. intro L. rewrite gpose_at by auto. apply rigid_mul; [apply rigid_inv, base_rigid; auto|apply W_rigid; auto]. Qed.
(** Forward kinematics at a body that has a parent. *)
Lemma fk_link i : 0 < i < length ord -> exists p e e' X, p < i /\ nth i (mb_parent mb) 0%Z = Z.of_nat p /\
  In e (arcs_at (fst s) (nth p ord 0)) /\ aNext e = nth i ord 0 /\ In e' (arcs_at (fst s) (nth i ord 0)) /\ aNext e' = nth p ord 0 /\
  pose (aJoint e) (qn (ajn e)) = Ok X /\ q_ok (aJoint e) (qn (ajn e)) /\
  ptmul (aX e') (gpose (nth i ord 0)) = ptmul (ptmul X (aX e)) (gpose (nth p ord 0)).
Proof.
  intros (H0 & Li). destruct (mg_next _ _ _ _ _ _ _ _ M i (conj H0 Li)) as (p & e & e' & L & EP & E1 & E2 & E3 & E4 & E5 & E6 & E7).
  assert (NJ : nth_error (mb_joints mb) i = Some (aJoint e)).
  { rewrite <- E5. apply nth_error_nth'. rewrite (mg_joints_len _ _ _ _ _ _ _ _ M). auto. }
  pose proof (JP i _ H0 NJ) as Q. pose proof (CO i _ _ NJ Q) as QO.
  pose proof (fk_jc _ _ _ FP i ltac:(rewrite N; auto)) as PO. rewrite E5, (nth_error_nth _ _ _ Q) in PO.
  exists p, e, e', (nth i (jointConfig m') ptid). do 6 (split; [assumption|]). split; [exact PO|]. split; [exact QO|].
  rewrite !gpose_at by lia. rewrite E7. rewrite ptinv_r'.
  - rewrite (fk_bp _ _ _ FP) by (rewrite N; auto).
    assert (PP : par mb i = Some p).
    { apply pred_par. rewrite (mg_pred _ _ _ _ _ _ _ _ M). rewrite <- EP. apply nth_error_nth'. rewrite (mg_parent_len _ _ _ _ _ _ _ _ M). auto. }
    rewrite PP. rewrite (fk_pts _ _ _ FP) by (rewrite N; auto). rewrite E6. rewrite <- !ptmul_assoc. reflexivity.
  - eapply GR; [|exact E3]. apply VV, nth_In. auto.
Qed.
Lemma fk_placement : placement s r qn gpose.
Proof.
  intros a e e' C He He' Na Ej. apply (mg_all _ _ _ _ _ _ _ _ M) in C. pose proof (VV a C) as Va.
  apply (In_nth _ _ 0) in C as (i & Li & <-). set (a := nth i ord 0) in *.
  pose proof (gk_next _ G a e Va He) as Vn.
  destruct (gk_pair _ G a e Va He) as (e2 & P1 & P2 & P3).
  assert (e2 = e') by (eapply (single_arc (fst s) (aNext e)); eauto; [apply (cf_single _ _ CF); auto|congruence]). subst e2.
  destruct (to_parent ord (nth i (mb_parent mb) 0%Z) e) eqn:TP.
  - (* the link to the parent *)
    unfold to_parent in TP. destruct (Z.ltb_spec (nth i (mb_parent mb) 0%Z) 0) as [|Hp]; [discriminate|]. apply Nat.eqb_eq in TP.
    assert (Hi : 0 < i). { destruct i; [|lia]. rewrite (proj1 (proj2 (mg_first _ _ _ _ _ _ _ _ M))) in Hp. lia. }
    destruct (fk_link i (conj Hi Li)) as (p & e1 & e1' & X & Lp & EP & L1 & L2 & L3 & L4 & PO & QO & EQ).
    rewrite EP, Nat2Z.id in TP. fold a in L2, L3.
    assert (e1' = e) by (eapply (single_arc (fst s) a); eauto; [apply (cf_single _ _ CF); auto|congruence]). subst e1'.
    rewrite <- TP in L1. assert (e1 = e') by (eapply (single_arc (fst s) (aNext e)); eauto; [apply (cf_single _ _ CF); auto|congruence]). subst e1.
    destruct (gk_pair _ G (aNext e) e' Vn He') as (e3 & T1 & T2 & T3). rewrite Na in T1.
    assert (e3 = e) by (eapply (single_arc (fst s) a); eauto; apply (cf_single _ _ CF); auto). subst e3.
    exists (ptinv X). split.
    + rewrite T3, <- Ej. apply pose_reverse; auto. exact (LJ _ _ Vn He').
    + assert (RX : rigid X) by (exact (pose_rigid _ _ _ (LJ _ _ Vn He') QO PO)).
      fold a in EQ. rewrite <- (ptmul_assoc (ptinv X)), EQ, <- TP. rewrite <- !ptmul_assoc. rewrite ptinv_l'; auto.
  - (* a link to a child *)
    pose proof (mg_kids _ _ _ _ _ _ _ _ M i Li) as K. fold a in K.
    assert (HI : In (aNext e, aJoint e) (map (fun e => (aNext e, aJoint e)) (filter (fun e => negb (to_parent ord (nth i (mb_parent mb) 0%Z) e)) (arcs_at (fst s) a)))).
    { apply (in_map (fun e => (aNext e, aJoint e))). apply filter_In. split; auto. now rewrite TP. }
    rewrite <- K in HI. apply in_map_iff in HI as (k & E & Hk). apply filter_In in Hk as (Hk & Pk). apply in_seq in Hk. apply Z.eqb_eq in Pk.
    injection E as E1 E2.
    assert (Hk0 : 0 < k). { destruct k; [|lia]. rewrite (proj1 (proj2 (mg_first _ _ _ _ _ _ _ _ M))) in Pk. lia. }
    destruct (fk_link k ltac:(lia)) as (p & e1 & e1' & X & Lp & EP & L1 & L2 & L3 & L4 & PO & QO & EQ).
    assert (p = i) by lia. subst p. fold a in L1, L4.
    assert (e1 = e) by (eapply (single_arc (fst s) a); eauto; [apply (cf_single _ _ CF); auto|congruence]). subst e1.
    rewrite <- L2 in L3. assert (e1' = e') by (eapply (single_arc (fst s) (aNext e)); eauto; [apply (cf_single _ _ CF); auto|congruence]). subst e1'.
    exists X. split; [exact PO|]. rewrite L2. exact EQ.
Qed.
End Pose.

(** Two placements differ by a rigid motion of the whole: relative poses are the same. *)
Lemma placements_agree s r r2 qn P Q : graph_ok s -> graph_rigid s -> placement s r qn P -> placement s r2 qn Q ->
  forall a b, conn (fst s) a b -> In a (gNodes (snd s)) -> conn (fst s) r a -> conn (fst s) r2 a -> exists X, P b = ptmul X (P a) /\ Q b = ptmul X (Q a).
Proof.
  intros G GR HP HQ a b C Va Ca Ca2.
  assert (GG : conn (fst s) r b /\ conn (fst s) r2 b /\ In b (gNodes (snd s)) /\ exists X, P b = ptmul X (P a) /\ Q b = ptmul X (Q a)).
  { apply clos_rt_rtn1 in C. induction C as [|y z A C (I1 & I2 & I3 & X & I4 & I5)].
    - do 3 (split; [assumption|]). exists ptid. now rewrite !ptmul_id_l.
    - split; [eapply rt_trans; [exact I1|now apply rt_step]|]. split; [eapply rt_trans; [exact I2|now apply rt_step]|].
      destruct A as (e & He & <-). split; [eapply gk_next; eauto|].
      destruct (gk_pair _ G y e I3 He) as (e' & T1 & T2 & T3).
      assert (EJ : ajn e' = ajn e) by (unfold ajn; rewrite T3; reflexivity).
      destruct (HP y e e' I1 He T1 T2 EJ) as (Xp & Ep & Eq). destruct (HQ y e e' I2 He T1 T2 EJ) as (Xq & Ep' & Eq').
      rewrite Ep in Ep'. injection Ep' as <-.
      assert (RE : rigid (aX e')) by (eapply GR; [|exact T1]; eapply gk_next; eauto).
      exists (ptmul (ptmul (ptinv (aX e')) (ptmul Xp (aX e))) X). split.
      + rewrite <- (ptinv_l' (aX e') (P (aNext e)) RE), Eq, I4. now rewrite <- !ptmul_assoc.
      + rewrite <- (ptinv_l' (aX e') (Q (aNext e)) RE), Eq', I5. now rewrite <- !ptmul_assoc. }
  apply GG.
Qed.
Lemma conn_sym s a b : graph_ok s -> In a (gNodes (snd s)) -> conn (fst s) a b -> conn (fst s) b a /\ In b (gNodes (snd s)).
Proof.
  intros G Va C. apply clos_rt_rtn1 in C. induction C as [|y z A C (I1 & I2)]; [split; [apply rt_refl|auto]|].
  destruct (graph_sym s G y z I2 A) as (V & A'). split; auto. eapply rt_trans; [apply rt_step; exact A'|exact I1].
Qed.

Lemma body_pose_at s r j0 X Xb ord base mb tm m' n A : mb_of_graph s r j0 X Xb ord base mb ->
  (forall i, i < length ord -> mfind tm (bname (nth i (mb_bodies mb) bd)) = Some (ptinv (nth i base ptid))) ->
  (forall n, ~ In n (map bname (mb_bodies mb)) -> mfind tm n = None) -> names_ok mb -> body_pose mb m' tm n A -> length (bodyPosW m') = nrBodies mb ->
  exists i, i < length ord /\ bname (body_at (fst s) (nth i ord 0)) = n /\ A = gpose ord base m' (nth i ord 0).
Proof.
  intros M T NT NM (i & W & B & Q1 & Q2 & Q3 & ->) LW.
  assert (Li : i < length ord). { rewrite <- (mg_bodies_len _ _ _ _ _ _ _ _ M). fold (nrBodies mb). rewrite <- LW. apply nth_error_Some. congruence. }
  assert (Hn : In n (map bname (mb_bodies mb))).
  { destruct (in_dec string_dec n (map bname (mb_bodies mb))) as [|H]; auto. apply NT in H. congruence. }
  apply in_map_iff in Hn as (bd1 & En & Hb). apply (In_nth _ _ bd) in Hb as (k & Hk & Eb).
  pose proof (NM k Hk) as Q4. rewrite Eb, En, Q1 in Q4. injection Q4 as Q4. apply Nat2Z.inj in Q4. subst k.
  exists i. split; auto. pose proof (mg_bodies _ _ _ _ _ _ _ _ M i Li) as MB. split.
  - rewrite <- En, <- Eb, MB. reflexivity.
  - rewrite (gpose_at _ _ _ _ _ _ _ _ M m' i Li). pose proof (T i Li) as T1. rewrite Eb, En, Q3 in T1. injection T1 as ->.
    now rewrite (nth_error_nth _ _ _ Q2).
Qed.

(** C46. *)
Lemma relative_poses s root1 root2 t1 t2 ax1 ax2 X1 X2 Xb1 Xb2 fuel mb1 mb2 tm1 tm2 m1 m2 m1' m2' qn a b A1 B1 A2 B2 :
  graph_ok s -> cycle_free (fst s) (snd s) -> graph_rigid s -> link_joints joint_unit s -> length (gNodes (snd s)) <= fuel ->
  vdot ax1 ax1 = 1%R -> vdot ax2 ax2 = 1%R -> SO3 (rotE X1) -> SO3 (rotE X2) -> SO3 (rotE Xb1) -> SO3 (rotE Xb2) ->
  makeMultiBody fuel root1 t1 ax1 X1 Xb1 s = Ok mb1 -> makeMultiBody fuel root2 t2 ax2 X2 Xb2 s = Ok mb2 ->
  bodiesBaseTransform fuel root1 Xb1 s = Ok tm1 -> bodiesBaseTransform fuel root2 Xb2 s = Ok tm2 ->
  mbc_ok mb1 m1 -> mbc_ok mb2 m2 -> config_ok mb1 m1 -> config_ok mb2 m2 -> joint_pos mb1 m1 qn -> joint_pos mb2 m2 qn ->
  forwardKinematics mb1 m1 = Ok m1' -> forwardKinematics mb2 m2 = Ok m2' ->
  body_pose mb1 m1' tm1 a A1 -> body_pose mb1 m1' tm1 b B1 -> body_pose mb2 m2' tm2 a A2 -> body_pose mb2 m2' tm2 b B2 ->
  ptmul B1 (ptinv A1) = ptmul B2 (ptinv A2).
Proof.
  intros G CF GR LJ HF U1 U2 RX1 RX2 RB1 RB2 E1 E2 T1 T2 O1 O2 C1 C2 J1 J2 F1 F2 BA1 BB1 BA2 BB2.
  assert (H1 : exists r1, mfind (gBody (snd s)) root1 = Some r1).
  { unfold makeMultiBody, mat_ in E1. destruct s. cbn [snd]. destruct (mfind (gBody g) root1); [eauto|discriminate]. }
  assert (H2 : exists r2, mfind (gBody (snd s)) root2 = Some r2).
  { unfold makeMultiBody, mat_ in E2. destruct s. cbn [snd]. destruct (mfind (gBody g) root2); [eauto|discriminate]. }
  destruct H1 as (r1 & H1), H2 as (r2 & H2).
  assert (LO : link_joints joint_ok s). { intros x e Hx He. destruct (LJ x e Hx He) as (ax & _ & Hb). exists ax. exact Hb. }
  destruct (graph_all s root1 r1 t1 ax1 X1 Xb1 fuel G CF H1 HF) as (mb1' & ord1 & base1 & tm1' & pm1 & sm1 & E1' & M1 & V1 & K1 & T1' & _ & _ & Z1 & N1).
  rewrite E1 in E1'. injection E1' as <-. rewrite T1 in T1'. injection T1' as <-.
  destruct (graph_all s root2 r2 t2 ax2 X2 Xb2 fuel G CF H2 HF) as (mb2' & ord2 & base2 & tm2' & pm2 & sm2 & E2' & M2 & V2 & K2 & T2' & _ & _ & Z2 & N2).
  rewrite E2 in E2'. injection E2' as <-. rewrite T2 in T2'. injection T2' as <-.
  destruct (graph_mb_wf s r1 _ X1 Xb1 ord1 base1 mb1 G M1 K1 V1) as (W1 & NM1); auto. { exists ax1. constructor. }
  destruct (graph_mb_wf s r2 _ X2 Xb2 ord2 base2 mb2 G M2 K2 V2) as (W2 & NM2); auto. { exists ax2. constructor. }
  assert (JU1 : joint_unit (mkJ t1 ax1 true (gRoot (snd s)))) by (exists ax1; split; [auto|constructor]).
  assert (JU2 : joint_unit (mkJ t2 ax2 true (gRoot (snd s)))) by (exists ax2; split; [auto|constructor]).
  pose proof (fk_placement s r1 _ X1 Xb1 ord1 base1 mb1 G CF GR M1 V1 W1 LJ m1 m1' qn O1 C1 F1 J1) as P1.
  pose proof (fk_placement s r2 _ X2 Xb2 ord2 base2 mb2 G CF GR M2 V2 W2 LJ m2 m2' qn O2 C2 F2 J2) as P2.
  assert (LW1 : length (bodyPosW m1') = nrBodies mb1).
  { destruct (FK_ok mb1 m1 W1) as (x & Ex & Hx); try apply O1; [rewrite (sized_length mb1 jdof); [auto|apply O1]|].
    rewrite F1 in Ex. injection Ex as <-. rewrite (fk_bp_len _ _ _ Hx). apply O1. }
  assert (LW2 : length (bodyPosW m2') = nrBodies mb2).
  { destruct (FK_ok mb2 m2 W2) as (x & Ex & Hx); try apply O2; [rewrite (sized_length mb2 jdof); [auto|apply O2]|].
    rewrite F2 in Ex. injection Ex as <-. rewrite (fk_bp_len _ _ _ Hx). apply O2. }
  destruct (body_pose_at s _ _ _ _ _ _ _ _ _ _ _ M1 (fun i L => proj1 (Z1 i L)) (fun n H => proj1 (N1 n H)) NM1 BA1 LW1) as (ia1 & LA1 & EA1 & ->).
  destruct (body_pose_at s _ _ _ _ _ _ _ _ _ _ _ M1 (fun i L => proj1 (Z1 i L)) (fun n H => proj1 (N1 n H)) NM1 BB1 LW1) as (ib1 & LB1 & EB1 & ->).
  destruct (body_pose_at s _ _ _ _ _ _ _ _ _ _ _ M2 (fun i L => proj1 (Z2 i L)) (fun n H => proj1 (N2 n H)) NM2 BA2 LW2) as (ia2 & LA2 & EA2 & ->).
  destruct (body_pose_at s _ _ _ _ _ _ _ _ _ _ _ M2 (fun i L => proj1 (Z2 i L)) (fun n H => proj1 (N2 n H)) NM2 BB2 LW2) as (ib2 & LB2 & EB2 & ->).
  assert (INJ : forall x y, In x (gNodes (snd s)) -> In y (gNodes (snd s)) -> bname (body_at (fst s) x) = bname (body_at (fst s) y) -> x = y).
  { intros x y Hx Hy E. assert (Q1 := proj2 (ng_body _ (gk_names _ G) (bname (body_at (fst s) y)) x) (conj Hx E)).
    assert (Q2 := proj2 (ng_body _ (gk_names _ G) (bname (body_at (fst s) y)) y) (conj Hy eq_refl)). congruence. }
  assert (XA : nth ia2 ord2 0 = nth ia1 ord1 0) by (apply INJ; [apply V2, nth_In; auto|apply V1, nth_In; auto|congruence]).
  assert (XB : nth ib2 ord2 0 = nth ib1 ord1 0) by (apply INJ; [apply V2, nth_In; auto|apply V1, nth_In; auto|congruence]).
  assert (CA1 : conn (fst s) r1 (nth ia1 ord1 0)) by (apply (mg_all _ _ _ _ _ _ _ _ M1), nth_In; auto).
  assert (CB1 : conn (fst s) r1 (nth ib1 ord1 0)) by (apply (mg_all _ _ _ _ _ _ _ _ M1), nth_In; auto).
  assert (CA2 : conn (fst s) r2 (nth ia1 ord1 0)) by (rewrite <- XA; apply (mg_all _ _ _ _ _ _ _ _ M2), nth_In; auto).
  assert (Vr1 : In r1 (gNodes (snd s))) by (now apply (ng_body _ (gk_names _ G)) in H1).
  destruct (placements_agree s r1 r2 qn _ _ G GR P1 P2 (nth ia1 ord1 0) (nth ib1 ord1 0)) as (X & Q1 & Q2); auto.
  { eapply rt_trans; [|exact CB1]. now apply conn_sym. }
  { apply V1, nth_In. auto. }
  rewrite XA, XB, Q1, Q2. rewrite <- !ptmul_assoc.
  rewrite !ptinv_r; auto.
  - rewrite <- XA. eapply gpose_rigid; eauto.
  - eapply (gpose_rigid s r1); eauto.
Qed.

(** ** Mass. *)
Lemma lsum_perm {A} (f : A -> R) l l' : Permutation l l' -> lsum f l = lsum f l'.
Proof. intro H. unfold lsum. induction H; cbn [fold_right]; auto; try lra. Qed.
Lemma rsum_lsum n (f : nat -> R) : rsum n f = lsum f (seq 0 n).
Proof.
  induction n as [|n IH]; [reflexivity|]. rewrite seq_S. cbn [rsum]. rewrite IH. cbn [Nat.add]. generalize (seq 0 n) as l.
  unfold lsum. induction l as [|a l IHl]; cbn [fold_right app]; [lra|]. rewrite <- IHl. lra.
Qed.
Lemma lsum_ext {A} (f g : A -> R) l : (forall a, In a l -> f a = g a) -> lsum f l = lsum g l.
Proof. unfold lsum. induction l as [|a l IH]; cbn [fold_right]; intro H; [reflexivity|]. rewrite H by now left. f_equal. apply IH. intros; apply H; now right. Qed.
Lemma lsum_map {A B} (f : B -> R) (g : A -> B) l : lsum f (map g l) = lsum (fun a => f (g a)) l.
Proof. unfold lsum. induction l as [|a l IH]; cbn [fold_right map]; [reflexivity|]. now rewrite IH. Qed.
Lemma graph_mass s r j0 X0 Xb ord base mb l : mb_of_graph s r j0 X0 Xb ord base mb -> NoDup l -> (forall b, In b l <-> conn (fst s) r b) ->
  total_mass_of mb = lsum (fun b => imass (binertia (body_at (fst s) b))) l.
Proof.
  intros M ND HL. transitivity (lsum (fun b => imass (binertia (body_at (fst s) b))) ord).
  - unfold total_mass_of, nrBodies. rewrite (mg_bodies_len _ _ _ _ _ _ _ _ M), rsum_lsum.
    transitivity (lsum (fun i => imass (binertia (body_at (fst s) (nth i ord 0)))) (seq 0 (length ord))).
    + apply lsum_ext. intros i Hi. apply in_seq in Hi. unfold mass_of, inertia_of. rewrite (mg_bodies _ _ _ _ _ _ _ _ M) by lia. reflexivity.
    + rewrite <- (lsum_map (fun b => imass (binertia (body_at (fst s) b))) (fun i => nth i ord 0)). f_equal.
      clear. induction ord as [|a l IH] using rev_ind; [reflexivity|]. rewrite app_length. cbn [length]. rewrite seq_app, map_app. cbn [seq map Nat.add].
      rewrite app_nth2, Nat.sub_diag by lia. cbn [nth]. f_equal. rewrite <- IH at 2. apply map_ext_in. intros i Hi. apply in_seq in Hi. rewrite app_nth1 by lia. reflexivity.
  - apply lsum_perm. apply NoDup_Permutation; auto; [apply (mg_once _ _ _ _ _ _ _ _ M)|]. intro b. rewrite (mg_all _ _ _ _ _ _ _ _ M), HL. reflexivity.
Qed.
