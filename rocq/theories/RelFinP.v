(** The relative velocity, and the derivative of the relative pose. *)
From Coq Require Import Reals String ZArith Bool Arith List Lia Lra.
From Verif Require Import Res ResP SMap Vec VecP Sva SvaP Mat JointM MultiBodyM KinM DynM JacM Spec SpecDyn SpecJac SpecRel
  JointP KinP KinPathP MbP TreeP DynP DynCP ConvP KinFinP SpecDeriv DerivP DerivTreeP JacP JacFinP JacFin2P RelP RelTopP.
Import ListNotations.
Open Scope R_scope.

(** ** The relative pose moves with the relative velocity *)
Lemma moves_inv X t V : SO3 (rotE (X t)) -> moves X t V -> moves (fun s => ptinv (X s)) t (svopp (ptm (ptinv (X t)) V)).
Proof.
  intros SX MV. pose proof (moves_world X t V SX MV) as (_ & MW). destruct MV as (MX & VX).
  split; cbn [ptinv rotE trR].
  - eapply derivM_eq; [exact MW|]. f_equal. cbn [svopp sang ptm ptinv rotE]. generalize (mapp (mtr (rotE (X t))) (sang V)). intro w. v3ring.
  - apply (derivV_ext _ (fun s => vscale (-1) (mapp (rotE (X s)) (trR (X s))))); [intro s; generalize (mapp (rotE (X s)) (trR (X s))); intro; v3ring|].
    eapply derivV_eq; [apply (derivV_scale (fun _ => -1)); [apply D_const|apply derivV_app; eassumption]|]. cbv beta.
    rewrite SO3_cancel_r by auto. rewrite mapp_mmul. cbn [svopp slin ptm ptinv rotE trR sang]. rewrite mtr_mtr.
    replace (mapp (rotE (X t)) (vopp (mapp (mtr (rotE (X t))) (vsub (slin V) (vcross (vopp (mapp (rotE (X t)) (trR (X t)))) (sang V))))))
      with (vopp (vsub (slin V) (vcross (vopp (mapp (rotE (X t)) (trR (X t)))) (sang V)))).
    + generalize (mapp (rotE (X t)) (trR (X t))). intro c. destruct V as [w v]. cbn [sang slin]. v3ring.
    + set (y := vsub (slin V) _). replace (vopp (mapp (mtr (rotE (X t))) y)) with (mapp (mtr (rotE (X t))) (vopp y)) by (destruct y, (rotE (X t)); v3ring).
      now rewrite SO3_cancel_r.
Qed.
Lemma relative_moves Xb Xr t Vb Vr : SO3 (rotE (Xb t)) -> SO3 (rotE (Xr t)) -> moves Xb t Vb -> moves Xr t Vr ->
  moves (fun s => relative_pose (Xb s) (Xr s)) t (relative_velocity (Xb t) (Xr t) Vb Vr).
Proof.
  intros SB SR MB MR. pose proof (moves_mul Xb (fun s => ptinv (Xr s)) t Vb _ SB MB (moves_inv Xr t Vr SR MR)) as HM.
  unfold relative_pose, relative_velocity. replace (svsub Vb (ptm (relative_pose (Xb t) (Xr t)) Vr)) with (svadd Vb (ptm (Xb t) (svopp (ptm (ptinv (Xr t)) Vr)))); [exact HM|].
  unfold relative_pose. rewrite ptm_mul by (apply rigid_inv; exact SR). generalize (ptm (ptinv (Xr t)) Vr). intro v.
  replace (svopp v) with (svscale (-1) v) by svring. rewrite ptm_scale. generalize (ptm (Xb t) v). intro u. svring.
Qed.

(** ** The shapes *)
Lemma shape_in mb b r dn up : wf_mb mb -> rel_shape mb b r dn up -> forall k, In k (dn ++ up) -> (k < nrBodies mb)%nat.
Proof.
  intros W H k I. destruct H as [lr s R1 R2|c lc sb sr R1 R2 R3 _ _|sb sr R1 R2 _ _]; apply in_app_iff in I; destruct I as [I|I].
  - destruct I.
  - apply (root_path_in _ _ _ W R2). apply in_app_iff. auto.
  - apply in_rev in I. apply (root_path_in _ _ _ W R3). apply in_app_iff. auto.
  - apply (root_path_in _ _ _ W R2). apply in_app_iff. auto.
  - apply in_rev in I. apply (root_path_in _ _ _ W R2). now right.
  - apply (root_path_in _ _ _ W R1). auto.
Qed.
(** Velocities along the path, compared with the velocities of the two bodies. *)
Lemma shape_common mb b r dn up : wf_mb mb -> one_root mb -> rel_shape mb b r dn up -> b <> r ->
  (anc mb b r -> b = 0%nat) ->
  back (dn ++ up) = Ok b.
Proof.
  intros W O1 H NE AB. destruct H as [lr s R1 R2|c lc sb sr R1 R2 R3 DJ NC|sb sr R1 R2 _ _].
  - destruct s as [|a s].
    + rewrite app_nil_r in R2. exfalso. apply NE. destruct (root_path_last _ _ _ R1) as (l1 & E1), (root_path_last _ _ _ R2) as (l2 & E2).
      rewrite E1 in E2. apply app_inj_tail in E2. symmetry. apply E2.
    + destruct (root_path_last _ _ _ R2) as (l2 & E2). destruct (exists_last (l := a :: s)) as (s' & x & Es); [discriminate|]. rewrite Es in *.
      rewrite app_assoc in E2. apply app_inj_tail in E2. destruct E2 as (_ & ->). cbn [app]. apply back_last.
  - destruct sb as [|a s].
    + exfalso. rewrite app_nil_r in R2. assert (b = c).
      { destruct (root_path_last _ _ _ R1) as (l1 & E1), (root_path_last _ _ _ R2) as (l2 & E2).
        rewrite E1 in E2. apply app_inj_tail in E2. symmetry. apply E2. }
      subst c. apply NC. apply AB. apply (root_path_anc mb r _ W R3). apply in_app_iff. left.
      destruct (root_path_last _ _ _ R1) as (l1 & ->). apply in_app_iff. right. now left.
    + destruct (root_path_last _ _ _ R2) as (l2 & E2). destruct (exists_last (l := a :: s)) as (s' & x & Es); [discriminate|]. rewrite Es in *.
      rewrite app_assoc in E2. apply app_inj_tail in E2. destruct E2 as (_ & ->). rewrite app_assoc. apply back_last.
  - destruct (root_path_last _ _ _ R1) as (l2 & E2). rewrite E2, app_assoc. apply back_last.
Qed.
Lemma shape_sums mb b r dn up lb lr (u : nat -> SV) : wf_mb mb -> one_root mb -> rel_shape mb b r dn up ->
  root_path mb b lb -> root_path mb r lr ->
  (~ meets_root mb b r /\ svsub (path_sum u up) (path_sum u dn) = svsub (path_sum u lb) (path_sum u lr)) \/
  (meets_root mb b r /\ svsub (path_sum u up) (path_sum u dn) = svadd (svsub (path_sum u lb) (path_sum u lr)) (u 0%nat)).
Proof.
  intros W O1 H RB RR. destruct H as [l s R1 R2|c lc sb sr R1 R2 R3 DJ NC|sb sr R1 R2 DJ NR].
  - left. split.
    + intros (NA & _). apply NA. apply (root_path_anc mb b _ W R2). apply in_app_iff. left. destruct (root_path_last _ _ _ R1) as (l1 & ->). apply in_app_iff. right. now left.
    + rewrite (root_path_unique _ _ _ _ W RB R2), (root_path_unique _ _ _ _ W RR R1), path_sum_cat. rewrite up_alone. apply sub_r_0.
  - left. assert (IC : In c lc) by (destruct (root_path_last _ _ _ R1) as (l1 & ->); apply in_app_iff; right; now left). split.
    + intros (_ & HC). apply NC, HC; [apply (root_path_anc mb b _ W R2)|apply (root_path_anc mb r _ W R3)]; apply in_app_iff; auto.
    + rewrite (root_path_unique _ _ _ _ W RB R2), (root_path_unique _ _ _ _ W RR R3), !path_sum_cat, path_sum_rev. symmetry. apply sum_minus.
  - right. split.
    + split.
      * intro A. apply (root_path_anc mb b _ W R1) in A. apply (DJ r); auto.
        destruct (root_path_last _ _ _ R2) as (l1 & E1). assert (I : In r (0%nat :: sr)) by (rewrite E1; apply in_app_iff; right; now left).
        destruct I as [E|I]; auto. now contradict NR.
      * intros c A1 A2. apply (root_path_anc mb b _ W R1) in A1. apply (root_path_anc mb r _ W R2) in A2.
        destruct A2 as [E|I]; auto. exfalso. exact (DJ c I A1).
    + rewrite (root_path_unique _ _ _ _ W RB R1), (root_path_unique _ _ _ _ W RR R2), path_sum_rev.
      change (0%nat :: sb) with ([0%nat] ++ sb). change (0%nat :: sr) with ([0%nat] ++ sr). rewrite !path_sum_cat.
      unfold path_sum at 1 4 6. cbn [fold_left]. rewrite svadd_0_l. apply sub_self_add.
Qed.

(** ** Objects *)
Lemma built_shape mb name ref p J b r : wf_mb mb -> one_root mb -> (b < nrBodies mb)%nat -> (r < nrBodies mb)%nat ->
  sBodyIndexByName mb name = Ok (Z.of_nat b) -> sBodyIndexByName mb ref = Ok (Z.of_nat r) -> built_relative mb name ref p J ->
  exists dn up, rel_shape mb b r dn up /\ rel_object mb b r p dn up J /\
    forall J', rel_object mb b r p dn up J' -> built_relative mb name ref p J'.
Proof.
  intros W O1 Hb Hr Eb Er (g & J0 & EC & E1 & E2 & E3 & E4 & E5 & E6 & E7).
  destruct (ref_ctor_ok g mb name ref p b r W O1 Hb Hr Eb Er) as (J0' & dn & up & EC' & HS & HO). rewrite EC in EC'. injection EC' as <-.
  exists dn, up. split; [exact HS|]. destruct HO as (H1 & H2 & H3 & H4 & H5 & H6 & H7). split.
  - unfold rel_object. rewrite E1, E2, E3, E4, E5, E6, E7. auto 10.
  - intros J' (G1 & G2 & G3 & G4 & G5 & G6 & G7). exists g, J0. split; [exact EC|]. do 6 (split; [congruence|]). congruence.
Qed.
Lemma rel_vel_eq Xb Xr Ub Ur : rigid Xb -> rigid Xr -> relative_velocity Xb Xr (ptm Xb Ub) (ptm Xr Ur) = ptm Xb (svsub Ub Ur).
Proof.
  intros RB RR. unfold relative_velocity, relative_pose. rewrite ptm_mul by (now apply rigid_inv).
  rewrite <- (ptm_mul (ptinv Xr)) by auto. rewrite ptinv_l by auto. rewrite ptm_id. symmetry.
  replace (svsub Ub Ur) with (svadd Ub (svscale (-1) Ur)) by svring. rewrite ptm_add, ptm_scale. generalize (ptm Xb Ub), (ptm Xb Ur). intros. svring.
Qed.
Lemma position_back X P : rigid X -> trR (ptmul (pttr (mapp (rotE X) (vsub P (trR X)))) X) = P.
Proof. intro RX. unfold ptmul, pttr. cbn [trR rotE]. rewrite SO3_cancel_l by auto. v3ring. Qed.
Lemma position_is X p : trR (ptmul (pttr p) X) = point_position X p.
Proof. reflexivity. Qed.

Section Top.
Variables (mb : MultiBody) (m0 m : MBC).
Hypothesis W : wf_mb mb.
Hypothesis RM : rigid_mb mb.
Hypothesis K0 : mbc_ok mb m0.
Hypothesis C0 : config_ok mb m0.
Hypothesis AK : after_kinematics mb m0 m.
Hypothesis O1 : one_root mb.
Let RR : run mb m0 m := kin_run mb m0 m W RM K0 C0 AK.
Let K := r_ok _ _ _ RR.
Variables (name ref : string) (b r : nat) (p : V3) (J : Jac).
Hypothesis Hb : (b < nrBodies mb)%nat.
Hypothesis Hr : (r < nrBodies mb)%nat.
Hypothesis Eb : sBodyIndexByName mb name = Ok (Z.of_nat b).
Hypothesis Er : sBodyIndexByName mb ref = Ok (Z.of_nat r).
Hypothesis HB : built_relative mb name ref p J.
Notation Xb := (posW m b).
Notation Xr := (posW m r).
Let rb : rigid Xb := r_rw _ _ _ RR b Hb.
Let rr : rigid Xr := r_rw _ _ _ RR r Hr.
Lemma pos_at i : (i < nrBodies mb)%nat -> nth_error (bodyPosW m) i = Some (posW m i).
Proof. intro Hi. apply nth_error_nth'. rewrite (ok_bodyPosW _ _ K). auto. Qed.
Lemma vel_at i : (i < nrBodies mb)%nat -> nth_error (bodyVelB m) i = Some (vb m i).
Proof. intro Hi. apply nth_error_nth'. rewrite (ok_bodyVelB _ _ K). auto. Qed.
(** The sum along the path. *)
Lemma sums dn up : rel_shape mb b r dn up -> joined mb b r ->
  ptm Xb (svsub (path_sum (wvel mb m (alpha m)) up) (path_sum (wvel mb m (alpha m)) dn)) = relative_velocity Xb Xr (vb m b) (vb m r).
Proof.
  intros HS HJ. destruct (root_path_exists mb W b Hb) as (lb & RB), (root_path_exists mb W r Hr) as (lr & RL).
  rewrite (world_vel mb m0 m W RR b lb RB), (world_vel mb m0 m W RR r lr RL), rel_vel_eq by auto. f_equal.
  destruct (shape_sums mb b r dn up lb lr (wvel mb m (alpha m)) W O1 HS RB RL) as [(_ & E)|((NA & NC) & E)]; [exact E|]. rewrite E.
  destruct HJ as [HJ|[(c & Hc & A1 & A2)|HJ]]; [contradiction|now apply NC in A1|].
  assert (Z : wvel mb m (alpha m) 0 = sv0).
  { unfold wvel. assert (L0 : (0 < nrBodies mb)%nat) by lia.
    assert (EJ : jdof (nth 0 (mb_joints mb) jd) = 0%nat) by (apply HJ, nth_error_nth'; fold (nrJoints mb); rewrite (wf_nrJoints _ W); auto).
    pose proof (S_len mb W 0 L0) as SL. unfold dofi in SL. rewrite EJ in SL. destruct (jS (nth 0 (mb_joints mb) jd)); [|discriminate]. cbn [smul]. apply ptm_sv0. }
  rewrite Z. apply svadd_0_r.
Qed.
Lemma sums_root dn up : rel_shape mb b r dn up -> meets_root mb b r ->
  ptm Xb (svsub (path_sum (wvel mb m (alpha m)) up) (path_sum (wvel mb m (alpha m)) dn)) =
  svadd (relative_velocity Xb Xr (vb m b) (vb m r)) (ptm (relative_pose Xb (posW m 0)) (vb m 0)).
Proof.
  intros HS HJ. destruct (root_path_exists mb W b Hb) as (lb & RB), (root_path_exists mb W r Hr) as (lr & RL).
  assert (L0 : (0 < nrBodies mb)%nat) by lia. destruct (root_path_exists mb W 0 L0) as (l0 & RO).
  rewrite (world_vel mb m0 m W RR 0 l0 RO). rewrite (root_path_zero mb 0 l0 W O1 RO eq_refl).
  rewrite (world_vel mb m0 m W RR b lb RB), (world_vel mb m0 m W RR r lr RL), rel_vel_eq by auto.
  unfold relative_pose. rewrite ptm_mul by (apply rigid_inv; apply (r_rw _ _ _ RR); auto).
  rewrite <- (ptm_mul (ptinv (posW m 0))) by (apply (r_rw _ _ _ RR); auto). rewrite ptinv_l by (apply (r_rw _ _ _ RR); auto). rewrite ptm_id, <- ptm_add. f_equal.
  destruct (shape_sums mb b r dn up lb lr (wvel mb m (alpha m)) W O1 HS RB RL) as [(NM & _)|(_ & E)]; [contradiction|].
  rewrite E. f_equal. unfold path_sum. cbn [fold_left]. now rewrite svadd_0_l.
Qed.
Notation axes v := (turn (if (r =? 0)%nat then rotE Xr else mid) v).
Lemma axes_eq v : axes (turn (if (r =? 0)%nat then mid else rotE Xr) v) = turn (rotE Xr) v.
Proof. destruct (r =? 0)%nat; [now rewrite turn_id|apply turn_id]. Qed.
Lemma rel_velocity : b <> r -> (anc mb b r -> b = 0%nat) -> joined mb b r ->
  exists J1 J2, jacobian mb m J = Ok J1 /\ built_relative mb name ref p J1 /\ bodyJacobian mb m J = Ok J2 /\ built_relative mb name ref p J2 /\
    length (on_path (jc_path J) (alpha m)) = jac_dof J1 /\ length (on_path (jc_path J) (alpha m)) = jac_dof J2 /\
    axes (smul (jc_jac J1) (on_path (jc_path J) (alpha m))) = point_velocity (relative_pose Xb Xr) p (relative_velocity Xb Xr (vb m b) (vb m r)) /\
    smul (jc_jac J2) (on_path (jc_path J) (alpha m)) = body_point_velocity p (relative_velocity Xb Xr (vb m b) (vb m r)).
Proof.
  intros NE AB HJ. destruct (built_shape mb name ref p J b r W O1 Hb Hr Eb Er HB) as (dn & up & HS & HO & HN).
  pose proof (shape_in _ _ _ _ _ W HS) as IN. pose proof (shape_common _ _ _ _ _ W O1 HS NE AB) as BK.
  destruct (rel_jacobian mb m0 m W RR b r p dn up J IN HO BK Hb Hr) as (J1 & E1 & H1 & P1).
  destruct (P1 (alpha m) (ok_alpha _ _ K)) as (L1 & M1).
  assert (E2 : bodyJacobian mb m J = Ok (with_jac (rel_cols mb m dn up (ptmul (pttr p) Xb)) J)).
  { unfold bodyJacobian. rewrite (proj1 HO), BK. cbn [bind]. rewrite (get_nth (bodyPosW m) b ptid) by (rewrite (ok_bodyPosW _ _ K); auto). cbn [bind].
    rewrite (proj1 (proj2 (proj2 HO))). now rewrite (rel_jac_ mb m0 m W RR b r p dn up J IN HO). }
  exists J1, (with_jac (rel_cols mb m dn up (ptmul (pttr p) Xb)) J).
  pose proof (rel_cols_length mb m W dn up IN (ptmul (pttr p) Xb)) as LC.
  split; [exact E1|]. split; [apply HN, H1|]. split; [exact E2|]. split.
  { apply HN. destruct HO as (G1 & G2 & G3 & G4 & G5 & G6 & G7). unfold rel_object. cbn [with_jac jc_path jc_sign jc_point jc_jac jc_dot jc_body jc_ref]. rewrite LC. auto 10. }
  rewrite (proj1 HO). split; [exact L1|]. split.
  { unfold jac_dof. cbn [with_jac jc_jac]. rewrite LC. apply on_path_len; auto. apply (ok_alpha _ _ K). }
  split.
  - rewrite M1, axes_eq, rel_point by auto. f_equal. now apply sums.
  - cbn [with_jac jc_jac]. rewrite (rel_times mb m0 m W RR dn up IN _ _ (ok_alpha _ _ K)).
    rewrite ptm_mul by auto. rewrite sums by auto. apply at_point.
Qed.
Lemma rel_velocity_root : meets_root mb b r ->
  exists J1, jacobian mb m J = Ok J1 /\ built_relative mb name ref p J1 /\
    length (on_path (jc_path J) (alpha m)) = jac_dof J1 /\
    smul (jc_jac J1) (on_path (jc_path J) (alpha m)) = 
      point_velocity (relative_pose Xb Xr) p (svadd (relative_velocity Xb Xr (vb m b) (vb m r)) (ptm (relative_pose Xb (posW m 0)) (vb m 0))).
Proof.
  intros HM. destruct (built_shape mb name ref p J b r W O1 Hb Hr Eb Er HB) as (dn & up & HS & HO & HN).
  pose proof (shape_in _ _ _ _ _ W HS) as IN.
  assert (NE : b <> r) by (intros ->; apply (proj1 HM); constructor).
  assert (AB : anc mb b r -> b = 0%nat) by (intro A; apply (proj2 HM); auto; constructor).
  assert (NR : r <> 0%nat).
  { intros ->. apply (proj1 HM). destruct (root_path_exists mb W b Hb) as (lb & RB). apply (root_path_anc mb b lb W RB).
    destruct (root_path_head _ _ _ W O1 RB) as (l' & ->). now left. }
  pose proof (shape_common _ _ _ _ _ W O1 HS NE AB) as BK.
  destruct (rel_jacobian mb m0 m W RR b r p dn up J IN HO BK Hb Hr) as (J1 & E1 & H1 & P1).
  destruct (P1 (alpha m) (ok_alpha _ _ K)) as (L1 & M1). exists J1. split; [exact E1|]. split; [apply HN, H1|]. rewrite (proj1 HO). split; [exact L1|].
  rewrite M1. replace (r =? 0)%nat with false by (symmetry; now apply Nat.eqb_neq). rewrite rel_point by auto. f_equal. now apply sums_root.
Qed.
(** At a given point of the world, whatever the two bodies. *)
Lemma rel_velocity_at P : joined mb b r ->
  exists J1, jacobian_at mb m (pttr P) J = Ok J1 /\ built_relative mb name ref p J1 /\
    length (on_path (jc_path J) (alpha m)) = jac_dof J1 /\
    axes (smul (jc_jac J1) (on_path (jc_path J) (alpha m))) =
      point_velocity (relative_pose Xb Xr) (mapp (rotE Xb) (vsub P (trR Xb))) (relative_velocity Xb Xr (vb m b) (vb m r)).
Proof.
  intros HJ. destruct (built_shape mb name ref p J b r W O1 Hb Hr Eb Er HB) as (dn & up & HS & HO & HN).
  pose proof (shape_in _ _ _ _ _ W HS) as IN.
  pose proof (rel_cols_length mb m W dn up IN (pttr P)) as LC.
  pose proof (rel_times mb m0 m W RR dn up IN (pttr P) _ (ok_alpha _ _ K)) as RT.
  assert (EQ : turn (rotE Xr) (smul (rel_cols mb m dn up (pttr P)) (on_path (dn ++ up) (alpha m))) =
     point_velocity (relative_pose Xb Xr) (mapp (rotE Xb) (vsub P (trR Xb))) (relative_velocity Xb Xr (vb m b) (vb m r))).
  { rewrite RT. rewrite <- (position_back Xb P rb) at 1. rewrite rel_point by auto. f_equal. now apply sums. }
  pose proof HO as (G1 & G2 & G3 & G4 & G5 & G6 & G7).
  unfold jacobian_at. rewrite (rel_jac_ mb m0 m W RR b r p dn up J IN HO). cbn [bind]. unfold to_ref. cbn [with_jac jc_ref jc_jac]. rewrite G7.
  pose proof (on_path_len mb W (alpha m) (dn ++ up) IN (ok_alpha _ _ K)) as LP.
  destruct (r =? 0)%nat eqn:E0.
  - apply Nat.eqb_eq in E0. replace (Z.of_nat r >? 0)%Z with false by (symmetry; rewrite E0; reflexivity).
    eexists. split; [reflexivity|]. split.
    { apply HN. unfold rel_object. cbn [with_jac jc_path jc_sign jc_point jc_jac jc_dot jc_body jc_ref]. rewrite LC. auto 10. }
    rewrite G1. unfold jac_dof. cbn [with_jac jc_jac]. split; [congruence|exact EQ].
  - apply Nat.eqb_neq in E0. replace (Z.of_nat r >? 0)%Z with true by (symmetry; apply Z.gtb_lt; lia).
    rewrite getz_nat, (get_nth (bodyPosW m) r ptid) by (rewrite (ok_bodyPosW _ _ K); auto). cbn [bind]. eexists. split; [reflexivity|]. split.
    { apply HN. unfold rel_object. cbn [with_jac jc_path jc_sign jc_point jc_jac jc_dot jc_body jc_ref]. rewrite map_length, LC. auto 10. }
    rewrite G1. unfold jac_dof. cbn [with_jac jc_jac]. split; [rewrite map_length; congruence|]. rewrite turn_id.
    change (map (fun c => mkSV (mapp (rotE Xr) (sang c)) (mapp (rotE Xr) (slin c))) (rel_cols mb m dn up (pttr P))) with (map (turn (rotE Xr)) (rel_cols mb m dn up (pttr P))).
    rewrite (smul_lin (turn (rotE Xr))) by apply turn_linear. exact EQ.
Qed.
End Top.
(** A body relative to itself. *)
Lemma rel_self_top : forall mb m, wf_mb mb -> one_root mb ->
  forall name b p J, (b < nrBodies mb)%nat -> sBodyIndexByName mb name = Ok (Z.of_nat b) -> built_relative mb name name p J ->
  jacobian mb m J = UB /\ bodyJacobian mb m J = UB.
Proof.
  intros mb m W O1 name b p J Hb Eb HB. pose proof (eq_refl b) as E. revert E. generalize b at 2 as r. intros r E. rewrite E in Hb, Eb.
  destruct (built_shape mb name name p J r r W O1 Hb Hb Eb Eb HB) as (dn & up & HS & HO & _).
  assert (EP : jc_path J = []).
  { rewrite (proj1 HO). destruct HS as [lr s R1 R2|c lc sb sr R1 R2 R3 DJ NC|sb sr R1 R2 DJ NR].
    - pose proof (root_path_unique _ _ _ _ W R1 R2) as EL. rewrite <- (app_nil_r lr) in EL at 1. apply app_inv_head in EL. now rewrite <- EL.
    - pose proof (root_path_unique _ _ _ _ W R2 R3) as EL. apply app_inv_head in EL. subst sb. destruct sr as [|a sr]; [reflexivity|].
      exfalso. apply (DJ a); [now left|]. apply in_app_iff. right. now left.
    - pose proof (root_path_unique _ _ _ _ W R1 R2) as EL. injection EL as ->. destruct sr as [|a sr].
      + exfalso. apply NR. inversion R2 as [i Q|i q' l Q R']; subst; auto. destruct l; [|destruct l; discriminate]. inversion R'. destruct l; discriminate.
      + exfalso. apply (DJ a); [now left|]. right. now left. }
  unfold jacobian, bodyJacobian. rewrite EP. split; reflexivity.
Qed.

Lemma ref_ctor_built g mb name ref p b r : wf_mb mb -> one_root mb -> (b < nrBodies mb)%nat -> (r < nrBodies mb)%nat ->
  sBodyIndexByName mb name = Ok (Z.of_nat b) -> sBodyIndexByName mb ref = Ok (Z.of_nat r) ->
  exists J, Jacobian_ref_ctor g mb name ref p = Ok J /\ built_relative mb name ref p J.
Proof.
  intros W O1 Hb Hr Eb Er. destruct (ref_ctor_ok g mb name ref p b r W O1 Hb Hr Eb Er) as (J & dn & up & EC & _). exists J. split; [exact EC|]. exists g, J. auto 10.
Qed.
Lemma rel_velocity_top : forall mb m0 m,
  wf_mb mb -> rigid_mb mb -> mbc_ok mb m0 -> config_ok mb m0 -> after_kinematics mb m0 m -> one_root mb ->
  forall name ref b r p J, (b < nrBodies mb)%nat -> (r < nrBodies mb)%nat ->
  sBodyIndexByName mb name = Ok (Z.of_nat b) -> sBodyIndexByName mb ref = Ok (Z.of_nat r) -> built_relative mb name ref p J ->
  b <> r -> (anc mb b r -> b = 0%nat) -> joined mb b r ->
  exists Xb Xr Vb Vr J1 J2,
    nth_error (bodyPosW m) b = Some Xb /\ nth_error (bodyPosW m) r = Some Xr /\
    nth_error (bodyVelB m) b = Some Vb /\ nth_error (bodyVelB m) r = Some Vr /\
    jacobian mb m J = Ok J1 /\ built_relative mb name ref p J1 /\ bodyJacobian mb m J = Ok J2 /\ built_relative mb name ref p J2 /\
    length (on_path (jc_path J) (alpha m)) = jac_dof J1 /\ length (on_path (jc_path J) (alpha m)) = jac_dof J2 /\
    turn (if (r =? 0)%nat then rotE Xr else mid) (smul (jc_jac J1) (on_path (jc_path J) (alpha m))) =
      point_velocity (relative_pose Xb Xr) p (relative_velocity Xb Xr Vb Vr) /\
    smul (jc_jac J2) (on_path (jc_path J) (alpha m)) = body_point_velocity p (relative_velocity Xb Xr Vb Vr).
Proof.
  intros mb m0 m W RM K0 C0 AK O1 name ref b r p J Hb Hr Eb Er HB NE AB HJ.
  destruct (rel_velocity mb m0 m W RM K0 C0 AK O1 name ref b r p J Hb Hr Eb Er HB NE AB HJ) as (J1 & J2 & H).
  exists (posW m b), (posW m r), (vb m b), (vb m r), J1, J2.
  split; [now apply (pos_at mb m0 m W RM K0 C0 AK)|]. split; [now apply (pos_at mb m0 m W RM K0 C0 AK)|].
  split; [now apply (vel_at mb m0 m W RM K0 C0 AK)|]. split; [now apply (vel_at mb m0 m W RM K0 C0 AK)|]. exact H.
Qed.
Lemma rel_velocity_at_top : forall mb m0 m,
  wf_mb mb -> rigid_mb mb -> mbc_ok mb m0 -> config_ok mb m0 -> after_kinematics mb m0 m -> one_root mb ->
  forall name ref b r p J, (b < nrBodies mb)%nat -> (r < nrBodies mb)%nat ->
  sBodyIndexByName mb name = Ok (Z.of_nat b) -> sBodyIndexByName mb ref = Ok (Z.of_nat r) -> built_relative mb name ref p J ->
  forall P, joined mb b r ->
  exists Xb Xr Vb Vr pb J1,
    nth_error (bodyPosW m) b = Some Xb /\ nth_error (bodyPosW m) r = Some Xr /\
    nth_error (bodyVelB m) b = Some Vb /\ nth_error (bodyVelB m) r = Some Vr /\ point_position Xb pb = P /\
    jacobian_at mb m (pttr P) J = Ok J1 /\ built_relative mb name ref p J1 /\
    length (on_path (jc_path J) (alpha m)) = jac_dof J1 /\
    turn (if (r =? 0)%nat then rotE Xr else mid) (smul (jc_jac J1) (on_path (jc_path J) (alpha m))) =
      point_velocity (relative_pose Xb Xr) pb (relative_velocity Xb Xr Vb Vr).
Proof.
  intros mb m0 m W RM K0 C0 AK O1 name ref b r p J Hb Hr Eb Er HB P HJ.
  destruct (rel_velocity_at mb m0 m W RM K0 C0 AK O1 name ref b r p J Hb Hr Eb Er HB P HJ) as (J1 & H).
  exists (posW m b), (posW m r), (vb m b), (vb m r), (mapp (rotE (posW m b)) (vsub P (trR (posW m b)))), J1.
  split; [now apply (pos_at mb m0 m W RM K0 C0 AK)|]. split; [now apply (pos_at mb m0 m W RM K0 C0 AK)|].
  split; [now apply (vel_at mb m0 m W RM K0 C0 AK)|]. split; [now apply (vel_at mb m0 m W RM K0 C0 AK)|].
  split; [apply position_back, (r_rw _ _ _ (kin_run mb m0 m W RM K0 C0 AK) b Hb)|]. exact H.
Qed.
