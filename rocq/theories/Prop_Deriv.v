(** C04, C65: velocities and accelerations are time derivatives. *)
From Coq Require Import Reals String ZArith Bool Arith List.
From Verif Require Import Res Vec Sva Mat JointM MultiBodyM KinM Spec SpecDyn SpecDeriv DerivTreeP DerivExP.
From Verif Require DerivP.
Import ListNotations.
Open Scope R_scope.

(** C04: M(s) is a configuration at each time s and K(s) what forward kinematics and
    velocity make of it. If at time t every joint pose moves with its joint velocity
    [S alpha], then the origin of every body has the linear part of bodyVelW as its time
    derivative, and its rotation turns with the angular part: (E^T)' = [w]x E^T. *)
Theorem C04_velocity_is_derivative : forall mb (M K : R -> MBC) t, wf_mb mb -> rigid_mb mb ->
  (forall s, mbc_ok mb (M s)) -> (forall s, config_ok mb (M s)) -> (forall s, after_kinematics mb (M s) (K s)) ->
  (forall i X, (i < nrBodies mb)%nat ->
     (forall s, pose (nth i (mb_joints mb) jd) (nth i (q (M s)) []) = Ok (X s)) ->
     moves X t (smul (jS (nth i (mb_joints mb) jd)) (nth i (alpha (M t)) []))) ->
  forall i, (i < nrBodies mb)%nat ->
    derivV (fun s => trR (nth i (bodyPosW (K s)) ptid)) t (slin (nth i (bodyVelW (K t)) sv0)) /\
    derivM (fun s => mtr (rotE (nth i (bodyPosW (K s)) ptid))) t
      (mmul (mcross (sang (nth i (bodyVelW (K t)) sv0))) (mtr (rotE (nth i (bodyPosW (K t)) ptid)))).
Proof. exact body_world. Qed.
Print Assumptions C04_velocity_is_derivative.

(** C04: the joint poses do so for every forward joint and every revolute, prismatic,
    cylindrical or fixed joint whose parameters follow the kinematic law of its type. *)
Theorem C04_joint_velocity : forall j (q : R -> list R) t a X, joint_unit j -> regular j ->
  (forall s, q_ok j (q s)) -> length a = jdof j -> follows j q t a ->
  (forall s, pose j (q s) = Ok (X s)) -> moves X t (smul (jS j) a).
Proof. exact DerivP.pose_moves. Qed.
Print Assumptions C04_joint_velocity.

(** C04: both together, for a multibody of such joints. *)
Theorem C04_trajectory_velocity : forall mb (M K : R -> MBC) t, wf_mb mb -> rigid_mb mb ->
  (forall j, In j (mb_joints mb) -> regular j) ->
  (forall s, mbc_ok mb (M s)) -> (forall s, config_ok mb (M s)) -> (forall s, after_kinematics mb (M s) (K s)) ->
  (forall i, (i < nrBodies mb)%nat ->
     follows (nth i (mb_joints mb) jd) (fun s => nth i (q (M s)) []) t (nth i (alpha (M t)) [])) ->
  forall i, (i < nrBodies mb)%nat ->
    derivV (fun s => trR (nth i (bodyPosW (K s)) ptid)) t (slin (nth i (bodyVelW (K t)) sv0)) /\
    derivM (fun s => mtr (rotE (nth i (bodyPosW (K s)) ptid))) t
      (mmul (mcross (sang (nth i (bodyVelW (K t)) sv0))) (mtr (rotE (nth i (bodyPosW (K t)) ptid)))).
Proof.
  intros mb M K t W RM RG OK CO AK F.
  exact (body_world mb M K t W RM OK CO AK (follow_moves mb M t W RM OK CO RG F)).
Qed.
Print Assumptions C04_trajectory_velocity.
Example C04_applies : exists K, forall t i, (i < 4)%nat ->
  derivV (fun s => trR (nth i (bodyPosW (K s)) ptid)) t (slin (nth i (bodyVelW (K t)) sv0)).
Proof.
  destruct exd_kin as (K & HK). exists K. intros t i L.
  apply (C04_trajectory_velocity exd_mb exd_M K t exd_wf exd_rigid exd_regular exd_ok exd_config HK (exd_follows t) i L).
Qed.

(** C04: it is false for a reversed spherical joint. Its parameters follow the law of
    spherical joints with velocity a, yet the pose does not move with motion(a). *)
Theorem C04_reversed_spherical_refuted : exists j (q : R -> list R) (a : list R) X V,
  joint_unit j /\ jtyp j = Spherical /\ jfwd j = false /\ (forall s, q_ok j (q s)) /\
  follows j q 0 a /\ (forall s, pose j (q s) = Ok (X s)) /\ motion j a = Ok V /\ ~ moves X 0 V.
Proof. exact reversed_spherical. Qed.
Print Assumptions C04_reversed_spherical_refuted.
(** C04: and alpha is not the rate of q for planar joints. *)
Theorem C04_planar_rate_refuted : exists j (q : R -> list R) (a : list R) X V,
  joint_unit j /\ jtyp j = Planar /\ jfwd j = true /\ (forall s, q_ok j (q s)) /\
  (forall k, (k < 3)%nat -> derivable_pt_lim (fun s => co (q s) k) 0 (co a k)) /\
  (forall s, pose j (q s) = Ok (X s)) /\ motion j a = Ok V /\ ~ moves X 0 V.
Proof. exact planar_qdot_alpha. Qed.
Print Assumptions C04_planar_rate_refuted.

(** C65: with alphaD the derivative of alpha, forwardAcceleration with base acceleration
    A0 leaves in bodyAccB the time derivative of bodyVelB plus A0 seen from the body. *)
Theorem C65_acceleration_is_derivative : forall mb (M K : R -> MBC) t A0 m3, wf_mb mb -> rigid_mb mb ->
  (forall s, mbc_ok mb (M s)) -> (forall s, config_ok mb (M s)) -> (forall s, after_kinematics mb (M s) (K s)) ->
  (forall i X, (i < nrBodies mb)%nat ->
     (forall s, pose (nth i (mb_joints mb) jd) (nth i (q (M s)) []) = Ok (X s)) ->
     moves X t (smul (jS (nth i (mb_joints mb) jd)) (nth i (alpha (M t)) []))) ->
  (forall i k, (i < nrBodies mb)%nat -> (k < jdof (nth i (mb_joints mb) jd))%nat ->
     derivable_pt_lim (fun s => co (nth i (alpha (M s)) []) k) t (co (nth i (alphaD (M t)) []) k)) ->
  forwardAcceleration mb (K t) A0 = Ok m3 ->
  forall i, (i < nrBodies mb)%nat ->
    derivS (fun s => nth i (bodyVelB (K s)) sv0) t
      (svsub (nth i (bodyAccB m3) sv0) (ptm (nth i (bodyPosW (K t)) ptid) A0)).
Proof. exact acc_deriv. Qed.
Print Assumptions C65_acceleration_is_derivative.
Example C65_applies : exists K, forall t m3, forwardAcceleration exd_mb (K t) (mkSV v0 unitZ) = Ok m3 -> forall i, (i < 4)%nat ->
  derivS (fun s => nth i (bodyVelB (K s)) sv0) t
    (svsub (nth i (bodyAccB m3) sv0) (ptm (nth i (bodyPosW (K t)) ptid) (mkSV v0 unitZ))).
Proof.
  destruct exd_kin as (K & HK). exists K. intros t m3 E i L.
  apply (C65_acceleration_is_derivative exd_mb exd_M K t (mkSV v0 unitZ) m3 exd_wf exd_rigid exd_ok exd_config HK
    (follow_moves exd_mb exd_M t exd_wf exd_rigid exd_ok exd_config exd_regular (exd_follows t)) (exd_alphaD t) E i L).
Qed.
