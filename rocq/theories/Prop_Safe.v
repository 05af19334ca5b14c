(** Properties C78 and C79: the safe versions of the analysis functions. *)
From Coq Require Import Reals String ZArith Bool Arith List Lia Lra.
From Verif Require Import Res Vec Sva Mat JointM MultiBodyM KinM DynM JacM CoMM MomM ISM IDIMM Spec SpecDyn SpecJac SpecCoM SpecIDIM SpecConf SpecRel SpecSafe
  KinPathP MbP ConfFinP SafeTopP SafeComTopP SafeExP CoMCtorP Ex JacExP IkExP CoMExP.
Import ListNotations.
Open Scope nat_scope.

(** C78: the Jacobian objects of a robot have the sizes of the robot. *)
Theorem C78_objects_fit : forall g mb p name b J, wf_mb mb -> b < nrBodies mb -> sBodyIndexByName mb name = Ok (Z.of_nat b) ->
  (Jacobian_ctor g mb name p = Ok J -> jac_fits mb J) /\
  (forall ref r, one_root mb -> r < nrBodies mb -> b <> r -> sBodyIndexByName mb ref = Ok (Z.of_nat r) ->
     Jacobian_ref_ctor g mb name ref p = Ok J -> jac_fits mb J).
Proof.
  intros g mb p name b J W Hb E. split; [exact (ctor_fits g mb name p b J W Hb E)|].
  intros ref r O1 Hr NE Er. exact (ref_ctor_fits g mb name ref p b r J W O1 Hb Hr NE E Er).
Qed.
Print Assumptions C78_objects_fit.
(** C78: with such an object, for every configuration, the safe Jacobian functions do what the
    plain ones do, and the plain ones return, when the vectors they read have the sizes of the
    robot; they throw std::domain_error otherwise. *)
Theorem C78_jacobians : forall mb m J, wf_mb mb -> jac_fits mb J ->
  guarded (pos_sized mb m /\ subspace_sized mb m) (sJacobian mb m J) (jacobian mb m J) /\
  (forall X, guarded (pos_sized mb m /\ subspace_sized mb m) (sJacobian_at mb m X J) (jacobian_at mb m X J)) /\
  guarded (pos_sized mb m /\ subspace_sized mb m) (sBodyJacobian mb m J) (bodyJacobian mb m J) /\
  (forall v, guarded (pos_sized mb m /\ subspace_sized mb m) (sVectorJacobian mb m v J) (vectorJacobian mb m v J)) /\
  (forall v, guarded (pos_sized mb m /\ subspace_sized mb m) (sVectorBodyJacobian mb m v J) (vectorBodyJacobian mb m v J)) /\
  guarded (pos_sized mb m /\ vel_sized mb m /\ subspace_sized mb m) (sJacobianDot mb m J) (jacobianDot mb m J) /\
  guarded (pos_sized mb m /\ vel_sized mb m /\ subspace_sized mb m) (sBodyJacobianDot mb m J) (bodyJacobianDot mb m J).
Proof. exact safe_jacobian_guarded. Qed.
Print Assumptions C78_jacobians.
(** C78: and the object stays one of the robot, so any sequence of such calls is defined. *)
Theorem C78_objects_stay : forall mb m J, wf_mb mb -> jac_fits mb J ->
  returns (jac_fits mb) (sJacobian mb m J) /\ (forall X, returns (jac_fits mb) (sJacobian_at mb m X J)) /\
  returns (jac_fits mb) (sBodyJacobian mb m J) /\ (forall v, returns (jac_fits mb) (sVectorJacobian mb m v J)) /\
  (forall v, returns (jac_fits mb) (sVectorBodyJacobian mb m v J)) /\ returns (jac_fits mb) (sJacobianDot mb m J) /\
  returns (jac_fits mb) (sBodyJacobianDot mb m J).
Proof. exact safe_jacobian_keeps. Qed.
Print Assumptions C78_objects_stay.
(** C78: the functions taking matrices reject exactly the wrong sizes. *)
Theorem C78_matrices : forall mb m J, wf_mb mb -> jac_fits mb J ->
  guarded True (sSubMultiBody mb J) (subMultiBody mb J) /\
  (forall jac p r, guarded (last_body_in m J /\ length jac = jac_dof J /\ length r = jac_dof J)
     (sTranslateJacobian m jac p r J) (translateJacobian m jac p r J)) /\
  (forall jac r, guarded (mcols jac = jac_dof J /\ mrows jac = 6 /\ mcols r = mb_nrDof mb /\ mrows r = 6)
     (sFullJacobian mb J jac r) (fullJacobian mb J jac r)).
Proof. exact safe_sizes_guarded. Qed.
Print Assumptions C78_matrices.
(** C78: velocities, and normal accelerations from given body accelerations. *)
Theorem C78_velocities : forall mb m J, wf_mb mb -> jac_fits mb J ->
  (forall X, guarded (pos_sized mb m /\ vel_sized mb m) (sVelocity_at mb m X J) (velocity_at m X J)) /\
  guarded (pos_sized mb m /\ vel_sized mb m) (sVelocity mb m J) (velocity m J) /\
  guarded (vel_sized mb m) (sBodyVelocity mb m J) (bodyVelocity m J) /\
  (forall acc X V, guarded (pos_sized mb m /\ vel_sized mb m /\ length acc = nrBodies mb)
     (sNormalAcceleration_pre_at mb m acc X V J) (normalAcceleration_pre_at m acc X V J)) /\
  (forall acc, guarded (pos_sized mb m /\ vel_sized mb m /\ length acc = nrBodies mb)
     (sNormalAcceleration_pre mb m acc J) (normalAcceleration_pre m acc J)) /\
  (forall acc, guarded (length acc = nrBodies mb) (sBodyNormalAcceleration_pre mb m acc J) (bodyNormalAcceleration_pre acc J)).
Proof. exact safe_velocity_guarded. Qed.
Print Assumptions C78_velocities.
(** C78: normal accelerations computed along the path, when the joint velocities have the size
    of the robot. Missing: nothing checks that they have. *)
Theorem C78_normal_accelerations_partial : forall mb m J, wf_mb mb -> jac_fits mb J -> jvel_sized mb m ->
  (forall X V, guarded (pos_sized mb m /\ vel_sized mb m /\ jconf_sized mb m /\ tree_sized mb m)
     (sNormalAcceleration_at mb m X V J) (normalAcceleration_at m X V J)) /\
  guarded (pos_sized mb m /\ vel_sized mb m /\ jconf_sized mb m /\ tree_sized mb m)
     (sNormalAcceleration mb m J) (normalAcceleration m J) /\
  (length (bodyVelB m) = nrBodies mb ->
   guarded (jconf_sized mb m /\ tree_sized mb m) (sBodyNormalAcceleration mb m J) (bodyNormalAcceleration m J)).
Proof. exact safe_nacc_guarded. Qed.
Print Assumptions C78_normal_accelerations_partial.
(** C78, refuted: with every checked vector of the right size and no joint velocities, the safe
    normal accelerations read outside them; the body version does so for body velocities too. *)
Theorem C78_normal_accelerations_refuted : forall mb m J, wf_mb mb -> jac_fits mb J -> jconf_sized mb m -> tree_sized mb m ->
  (pos_sized mb m -> vel_sized mb m -> jointVelocity m = [] ->
     sNormalAcceleration mb m J = UB /\ forall X V, sNormalAcceleration_at mb m X V J = UB) /\
  (jointVelocity m = [] \/ bodyVelB m = [] -> sBodyNormalAcceleration mb m J = UB).
Proof. exact safe_nacc_UB. Qed.
Print Assumptions C78_normal_accelerations_refuted.
(** C78: a Jacobian object whose path has a joint the robot does not have is rejected by the
    functions that check the path. *)
Theorem C78_other_robot_partial : forall mb m J, leaves mb J ->
  sJacobian mb m J = Throw DomainError /\ (forall X, sJacobian_at mb m X J = Throw DomainError) /\
  sBodyJacobian mb m J = Throw DomainError /\ (forall v, sVectorJacobian mb m v J = Throw DomainError) /\
  (forall v, sVectorBodyJacobian mb m v J = Throw DomainError) /\ sJacobianDot mb m J = Throw DomainError /\
  sBodyJacobianDot mb m J = Throw DomainError /\ sSubMultiBody mb J = Throw DomainError /\
  (forall jac r, sFullJacobian mb J jac r = Throw DomainError).
Proof. exact leaves_throws. Qed.
Print Assumptions C78_other_robot_partial.
(** C78, refuted for the other objects of other robots: a Jacobian of a one-joint robot used on
    a robot whose first joint is free passes the checks and writes outside its matrix, and the
    velocities, which do not check the path, read outside the configuration. *)
Theorem C78_other_robot_refuted :
  exists mb m J, wf_mb mb /\ mbc_ok mb m /\ (exists mb' n p, wf_mb mb' /\ Jacobian_ctor (fun _ _ => sv0) mb' n p = Ok J) /\ ~ leaves mb J /\
    sJacobian mb m J = UB /\ sJacobianDot mb m J = UB /\
    (forall jac r, mrows jac = 6 -> mcols jac = jac_dof J -> mrows r = 6 -> mcols r = mb_nrDof mb -> sFullJacobian mb J jac r = UB) /\
  exists mb2 m2 J2, wf_mb mb2 /\ mbc_ok mb2 m2 /\ (exists mb' n p, wf_mb mb' /\ Jacobian_ctor (fun _ _ => sv0) mb' n p = Ok J2) /\
    sVelocity mb2 m2 J2 = UB /\ sBodyVelocity mb2 m2 J2 = UB.
Proof.
  destruct other_robot_UB as (A1 & A2 & A3 & A4 & A5 & A6 & A7 & A8 & A9 & A10 & A11).
  exists ex_mb, ex_m, exs_J. do 2 (split; [assumption|]). split; [eauto 6|]. split.
  { intros (k & [<-|[]] & L). cbn in L. lia. }
  do 3 (split; [assumption|]). exists exs_mb, exs_m, ex_J. do 2 (split; [assumption|]). split; [exists ex_mb, "hand"%string, (mkV3 1 2 3); auto|]. auto.
Qed.
Print Assumptions C78_other_robot_refuted.
(** C78, refuted: the Jacobian of a body relative to itself has an empty path, and with a
    configuration of the right sizes every safe function on it reads outside that path. *)
Theorem C78_same_body_refuted : forall g mb m name p b J, sBodyIndexByName mb name = Ok (Z.of_nat b) ->
  Jacobian_ref_ctor g mb name name p = Ok J -> pos_sized mb m -> vel_sized mb m -> subspace_sized mb m ->
  sJacobian mb m J = UB /\ sBodyJacobian mb m J = UB /\ sJacobianDot mb m J = UB /\ sSubMultiBody mb J = UB /\ sVelocity mb m J = UB.
Proof.
  intros g mb m name p b J E H P V M. exact (empty_path_UB mb m J P V M (same_body_path g mb name p b J E H)).
Qed.
Print Assumptions C78_same_body_refuted.
Example C78_applies : jac_fits ex_mb ex_J /\ (exists J, sJacobian ex_mb ex_m ex_J = Ok J) /\
  sJacobian ex_mb (with_bodyPosW [ptid] ex_m) ex_J = Throw DomainError /\
  sNormalAcceleration ex_mb (with_jointVelocity [] ex_m) ex_J = UB /\
  exists J, Jacobian_ref_ctor (fun _ _ => sv0) ex_mb "hand" "hand" v0 = Ok J /\ sJacobian ex_mb ex_m J = UB.
Proof.
  pose proof (proj1 (C78_objects_fit _ ex_mb (mkV3 1 2 3) "hand" 2 ex_J ex_wf ltac:(apply Nat.ltb_lt; reflexivity) eq_refl) ex_J_ctor) as F.
  split; [exact F|]. split.
  { destruct (C78_jacobians ex_mb ex_m ex_J ex_wf F) as ((G & _) & _). destruct (G (conj ex_pos ex_sub)) as (-> & H). exact H. }
  split. { destruct (C78_jacobians ex_mb (with_bodyPosW [ptid] ex_m) ex_J ex_wf F) as ((_ & G) & _). apply G. intros (P & _). discriminate P. }
  split. { destruct (C78_normal_accelerations_refuted ex_mb (with_jointVelocity [] ex_m) ex_J ex_wf F eq_refl eq_refl) as (H & _). apply H; [reflexivity|split; reflexivity|reflexivity]. }
  eexists. split; [reflexivity|]. eapply (C78_same_body_refuted (fun _ _ => sv0) ex_mb ex_m "hand" v0 2); [reflexivity|reflexivity|exact ex_pos|exact ex_vel|exact ex_sub].
Qed.

(** C79: the objects for centres of mass and momenta the constructors give have the sizes of
    the robot. *)
Theorem C79_objects_fit : forall mb w, wf_mb mb ->
  (forall c, comj_of mb w c -> comj_fits mb c) /\
  ((0 < total_mass_of mb)%R -> forall c, comd_of mb w c -> comd_fits mb c) /\
  (forall c, cmm_of mb w c -> cmm_fits mb c).
Proof.
  intros mb w W. split; [exact (fun c => comj_of_fits mb w c W)|]. split; [exact (fun TM c => comd_of_fits mb w c W TM)|exact (fun c => cmm_of_fits mb w c W)].
Qed.
Print Assumptions C79_objects_fit.
(** C79: centre of mass, its velocity and acceleration. *)
Theorem C79_centre_of_mass : forall mb m, wf_mb mb -> (0 < total_mass_of mb)%R ->
  guarded (pos_sized mb m) (sComputeCoM mb m) (computeCoM mb m) /\
  guarded (pos_sized mb m /\ vel_sized mb m) (sComputeCoMVelocity mb m) (computeCoMVelocity mb m) /\
  guarded (pos_sized mb m /\ vel_sized mb m /\ acc_sized mb m) (sComputeCoMAcceleration mb m) (computeCoMAcceleration mb m).
Proof. exact safe_com_guarded. Qed.
Print Assumptions C79_centre_of_mass.
(** C79: centroidal momentum and its derivative. *)
Theorem C79_momentum : forall mb m com comDot, wf_mb mb ->
  guarded (pos_sized mb m /\ vel_sized mb m) (sComputeCentroidalMomentum mb m com) (computeCentroidalMomentum mb m com) /\
  guarded (pos_sized mb m /\ vel_sized mb m /\ acc_sized mb m) (sComputeCentroidalMomentumDot mb m com comDot) (computeCentroidalMomentumDot mb m com comDot).
Proof. exact safe_momentum_guarded. Qed.
Print Assumptions C79_momentum.
(** C79: the two CoM Jacobians; the objects keep the sizes of the robot. *)
Theorem C79_com_jacobian_dummy : forall mb m c, wf_mb mb -> comd_fits mb c ->
  (guarded (pos_sized mb m /\ subspace_sized mb m) (comd_sJacobian mb m c) (comd_jacobian mb m c) /\ returns (comd_fits mb) (comd_sJacobian mb m c)) /\
  (guarded (pos_sized mb m /\ vel_sized mb m /\ subspace_sized mb m) (comd_sJacobianDot mb m c) (comd_jacobianDot mb m c) /\
   returns (comd_fits mb) (comd_sJacobianDot mb m c)).
Proof. exact safe_comd_guarded. Qed.
Print Assumptions C79_com_jacobian_dummy.
Theorem C79_com_jacobian : forall mb m c, wf_mb mb -> comj_fits mb c ->
  (guarded (pos_sized mb m /\ subspace_sized mb m) (comj_sJacobian mb m c) (comj_jacobian mb m c) /\ returns (comj_fits mb) (comj_sJacobian mb m c)) /\
  (guarded (pos_sized mb m /\ vel_sized mb m /\ subspace_sized mb m) (comj_sJacobianDot mb m c) (comj_jacobianDot mb m c) /\
   returns (comj_fits mb) (comj_sJacobianDot mb m c)) /\
  guarded (pos_sized mb m /\ vel_sized mb m) (comj_sVelocity mb m c) (comj_velocity mb m c) /\
  (forall acc, guarded (pos_sized mb m /\ vel_sized mb m /\ length acc = nrBodies mb)
     (comj_sNormalAcceleration_pre mb m acc c) (comj_normalAcceleration_pre mb m acc c)).
Proof. exact safe_comj_guarded. Qed.
Print Assumptions C79_com_jacobian.
(** C79: the inertial parameters are read again from a robot with as many bodies; any other
    robot is rejected. *)
Theorem C79_update_inertias : forall mb mb' c, wf_mb mb -> comj_fits mb c -> total_mass_of mb <> 0%R ->
  (exists c', sUpdateInertialParameters mb c = Ok c' /\ updateInertialParameters mb c = Ok c' /\ comj_fits mb c') /\
  (nrBodies mb' <> nrBodies mb -> sUpdateInertialParameters mb' c = Throw DomainError).
Proof. exact safe_upd_guarded. Qed.
Print Assumptions C79_update_inertias.
(** C79: the momentum matrix. *)
Theorem C79_momentum_matrix : forall mb m com comDot c, wf_mb mb -> cmm_fits mb c ->
  (guarded (pos_sized mb m /\ subspace_sized mb m) (sComputeMatrix mb m com c) (computeMatrix mb m com c) /\ returns (cmm_fits mb) (sComputeMatrix mb m com c)) /\
  (guarded (pos_sized mb m /\ vel_sized mb m /\ subspace_sized mb m) (sComputeMatrixDot mb m com comDot c) (computeMatrixDot mb m com comDot c) /\
   returns (cmm_fits mb) (sComputeMatrixDot mb m com comDot c)) /\
  (guarded (pos_sized mb m /\ vel_sized mb m /\ subspace_sized mb m) (sComputeMatrixAndMatrixDot mb m com comDot c) (computeMatrixAndMatrixDot mb m com comDot c) /\
   returns (cmm_fits mb) (sComputeMatrixAndMatrixDot mb m com comDot c)) /\
  guarded (pos_sized mb m /\ vel_sized mb m) (sMomentum mb m com c) (cmm_momentum mb m com c) /\
  (forall acc, guarded (pos_sized mb m /\ vel_sized mb m /\ length acc = nrBodies mb)
     (sNormalMomentumDot_pre mb m com comDot acc c) (normalMomentumDot_pre mb m com comDot acc c)).
Proof. exact safe_cmm_guarded. Qed.
Print Assumptions C79_momentum_matrix.
(** C79: normal accelerations and momenta computed along the tree, when the joint velocities
    have the size of the robot. Missing: nothing checks that they have. *)
Theorem C79_normal_terms_partial : forall mb m com comDot, wf_mb mb -> jvel_sized mb m ->
  (forall c, comj_fits mb c ->
   guarded (pos_sized mb m /\ vel_sized mb m /\ jconf_sized mb m /\ tree_sized mb m) (comj_sNormalAcceleration mb m c) (comj_normalAcceleration mb m c) /\
   returns (fun r => comj_fits mb (snd r)) (comj_sNormalAcceleration mb m c)) /\
  (forall c, cmm_fits mb c ->
   guarded (pos_sized mb m /\ vel_sized mb m /\ jconf_sized mb m /\ tree_sized mb m) (sNormalMomentumDot mb m com comDot c) (normalMomentumDot mb m com comDot c) /\
   returns (fun r => cmm_fits mb (snd r)) (sNormalMomentumDot mb m com comDot c)).
Proof.
  intros mb m com comDot W JV. split; [exact (fun c F => safe_comj_nacc_guarded mb m c W F JV)|exact (fun c F => safe_cmm_nmd_guarded mb m com comDot c W F JV)].
Qed.
Print Assumptions C79_normal_terms_partial.
(** C79, refuted: with every checked vector of the right size and no joint velocities, they
    read outside the joint velocities. *)
Theorem C79_normal_terms_refuted : forall mb m com comDot, wf_mb mb -> 0 < nrBodies mb ->
  pos_sized mb m -> vel_sized mb m -> jconf_sized mb m -> tree_sized mb m -> jointVelocity m = [] ->
  (forall c, comj_sNormalAcceleration mb m c = UB) /\ (forall c, sNormalMomentumDot mb m com comDot c = UB).
Proof.
  intros mb m com comDot W NZ P V C T E. split; intro c; [exact (safe_comj_nacc_UB mb m c W NZ P V C T E)|exact (safe_cmm_nmd_UB mb m com comDot c W NZ P V C T E)].
Qed.
Print Assumptions C79_normal_terms_refuted.
(** C79: inverse statics. *)
Theorem C79_statics : forall mb f m, wf_mb mb -> length f = nrBodies mb ->
  guarded (jacc_sized mb m /\ force_sized mb m /\ jconf_sized mb m /\ jvel_sized mb m /\ pos_sized mb m /\ tree_sized mb m /\
           vel_sized mb m /\ subspace_sized mb m /\ acc_sized mb m /\ torque_sized mb m)
    (sInverseStatics mb f m) (inverseStatics mb f m).
Proof. exact safe_is_guarded. Qed.
Print Assumptions C79_statics.
(** C79: the identification matrix. *)
Theorem C79_identification : forall mb m Y, wf_mb mb -> idim_of mb Y ->
  guarded (tree_sized mb m /\ vel_sized mb m /\ subspace_sized mb m /\ acc_sized mb m) (sComputeY mb m Y) (computeY mb m Y) /\
  returns (idim_of mb) (sComputeY mb m Y).
Proof. exact safe_y_guarded. Qed.
Print Assumptions C79_identification.
(** C79: the converter, for configurations of the source robot. *)
Theorem C79_converter_partial : forall from to_ cc mf mt, constructed from -> constructed to_ -> distinct_names from -> distinct_names to_ -> 0 < nrJoints from ->
  CC_sConstructor from to_ = Ok cc -> shaped from mf -> guarded (same_counts mf mt) (CC_sConvert cc mf mt) (CC_convert cc mf mt).
Proof. exact safe_convert_guarded. Qed.
Print Assumptions C79_converter_partial.
(** C79, refuted: two configurations that are both too short have the same counts and are
    converted, outside their vectors. *)
Theorem C79_converter_refuted : exists from cc m, constructed from /\ distinct_names from /\ CC_sConstructor from from = Ok cc /\ CC_sConvert cc m m = UB.
Proof.
  destruct convert_short_UB as (cc & E1 & E2). exists ex_mb, cc, (with_q [] ex_m).
  split; [exists ex_bodies, ex_joints, ex_pred, ex_succ, ex_pred, ex_Xt; split; reflexivity|]. split; [split; repeat constructor; simpl; intuition discriminate|]. auto.
Qed.
Print Assumptions C79_converter_refuted.
Example C79_applies : exists cj cd cm,
  CoMJ_ctor ex_garbage (fun _ _ _ => 7%R) ex_mb = Ok cj /\ CoMD_ctor (fun _ _ _ => sv0) (fun _ _ _ => 7%R) ex_mb = Ok cd /\
  CMM_ctor (fun _ _ _ => sv0) (fun _ _ _ => 7%R) ex_mb = Ok cm /\ comj_fits ex_mb cj /\ comd_fits ex_mb cd /\ cmm_fits ex_mb cm /\
  (exists c, comj_sJacobian ex_mb ex_m cj = Ok c) /\ (exists c, comd_sJacobian ex_mb ex_m cd = Ok c) /\
  comj_sJacobian ex_mb (with_bodyPosW [] ex_m) cj = Throw DomainError /\
  comj_sNormalAcceleration ex_mb (with_jointVelocity [] ex_m) cj = UB.
Proof.
  destruct (CoMJ_ctor_ok ex_garbage (fun _ _ _ => 7%R) ex_mb ex_wf ex_tm0) as (cj & E1 & H1).
  destruct (CoMD_ctor_ok (fun _ _ _ => sv0) (fun _ _ _ => 7%R) ex_mb ex_wf ex_names) as (cd & E2 & H2).
  destruct (CMM_ctor_ok (fun _ _ _ => sv0) (fun _ _ _ => 7%R) ex_mb ex_wf ex_names) as (cm & E3 & H3).
  exists cj, cd, cm. do 3 (split; [assumption|]).
  destruct (C79_objects_fit ex_mb (repeat 1%R (nrBodies ex_mb)) ex_wf) as (F1 & F2 & F3).
  specialize (F1 cj H1). specialize (F2 ex_tm cd H2). specialize (F3 cm H3). do 3 (split; [assumption|]).
  split. { destruct (C79_com_jacobian ex_mb ex_m cj ex_wf F1) as (((G & _) & _) & _). destruct (G (conj ex_pos ex_sub)) as (-> & H). exact H. }
  split. { destruct (C79_com_jacobian_dummy ex_mb ex_m cd ex_wf F2) as (((G & _) & _) & _). destruct (G (conj ex_pos ex_sub)) as (-> & H). exact H. }
  split. { destruct (C79_com_jacobian ex_mb (with_bodyPosW [] ex_m) cj ex_wf F1) as (((_ & G) & _) & _). apply G. intros (P & _). discriminate P. }
  apply (C79_normal_terms_refuted ex_mb (with_jointVelocity [] ex_m) v0 v0 ex_wf); try reflexivity; [apply Nat.ltb_lt; reflexivity|split; reflexivity].
Qed.
