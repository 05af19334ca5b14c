(** C86: an object can be used again: what a call returns depends on its arguments, not on the calls made before. *)
From Coq Require Import Reals String ZArith Bool Arith List.
From Verif Require Import Res SMap Vec Sva Mat JointM MultiBodyM KinM DynM JacM CoMM MomM CoriolisM IDIMM ISM IkM Spec SpecDyn SpecReuse
  Ex CoMExP IsExP IkExP Reuse1P Reuse2P Reuse3P Reuse4P Reuse5P Reuse6P ReuseExP.
Import ListNotations.
Open Scope R_scope.

(** C86, Jacobian: two objects made for the same body (and reference), with any uninitialised memory, after any calls on any
    configurations, give the same matrices, if their points are the same. *)
Theorem C86_jacobian : forall mb name ref J J' m, jac_history mb name ref J -> jac_history mb name ref J' -> jac_point J = jac_point J' ->
  seen jc_jac (jacobian mb m J) = seen jc_jac (jacobian mb m J') /\
  (forall X, seen jc_jac (jacobian_at mb m X J) = seen jc_jac (jacobian_at mb m X J')) /\
  seen jc_jac (bodyJacobian mb m J) = seen jc_jac (bodyJacobian mb m J') /\
  seen jc_dot (jacobianDot mb m J) = seen jc_dot (jacobianDot mb m J') /\
  seen jc_dot (bodyJacobianDot mb m J) = seen jc_dot (bodyJacobianDot mb m J').
Proof. exact jac_all. Qed.
Print Assumptions C86_jacobian.
Theorem C86_jacobian_vectors : forall mb name ref J J' m, jac_history mb name ref J -> jac_history mb name ref J' -> jac_point J = jac_point J' ->
  velocity m J = velocity m J' /\ bodyVelocity m J = bodyVelocity m J' /\
  normalAcceleration m J = normalAcceleration m J' /\ bodyNormalAcceleration m J = bodyNormalAcceleration m J' /\
  subMultiBody mb J = subMultiBody mb J' /\ jac_dof J = jac_dof J' /\
  forall jac r, fullJacobian mb J jac r = fullJacobian mb J' jac r.
Proof. exact jac_pure. Qed.
Print Assumptions C86_jacobian_vectors.
(** Of vectorJacobian and vectorBodyJacobian, the linear rows only: the angular rows are left from the calls before, below. *)
Theorem C86_vector_jacobian_partial : forall mb name ref J J' m v, jac_history mb name ref J -> jac_history mb name ref J' -> jac_point J = jac_point J' ->
  seen (fun J => map slin (jc_jac J)) (vectorJacobian mb m v J) = seen (fun J => map slin (jc_jac J)) (vectorJacobian mb m v J') /\
  seen (fun J => map slin (jc_jac J)) (vectorBodyJacobian mb m v J) = seen (fun J => map slin (jc_jac J)) (vectorBodyJacobian mb m v J').
Proof. exact jac_vec. Qed.
Print Assumptions C86_vector_jacobian_partial.
Theorem C86_vector_jacobian_refuted : exists mb m name J J' K K' v, wf_mb mb /\ mbc_ok mb m /\
  jac_history mb name None J /\ jac_history mb name None J' /\ jac_point J = jac_point J' /\
  vectorJacobian mb m v J = Ok K /\ vectorJacobian mb m v J' = Ok K' /\ map sang (jc_jac K) <> map sang (jc_jac K').
Proof. exact stale_vector. Qed.
Print Assumptions C86_vector_jacobian_refuted.
Example C86_jacobian_applies : exists J J', jac_history ex_mb "hand"%string None J /\ jac_call ex_mb JacExP.ex_J J /\ jac_history ex_mb "hand"%string None J' /\ jac_point J = jac_point J'.
Proof. exact used_jac. Qed.

(** C86, InverseDynamics. *)
Theorem C86_inverse_dynamics : forall mb f f' m, id_history mb f -> id_history mb f' ->
  seen snd (inverseDynamics mb f m) = seen snd (inverseDynamics mb f' m) /\
  seen snd (inverseDynamicsNoInertia mb f m) = seen snd (inverseDynamicsNoInertia mb f' m).
Proof. exact id_all. Qed.
Print Assumptions C86_inverse_dynamics.
Example C86_inverse_dynamics_applies : exists f f', id_history ex_mb f /\ id_call ex_mb f' f /\ id_history ex_mb f'.
Proof. exact used_id. Qed.

(** C86, ForwardDynamics, for torques that have as many coefficients as the robot has degrees of freedom. *)
Theorem C86_forward_dynamics_partial : forall solve mb s s' m, wf_mb mb -> (forall M b, length (solve M b) = length b) ->
  fd_history solve mb s -> fd_history solve mb s' ->
  seen fd_H (computeH mb m s) = seen fd_H (computeH mb m s') /\
  seen fd_C (computeC mb m s) = seen fd_C (computeC mb m s') /\
  (total_size (jointTorque m) = mb_nrDof mb -> seen snd (forwardDynamics solve mb m s) = seen snd (forwardDynamics solve mb m s')).
Proof. exact fd_all. Qed.
Print Assumptions C86_forward_dynamics_partial.
(** With fewer torques the others are left from the call before, or from uninitialised memory (the mass matrix is 1 here, so that the
    identity is the right solver). *)
Theorem C86_forward_dynamics_refuted : exists solve mb m s s', wf_mb mb /\ (forall M b, length (solve M b) = length b) /\ fd_history solve mb s /\ fd_history solve mb s' /\
  (forall M b, solve M b = b) /\ (exists h, computeH mb m s = Ok h /\ mb_nrDof mb = 1%nat /\ ment (fd_H h) 0 0 = 1) /\
  exists r r', forwardDynamics solve mb m s = Ok r /\ forwardDynamics solve mb m s' = Ok r' /\ alphaD (snd r) <> alphaD (snd r').
Proof. exact stale_torques. Qed.
Print Assumptions C86_forward_dynamics_refuted.
Example C86_forward_dynamics_applies : exists s s', fd_history (fun _ b => b) ex_mb s /\ fd_call (fun _ b => b) ex_mb s' s /\ fd_history (fun _ b => b) ex_mb s' /\
  total_size (jointTorque ex_m) = mb_nrDof ex_mb.
Proof. exact used_fd. Qed.

(** C86, InverseDynamicsIdentification. *)
Theorem C86_identification : forall mb m Y Y', wf_mb mb -> idim_history mb Y -> idim_history mb Y' ->
  same_outcome same_mat (computeY mb m Y) (computeY mb m Y').
Proof. exact idim_all. Qed.
Print Assumptions C86_identification.
Example C86_identification_applies : exists Y Y', idim_history ex_mb Y /\ computeY ex_mb ex_m Y' = Ok Y /\ idim_history ex_mb Y'.
Proof. exact used_idim. Qed.

(** C86, CoMJacobianDummy, and CoMJacobian with the same current weights (they can be changed by a call). *)
Theorem C86_com_dummy : forall mb w d d' m, comd_history mb w d -> comd_history mb w d' ->
  same_outcome (fun a b => same_mat (cd_jac a) (cd_jac b)) (comd_jacobian mb m d) (comd_jacobian mb m d') /\
  same_outcome (fun a b => same_mat (cd_dot a) (cd_dot b)) (comd_jacobianDot mb m d) (comd_jacobianDot mb m d').
Proof. exact comd_all. Qed.
Print Assumptions C86_com_dummy.
Theorem C86_com : forall mb c c' m, wf_mb mb -> comj_history mb c -> comj_history mb c' -> cj_weight c = cj_weight c' ->
  seen cj_jac (comj_jacobian mb m c) = seen cj_jac (comj_jacobian mb m c') /\
  seen cj_dot (comj_jacobianDot mb m c) = seen cj_dot (comj_jacobianDot mb m c') /\
  comj_velocity mb m c = comj_velocity mb m c' /\
  seen fst (comj_normalAcceleration mb m c) = seen fst (comj_normalAcceleration mb m c').
Proof. exact comj_all. Qed.
Print Assumptions C86_com.
Example C86_com_applies : exists m d d' c c', comd_history ex_mb (Some ex_w) d' /\ comd_jacobian ex_mb m d = Ok d' /\ comd_history ex_mb (Some ex_w) d /\
  comj_history ex_mb c' /\ comj_jacobian ex_mb m c = Ok c' /\ comj_history ex_mb c /\ cj_weight c = cj_weight c'.
Proof. exact used_com. Qed.

(** C86, CentroidalMomentumMatrix. *)
Theorem C86_momentum : forall mb w c c' m com comDot, wf_mb mb -> cmm_history mb w c -> cmm_history mb w c' ->
  seen cm_mat (computeMatrix mb m com c) = seen cm_mat (computeMatrix mb m com c') /\
  seen cm_dot (computeMatrixDot mb m com comDot c) = seen cm_dot (computeMatrixDot mb m com comDot c') /\
  seen (fun a => (cm_mat a, cm_dot a)) (computeMatrixAndMatrixDot mb m com comDot c) = seen (fun a => (cm_mat a, cm_dot a)) (computeMatrixAndMatrixDot mb m com comDot c') /\
  cmm_momentum mb m com c = cmm_momentum mb m com c' /\
  seen fst (normalMomentumDot mb m com comDot c) = seen fst (normalMomentumDot mb m com comDot c').
Proof. exact cmm_all. Qed.
Print Assumptions C86_momentum.
Example C86_momentum_applies : exists m c c', cmm_history ex_mb None c' /\ computeMatrix ex_mb m (mkV3 1 2 3) c = Ok c' /\ cmm_history ex_mb None c.
Proof. exact used_cmm. Qed.

(** C86, Coriolis. *)
Theorem C86_coriolis : forall mb c c' m, cor_history mb c -> cor_history mb c' ->
  same_outcome (fun a b => same_mat (co_mat a) (co_mat b)) (coriolis mb m c) (coriolis mb m c').
Proof. exact cor_all. Qed.
Print Assumptions C86_coriolis.
Example C86_coriolis_applies : exists m c c', cor_history ex_mb c' /\ coriolis ex_mb m c = Ok c' /\ cor_history ex_mb c.
Proof. exact used_cor. Qed.

(** C86, InverseStatics: the torques always; their derivatives when the widest Jacobian of the forces has the same width in all calls. *)
Theorem C86_statics : forall mb s s' m, is_history mb s -> is_history mb s' ->
  seen snd (inverseStatics mb (id_f s) m) = seen snd (inverseStatics mb (id_f s') m).
Proof. exact statics_all. Qed.
Print Assumptions C86_statics.
Theorem C86_statics_derivatives_partial : forall mb N s s' m jacs, wf_mb mb -> is_history_of N mb s -> is_history_of N mb s' ->
  list_max (map mcols jacs) = N -> length (motionSubspace m) = nrBodies mb ->
  same_outcome (fun a b => Forall2 same_mat (id_diff (fst a)) (id_diff (fst b)) /\ snd a = snd b)
    (computeTorqueJacobianJoint mb m jacs s) (computeTorqueJacobianJoint mb m jacs s').
Proof. exact is_all. Qed.
Print Assumptions C86_statics_derivatives_partial.
(** The first call fixes the width: Jacobians that a new object accepts are undefined behaviour for one that was used with narrower
    ones, for instance with constant forces. *)
Theorem C86_statics_derivatives_refuted : exists mb m jacs s s', wf_mb mb /\ mbc_ok mb m /\ is_history mb s /\ is_history mb s' /\
  computeTorqueJacobianJoint mb m jacs s = UB /\ exists r, computeTorqueJacobianJoint mb m jacs s' = Ok r.
Proof. exact stale_size. Qed.
Print Assumptions C86_statics_derivatives_refuted.
Example C86_statics_applies : exists s s', is_history_of 2 exf_mb s /\ is_history_of 2 exf_mb s' /\ is_call_of 2 exf_mb s' s /\
  list_max (map mcols wide) = 2%nat /\ length (motionSubspace (exf_M 0)) = nrBodies exf_mb.
Proof. exact used_is. Qed.

(** C86, InverseKinematics: the configuration and the flag. *)
Theorem C86_inverse_kinematics : forall svd rotErr mb ef I I' fuel target m, ik_history svd rotErr mb ef I -> ik_history svd rotErr mb ef I' ->
  seen (fun a => (snd (fst a), snd a)) (inverseKinematics svd rotErr fuel mb target I m) =
  seen (fun a => (snd (fst a), snd a)) (inverseKinematics svd rotErr fuel mb target I' m).
Proof. exact ik_all. Qed.
Print Assumptions C86_inverse_kinematics.
Example C86_inverse_kinematics_applies : exists I I' m m' b fuel target, ik_history exk_svd exk_err exk_mb 1 I /\ ik_history exk_svd exk_err exk_mb 1 I' /\
  inverseKinematics exk_svd exk_err fuel exk_mb target I' m = Ok (I, m', b).
Proof. exact used_ik. Qed.
