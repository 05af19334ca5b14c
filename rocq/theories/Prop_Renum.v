(** C98: results do not depend on how the bodies are numbered. *)
From Coq Require Import Reals String ZArith Bool Arith List Lra.
From Verif Require Import Res Vec Sva Mat JointM MultiBodyM KinM DynM CoMM MomM JacM Spec SpecDyn SpecJac SpecCoM SpecRenum Ex DynExP SolveP JacExP RenumTopP RenumJacP RenumMatP RenumIdP
  RenumExP.
Import ListNotations.
Open Scope R_scope.

(** C98: with the bodies and joints of the same robot in the same state numbered in another way, every body has the same
    pose, velocity and acceleration, and the centre of mass and the momentum and their derivatives are the same. *)
Theorem C98_kinematics : forall s mb mb' m0 m0', wf_mb mb -> wf_mb mb' -> mbc_ok mb m0 -> mbc_ok mb' m0' ->
  renumbered s mb mb' -> renumbered_state s mb m0 m0' ->
  exists m m', after_kinematics mb m0 m /\ after_kinematics mb' m0' m' /\
    (forall i, (i < nrBodies mb)%nat -> nth (s i) (bodyPosW m') ptid = nth i (bodyPosW m) ptid /\
       nth (s i) (bodyVelB m') sv0 = nth i (bodyVelB m) sv0 /\ nth (s i) (bodyVelW m') sv0 = nth i (bodyVelW m) sv0) /\
    computeCoM mb' m' = computeCoM mb m /\ computeCoMVelocity mb' m' = computeCoMVelocity mb m /\
    (forall com, computeCentroidalMomentum mb' m' com = computeCentroidalMomentum mb m com) /\
    forall A0, exists n n', forwardAcceleration mb m A0 = Ok n /\ forwardAcceleration mb' m' A0 = Ok n' /\
      (forall i, (i < nrBodies mb)%nat -> nth (s i) (bodyAccB n') sv0 = nth i (bodyAccB n) sv0) /\
      computeCoMAcceleration mb' n' = computeCoMAcceleration mb n /\
      forall com v, computeCentroidalMomentumDot mb' n' com v = computeCentroidalMomentumDot mb n com v.
Proof. exact renum_kinematics. Qed.
Print Assumptions C98_kinematics.
Example C98_kinematics_applies : wf_mb ex_mb /\ wf_mb exrn_mb /\ mbc_ok ex_mb exrn_m /\ mbc_ok exrn_mb exrn_m' /\
  renumbered exrn_s ex_mb exrn_mb /\ renumbered_state exrn_s ex_mb exrn_m exrn_m' /\
  mb_pred ex_mb = [-1; 0; 1; 0]%Z /\ mb_pred exrn_mb = [-1; 0; 0; 2]%Z.
Proof.
  split; [exact ex_wf|]. split; [exact exrn_wf|]. split; [exact exrn_ok|]. split; [exact exrn_ok'|]. split; [exact exrn_renumbered|].
  split; [exact exrn_state|]. split; reflexivity.
Qed.
(** ... inverse dynamics gives every joint the same torque, and the entries of the bias and of the mass matrix are the same,
    at the places of the joints in the new order. *)
Theorem C98_dynamics : forall s mb mb' m0 m m0' m' f f' o o', wf_mb mb -> wf_mb mb' -> rigid_mb mb -> mbc_ok mb m0 -> config_ok mb m0 -> mbc_ok mb' m0' ->
  renumbered s mb mb' -> renumbered_state s mb m0 m0' -> after_kinematics mb m0 m -> after_kinematics mb' m0' m' ->
  length f = nrBodies mb -> length f' = nrBodies mb' -> fd_ok mb o -> fd_ok mb' o' ->
  exists g n g' n' h h' d d', inverseDynamics mb f m = Ok (g, n) /\ inverseDynamics mb' f' m' = Ok (g', n') /\
    computeH mb m o = Ok h /\ computeH mb' m' o' = Ok h' /\ computeC mb m o = Ok d /\ computeC mb' m' o' = Ok d' /\
    forall i, (i < nrBodies mb)%nat -> nth (s i) (jointTorque n') [] = nth i (jointTorque n) [] /\
      forall a, (a < dofi mb i)%nat ->
        nth (pos mb' (s i) + a) (fd_C d') 0 = nth (pos mb i + a) (fd_C d) 0 /\
        forall j b, (j < nrBodies mb)%nat -> (b < dofi mb j)%nat ->
          ment (fd_H h') (pos mb' (s i) + a) (pos mb' (s j) + b) = ment (fd_H h) (pos mb i + a) (pos mb j + b).
Proof. exact renum_dynamics. Qed.
Print Assumptions C98_dynamics.
Example C98_dynamics_applies : rigid_mb ex_mb /\ config_ok ex_mb exrn_m /\ fd_ok ex_mb ex_fd /\ length ex_f = nrBodies exrn_mb /\
  map (pos ex_mb) [0; 1; 2; 3]%nat = [0; 6; 7; 8]%nat /\ map (fun i => pos exrn_mb (exrn_s i)) [0; 1; 2; 3]%nat = [0; 9; 10; 6]%nat.
Proof. split; [exact ex_rigid|]. split; [exact exrn_config|]. split; [exact ex_fd_ok|]. repeat split. Qed.
(** ... and forward dynamics gives every joint the same acceleration. *)
Theorem C98_forward_dynamics : forall s mb mb' m0 m m0' m' solve o o', wf_mb mb -> wf_mb mb' -> rigid_mb mb -> mbc_ok mb m0 -> config_ok mb m0 -> mbc_ok mb' m0' ->
  renumbered s mb mb' -> renumbered_state s mb m0 m0' ->
  (forall i, (i < nrBodies mb)%nat -> nth (s i) (jointTorque m0') [] = nth i (jointTorque m0) []) ->
  after_kinematics mb m0 m -> after_kinematics mb' m0' m' -> fd_ok mb o -> fd_ok mb' o' ->
  (forall b, In b (mb_bodies mb) -> inertia_pd (binertia b)) -> solver_ok solve ->
  exists h n h' n', forwardDynamics solve mb m o = Ok (h, n) /\ forwardDynamics solve mb' m' o' = Ok (h', n') /\
    forall i, (i < nrBodies mb)%nat -> nth (s i) (alphaD n') [] = nth i (alphaD n) [].
Proof. exact renum_forward. Qed.
Print Assumptions C98_forward_dynamics.
Example C98_forward_dynamics_applies : (forall i, (i < nrBodies ex_mb)%nat -> nth (exrn_s i) (jointTorque exrn_m') [] = nth i (jointTorque exrn_m) []) /\
  solver_ok lsolve /\ forall b, In b (mb_bodies ex_mb) -> inertia_pd (binertia b).
Proof. split; [exact exrn_torque|]. split; [exact lsolve_ok|exact ex_pd]. Qed.
(** ... and the Jacobian of the same body and point has the same columns, as have its derivative and both in body axes; the
    velocity and the normal acceleration of the point are the same, and the path goes through the same joints. *)
Theorem C98_jacobian : forall s mb mb' m0 m m0' m', wf_mb mb -> wf_mb mb' -> rigid_mb mb -> mbc_ok mb m0 -> config_ok mb m0 -> mbc_ok mb' m0' ->
  renumbered s mb mb' -> renumbered_state s mb m0 m0' -> after_kinematics mb m0 m -> after_kinematics mb' m0' m' ->
  forall i p J J', jacobian_of mb i p J -> jacobian_of mb' (s i) p J' ->
  jc_path J' = map s (jc_path J) /\
  velocity m' J' = velocity m J /\ bodyVelocity m' J' = bodyVelocity m J /\
  normalAcceleration m' J' = normalAcceleration m J /\ bodyNormalAcceleration m' J' = bodyNormalAcceleration m J /\
  exists J1 J1' J2 J2' J3 J3' J4 J4',
    jacobian mb m J = Ok J1 /\ jacobian mb' m' J' = Ok J1' /\ jc_jac J1' = jc_jac J1 /\
    bodyJacobian mb m J = Ok J2 /\ bodyJacobian mb' m' J' = Ok J2' /\ jc_jac J2' = jc_jac J2 /\
    jacobianDot mb m J = Ok J3 /\ jacobianDot mb' m' J' = Ok J3' /\ jc_dot J3' = jc_dot J3 /\
    bodyJacobianDot mb m J = Ok J4 /\ bodyJacobianDot mb' m' J' = Ok J4' /\ jc_dot J4' = jc_dot J4.
Proof. exact renum_jacobian. Qed.
Print Assumptions C98_jacobian.
Example C98_jacobian_applies : exists J', Jacobian_ctor (fun _ _ => sv0) ex_mb "hand"%string (mkV3 1 2 3) = Ok ex_J /\ jacobian_of ex_mb 2 (mkV3 1 2 3) ex_J /\
  Jacobian_ctor (fun _ _ => sv0) exrn_mb "hand"%string (mkV3 1 2 3) = Ok J' /\ jacobian_of exrn_mb (exrn_s 2) (mkV3 1 2 3) J' /\
  jc_path ex_J = [0; 1; 2]%nat /\ jc_path J' = [0; 2; 3]%nat.
Proof. exact exrn_J. Qed.
(** ... and the matrices of CoMJacobian and of CentroidalMomentumMatrix and their derivatives, with the same weights of the
    bodies, have the same columns, at the places of the joints in the new order. *)
Theorem C98_com_jacobian : forall s mb mb' m0 m m0' m', wf_mb mb -> wf_mb mb' -> rigid_mb mb -> mbc_ok mb m0 -> config_ok mb m0 -> mbc_ok mb' m0' ->
  renumbered s mb mb' -> renumbered_state s mb m0 m0' -> after_kinematics mb m0 m -> after_kinematics mb' m0' m' ->
  forall w w', (forall i, (i < nrBodies mb)%nat -> nth (s i) w' 0 = nth i w 0) ->
  forall c c', comj_of mb w c -> comj_of mb' w' c' ->
  exists c1 c1' c2 c2', comj_jacobian mb m c = Ok c1 /\ comj_jacobian mb' m' c' = Ok c1' /\
    comj_jacobianDot mb m c = Ok c2 /\ comj_jacobianDot mb' m' c' = Ok c2' /\
    forall r i a, (r < 3)%nat -> (i < nrBodies mb)%nat -> (a < dofi mb i)%nat ->
      ment (cj_jac c1') r (pos mb' (s i) + a) = ment (cj_jac c1) r (pos mb i + a) /\
      ment (cj_dot c2') r (pos mb' (s i) + a) = ment (cj_dot c2) r (pos mb i + a).
Proof. exact renum_com_jacobian. Qed.
Print Assumptions C98_com_jacobian.
Example C98_com_jacobian_applies : (forall i, (i < nrBodies ex_mb)%nat -> nth (exrn_s i) [1; 4; 2; 3] 0 = nth i [1; 2; 3; 4] 0) /\
  exists c c', CoMJ_ctor_w ex_garbage (fun _ _ _ => 0) ex_mb [1; 2; 3; 4] = Ok c /\ comj_of ex_mb [1; 2; 3; 4] c /\
    CoMJ_ctor_w ex_garbage (fun _ _ _ => 0) exrn_mb [1; 4; 2; 3] = Ok c' /\ comj_of exrn_mb [1; 4; 2; 3] c'.
Proof. split; [exact exrn_weights|exact exrn_comj]. Qed.
Theorem C98_momentum_matrix : forall s mb mb' m0 m m0' m', wf_mb mb -> wf_mb mb' -> rigid_mb mb -> mbc_ok mb m0 -> config_ok mb m0 -> mbc_ok mb' m0' ->
  renumbered s mb mb' -> renumbered_state s mb m0 m0' -> after_kinematics mb m0 m -> after_kinematics mb' m0' m' ->
  forall w w', (forall i, (i < nrBodies mb)%nat -> nth (s i) w' 0 = nth i w 0) ->
  forall com v c c', cmm_of mb w c -> cmm_of mb' w' c' ->
  exists c1 c1' c2 c2', computeMatrix mb m com c = Ok c1 /\ computeMatrix mb' m' com c' = Ok c1' /\
    computeMatrixDot mb m com v c = Ok c2 /\ computeMatrixDot mb' m' com v c' = Ok c2' /\
    forall r i a, (r < 6)%nat -> (i < nrBodies mb)%nat -> (a < dofi mb i)%nat ->
      ment (cm_mat c1') r (pos mb' (s i) + a) = ment (cm_mat c1) r (pos mb i + a) /\
      ment (cm_dot c2') r (pos mb' (s i) + a) = ment (cm_dot c2) r (pos mb i + a).
Proof. exact renum_momentum_matrix. Qed.
Print Assumptions C98_momentum_matrix.
Example C98_momentum_matrix_applies : exists c c', CMM_ctor_w (fun _ _ _ => sv0) (fun _ _ _ => 7) ex_mb [1; 2; 3; 4] = Ok c /\ cmm_of ex_mb [1; 2; 3; 4] c /\
  CMM_ctor_w (fun _ _ _ => sv0) (fun _ _ _ => 7) exrn_mb [1; 4; 2; 3] = Ok c' /\ cmm_of exrn_mb [1; 4; 2; 3] c'.
Proof. exact exrn_cmm. Qed.
(** ... and so are the torques of the external forces alone. *)
Theorem C98_no_inertia : forall s mb mb' m0 m m0' m' f f', wf_mb mb -> wf_mb mb' -> mbc_ok mb m0 -> mbc_ok mb' m0' ->
  renumbered s mb mb' -> renumbered_state s mb m0 m0' -> after_kinematics mb m0 m -> after_kinematics mb' m0' m' ->
  length f = nrBodies mb -> length f' = nrBodies mb' ->
  exists g n g' n', inverseDynamicsNoInertia mb f m = Ok (g, n) /\ inverseDynamicsNoInertia mb' f' m' = Ok (g', n') /\
    forall i, (i < nrBodies mb)%nat -> nth (s i) (jointTorque n') [] = nth i (jointTorque n) [].
Proof. exact renum_no_inertia. Qed.
Print Assumptions C98_no_inertia.
Example C98_no_inertia_applies : exists m m', after_kinematics ex_mb exrn_m m /\ after_kinematics exrn_mb exrn_m' m' /\
  length ex_f = nrBodies ex_mb /\ length ex_f = nrBodies exrn_mb /\ force exrn_m = ex_forces.
Proof.
  destruct (renum_kinematics _ _ _ _ _ ex_wf exrn_wf exrn_ok exrn_ok' exrn_renumbered exrn_state) as (m & m' & A & A' & _).
  exists m, m'. split; [exact A|]. split; [exact A'|]. repeat split.
Qed.
