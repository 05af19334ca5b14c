(** C99: turning a joint around changes the sign of its coordinate and nothing else. *)
From Coq Require Import Reals String ZArith Bool Arith List.
From Verif Require Import Res SMap Vec Sva Mat JointM MultiBodyM KinM DynM CoMM MomM JacM Spec SpecDyn SpecJac SpecHold SpecTurn Ex DynExP SolveP JacExP
  TurnTopP TurnJacP TurnMomP TurnExP.
Import ListNotations.
Open Scope R_scope.

(** C99: a robot some of whose revolute, prismatic or cylindrical joints are built with the other direction, in the state
    in which the coordinates of these joints have the other sign, has the same poses, velocities, accelerations and centre
    of mass. *)
Theorem C99_kinematics : forall t mb mb' m0 m0', wf_mb mb -> wf_mb mb' -> same_tree mb mb' -> mbc_ok mb m0 -> mbc_ok mb' m0' -> turned_state t mb m0 mb' m0' ->
  exists m m', after_kinematics mb m0 m /\ after_kinematics mb' m0' m' /\
    bodyPosW m' = bodyPosW m /\ bodyVelB m' = bodyVelB m /\ bodyVelW m' = bodyVelW m /\
    computeCoM mb' m' = computeCoM mb m /\ computeCoMVelocity mb' m' = computeCoMVelocity mb m /\
    forall A0, exists n n', forwardAcceleration mb m A0 = Ok n /\ forwardAcceleration mb' m' A0 = Ok n' /\ bodyAccB n' = bodyAccB n.
Proof. exact turned_kinematics. Qed.
Print Assumptions C99_kinematics.
Example C99_kinematics_applies : wf_mb ex_mb /\ wf_mb ext_mb /\ same_tree ex_mb ext_mb /\ mbc_ok ex_mb ext_m /\ mbc_ok ext_mb ext_m' /\
  turned_state ext_t ex_mb ext_m ext_mb ext_m' /\
  jfwd (nth 1 (mb_joints ex_mb) jd) = true /\ jfwd (nth 1 (mb_joints ext_mb) jd) = false /\ ext_t 1 = true /\ ext_t 3 = false.
Proof.
  split; [exact ex_wf|]. split; [exact ext_wf|]. split; [exact ext_tree|]. split; [exact ext_ok|]. split; [exact ext_ok'|].
  split; [exact ext_turned|exact ext_moves].
Qed.
(** ... the torques and the bias forces of the turned joints change sign, and an entry of the mass matrix changes sign
    when exactly one of its two joints is turned. *)
Theorem C99_dynamics : forall t mb mb' m0 m m0' m' f f' s s', wf_mb mb -> wf_mb mb' -> rigid_mb mb -> same_tree mb mb' ->
  mbc_ok mb m0 -> config_ok mb m0 -> mbc_ok mb' m0' -> turned_state t mb m0 mb' m0' ->
  after_kinematics mb m0 m -> after_kinematics mb' m0' m' ->
  length f = nrBodies mb -> length f' = nrBodies mb' -> fd_ok mb s -> fd_ok mb' s' ->
  exists g n g' n' h h' c c', inverseDynamics mb f m = Ok (g, n) /\ inverseDynamics mb' f' m' = Ok (g', n') /\
    computeH mb m s = Ok h /\ computeH mb' m' s' = Ok h' /\ computeC mb m s = Ok c /\ computeC mb' m' s' = Ok c' /\
    bodyAccB n' = bodyAccB n /\ g' = g /\
    forall i, (i < nrBodies mb)%nat ->
      nth i (jointTorque n') [] = map (Rmult (sgn (t i))) (nth i (jointTorque n) []) /\
      (forall a, (a < dofi mb i)%nat -> nth (pos mb' i + a) (fd_C c') 0 = sgn (t i) * nth (pos mb i + a) (fd_C c) 0) /\
      (forall j a b, (j < nrBodies mb)%nat -> (a < dofi mb i)%nat -> (b < dofi mb j)%nat ->
         ment (fd_H h') (pos mb' i + a) (pos mb' j + b) = sgn (t i) * sgn (t j) * ment (fd_H h) (pos mb i + a) (pos mb j + b)).
Proof. exact turned_dynamics. Qed.
Print Assumptions C99_dynamics.
Example C99_dynamics_applies : rigid_mb ex_mb /\ config_ok ex_mb ext_m /\ turned_state ext_t ex_mb ext_m ext_mb ext_m' /\
  mb_nrDof ex_mb = 11%nat /\ mb_nrDof ext_mb = 11%nat.
Proof. split; [exact ex_rigid|]. split; [exact ext_config|]. split; [exact ext_turned|]. split; reflexivity. Qed.
(** ... and, with the torques of the turned joints of the other sign, forwardDynamics gives their accelerations the other
    sign and leaves the others as they are. *)
Theorem C99_forward_dynamics : forall t mb mb' m0 m m0' m' solve o o', wf_mb mb -> wf_mb mb' -> rigid_mb mb -> same_tree mb mb' ->
  mbc_ok mb m0 -> config_ok mb m0 -> mbc_ok mb' m0' -> turned_state t mb m0 mb' m0' ->
  (forall i, (i < nrBodies mb)%nat -> nth i (jointTorque m0') [] = map (Rmult (sgn (t i))) (nth i (jointTorque m0) [])) ->
  after_kinematics mb m0 m -> after_kinematics mb' m0' m' -> fd_ok mb o -> fd_ok mb' o' ->
  (forall b, In b (mb_bodies mb) -> inertia_pd (binertia b)) -> solver_ok solve ->
  exists h n h' n', forwardDynamics solve mb m o = Ok (h, n) /\ forwardDynamics solve mb' m' o' = Ok (h', n') /\
    forall i, (i < nrBodies mb)%nat -> nth i (alphaD n') [] = map (Rmult (sgn (t i))) (nth i (alphaD n) []).
Proof. exact turned_forward. Qed.
Print Assumptions C99_forward_dynamics.
Example C99_forward_dynamics_applies : mbc_ok ex_mb ext_f /\ mbc_ok ext_mb ext_f' /\ turned_state ext_t ex_mb ext_f ext_mb ext_f' /\ config_ok ex_mb ext_f /\
  (forall i, (i < nrBodies ex_mb)%nat -> nth i (jointTorque ext_f') [] = map (Rmult (sgn (ext_t i))) (nth i (jointTorque ext_f) [])) /\
  solver_ok lsolve /\ forall b, In b (mb_bodies ex_mb) -> inertia_pd (binertia b).
Proof.
  destruct ext_f_ok as (A & B & C & D). split; [exact A|]. split; [exact B|]. split; [exact C|]. split; [exact D|].
  split; [exact ext_torque|]. split; [exact lsolve_ok|exact ex_pd].
Qed.
(** ... and in the Jacobian of the same body and point, in its derivative and in both in body axes, the columns of the turned
    joints change sign; the velocity and the normal acceleration of the point are the same. *)
Theorem C99_jacobian : forall t mb mb' m0 m m0' m', wf_mb mb -> wf_mb mb' -> rigid_mb mb -> same_tree mb mb' ->
  mbc_ok mb m0 -> config_ok mb m0 -> mbc_ok mb' m0' -> turned_state t mb m0 mb' m0' ->
  after_kinematics mb m0 m -> after_kinematics mb' m0' m' ->
  forall i p J J', jacobian_of mb i p J -> jacobian_of mb' i p J' ->
  jc_path J' = jc_path J /\
  velocity m' J' = velocity m J /\ bodyVelocity m' J' = bodyVelocity m J /\
  normalAcceleration m' J' = normalAcceleration m J /\ bodyNormalAcceleration m' J' = bodyNormalAcceleration m J /\
  exists J1 J1' J2 J2' J3 J3' J4 J4',
    jacobian mb m J = Ok J1 /\ jacobian mb' m' J' = Ok J1' /\ jc_jac J1' = columns_times (path_signs t mb (jc_path J)) (jc_jac J1) /\
    bodyJacobian mb m J = Ok J2 /\ bodyJacobian mb' m' J' = Ok J2' /\ jc_jac J2' = columns_times (path_signs t mb (jc_path J)) (jc_jac J2) /\
    jacobianDot mb m J = Ok J3 /\ jacobianDot mb' m' J' = Ok J3' /\ jc_dot J3' = columns_times (path_signs t mb (jc_path J)) (jc_dot J3) /\
    bodyJacobianDot mb m J = Ok J4 /\ bodyJacobianDot mb' m' J' = Ok J4' /\ jc_dot J4' = columns_times (path_signs t mb (jc_path J)) (jc_dot J4).
Proof. exact turned_jacobian. Qed.
Print Assumptions C99_jacobian.
Example C99_jacobian_applies : exists J', Jacobian_ctor (fun _ _ => sv0) ex_mb "hand"%string (mkV3 1 2 3) = Ok ex_J /\ jacobian_of ex_mb 2 (mkV3 1 2 3) ex_J /\
  Jacobian_ctor (fun _ _ => sv0) ext_mb "hand"%string (mkV3 1 2 3) = Ok J' /\ jacobian_of ext_mb 2 (mkV3 1 2 3) J' /\
  path_signs ext_t ex_mb (jc_path ex_J) = [1; 1; 1; 1; 1; 1; -1; -1].
Proof. exact ext_J. Qed.
(** ... and the acceleration of the centre of mass, the centroidal momentum and its rate are the same. *)
Theorem C99_momentum : forall t mb mb' m0 m m0' m' A0, wf_mb mb -> wf_mb mb' -> same_tree mb mb' -> mbc_ok mb m0 -> mbc_ok mb' m0' -> turned_state t mb m0 mb' m0' ->
  after_kinematics mb m0 m -> after_kinematics mb' m0' m' ->
  exists n n', forwardAcceleration mb m A0 = Ok n /\ forwardAcceleration mb' m' A0 = Ok n' /\
    computeCoMAcceleration mb' n' = computeCoMAcceleration mb n /\
    (forall com, computeCentroidalMomentum mb' n' com = computeCentroidalMomentum mb n com) /\
    (forall com comDot, computeCentroidalMomentumDot mb' n' com comDot = computeCentroidalMomentumDot mb n com comDot).
Proof. exact turned_momentum. Qed.
Print Assumptions C99_momentum.
Example C99_momentum_applies : same_tree ex_mb ext_mb /\ turned_state ext_t ex_mb ext_m ext_mb ext_m' /\
  exists m m', after_kinematics ex_mb ext_m m /\ after_kinematics ext_mb ext_m' m'.
Proof.
  split; [exact ext_tree|]. split; [exact ext_turned|].
  destruct (turned_kinematics ext_t ex_mb ext_mb ext_m ext_m' ex_wf ext_wf ext_tree ext_ok ext_ok' ext_turned) as (m & m' & A & A' & _).
  exists m, m'. split; [exact A|exact A'].
Qed.
