(** C87: the choice of the world frame does not matter. *)
From Coq Require Import Reals String ZArith Bool Arith List.
From Verif Require Import Res Vec Sva Mat JointM MultiBodyM KinM DynM JacM CoMM MomM CoriolisM IntegM GraphM SpecFrame
  VecP SvaP Ex IsExP FrameP Frame2P FrameExP.
Import ListNotations.
Open Scope R_scope.

(** C87: makeMultiBody with the root placed by X0 followed by X gives the robot of X0 seen from the new frame. *)
Theorem C87_make : forall X fuel root t axis X0 Xb s,
  makeMultiBody fuel root t axis (ptmul X0 X) Xb s = rmap (move_mb X) (makeMultiBody fuel root t axis X0 Xb s).
Proof. exact makeMultiBody_move. Qed.
Print Assumptions C87_make.

(** C87: forwardKinematics, forwardVelocity and forwardAcceleration: every robot and every configuration, whether
    the calls succeed or fail. *)
Theorem C87_kinematics : forall X mb m, rigid X ->
  forwardKinematics (move_mb X mb) (move_mbc X mb m) = rmap (move_mbc X mb) (forwardKinematics mb m) /\
  forwardVelocity (move_mb X mb) (move_mbc X mb m) = rmap (move_mbc X mb) (forwardVelocity mb m) /\
  forall A0, forwardAcceleration (move_mb X mb) (move_mbc X mb m) (new_motion X A0) =
             rmap (move_mbc X mb) (forwardAcceleration mb m A0).
Proof. intros X mb m H. split; [apply fk_move|]. split; [apply fv_move|]. intros A0. apply fa_move. exact H. Qed.
Print Assumptions C87_kinematics.
Example C87_kinematics_applies : rigid exw_X /\ rotE exw_X <> mid /\ exists m, forwardKinematics ex_mb ex_m = Ok m.
Proof. exact exw_ok. Qed.

(** C87: the torques of inverseDynamics (with its accelerations and its work vector), and of
    inverseDynamicsNoInertia. *)
Theorem C87_inverse_dynamics : forall X mb f m, rigid X ->
  inverseDynamics (move_mb X mb) f (move_mbc X mb m) =
    rmap (fun r => (fst r, move_mbc X mb (snd r))) (inverseDynamics mb f m) /\
  inverseDynamicsNoInertia (move_mb X mb) f (move_mbc X mb m) =
    rmap (fun r => (fst r, move_mbc X mb (snd r))) (inverseDynamicsNoInertia mb f m).
Proof. intros X mb f m H. split; [apply (id_move X H mb f m)|apply (idni_move X H mb f m)]. Qed.
Print Assumptions C87_inverse_dynamics.

(** C87: the mass matrix, the vector C, the accelerations found by forwardDynamics, and a whole simulation. *)
Theorem C87_forward_dynamics : forall X mb m s solve, rigid X ->
  computeH (move_mb X mb) (move_mbc X mb m) s = computeH mb m s /\
  computeC (move_mb X mb) (move_mbc X mb m) s = computeC mb m s /\
  forwardDynamics solve (move_mb X mb) (move_mbc X mb m) s =
    rmap (fun r => (fst r, move_mbc X mb (snd r))) (forwardDynamics solve mb m s).
Proof.
  intros X mb m s solve H. split; [apply computeH_move|]. split; [apply (computeC_move X H)|apply (fd_move X H mb solve m s)].
Qed.
Print Assumptions C87_forward_dynamics.
Theorem C87_simulation : forall X mb solve fuel step prec n s m, rigid X ->
  simulate solve fuel (move_mb X mb) step prec n (s, move_mbc X mb m) =
  rmap (fun r => (fst r, move_mbc X mb (snd r))) (simulate solve fuel mb step prec n (s, m)).
Proof. intros X mb solve fuel step prec n s m H. exact (simulate_move X mb solve fuel step prec H n (s, m)). Qed.
Print Assumptions C87_simulation.
Example C87_simulation_applies : exists r,
  simulate (fun _ b => b) 5 exf_mb 1 1 2 (exw_fd, exw_m) = Ok r.
Proof. exact exw_sim. Qed.

(** C87: the Jacobian of a body in its frame is the same, and so is its derivative; in the frame of the world the columns
    are turned; in the frame of a reference body they are the same. *)
Theorem C87_jacobians : forall X mb m J, rigid X ->
  bodyJacobian (move_mb X mb) (move_mbc X mb m) J = bodyJacobian mb m J /\
  bodyJacobianDot (move_mb X mb) (move_mbc X mb m) J = bodyJacobianDot mb m J /\
  ((jc_ref J <= 0)%Z -> jacobian (move_mb X mb) (move_mbc X mb m) (move_jac X J) = rmap (move_jac X) (jacobian mb m J)) /\
  ((0 < jc_ref J)%Z -> jacobian (move_mb X mb) (move_mbc X mb m) (move_jac X J) = rmap (turn_dot X) (jacobian mb m J)) /\
  jacobianDot (move_mb X mb) (move_mbc X mb m) (move_jac X J) = rmap (move_jac X) (jacobianDot mb m J) /\
  velocity (move_mbc X mb m) J = rmap (new_turned X) (velocity m J).
Proof.
  intros X mb m J H. split; [apply (bodyJacobian_move X H)|]. split; [apply (bodyJacobianDot_move X H)|].
  split; [apply (jacobian_move X H)|]. split; [apply (jacobian_move_ref X H)|]. split; [apply (jacobianDot_move X H)|].
  apply velocity_move.
Qed.
Print Assumptions C87_jacobians.
Example C87_jacobians_applies : exists J m J', Jacobian_ctor (fun _ _ => sv0) ex_mb "hand"%string (mkV3 1 2 3) = Ok J /\
  forwardKinematics ex_mb ex_m = Ok m /\ (jc_ref J <= 0)%Z /\ jacobian ex_mb m J = Ok J'.
Proof. exact exw_jac. Qed.

(** C87: centre of mass, momentum about it, and their derivatives. *)
Theorem C87_com_momentum : forall X mb m com comDot, rigid X ->
  computeCoM (move_mb X mb) (move_mbc X mb m) = rmap (new_point X) (computeCoM mb m) /\
  computeCoMVelocity (move_mb X mb) (move_mbc X mb m) = rmap (new_dir X) (computeCoMVelocity mb m) /\
  computeCoMAcceleration (move_mb X mb) (move_mbc X mb m) = rmap (new_dir X) (computeCoMAcceleration mb m) /\
  computeCentroidalMomentum (move_mb X mb) (move_mbc X mb m) (new_point X com) =
    rmap (new_turned X) (computeCentroidalMomentum mb m com) /\
  computeCentroidalMomentumDot (move_mb X mb) (move_mbc X mb m) (new_point X com) (new_dir X comDot) =
    rmap (new_turned X) (computeCentroidalMomentumDot mb m com comDot).
Proof.
  intros X mb m com comDot H. split; [apply com_move|]. split; [apply comv_move|]. split; [apply (coma_move X H)|].
  split; [apply (momentum_move X H)|apply (momentumdot_move X H)].
Qed.
Print Assumptions C87_com_momentum.

(** C87: the Coriolis matrix, for Jacobians without reference body as its constructor makes them. *)
Theorem C87_coriolis : forall X mb m c, rigid X -> (forall J, In J (co_jacs c) -> (jc_ref J <= 0)%Z) ->
  coriolis (move_mb X mb) (move_mbc X mb m) (move_cor X c) = rmap (move_cor X) (coriolis mb m c).
Proof. intros X mb m c H. exact (coriolis_move X H mb m c). Qed.
Print Assumptions C87_coriolis.
Example C87_coriolis_applies : exists c, Coriolis_ctor (fun _ _ _ => sv0) (fun _ _ => 7) (fun _ _ _ => 7) exf_mb = Ok c /\
  forall J, In J (co_jacs c) -> (jc_ref J <= 0)%Z.
Proof. exact exw_cor. Qed.
