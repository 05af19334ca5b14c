(** C97: results do not depend on the unit of length. *)
From Coq Require Import Reals String ZArith Bool Arith List Lra.
From Verif Require Import Res Vec Sva Mat JointM MultiBodyM KinM DynM CoMM MomM Spec SpecDyn SpecFrame SpecUnits SpecLength Ex DynExP SolveP UnitsExP LengthTopP LengthExP.
Import ListNotations.
Open Scope R_scope.

(** C97: with the same robot and state written in another unit of length, positions, linear velocities and linear
    accelerations are L times as large, rotations, angular velocities and angular accelerations are the same, linear
    momenta are L times and angular momenta L * L times as large. *)
Theorem C97_kinematics : forall L mb mb' m0 m0', wf_mb mb -> wf_mb mb' -> mbc_ok mb m0 -> mbc_ok mb' m0' -> other_length L mb m0 mb' m0' ->
  exists m m', after_kinematics mb m0 m /\ after_kinematics mb' m0' m' /\
    bodyPosW m' = map (pose_len L) (bodyPosW m) /\ bodyVelB m' = map (motion_len L) (bodyVelB m) /\ bodyVelW m' = map (motion_len L) (bodyVelW m) /\
    computeCoM mb' m' = rmap (vscale L) (computeCoM mb m) /\ computeCoMVelocity mb' m' = rmap (vscale L) (computeCoMVelocity mb m) /\
    (forall com, computeCentroidalMomentum mb' m' (vscale L com) = rmap (wrench_len L) (computeCentroidalMomentum mb m com)) /\
    forall A0, exists n n', forwardAcceleration mb m A0 = Ok n /\ forwardAcceleration mb' m' (motion_len L A0) = Ok n' /\
      bodyAccB n' = map (motion_len L) (bodyAccB n) /\
      computeCoMAcceleration mb' n' = rmap (vscale L) (computeCoMAcceleration mb n) /\
      forall com v, computeCentroidalMomentumDot mb' n' (vscale L com) (vscale L v) =
        rmap (wrench_len L) (computeCentroidalMomentumDot mb n com v).
Proof. exact length_kinematics. Qed.
Print Assumptions C97_kinematics.
Example C97_kinematics_applies : wf_mb ex_mb /\ wf_mb exl_mb /\ mbc_ok ex_mb exu_m /\ mbc_ok exl_mb exl_m' /\ other_length 100 ex_mb exu_m exl_mb exl_m'.
Proof. split; [exact ex_wf|]. split; [exact exl_wf|]. split; [exact exu_ok|]. split; [exact exl_ok'|exact exl_length]. Qed.
(** ... torques about an axis are L * L times and forces along one L times as large, for inverse dynamics and the bias, and
    the mass matrix is L * L, L or 1 times as large, according to its two coordinates. *)
Theorem C97_dynamics : forall L mb mb' m0 m m0' m' f f' s s', L <> 0 -> wf_mb mb -> wf_mb mb' -> rigid_mb mb -> mbc_ok mb m0 -> config_ok mb m0 -> mbc_ok mb' m0' ->
  other_length L mb m0 mb' m0' -> after_kinematics mb m0 m -> after_kinematics mb' m0' m' ->
  length f = nrBodies mb -> length f' = nrBodies mb' -> fd_ok mb s -> fd_ok mb' s' ->
  exists g n g' n' h h' d d', inverseDynamics mb f m = Ok (g, n) /\ inverseDynamics mb' f' m' = Ok (g', n') /\
    computeH mb m s = Ok h /\ computeH mb' m' s' = Ok h' /\ computeC mb m s = Ok d /\ computeC mb' m' s' = Ok d' /\
    forall i, (i < nrBodies mb)%nat -> let li := dof_lengths (jtyp (nth i (mb_joints mb) jd)) in
      nth i (jointTorque n') [] = torques_times L li (nth i (jointTorque n) []) /\
      forall a, (a < dofi mb i)%nat ->
        nth (pos mb i + a) (fd_C d') 0 = as_torque L (nth a li false) * nth (pos mb i + a) (fd_C d) 0 /\
        forall j b, (j < nrBodies mb)%nat -> (b < dofi mb j)%nat -> let lj := dof_lengths (jtyp (nth j (mb_joints mb) jd)) in
          as_length L (nth a li false) * as_length L (nth b lj false) * ment (fd_H h') (pos mb i + a) (pos mb j + b) =
          L * L * ment (fd_H h) (pos mb i + a) (pos mb j + b).
Proof. exact length_dynamics. Qed.
Print Assumptions C97_dynamics.
Example C97_dynamics_applies : 100 <> 0 /\ rigid_mb ex_mb /\ config_ok ex_mb exu_m /\ fd_ok ex_mb ex_fd /\ length ex_f = nrBodies exl_mb /\
  map (fun j => dof_lengths (jtyp j)) (mb_joints ex_mb) = [[false; false; false; true; true; true]; [false]; [true]; [false; false; false]].
Proof. split; [lra|]. split; [exact ex_rigid|]. split; [exact ex_config|]. split; [exact ex_fd_ok|]. split; reflexivity. Qed.
(** ... and forward dynamics gives the same accelerations of angles and L times as large ones of lengths. *)
Theorem C97_forward_dynamics : forall L mb mb' m0 m m0' m' solve s s', L <> 0 -> wf_mb mb -> wf_mb mb' -> rigid_mb mb -> mbc_ok mb m0 -> config_ok mb m0 -> mbc_ok mb' m0' ->
  other_length L mb m0 mb' m0' ->
  (forall i j, nth_error (mb_joints mb) i = Some j -> nth i (jointTorque m0') [] = torques_times L (dof_lengths (jtyp j)) (nth i (jointTorque m0) [])) ->
  after_kinematics mb m0 m -> after_kinematics mb' m0' m' -> fd_ok mb s -> fd_ok mb' s' ->
  (forall b, In b (mb_bodies mb) -> inertia_pd (binertia b)) -> solver_ok solve ->
  exists h n h' n', forwardDynamics solve mb m s = Ok (h, n) /\ forwardDynamics solve mb' m' s' = Ok (h', n') /\
    forall i j, nth_error (mb_joints mb) i = Some j -> nth i (alphaD n') [] = lengths_times L (dof_lengths (jtyp j)) (nth i (alphaD n) []).
Proof. exact length_forward. Qed.
Print Assumptions C97_forward_dynamics.
Example C97_forward_dynamics_applies : (forall i j, nth_error (mb_joints ex_mb) i = Some j ->
    nth i (jointTorque exl_m') [] = torques_times 100 (dof_lengths (jtyp j)) (nth i (jointTorque exu_m) [])) /\ solver_ok lsolve /\
  forall b, In b (mb_bodies ex_mb) -> inertia_pd (binertia b).
Proof. split; [exact exl_torque|]. split; [exact lsolve_ok|exact ex_pd]. Qed.
