(** C96: results do not depend on the units of time and mass. *)
From Coq Require Import Reals String ZArith Bool Arith List Lra.
From Verif Require Import Res Vec Sva Mat JointM MultiBodyM KinM DynM CoMM MomM Spec SpecDyn SpecFrame SpecUnits Ex DynExP SolveP UnitsTopP UnitsExP.
Import ListNotations.
Open Scope R_scope.

(** C96: with the same robot and state written in other units of time and mass, poses and the centre of mass are the same
    numbers, velocities are k times, accelerations k * k times as large, and momenta and their rates scale with the mass. *)
Theorem C96_kinematics : forall k c mb mb' m0 m0', wf_mb mb -> wf_mb mb' -> mbc_ok mb m0 -> mbc_ok mb' m0' -> other_units k c mb m0 mb' m0' -> 0 < c ->
  exists m m', after_kinematics mb m0 m /\ after_kinematics mb' m0' m' /\
    bodyPosW m' = bodyPosW m /\ bodyVelB m' = map (svscale k) (bodyVelB m) /\ bodyVelW m' = map (svscale k) (bodyVelW m) /\
    computeCoM mb' m' = computeCoM mb m /\ computeCoMVelocity mb' m' = rmap (vscale k) (computeCoMVelocity mb m) /\
    (forall com, computeCentroidalMomentum mb' m' com = rmap (svscale (c * k)) (computeCentroidalMomentum mb m com)) /\
    forall A0, exists n n', forwardAcceleration mb m A0 = Ok n /\ forwardAcceleration mb' m' (svscale (k * k) A0) = Ok n' /\
      bodyAccB n' = map (svscale (k * k)) (bodyAccB n) /\
      computeCoMAcceleration mb' n' = rmap (vscale (k * k)) (computeCoMAcceleration mb n) /\
      forall com v, computeCentroidalMomentumDot mb' n' com (vscale k v) = rmap (svscale (c * (k * k))) (computeCentroidalMomentumDot mb n com v).
Proof. exact units_kinematics. Qed.
Print Assumptions C96_kinematics.
Example C96_kinematics_applies : wf_mb ex_mb /\ wf_mb exu_mb /\ mbc_ok ex_mb exu_m /\ mbc_ok exu_mb exu_m' /\ other_units 60 1000 ex_mb exu_m exu_mb exu_m'.
Proof. split; [exact ex_wf|]. split; [exact exu_wf|]. split; [exact exu_ok|]. split; [exact exu_ok'|exact exu_units]. Qed.
(** ... torques and the bias are c * k * k times and the entries of the mass matrix c times as large. *)
Theorem C96_dynamics : forall k c mb mb' m0 m m0' m' f f' s s', wf_mb mb -> wf_mb mb' -> rigid_mb mb -> mbc_ok mb m0 -> config_ok mb m0 -> mbc_ok mb' m0' ->
  other_units k c mb m0 mb' m0' -> after_kinematics mb m0 m -> after_kinematics mb' m0' m' ->
  length f = nrBodies mb -> length f' = nrBodies mb' -> fd_ok mb s -> fd_ok mb' s' ->
  exists g n g' n' h h' d d', inverseDynamics mb f m = Ok (g, n) /\ inverseDynamics mb' f' m' = Ok (g', n') /\
    computeH mb m s = Ok h /\ computeH mb' m' s' = Ok h' /\ computeC mb m s = Ok d /\ computeC mb' m' s' = Ok d' /\
    jointTorque n' = numbers_times (c * (k * k)) (jointTorque n) /\ fd_C d' = map (Rmult (c * (k * k))) (fd_C d) /\
    forall r x, (r < mb_nrDof mb)%nat -> (x < mb_nrDof mb)%nat -> ment (fd_H h') r x = c * ment (fd_H h) r x.
Proof. exact units_dynamics. Qed.
Print Assumptions C96_dynamics.
Example C96_dynamics_applies : rigid_mb ex_mb /\ config_ok ex_mb exu_m /\ fd_ok ex_mb ex_fd /\ length ex_f = nrBodies exu_mb /\ mb_nrDof ex_mb = 11%nat.
Proof. split; [exact ex_rigid|]. split; [exact ex_config|]. split; [exact ex_fd_ok|]. split; reflexivity. Qed.
(** ... and forward dynamics gives accelerations that are k * k times as large, whatever the unit of mass. *)
Theorem C96_forward_dynamics : forall k c mb mb' m0 m m0' m' solve s s', wf_mb mb -> wf_mb mb' -> rigid_mb mb -> mbc_ok mb m0 -> config_ok mb m0 -> mbc_ok mb' m0' ->
  other_units k c mb m0 mb' m0' -> 0 < c -> jointTorque m0' = numbers_times (c * (k * k)) (jointTorque m0) ->
  after_kinematics mb m0 m -> after_kinematics mb' m0' m' -> fd_ok mb s -> fd_ok mb' s' ->
  (forall b, In b (mb_bodies mb) -> inertia_pd (binertia b)) -> solver_ok solve ->
  exists h n h' n', forwardDynamics solve mb m s = Ok (h, n) /\ forwardDynamics solve mb' m' s' = Ok (h', n') /\
    alphaD n' = numbers_times (k * k) (alphaD n).
Proof. exact units_forward. Qed.
Print Assumptions C96_forward_dynamics.
Example C96_forward_dynamics_applies : 0 < 1000 /\ jointTorque exu_m' = numbers_times (1000 * (60 * 60)) (jointTorque exu_m) /\ solver_ok lsolve /\
  forall b, In b (mb_bodies ex_mb) -> inertia_pd (binertia b).
Proof. split; [lra|]. split; [reflexivity|]. split; [exact lsolve_ok|exact ex_pd]. Qed.
(** In particular, reversing all joint velocities changes neither the torques of inverse dynamics nor the accelerations of
    forward dynamics. *)
Theorem C96_reversed : forall mb m0 m m0' m' f f' solve s s', wf_mb mb -> rigid_mb mb -> mbc_ok mb m0 -> config_ok mb m0 -> mbc_ok mb m0' ->
  q m0' = q m0 -> alpha m0' = numbers_times (-1) (alpha m0) -> alphaD m0' = alphaD m0 ->
  gravity m0' = gravity m0 -> force m0' = force m0 -> jointTorque m0' = jointTorque m0 ->
  after_kinematics mb m0 m -> after_kinematics mb m0' m' -> length f = nrBodies mb -> length f' = nrBodies mb -> fd_ok mb s -> fd_ok mb s' ->
  (exists g n g' n', inverseDynamics mb f m = Ok (g, n) /\ inverseDynamics mb f' m' = Ok (g', n') /\ jointTorque n' = jointTorque n) /\
  ((forall b, In b (mb_bodies mb) -> inertia_pd (binertia b)) -> solver_ok solve ->
   exists h n h' n', forwardDynamics solve mb m s = Ok (h, n) /\ forwardDynamics solve mb m' s' = Ok (h', n') /\ alphaD n' = alphaD n).
Proof. exact reversed_dynamics. Qed.
Print Assumptions C96_reversed.
Example C96_reversed_applies : let m' := with_alpha (numbers_times (-1) (alpha ex_m)) ex_m in
  wf_mb ex_mb /\ mbc_ok ex_mb ex_m /\ q m' = q ex_m /\ alphaD m' = alphaD ex_m /\ length (alpha m') = 4%nat.
Proof. cbv zeta. split; [exact ex_wf|]. split; [exact ex_mbc_ok|]. split; [reflexivity|]. split; reflexivity. Qed.
