(** Vocabulary for the statements that tie the dynamics to Newton's laws. *)
From Coq Require Import Reals String ZArith Bool Arith List.
From Verif Require Import Res Vec Sva Mat JointM MultiBodyM Spec SpecDyn SpecDeriv SpecCoM.
Import ListNotations.
Open Scope R_scope.

(** A wrench W (couple, force) given at the origin of a frame placed at X, with the axes of
    that frame: the same wrench about the point c of the world, with world axes. *)
Definition wrench_at (c : V3) (X : PT) (W : SV) : SV :=
  let f := mapp (mtr (rotE X)) (slin W) in
  mkSV (vadd (mapp (mtr (rotE X)) (sang W)) (vcross (vsub (trR X) c) f)) f.
(** A wrench about the world origin, with world axes, moved to c. *)
Definition moved_to (c : V3) (W : SV) : SV := mkSV (vsub (sang W) (vcross c (slin W))) (slin W).

(** What acts on body i from outside the robot, about c: the external wrench of the
    configuration and the weight. *)
Definition applied_to (mb : MultiBody) (m : MBC) (c : V3) (i : nat) : SV :=
  moved_to c (svadd (nth i (force m) sv0) (weight (gravity m) (nth i (bodyPosW m) ptid) (inertia_of mb i))).
(** The sum over all bodies. *)
Definition applied (mb : MultiBody) (m : MBC) (c : V3) : SV := svsum (nrBodies mb) (applied_to mb m c).

(** Rate of change of the momentum about the fixed point c of a body of inertia I placed at
    X, with velocity V and acceleration A = dV/dt in body coordinates (C84_rate_is_derivative
    proves that it is the derivative of [momentum_about]). *)
Definition momentum_rate (c : V3) (X : PT) (I : RBI) (V A : SV) : SV :=
  wrench_at c X (svadd (rbim I A) (scrossDual V (rbim I V))).

(** Six numbers as a couple and a force. *)
Definition sv_of (t : list R) : SV :=
  mkSV (mkV3 (nth 0 t 0) (nth 1 t 0) (nth 2 t 0)) (mkV3 (nth 3 t 0) (nth 4 t 0) (nth 5 t 0)).
(** The robot hangs on one free joint. *)
Definition floating (mb : MultiBody) : Prop :=
  exists j, nth_error (mb_joints mb) 0 = Some j /\ jtyp j = Free /\ jfwd j = true.

(** Kinetic energy, and potential energy of the weights: the gravity vector of RBDyn is the
    opposite of the acceleration of free fall. *)
Definition kinetic (mb : MultiBody) (m : MBC) : R :=
  / 2 * rsum (nrBodies mb) (fun i =>
    svdot (rbim (inertia_of mb i) (nth i (bodyVelB m) sv0)) (nth i (bodyVelB m) sv0)).
Definition potential (mb : MultiBody) (m : MBC) : R :=
  rsum (nrBodies mb) (fun i => let X := nth i (bodyPosW m) ptid in
    vdot (gravity m) (vadd (vscale (mass_of mb i) (trR X)) (mapp (mtr (rotE X)) (imom (inertia_of mb i))))).
(** Power of the joint torques and of the external wrenches. *)
Definition power (mb : MultiBody) (m : MBC) : R :=
  rsum (mb_nrDof mb) (fun r => flat (jointTorque m) r * flat (alpha m) r) +
  rsum (nrBodies mb) (fun i =>
    svdot (nth i (force m) sv0) (world_twist (nth i (bodyPosW m) ptid) (nth i (bodyVelB m) sv0))).
