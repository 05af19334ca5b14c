(** C13, C14, C16, C56, C67: identification model, inverse statics and ZMP. *)
From Coq Require Import Reals String ZArith Bool Arith List Lia Lra.
From Verif Require Import Res Vec Sva Mat JointM MultiBodyM KinM DynM IDIMM ISM ZMPM Spec SpecDyn SpecIDIM SpecAlg Ex DynExP KinP KinPathP MbP KinFinP DynFinP IDIMP ISP.
Import ListNotations.
Open Scope R_scope.

(** C13: a new object is an IDIM object of the robot. *)
Theorem C13_object : forall mb, wf_mb mb -> idim_of mb (IDIM_ctor mb).
Proof. exact IDIM_ctor_ok. Qed.
Print Assumptions C13_object.
(** C13: after inverseDynamics without external wrenches, Y times the vector of the inertial
    parameters is the stacked joint torque; [computeY] leaves an IDIM object. *)
Theorem C13_regressor_torque : forall mb m f Y g,
  wf_mb mb -> mbc_ok mb m -> length f = nrBodies mb ->
  (forall i, (i < nrBodies mb)%nat -> nth i (force m) sv0 = sv0) -> idim_of mb Y ->
  exists f' m' Y' v,
    inverseDynamics mb f m = Ok (f', m') /\ computeY mb m' Y = Ok Y' /\ idim_of mb Y' /\
    multiBodyToInertialVector g mb = Ok v /\ length v = mcols Y' /\
    forall r, (r < mb_nrDof mb)%nat -> mat_vec Y' v r = flat (jointTorque m') r.
Proof. exact Y_torque. Qed.
Print Assumptions C13_regressor_torque.
(** C13: Y depends neither on the inertial parameters nor on anything in the state but the
    parent-to-son transforms, motion subspaces, velocities and accelerations. *)
Theorem C13_depends_on_kinematics_only : forall mb bs m m2 Y, length bs = nrBodies mb ->
  parentToSon m2 = parentToSon m -> motionSubspace m2 = motionSubspace m ->
  bodyVelB m2 = bodyVelB m -> bodyAccB m2 = bodyAccB m ->
  computeY (with_bodies bs mb) m2 Y = computeY mb m Y.
Proof. exact computeY_kinematics. Qed.
Print Assumptions C13_depends_on_kinematics_only.
Example C13_applies : exists f' m' Y' v,
  inverseDynamics ex_mb ex_f (with_force ex_f ex_m) = Ok (f', m') /\ computeY ex_mb m' (IDIM_ctor ex_mb) = Ok Y' /\
  multiBodyToInertialVector (fun _ => 7) ex_mb = Ok v /\
  forall r, (r < 11)%nat -> mat_vec Y' v r = flat (jointTorque m') r.
Proof.
  destruct (C13_regressor_torque ex_mb (with_force ex_f ex_m) ex_f (IDIM_ctor ex_mb) (fun _ => 7) ex_wf
    (with_force_ok _ _ ex_f ex_mbc_ok eq_refl) eq_refl) as (f' & m' & Y' & v & A & B & _ & C & _ & D).
  - intros i Hi. change (nth i ex_f sv0 = sv0). do 4 (destruct i as [|i]; [reflexivity|]). destruct i; reflexivity.
  - exact (C13_object _ ex_wf).
  - exists f', m', Y', v. auto.
Qed.
Example C13_other_bodies : computeY (with_bodies (rev ex_bodies) ex_mb) ex_m (IDIM_ctor ex_mb) = computeY ex_mb ex_m (IDIM_ctor ex_mb).
Proof. apply C13_depends_on_kinematics_only; reflexivity. Qed.

(** C14: IMPhi(v) inertiaToVector(I) = I v, and the conversions are mutually inverse. *)
Theorem C14_momentum_is_linear : forall v I, smul (IMPhi v) (inertiaToVector I) = rbim I v.
Proof. exact IMPhi_spec. Qed.
Print Assumptions C14_momentum_is_linear.
Theorem C14_inertia_round_trip : forall I, vectorToInertia (inertiaToVector I) = Ok I.
Proof. exact vector_of_inertia. Qed.
Print Assumptions C14_inertia_round_trip.
Theorem C14_vector_round_trip : forall v, length v = 10%nat ->
  exists I, vectorToInertia v = Ok I /\ inertiaToVector I = v.
Proof. intros v L. destruct (vector_total v L) as (I & E). exists I. split; [exact E|exact (inertia_of_vector v I E)]. Qed.
Print Assumptions C14_vector_round_trip.
Theorem C14_safe_version : forall v,
  (sVectorToInertia v = Throw OutOfRange <-> length v <> 10%nat) /\
  (length v = 10%nat -> sVectorToInertia v = vectorToInertia v).
Proof. intro v. split; [exact (sVector_cases v)|exact (sVector_agrees v)]. Qed.
Print Assumptions C14_safe_version.
Example C14_applies : sVectorToInertia [1] = Throw OutOfRange /\
  exists I, vectorToInertia [1; 2; 3; 4; 5; 6; 7; 8; 9; 10] = Ok I /\ inertiaToVector I = [1; 2; 3; 4; 5; 6; 7; 8; 9; 10].
Proof. split; [apply C14_safe_version; discriminate|now apply C14_vector_round_trip]. Qed.

(** C16: from the result [m] of forwardKinematics, inverseStatics gives the torques and body
    accelerations of inverseDynamics after forwardVelocity, with alpha = 0 and alphaD = 0, and
    changes nothing else in the state. The contents of the internal buffers do not matter. *)
Theorem C16_statics_is_dynamics_at_rest : forall mb m0 m mv f g,
  wf_mb mb -> rigid_mb mb -> mbc_ok mb m0 -> config_ok mb m0 ->
  forwardKinematics mb m0 = Ok m -> forwardVelocity mb (with_alpha (zero_dofs mb) m) = Ok mv ->
  length f = nrBodies mb -> length g = nrBodies mb ->
  exists f1 m1 f2 m2, inverseStatics mb f m = Ok (f1, m1) /\
    inverseDynamics mb g (with_alphaD (zero_dofs mb) mv) = Ok (f2, m2) /\
    jointTorque m1 = jointTorque m2 /\ bodyAccB m1 = bodyAccB m2 /\ f1 = f2 /\
    m1 = with_jointTorque (jointTorque m1) (with_bodyAccB (bodyAccB m1) m).
Proof. exact statics_dynamics. Qed.
Print Assumptions C16_statics_is_dynamics_at_rest.
Example C16_applies : exists m mv f1 m1 f2 m2,
  forwardKinematics ex_mb (with_force ex_forces ex_m) = Ok m /\ forwardVelocity ex_mb (with_alpha (zero_dofs ex_mb) m) = Ok mv /\
  inverseStatics ex_mb ex_f m = Ok (f1, m1) /\ inverseDynamics ex_mb ex_f (with_alphaD (zero_dofs ex_mb) mv) = Ok (f2, m2) /\
  jointTorque m1 = jointTorque m2.
Proof.
  pose proof (with_force_ok _ _ _ ex_mbc_ok (eq_refl : length ex_forces = nrBodies ex_mb)) as K.
  destruct (FK_total ex_mb _ ex_wf K) as (m & E1 & F).
  pose proof (FK_mbc_ok _ _ _ ex_wf K F) as K1.
  destruct (FV_total ex_mb (with_alpha (zero_dofs ex_mb) m) ex_wf (with_alpha_ok _ _ _ K1 (zero_sized ex_mb))) as (mv & E2 & _).
  destruct (C16_statics_is_dynamics_at_rest ex_mb _ m mv ex_f ex_f ex_wf ex_rigid K ex_config E1 E2 eq_refl eq_refl)
    as (f1 & m1 & f2 & m2 & A & B & C & _).
  exists m, mv, f1, m1, f2, m2. auto 10.
Qed.

(** C56: with gravity along the vertical axis, computeCentroidalZMP returns the only point at the
    requested altitude about which gravity and inertial force have no horizontal moment. *)
Theorem C56_zmp : forall m com comA h,
  vx (gravity m) = 0 -> vy (gravity m) = 0 -> vz comA + vz (gravity m) <> 0 ->
  exists p, computeCentroidalZMP m com comA h = Ok p /\ zero_moment_point com (vadd comA (gravity m)) v0 h p /\
    forall p', zero_moment_point com (vadd comA (gravity m)) v0 h p' -> p' = p.
Proof. exact zmp_grav. Qed.
Print Assumptions C56_zmp.
Theorem C56_zmp_of_force : forall com F h, vz F <> 0 ->
  exists p, computeCentroidalZMPNoGravity com F h = Ok p /\ zero_moment_point com F v0 h p /\
    forall p', zero_moment_point com F v0 h p' -> p' = p.
Proof. exact zmp_nograv. Qed.
Print Assumptions C56_zmp_of_force.
Theorem C56_versions_agree : forall m com comA h,
  computeCentroidalZMP m com comA h =
  computeCentroidalZMPNoGravity com (vadd comA (mkV3 0 0 (vz (gravity m)))) h.
Proof. exact zmp_agree. Qed.
Print Assumptions C56_versions_agree.
(** The hypothesis that gravity is vertical is needed. *)
Theorem C56_tilted_gravity_refuted : exists m com comA h p,
  vz comA + vz (gravity m) <> 0 /\ computeCentroidalZMP m com comA h = Ok p /\
  ~ zero_moment_point com (vadd comA (gravity m)) v0 h p.
Proof. exact zmp_tilted. Qed.
Print Assumptions C56_tilted_gravity_refuted.
Example C56_applies : exists p, computeCentroidalZMP grav10 (mkV3 1 2 3) (mkV3 1 1 (-2)) (1/2) = Ok p /\
  zero_moment_point (mkV3 1 2 3) (mkV3 (1 + 0) (1 + 0) (-2 + 10)) v0 (1/2) p.
Proof.
  destruct (C56_zmp grav10 (mkV3 1 2 3) (mkV3 1 1 (-2)) (1/2)) as (p & A & B & _);
    [reflexivity|reflexivity|cbn; lra|]. exists p. split; [exact A|exact B].
Qed.

(** C67: computeCentroidalZMPComplete with an external wrench (couple, force) at the centre of
    mass. Full claim: the moment about the returned point of mass comA - force at the centre of
    mass, minus the couple, has no horizontal component. It holds for altitude 0 when the
    vertical acceleration is the gravity, and without wrench; not otherwise. *)
Theorem C67_complete_partial : forall m com F wr mass,
  vz F = vz (gravity m) -> vz F <> 0 -> mass * vz F - vz (slin wr) <> 0 ->
  exists p, computeCentroidalZMPComplete m com F 0 wr mass = Ok p /\
    zero_moment_point com (vsub (vscale mass F) (slin wr)) (vopp (sang wr)) 0 p.
Proof. exact zmp_complete_flat. Qed.
Print Assumptions C67_complete_partial.
Theorem C67_complete_no_wrench : forall m com F h mass, mass * vz (gravity m) <> 0 ->
  computeCentroidalZMPComplete m com F h sv0 mass = computeCentroidalZMPNoGravity com F h.
Proof. exact zmp_complete_none. Qed.
Print Assumptions C67_complete_no_wrench.
Theorem C67_complete_altitude_refuted : exists m com F h wr mass p,
  vz F = vz (gravity m) /\ vz F <> 0 /\ mass * vz F - vz (slin wr) <> 0 /\
  computeCentroidalZMPComplete m com F h wr mass = Ok p /\
  ~ zero_moment_point com (vsub (vscale mass F) (slin wr)) (vopp (sang wr)) h p.
Proof. exact zmp_complete_wrong. Qed.
Print Assumptions C67_complete_altitude_refuted.
Theorem C67_complete_acceleration_refuted : exists m com F wr mass p,
  vz F <> 0 /\ mass * vz F - vz (slin wr) <> 0 /\
  computeCentroidalZMPComplete m com F 0 wr mass = Ok p /\
  ~ zero_moment_point com (vsub (vscale mass F) (slin wr)) (vopp (sang wr)) 0 p.
Proof. exact zmp_complete_wrong_az. Qed.
Print Assumptions C67_complete_acceleration_refuted.
Example C67_applies : exists p, computeCentroidalZMPComplete grav10 (mkV3 1 2 3) (mkV3 1 1 10) 0 (mkSV (mkV3 1 2 3) (mkV3 4 5 6)) 7 = Ok p.
Proof.
  destruct (C67_complete_partial grav10 (mkV3 1 2 3) (mkV3 1 1 10) (mkSV (mkV3 1 2 3) (mkV3 4 5 6)) 7) as (p & A & _);
    [reflexivity|cbn; lra|cbn; lra|eauto].
Qed.
