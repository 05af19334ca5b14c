(** C64: the derivatives of the torques of inverse statics. *)
From Coq Require Import Reals String ZArith Bool Arith Lia Lra List.
From Verif Require Import Res Vec Sva Mat JointM MultiBodyM KinM DynM JacM CoMM MomM ISM Spec SpecDeriv SpecDyn SpecJac SpecIS Ex DerivExP IsTopP IsExP.
Import ListNotations.
Open Scope R_scope.

(** C64: an object can be built for every robot whose bodies are found under their names, whatever
    the uninitialised memory holds. *)
Theorem C64_object : forall g gf mb, wf_mb mb -> names_found mb -> exists s, ISd_ctor g gf mb = Ok s.
Proof. exact ctor_runs. Qed.
Print Assumptions C64_object.
Example C64_object_applies : exists s, ISd_ctor (fun _ _ _ => sv0) (fun _ => sv0) exr_mb = Ok s.
Proof. exact (C64_object _ _ exr_mb exr_wf exr_names). Qed.

(** C64, for robots whose inner joints are revolute or fixed, and for Jacobians of the OPPOSITE of
    the external forces: along any movement, the product of jointTorqueDiff with the speeds (of the
    joints and of the further variables of the forces) is the derivative of the torques computed by
    inverseStatics. Missing: sliding and other inner joints (refuted below), and Jacobians of the
    forces themselves (refuted below). *)
Theorem C64_torque_derivative_partial : forall mb (M K : R -> MBC) t N jacs x g f f1 m1 s0,
  wf_mb mb -> rigid_mb mb -> names_found mb -> inner_revolute mb -> (forall j, In j (mb_joints mb) -> regular j) ->
  (forall s, mbc_ok mb (M s)) -> (forall s, config_ok mb (M s)) -> (forall s, after_kinematics mb (M s) (K s)) ->
  (forall i, (i < nrBodies mb)%nat -> follows (nth i (mb_joints mb) jd) (fun s => nth i (q (M s)) []) t (nth i (alpha (M t)) [])) ->
  (forall s, gravity (K s) = g) -> force_jacobians mb N jacs ->
  (forall i JF, nth_error jacs i = Some JF -> exists F', (forall r, (r < 6)%nat -> svcoef r F' = - mat_vec JF x r) /\
     derivS (fun s => nth i (force (K s)) sv0) t F') ->
  firstn (mb_nrDof mb) x = concat (alpha (M t)) -> length f = nrBodies mb -> (forall s, inverseStatics mb f (K s) = Ok (f1 s, m1 s)) ->
  is_object mb N s0 ->
  exists s1 m', computeTorqueJacobianJoint mb (K t) jacs s0 = Ok (s1, m') /\ is_object mb N s1 /\ length (id_diff s1) = nrBodies mb /\
    forall i, (i < nrBodies mb)%nat -> exists Dm, nth_error (id_diff s1) i = Some Dm /\
      mrows Dm = jdof (nth i (mb_joints mb) jd) /\ mcols Dm = N /\
      forall r, (r < mrows Dm)%nat -> derivable_pt_lim (fun s => co (nth i (jointTorque (m1 s)) []) r) t (mat_vec Dm x r).
Proof. exact torque_derivative. Qed.
Print Assumptions C64_torque_derivative_partial.
Example C64_torque_derivative_applies : exists (K : R -> MBC) m1 s0 s1 m', (forall s, after_kinematics exr_mb (exr_M s) (K s)) /\
  computeTorqueJacobianJoint exr_mb (K 3) exr_jacs s0 = Ok (s1, m') /\
  exists Dm, nth_error (id_diff s1) 1 = Some Dm /\ derivable_pt_lim (fun s => co (nth 1 (jointTorque (m1 s)) []) 0) 3 (mat_vec Dm exr_x 0).
Proof.
  destruct exr_setting as (K & f1 & m1 & s0 & AK & G & IS & OB).
  destruct (C64_torque_derivative_partial exr_mb exr_M K 3 9 exr_jacs exr_x (mkV3 0 0 10) [sv0; sv0; sv0; sv0] f1 m1 s0 exr_wf exr_rigid exr_names exr_inner exr_regular
    exr_ok exr_config AK (exr_follows 3) G exr_fj (exr_forces K AK) eq_refl eq_refl IS OB) as (s1 & m' & E & _ & _ & H).
  exists K, m1, s0, s1, m'. split; [exact AK|]. split; [exact E|]. destruct (H 1%nat) as (Dm & E1 & E2 & _ & HD); [apply Nat.ltb_lt; reflexivity|].
  exists Dm. split; [exact E1|]. apply HD. rewrite E2. apply Nat.ltb_lt; reflexivity.
Qed.

(** C64, for robots whose inner joints are revolute or fixed, with constant external forces: the
    call without Jacobians. *)
Theorem C64_constant_forces_partial : forall mb (M K : R -> MBC) t g F0 f f1 m1 s0,
  wf_mb mb -> rigid_mb mb -> names_found mb -> inner_revolute mb -> (forall j, In j (mb_joints mb) -> regular j) ->
  (forall s, mbc_ok mb (M s)) -> (forall s, config_ok mb (M s)) -> (forall s, after_kinematics mb (M s) (K s)) ->
  (forall i, (i < nrBodies mb)%nat -> follows (nth i (mb_joints mb) jd) (fun s => nth i (q (M s)) []) t (nth i (alpha (M t)) [])) ->
  (forall s, gravity (K s) = g) -> (forall s, force (K s) = F0) -> length f = nrBodies mb -> (forall s, inverseStatics mb f (K s) = Ok (f1 s, m1 s)) ->
  is_object mb (mb_nrDof mb) s0 ->
  exists s1 m', computeTorqueJacobianJoint_const mb (K t) s0 = Ok (s1, m') /\ is_object mb (mb_nrDof mb) s1 /\ length (id_diff s1) = nrBodies mb /\
    forall i, (i < nrBodies mb)%nat -> exists Dm, nth_error (id_diff s1) i = Some Dm /\
      mrows Dm = jdof (nth i (mb_joints mb) jd) /\ mcols Dm = mb_nrDof mb /\
      forall r, (r < mrows Dm)%nat -> derivable_pt_lim (fun s => co (nth i (jointTorque (m1 s)) []) r) t (mat_vec Dm (concat (alpha (M t))) r).
Proof. exact torque_derivative_const. Qed.
Print Assumptions C64_constant_forces_partial.
Example C64_constant_forces_applies : exists (K : R -> MBC) m1 s0 s1 m', (forall s, after_kinematics exr_mb (exrc_M s) (K s)) /\
  computeTorqueJacobianJoint_const exr_mb (K 3) s0 = Ok (s1, m') /\
  exists Dm, nth_error (id_diff s1) 1 = Some Dm /\ derivable_pt_lim (fun s => co (nth 1 (jointTorque (m1 s)) []) 0) 3 (mat_vec Dm (concat (alpha (exrc_M 3))) 0).
Proof.
  destruct exrc_setting as (K & f1 & m1 & s0 & AK & G & CF & IS & OB).
  destruct (C64_constant_forces_partial exr_mb exrc_M K 3 (mkV3 0 0 10) _ [sv0; sv0; sv0; sv0] f1 m1 s0 exr_wf exr_rigid exr_names exr_inner exr_regular
    exrc_ok exr_config AK (exr_follows 3) G CF eq_refl IS OB) as (s1 & m' & E & _ & _ & H).
  exists K, m1, s0, s1, m'. split; [exact AK|]. split; [exact E|]. destruct (H 1%nat) as (Dm & E1 & E2 & _ & HD); [apply Nat.ltb_lt; reflexivity|].
  exists Dm. split; [exact E1|]. apply HD. rewrite E2. apply Nat.ltb_lt; reflexivity.
Qed.

(** C64 is false of sliding inner joints: for a mass that slides along a turning beam, under
    gravity and no other force, the product is the opposite of the derivative, which is not zero. *)
Theorem C64_prismatic_refuted : exists mb (M K : R -> MBC) t N jacs x g f f1 m1 s0 s1 m' i D d,
  wf_mb mb /\ rigid_mb mb /\ names_found mb /\ (forall j, In j (mb_joints mb) -> regular j) /\
  (forall s, mbc_ok mb (M s)) /\ (forall s, config_ok mb (M s)) /\ (forall s, after_kinematics mb (M s) (K s)) /\
  (forall i, (i < nrBodies mb)%nat -> follows (nth i (mb_joints mb) jd) (fun s => nth i (q (M s)) []) t (nth i (alpha (M t)) [])) /\
  (forall s, gravity (K s) = g) /\ (forall s, force (K s) = map (fun _ => sv0) (mb_bodies mb)) /\ force_jacobians mb N jacs /\ jacs = map (fun _ => mat_zero 0 0) (mb_bodies mb) /\
  firstn (mb_nrDof mb) x = concat (alpha (M t)) /\ length f = nrBodies mb /\ (forall s, inverseStatics mb f (K s) = Ok (f1 s, m1 s)) /\
  is_object mb N s0 /\ computeTorqueJacobianJoint mb (K t) jacs s0 = Ok (s1, m') /\
  nth_error (id_diff s1) i = Some D /\ derivable_pt_lim (fun s => co (nth i (jointTorque (m1 s)) []) 0) t d /\ mat_vec D x 0 = - d /\ d <> 0.
Proof. exact slide_wrong. Qed.
Print Assumptions C64_prismatic_refuted.

(** C64 is false of Jacobians of the external forces: with one joint, to the world, and a force
    whose derivative is the product of the given Jacobian with the speeds, the product of
    jointTorqueDiff is the opposite of the derivative of the torque, which is not zero. *)
Theorem C64_force_jacobian_sign_refuted : exists mb (M K : R -> MBC) t N jacs x g f f1 m1 s0 s1 m' i D d,
  wf_mb mb /\ rigid_mb mb /\ names_found mb /\ inner_revolute mb /\ (forall j, In j (mb_joints mb) -> regular j) /\
  (forall s, mbc_ok mb (M s)) /\ (forall s, config_ok mb (M s)) /\ (forall s, after_kinematics mb (M s) (K s)) /\
  (forall i, (i < nrBodies mb)%nat -> follows (nth i (mb_joints mb) jd) (fun s => nth i (q (M s)) []) t (nth i (alpha (M t)) [])) /\
  (forall s, gravity (K s) = g) /\ force_jacobians mb N jacs /\
  (forall i JF, nth_error jacs i = Some JF -> exists F', (forall r, (r < 6)%nat -> svcoef r F' = mat_vec JF x r) /\
     derivS (fun s => nth i (force (K s)) sv0) t F') /\
  firstn (mb_nrDof mb) x = concat (alpha (M t)) /\ length f = nrBodies mb /\ (forall s, inverseStatics mb f (K s) = Ok (f1 s, m1 s)) /\
  is_object mb N s0 /\ computeTorqueJacobianJoint mb (K t) jacs s0 = Ok (s1, m') /\
  nth_error (id_diff s1) i = Some D /\ derivable_pt_lim (fun s => co (nth i (jointTorque (m1 s)) []) 0) t d /\ mat_vec D x 0 = - d /\ d <> 0.
Proof. exact force_wrong. Qed.
Print Assumptions C64_force_jacobian_sign_refuted.
