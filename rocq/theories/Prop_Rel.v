(** C23: Jacobians relative to a body. *)
From Coq Require Import Reals String ZArith Bool Arith List Lia Lra.
From Verif Require Import Res Vec Sva Mat JointM MultiBodyM KinM JacM Spec SpecDyn SpecJac SpecRel SpecDeriv RelP RelFinP RelExP.
Import ListNotations.
Open Scope R_scope.

(** C23: the constructor succeeds for every two bodies of a robot with one root. *)
Theorem C23_constructor : forall g mb name ref p b r, wf_mb mb -> one_root mb -> (b < nrBodies mb)%nat -> (r < nrBodies mb)%nat ->
  sBodyIndexByName mb name = Ok (Z.of_nat b) -> sBodyIndexByName mb ref = Ok (Z.of_nat r) ->
  exists J, Jacobian_ref_ctor g mb name ref p = Ok J /\ built_relative mb name ref p J.
Proof. exact ref_ctor_built. Qed.
Print Assumptions C23_constructor.
Example C23_constructor_applies : exists J, Jacobian_ref_ctor rg rex_mb "arm" "head" v0 = Ok J /\ built_relative rex_mb "arm" "head" v0 J.
Proof. apply (C23_constructor rg rex_mb "arm" "head" v0 2 3 rex_wf rex_root); try reflexivity; apply Nat.ltb_lt; reflexivity. Qed.

(** C23: jacobian times alpha is the velocity of the point of the body relative to the reference
    body, in the axes of the reference body (in world axes if that is the root), and bodyJacobian
    times alpha is the same in the axes of the body. Missing, and refuted or shown to fail below:
    bodies that meet at a moving root only, a body that is an ancestor of the reference, and a body
    relative to itself. *)
Theorem C23_relative_velocity_partial : forall mb m0 m,
  wf_mb mb -> rigid_mb mb -> mbc_ok mb m0 -> config_ok mb m0 -> after_kinematics mb m0 m -> one_root mb ->
  forall name ref b r p J, (b < nrBodies mb)%nat -> (r < nrBodies mb)%nat ->
  sBodyIndexByName mb name = Ok (Z.of_nat b) -> sBodyIndexByName mb ref = Ok (Z.of_nat r) -> built_relative mb name ref p J ->
  b <> r -> (anc mb b r -> b = 0%nat) -> joined mb b r ->
  exists Xb Xr Vb Vr J1 J2,
    nth_error (bodyPosW m) b = Some Xb /\ nth_error (bodyPosW m) r = Some Xr /\
    nth_error (bodyVelB m) b = Some Vb /\ nth_error (bodyVelB m) r = Some Vr /\
    jacobian mb m J = Ok J1 /\ built_relative mb name ref p J1 /\ bodyJacobian mb m J = Ok J2 /\ built_relative mb name ref p J2 /\
    length (on_path (jc_path J) (alpha m)) = jac_dof J1 /\ length (on_path (jc_path J) (alpha m)) = jac_dof J2 /\
    turn (if (r =? 0)%nat then rotE Xr else mid) (smul (jc_jac J1) (on_path (jc_path J) (alpha m))) =
      point_velocity (relative_pose Xb Xr) p (relative_velocity Xb Xr Vb Vr) /\
    smul (jc_jac J2) (on_path (jc_path J) (alpha m)) = body_point_velocity p (relative_velocity Xb Xr Vb Vr).
Proof. exact rel_velocity_top. Qed.
Print Assumptions C23_relative_velocity_partial.
(** The relative velocity is the one of the relative pose, and the last three rows of the product
    are the derivative of the position of the point seen from the reference body. *)
Theorem C23_derivative_partial : forall mb (M K : R -> MBC) t, wf_mb mb -> rigid_mb mb ->
  (forall j, In j (mb_joints mb) -> regular j) ->
  (forall s, mbc_ok mb (M s)) -> (forall s, config_ok mb (M s)) -> (forall s, after_kinematics mb (M s) (K s)) ->
  (forall i, (i < nrBodies mb)%nat ->
     follows (nth i (mb_joints mb) jd) (fun s => nth i (q (M s)) []) t (nth i (alpha (M t)) [])) ->
  one_root mb -> forall name ref b r p J J1, (b < nrBodies mb)%nat -> (r < nrBodies mb)%nat ->
  sBodyIndexByName mb name = Ok (Z.of_nat b) -> sBodyIndexByName mb ref = Ok (Z.of_nat r) -> built_relative mb name ref p J ->
  b <> r -> r <> 0%nat -> (anc mb b r -> b = 0%nat) -> joined mb b r -> jacobian mb (K t) J = Ok J1 ->
  moves (fun s => relative_pose (nth b (bodyPosW (K s)) ptid) (nth r (bodyPosW (K s)) ptid)) t
    (relative_velocity (nth b (bodyPosW (K t)) ptid) (nth r (bodyPosW (K t)) ptid) (nth b (bodyVelB (K t)) sv0) (nth r (bodyVelB (K t)) sv0)) /\
  derivV (fun s => point_position (relative_pose (nth b (bodyPosW (K s)) ptid) (nth r (bodyPosW (K s)) ptid)) p) t
    (slin (smul (jc_jac J1) (on_path (jc_path J) (alpha (K t))))).
Proof. exact rel_traj_top. Qed.
Print Assumptions C23_derivative_partial.
(** C23: jacobian(mb, mbc, X_0_p) at any point P of the world, also when the body is an ancestor of
    the reference or the same body. *)
Theorem C23_relative_velocity_at_partial : forall mb m0 m,
  wf_mb mb -> rigid_mb mb -> mbc_ok mb m0 -> config_ok mb m0 -> after_kinematics mb m0 m -> one_root mb ->
  forall name ref b r p J, (b < nrBodies mb)%nat -> (r < nrBodies mb)%nat ->
  sBodyIndexByName mb name = Ok (Z.of_nat b) -> sBodyIndexByName mb ref = Ok (Z.of_nat r) -> built_relative mb name ref p J ->
  forall P, joined mb b r ->
  exists Xb Xr Vb Vr pb J1,
    nth_error (bodyPosW m) b = Some Xb /\ nth_error (bodyPosW m) r = Some Xr /\
    nth_error (bodyVelB m) b = Some Vb /\ nth_error (bodyVelB m) r = Some Vr /\ point_position Xb pb = P /\
    jacobian_at mb m (pttr P) J = Ok J1 /\ built_relative mb name ref p J1 /\
    length (on_path (jc_path J) (alpha m)) = jac_dof J1 /\
    turn (if (r =? 0)%nat then rotE Xr else mid) (smul (jc_jac J1) (on_path (jc_path J) (alpha m))) =
      point_velocity (relative_pose Xb Xr) pb (relative_velocity Xb Xr Vb Vr).
Proof. exact rel_velocity_at_top. Qed.
Print Assumptions C23_relative_velocity_at_partial.
Example C23_applies : exists m J J1 Xb Xr Vb Vr, after_kinematics rex_mb rex_m m /\ built_relative rex_mb "arm" "head" (mkV3 1 2 3) J /\
  jacobian rex_mb m J = Ok J1 /\ smul (jc_jac J1) (on_path (jc_path J) (alpha m)) = point_velocity (relative_pose Xb Xr) (mkV3 1 2 3) (relative_velocity Xb Xr Vb Vr).
Proof.
  destruct rex_kin as (m & AK). destruct (rex_ctor "arm" "head" (mkV3 1 2 3) 2 3) as (Eb & Er & Lb & Lr & J & HB); [cbn; tauto|cbn; tauto|].
  destruct (C23_relative_velocity_partial _ _ m rex_wf rex_rigid rex_ok rex_config AK rex_root _ _ 2%nat 3%nat _ J Lb Lr Eb Er HB ltac:(lia) rex_apart rex_joined)
    as (Xb & Xr & Vb & Vr & J1 & J2 & _ & _ & _ & _ & E1 & _ & _ & _ & _ & _ & EQ & _).
  exists m, J, J1, Xb, Xr, Vb, Vr. split; [exact AK|]. split; [exact HB|]. split; [exact E1|]. rewrite <- EQ. symmetry. apply RelTopP.turn_id.
Qed.
(** C23 is false when the two bodies meet at the root only: the velocity of the root is added. *)
Theorem C23_root_added : forall mb m0 m, wf_mb mb -> rigid_mb mb -> mbc_ok mb m0 -> config_ok mb m0 -> after_kinematics mb m0 m -> one_root mb ->
  forall name ref b r p J, (b < nrBodies mb)%nat -> (r < nrBodies mb)%nat ->
  sBodyIndexByName mb name = Ok (Z.of_nat b) -> sBodyIndexByName mb ref = Ok (Z.of_nat r) -> built_relative mb name ref p J ->
  meets_root mb b r -> nth 0 (bodyVelB m) sv0 <> sv0 ->
  exists J1, jacobian mb m J = Ok J1 /\
    smul (jc_jac J1) (on_path (jc_path J) (alpha m)) <>
    point_velocity (relative_pose (nth b (bodyPosW m) ptid) (nth r (bodyPosW m) ptid)) p
      (relative_velocity (nth b (bodyPosW m) ptid) (nth r (bodyPosW m) ptid) (nth b (bodyVelB m) sv0) (nth r (bodyVelB m) sv0)).
Proof. exact rel_root_wrong. Qed.
Print Assumptions C23_root_added.
Theorem C23_root_refuted : exists mb m0 m name ref b r p J J1,
  wf_mb mb /\ rigid_mb mb /\ mbc_ok mb m0 /\ config_ok mb m0 /\ after_kinematics mb m0 m /\ one_root mb /\
  (b < nrBodies mb)%nat /\ (r < nrBodies mb)%nat /\ sBodyIndexByName mb name = Ok (Z.of_nat b) /\ sBodyIndexByName mb ref = Ok (Z.of_nat r) /\
  built_relative mb name ref p J /\ ~ anc mb b r /\ ~ anc mb r b /\ jacobian mb m J = Ok J1 /\
  smul (jc_jac J1) (on_path (jc_path J) (alpha m)) <>
    point_velocity (relative_pose (nth b (bodyPosW m) ptid) (nth r (bodyPosW m) ptid)) p
      (relative_velocity (nth b (bodyPosW m) ptid) (nth r (bodyPosW m) ptid) (nth b (bodyVelB m) sv0) (nth r (bodyVelB m) sv0)).
Proof. exact root_wrong. Qed.
Print Assumptions C23_root_refuted.
(** C23 is false of a body that is an ancestor of the reference: the point is taken on another body. *)
Theorem C23_ancestor_refuted : exists mb m0 m name ref b r p J J1,
  wf_mb mb /\ rigid_mb mb /\ mbc_ok mb m0 /\ config_ok mb m0 /\ after_kinematics mb m0 m /\ one_root mb /\
  (b < nrBodies mb)%nat /\ (r < nrBodies mb)%nat /\ sBodyIndexByName mb name = Ok (Z.of_nat b) /\ sBodyIndexByName mb ref = Ok (Z.of_nat r) /\
  built_relative mb name ref p J /\ b <> r /\ b <> 0%nat /\ r <> 0%nat /\ anc mb b r /\ jacobian mb m J = Ok J1 /\
  smul (jc_jac J1) (on_path (jc_path J) (alpha m)) <>
    point_velocity (relative_pose (nth b (bodyPosW m) ptid) (nth r (bodyPosW m) ptid)) p
      (relative_velocity (nth b (bodyPosW m) ptid) (nth r (bodyPosW m) ptid) (nth b (bodyVelB m) sv0) (nth r (bodyVelB m) sv0)).
Proof. exact ancestor_wrong. Qed.
Print Assumptions C23_ancestor_refuted.
(** C23: for a body relative to itself, jacobian and bodyJacobian read past the end of the path. *)
Theorem C23_same_body_undefined : forall mb m, wf_mb mb -> one_root mb ->
  forall name b p J, (b < nrBodies mb)%nat -> sBodyIndexByName mb name = Ok (Z.of_nat b) -> built_relative mb name name p J ->
  jacobian mb m J = UB /\ bodyJacobian mb m J = UB.
Proof. exact rel_self_top. Qed.
Print Assumptions C23_same_body_undefined.
Example C23_same_body_applies : exists J, built_relative rex_mb "arm" "arm" v0 J /\ jacobian rex_mb rex_m J = UB.
Proof.
  destruct (rex_ctor "arm" "arm" v0 2 2) as (Eb & _ & Lb & _ & J & HB); [cbn; tauto|cbn; tauto|].
  exists J. split; [exact HB|]. apply (C23_same_body_undefined rex_mb rex_m rex_wf rex_root "arm" 2 v0 J Lb Eb HB).
Qed.
