(** C24-C31: centre of mass, CoM Jacobians, centroidal momentum. *)
From Coq Require Import Reals String ZArith Bool Arith List Lia.
From Verif Require Import Res Vec Sva Mat JointM MultiBodyM KinM DynM JacM CoMM MomM Spec SpecDyn SpecJac SpecDeriv SpecCoM Ex DynExP
  DerivExP JacExP CoMCtorP CoMTopP MomTopP CoMExP.
Import ListNotations.
Open Scope R_scope.

(** C24: computeCoM, computeCoMVelocity and computeCoMAcceleration are the mass-weighted means
    of the positions, velocities and accelerations of the centres of mass of the bodies. *)
Theorem C24_position : forall mb m0 m,
  wf_mb mb -> rigid_mb mb -> mbc_ok mb m0 -> config_ok mb m0 -> after_kinematics mb m0 m ->
  0 < total_mass_of mb -> forall c, com_of mb c ->
  computeCoM mb m = Ok (com_mean mb (fun _ => 1) (fun i => point_position (nth i (bodyPosW m) ptid) (c i))).
Proof. exact top_com. Qed.
Print Assumptions C24_position.
Theorem C24_velocity : forall mb m0 m,
  wf_mb mb -> rigid_mb mb -> mbc_ok mb m0 -> config_ok mb m0 -> after_kinematics mb m0 m ->
  0 < total_mass_of mb -> forall c, com_of mb c ->
  computeCoMVelocity mb m = Ok (com_mean mb (fun _ => 1)
    (fun i => slin (point_velocity (nth i (bodyPosW m) ptid) (c i) (nth i (bodyVelB m) sv0)))).
Proof. exact top_comv. Qed.
Print Assumptions C24_velocity.
Theorem C24_acceleration : forall mb m0 m,
  wf_mb mb -> rigid_mb mb -> mbc_ok mb m0 -> config_ok mb m0 -> after_kinematics mb m0 m ->
  0 < total_mass_of mb -> forall c A0 m3, com_of mb c -> forwardAcceleration mb m A0 = Ok m3 ->
  computeCoMAcceleration mb m3 = Ok (com_mean mb (fun _ => 1)
    (fun i => slin (point_acceleration (nth i (bodyPosW m) ptid) (c i) (nth i (bodyVelB m) sv0) (nth i (bodyAccB m3) sv0)))).
Proof. exact top_coma. Qed.
Print Assumptions C24_acceleration.
(** C24: along a trajectory computeCoMVelocity is the time derivative of computeCoM, and
    computeCoMAcceleration, from accelerations without gravity, that of computeCoMVelocity. *)
Theorem C24_velocity_is_derivative : forall mb (M K : R -> MBC) t, wf_mb mb -> rigid_mb mb ->
  (forall j, In j (mb_joints mb) -> regular j) ->
  (forall s, mbc_ok mb (M s)) -> (forall s, config_ok mb (M s)) -> (forall s, after_kinematics mb (M s) (K s)) ->
  (forall i, (i < nrBodies mb)%nat ->
     follows (nth i (mb_joints mb) jd) (fun s => nth i (q (M s)) []) t (nth i (alpha (M t)) [])) ->
  0 < total_mass_of mb -> forall c, com_of mb c ->
  forall com v, (forall s, computeCoM mb (K s) = Ok (com s)) -> computeCoMVelocity mb (K t) = Ok v -> derivV com t v.
Proof. exact traj_com. Qed.
Print Assumptions C24_velocity_is_derivative.
Theorem C24_acceleration_is_derivative : forall mb (M K : R -> MBC) t, wf_mb mb -> rigid_mb mb ->
  (forall j, In j (mb_joints mb) -> regular j) ->
  (forall s, mbc_ok mb (M s)) -> (forall s, config_ok mb (M s)) -> (forall s, after_kinematics mb (M s) (K s)) ->
  (forall i, (i < nrBodies mb)%nat ->
     follows (nth i (mb_joints mb) jd) (fun s => nth i (q (M s)) []) t (nth i (alpha (M t)) [])) ->
  0 < total_mass_of mb -> forall c, com_of mb c ->
  forall v A m3,
  (forall i k, (i < nrBodies mb)%nat -> (k < jdof (nth i (mb_joints mb) jd))%nat ->
     derivable_pt_lim (fun s => co (nth i (alpha (M s)) []) k) t (co (nth i (alphaD (M t)) []) k)) ->
  (forall s, computeCoMVelocity mb (K s) = Ok (v s)) -> forwardAcceleration mb (K t) sv0 = Ok m3 ->
  computeCoMAcceleration mb m3 = Ok A -> derivV v t A.
Proof. exact traj_comv. Qed.
Print Assumptions C24_acceleration_is_derivative.
Example C24_applies : exists m, after_kinematics ex_mb ex_m m /\
  computeCoM ex_mb m = Ok (com_mean ex_mb (fun _ => 1) (fun i => point_position (nth i (bodyPosW m) ptid) (own_com ex_mb i))).
Proof.
  destruct ex_kin as (m & A). exists m. split; [exact A|].
  exact (C24_position _ _ m ex_wf ex_rigid ex_mbc_ok ex_config A ex_tm _ (own_com_of _ ex_sane)).
Qed.
Example C24_derivative_applies : exists K com, (forall s, computeCoM exd_mb (K s) = Ok (com s)) /\
  forall t, exists v, computeCoMVelocity exd_mb (K t) = Ok v /\ derivV com t v.
Proof.
  destruct exd_kin as (K & HK). eexists K, _. split.
  - intro s. exact (C24_position _ _ (K s) exd_wf exd_rigid (exd_ok s) (exd_config s) (HK s) exd_tm _ exd_com).
  - intro t. eexists. split; [exact (C24_velocity _ _ (K t) exd_wf exd_rigid (exd_ok t) (exd_config t) (HK t) exd_tm _ exd_com)|].
    eapply (C24_velocity_is_derivative _ _ K t exd_wf exd_rigid exd_regular exd_ok exd_config HK (exd_follows t) exd_tm _ exd_com).
    + intro s. exact (C24_position _ _ (K s) exd_wf exd_rigid (exd_ok s) (exd_config s) (HK s) exd_tm _ exd_com).
    + exact (C24_velocity _ _ (K t) exd_wf exd_rigid (exd_ok t) (exd_config t) (HK t) exd_tm _ exd_com).
Qed.

(** C25: the objects the next theorems speak of are those the constructors give; the calls
    below keep the property [comj_of]. *)
Theorem C25_constructors : forall g gm mb w, wf_mb mb -> total_mass_of mb <> 0 ->
  (exists c, CoMJ_ctor g gm mb = Ok c /\ comj_of mb (repeat 1 (nrBodies mb)) c) /\
  (length w = nrBodies mb -> exists c, CoMJ_ctor_w g gm mb w = Ok c /\ comj_of mb w c) /\
  (length w <> nrBodies mb -> CoMJ_ctor_w g gm mb w = Throw DomainError).
Proof. intros g gm mb w W Z. split; [exact (CoMJ_ctor_ok g gm mb W Z)|exact (CoMJ_ctor_w_ok g gm mb w W Z)]. Qed.
Print Assumptions C25_constructors.
(** C25: jacobian * alpha = velocity, the weighted mean of the velocities of the centres of
    mass; with unit weights it is computeCoMVelocity. *)
Theorem C25_jacobian_times_alpha : forall mb m0 m,
  wf_mb mb -> rigid_mb mb -> mbc_ok mb m0 -> config_ok mb m0 -> after_kinematics mb m0 m ->
  0 < total_mass_of mb -> forall w c, comj_of mb w c ->
  exists c1 v, comj_jacobian mb m c = Ok c1 /\ comj_of mb w c1 /\ comj_velocity mb m c = Ok v /\
    (forall r, (r < 3)%nat -> mat_vec (cj_jac c1) (concat (alpha m)) r = vcoef r v) /\
    v = com_mean mb (fun i => nth i w 0)
          (fun i => slin (point_velocity (nth i (bodyPosW m) ptid) (own_com mb i) (nth i (bodyVelB m) sv0))) /\
    (w = repeat 1 (nrBodies mb) -> sane_masses mb -> computeCoMVelocity mb m = Ok v).
Proof. exact top_comj. Qed.
Print Assumptions C25_jacobian_times_alpha.
(** C25: for every vector of rates, with the velocities forwardVelocity gives for it. *)
Theorem C25_jacobian_any_rates : forall mb m0 m,
  wf_mb mb -> rigid_mb mb -> mbc_ok mb m0 -> config_ok mb m0 -> after_kinematics mb m0 m ->
  forall w c, comj_of mb w c ->
  forall c1 a mv, comj_jacobian mb m c = Ok c1 -> sized mb jdof a -> forwardVelocity mb (with_alpha a m) = Ok mv ->
  let v := com_mean mb (fun i => nth i w 0)
          (fun i => slin (point_velocity (nth i (bodyPosW m) ptid) (own_com mb i) (nth i (bodyVelB mv) sv0))) in
  comj_velocity mb mv c = Ok v /\ forall r, (r < 3)%nat -> mat_vec (cj_jac c1) (concat a) r = vcoef r v.
Proof. exact top_comj_rates. Qed.
Print Assumptions C25_jacobian_any_rates.
Example C25_applies : exists m c c1 v, after_kinematics ex_mb ex_m m /\
  CoMJ_ctor ex_garbage (fun _ _ _ => 7) ex_mb = Ok c /\ comj_jacobian ex_mb m c = Ok c1 /\ computeCoMVelocity ex_mb m = Ok v /\
  forall r, (r < 3)%nat -> mat_vec (cj_jac c1) (concat (alpha m)) r = vcoef r v.
Proof.
  destruct ex_kin as (m & A).
  destruct (C25_constructors ex_garbage (fun _ _ _ => 7) ex_mb [] ex_wf ex_tm0) as ((c & E & H) & _).
  destruct (C25_jacobian_times_alpha _ _ m ex_wf ex_rigid ex_mbc_ok ex_config A ex_tm _ _ H) as (c1 & v & E1 & _ & _ & P & _ & U).
  exists m, c, c1, v. split; [exact A|]. split; [exact E|]. split; [exact E1|]. split; [exact (U eq_refl ex_sane)|exact P].
Qed.

(** C26: CoMJacobian and CoMJacobianDummy compute the same matrices for the same weights
    (body names are distinct: the dummy looks the bodies up by name). *)
Theorem C26_dummy_constructors : forall g gm mb w, wf_mb mb -> names_ok mb ->
  (exists d, CoMD_ctor g gm mb = Ok d /\ comd_of mb (repeat 1 (nrBodies mb)) d) /\
  (length w = nrBodies mb -> exists d, CoMD_ctor_w g gm mb w = Ok d /\ comd_of mb w d) /\
  (length w <> nrBodies mb -> CoMD_ctor_w g gm mb w = Throw DomainError).
Proof. intros g gm mb w W N. split; [exact (CoMD_ctor_ok g gm mb W N)|exact (CoMD_ctor_w_ok g gm mb w W N)]. Qed.
Print Assumptions C26_dummy_constructors.
Theorem C26_algorithms_agree : forall mb m0 m,
  wf_mb mb -> rigid_mb mb -> mbc_ok mb m0 -> config_ok mb m0 -> after_kinematics mb m0 m ->
  0 < total_mass_of mb -> forall w c, comj_of mb w c -> forall d, comd_of mb w d ->
  exists c1 d1 c2 d2,
    comj_jacobian mb m c = Ok c1 /\ comd_jacobian mb m d = Ok d1 /\
    comj_jacobianDot mb m c = Ok c2 /\ comd_jacobianDot mb m d = Ok d2 /\
    comj_of mb w c1 /\ comd_of mb w d1 /\ comj_of mb w c2 /\ comd_of mb w d2 /\
    forall r x, (r < 3)%nat -> (x < mb_nrDof mb)%nat ->
      ment (cj_jac c1) r x = ment (cd_jac d1) r x /\ ment (cj_dot c2) r x = ment (cd_dot d2) r x.
Proof. exact top_agree_total. Qed.
Print Assumptions C26_algorithms_agree.
Example C26_applies : exists m c d c1 d1, after_kinematics ex_mb ex_m m /\
  CoMJ_ctor_w ex_garbage (fun _ _ _ => 7) ex_mb ex_w = Ok c /\ CoMD_ctor_w (fun _ _ _ => sv0) (fun _ _ _ => 5) ex_mb ex_w = Ok d /\
  comj_jacobian ex_mb m c = Ok c1 /\ comd_jacobian ex_mb m d = Ok d1 /\
  forall r x, (r < 3)%nat -> (x < 11)%nat -> ment (cj_jac c1) r x = ment (cd_jac d1) r x.
Proof.
  destruct ex_kin as (m & A).
  destruct (proj1 (proj2 (C25_constructors ex_garbage (fun _ _ _ => 7) ex_mb ex_w ex_wf ex_tm0)) eq_refl) as (c & E & H).
  destruct (proj1 (proj2 (C26_dummy_constructors (fun _ _ _ => sv0) (fun _ _ _ => 5) ex_mb ex_w ex_wf ex_names)) eq_refl) as (d & F & HD).
  destruct (C26_algorithms_agree _ _ m ex_wf ex_rigid ex_mbc_ok ex_config A ex_tm _ _ H _ HD) as (c1 & d1 & c2 & d2 & E1 & E2 & _ & _ & _ & _ & _ & _ & P).
  exists m, c, d, c1, d1. do 5 (split; [assumption|]). intros r x Hr Hx. exact (proj1 (P r x Hr Hx)).
Qed.

(** C27: jacobianDot * alpha = normalAcceleration; jacobian * alphaD + normalAcceleration is the
    weighted mean of the accelerations, with unit weights computeCoMAcceleration. *)
Theorem C27_acceleration : forall mb m0 m,
  wf_mb mb -> rigid_mb mb -> mbc_ok mb m0 -> config_ok mb m0 -> after_kinematics mb m0 m ->
  0 < total_mass_of mb -> forall w c, comj_of mb w c ->
  forall m3, forwardAcceleration mb m sv0 = Ok m3 ->
  let A := com_mean mb (fun i => nth i w 0)
     (fun i => slin (point_acceleration (nth i (bodyPosW m) ptid) (own_com mb i) (nth i (bodyVelB m) sv0) (nth i (bodyAccB m3) sv0))) in
  exists c1 c2 c3 n, comj_jacobian mb m c = Ok c1 /\ comj_jacobianDot mb m c = Ok c2 /\ comj_normalAcceleration mb m c = Ok (n, c3) /\
    comj_of mb w c1 /\ comj_of mb w c2 /\ comj_of mb w c3 /\
    (forall r, (r < 3)%nat -> mat_vec (cj_dot c2) (concat (alpha m)) r = vcoef r n) /\
    (forall r, (r < 3)%nat -> mat_vec (cj_jac c1) (concat (alphaD m)) r + vcoef r n = vcoef r A) /\
    (w = repeat 1 (nrBodies mb) -> sane_masses mb -> computeCoMAcceleration mb m3 = Ok A).
Proof. exact top_comj_acc. Qed.
Print Assumptions C27_acceleration.
Example C27_applies : exists m m3 c c1 c3 n A, after_kinematics ex_mb ex_m m /\ forwardAcceleration ex_mb m sv0 = Ok m3 /\
  CoMJ_ctor ex_garbage (fun _ _ _ => 7) ex_mb = Ok c /\ comj_jacobian ex_mb m c = Ok c1 /\ comj_normalAcceleration ex_mb m c = Ok (n, c3) /\
  computeCoMAcceleration ex_mb m3 = Ok A /\
  forall r, (r < 3)%nat -> mat_vec (cj_jac c1) (concat (alphaD m)) r + vcoef r n = vcoef r A.
Proof.
  destruct ex_kin as (m & A). destruct (ex_acc m A) as (m3 & F).
  destruct (C25_constructors ex_garbage (fun _ _ _ => 7) ex_mb [] ex_wf ex_tm0) as ((c & E & H) & _).
  destruct (C27_acceleration _ _ m ex_wf ex_rigid ex_mbc_ok ex_config A ex_tm _ _ H m3 F) as (c1 & c2 & c3 & n & E1 & _ & E3 & _ & _ & _ & _ & P & U).
  eexists m, m3, c, c1, c3, n, _. do 5 (split; [assumption|]). split; [exact (U eq_refl ex_sane)|exact P].
Qed.

(** C28: in a CoMJacobian object the list of joint k holds, once each, the bodies that have k on
    their path from the root. *)
Theorem C28_sub_bodies : forall g gm mb w c, wf_mb mb -> total_mass_of mb <> 0 ->
  CoMJ_ctor g gm mb = Ok c \/ CoMJ_ctor_w g gm mb w = Ok c ->
  length (cj_sub c) = nrBodies mb /\
  forall k, (k < nrBodies mb)%nat -> exists l, nth_error (cj_sub c) k = Some (map Z.of_nat l) /\ NoDup l /\
    forall b, In b l <-> exists path, root_path mb b path /\ In k path.
Proof. exact sub_bodies. Qed.
Print Assumptions C28_sub_bodies.
Example C28_applies : exists c l0 l1, CoMJ_ctor ex_garbage (fun _ _ _ => 7) ex_mb = Ok c /\
  nth_error (cj_sub c) 0 = Some (map Z.of_nat l0) /\ In 3%nat l0 /\ nth_error (cj_sub c) 1 = Some (map Z.of_nat l1) /\ ~ In 3%nat l1.
Proof. exact ex_subs. Qed.

(** C29, the part that holds: a weight vector of the right size is installed; a robot with
    another number of bodies is rejected. *)
Theorem C29_safe_weight_partial : forall mb w c w', wf_mb mb -> total_mass_of mb <> 0 -> comj_of mb w c ->
  (length w' = nrBodies mb -> exists c', sWeight mb w' c = Ok c' /\ comj_of mb w' c') /\
  (forall mb', nrBodies mb' <> nrBodies mb -> sWeight mb' w' c = Throw DomainError).
Proof.
  intros mb w c w' W Z H. split; [exact (sWeight_ok mb w c w' W Z H)|]. intros mb' L. exact (sWeight_other mb mb' w c w' H L).
Qed.
Print Assumptions C29_safe_weight_partial.
(** C29 is false: the size of the new weights is never checked. On every robot and object, a
    shorter vector is read out of bounds and a longer one is accepted. *)
Theorem C29_safe_weight_refuted : forall mb w c w', total_mass_of mb <> 0 -> comj_of mb w c ->
  ((length w' < nrBodies mb)%nat -> sWeight mb w' c = UB) /\
  ((nrBodies mb < length w')%nat -> exists c', sWeight mb w' c = Ok c').
Proof.
  intros mb w c w' Z H. split; [exact (sWeight_short mb w c w' Z H)|].
  intro L. destruct (sWeight_long mb w c w' Z H L) as (c' & E & _). exists c'. exact E.
Qed.
Print Assumptions C29_safe_weight_refuted.
Example C29_witness : exists c, CoMJ_ctor ex_garbage (fun _ _ _ => 7) ex_mb = Ok c /\ sWeight ex_mb [1; 1] c = UB /\
  exists c', sWeight ex_mb [1; 1; 1; 1; 1] c = Ok c'.
Proof.
  destruct (C25_constructors ex_garbage (fun _ _ _ => 7) ex_mb [] ex_wf ex_tm0) as ((c & E & H) & _). exists c. split; [exact E|]. split.
  - apply (C29_safe_weight_refuted _ _ _ [1; 1] ex_tm0 H). apply Nat.ltb_lt. reflexivity.
  - apply (C29_safe_weight_refuted _ _ _ [1; 1; 1; 1; 1] ex_tm0 H). apply Nat.ltb_lt. reflexivity.
Qed.

(** C30: the constructors. *)
Theorem C30_constructors : forall g gm mb w, wf_mb mb -> names_ok mb ->
  (exists c, CMM_ctor g gm mb = Ok c /\ cmm_of mb (repeat 1 (nrBodies mb)) c) /\
  (length w = nrBodies mb -> exists c, CMM_ctor_w g gm mb w = Ok c /\ cmm_of mb w c) /\
  (length w <> nrBodies mb -> CMM_ctor_w g gm mb w = Throw DomainError).
Proof. intros g gm mb w W N. split; [exact (CMM_ctor_ok g gm mb W N)|exact (CMM_ctor_w_ok g gm mb w W N)]. Qed.
Print Assumptions C30_constructors.
(** C30: computeCentroidalMomentum is the sum of the momenta of the bodies about com, with
    world axes, and its linear part is the total mass times the velocity of the CoM. *)
Theorem C30_momentum : forall mb m0 m,
  wf_mb mb -> rigid_mb mb -> mbc_ok mb m0 -> config_ok mb m0 -> after_kinematics mb m0 m ->
  forall com, computeCentroidalMomentum mb m com = Ok (wsum (nrBodies mb) (fun _ => 1)
    (fun i => momentum_about com (nth i (bodyPosW m) ptid) (inertia_of mb i) (nth i (bodyVelB m) sv0))).
Proof. exact top_momentum. Qed.
Print Assumptions C30_momentum.
Theorem C30_linear_part : forall mb m0 m,
  wf_mb mb -> rigid_mb mb -> mbc_ok mb m0 -> config_ok mb m0 -> after_kinematics mb m0 m ->
  0 < total_mass_of mb -> forall c com, com_of mb c ->
  exists h v, computeCentroidalMomentum mb m com = Ok h /\ computeCoMVelocity mb m = Ok v /\ slin h = vscale (total_mass_of mb) v.
Proof. exact momentum_linear. Qed.
Print Assumptions C30_linear_part.
(** C30: matrix * alpha = momentum, with unit weights computeCentroidalMomentum. *)
Theorem C30_matrix_times_alpha : forall mb m0 m,
  wf_mb mb -> rigid_mb mb -> mbc_ok mb m0 -> config_ok mb m0 -> after_kinematics mb m0 m ->
  forall w c, cmm_of mb w c -> forall com,
  exists c1 h, computeMatrix mb m com c = Ok c1 /\ cmm_of mb w c1 /\ cmm_momentum mb m com c = Ok h /\
    (forall r, (r < 6)%nat -> mat_vec (cm_mat c1) (concat (alpha m)) r = svcoef r h) /\
    h = wsum (nrBodies mb) (fun i => nth i w 0)
          (fun i => momentum_about com (nth i (bodyPosW m) ptid) (inertia_of mb i) (nth i (bodyVelB m) sv0)) /\
    (w = repeat 1 (nrBodies mb) -> computeCentroidalMomentum mb m com = Ok h).
Proof. exact top_matrix. Qed.
Print Assumptions C30_matrix_times_alpha.
Theorem C30_matrix_any_rates : forall mb m0 m,
  wf_mb mb -> rigid_mb mb -> mbc_ok mb m0 -> config_ok mb m0 -> after_kinematics mb m0 m ->
  forall w c, cmm_of mb w c -> forall com c1 a mv, computeMatrix mb m com c = Ok c1 ->
  sized mb jdof a -> forwardVelocity mb (with_alpha a m) = Ok mv ->
  exists h, cmm_momentum mb mv com c = Ok h /\
    h = wsum (nrBodies mb) (fun i => nth i w 0)
          (fun i => momentum_about com (nth i (bodyPosW m) ptid) (inertia_of mb i) (nth i (bodyVelB mv) sv0)) /\
    forall r, (r < 6)%nat -> mat_vec (cm_mat c1) (concat a) r = svcoef r h.
Proof. exact top_matrix_rates. Qed.
Print Assumptions C30_matrix_any_rates.
Example C30_applies : exists m c c1 h, after_kinematics ex_mb ex_m m /\ CMM_ctor (fun _ _ _ => sv0) (fun _ _ _ => 7) ex_mb = Ok c /\
  computeMatrix ex_mb m (mkV3 1 2 3) c = Ok c1 /\ computeCentroidalMomentum ex_mb m (mkV3 1 2 3) = Ok h /\
  forall r, (r < 6)%nat -> mat_vec (cm_mat c1) (concat (alpha m)) r = svcoef r h.
Proof.
  destruct ex_kin as (m & A).
  destruct (C30_constructors (fun _ _ _ => sv0) (fun _ _ _ => 7) ex_mb [] ex_wf ex_names) as ((c & E & H) & _).
  destruct (C30_matrix_times_alpha _ _ m ex_wf ex_rigid ex_mbc_ok ex_config A _ _ H (mkV3 1 2 3)) as (c1 & h & E1 & _ & _ & P & _ & U).
  exists m, c, c1, h. do 3 (split; [assumption|]). split; [exact (U eq_refl)|exact P].
Qed.

(** C31: matrixDot * alpha = normalMomentumDot; with unit weights computeCentroidalMomentumDot =
    matrix * alphaD + normalMomentumDot; computeMatrixAndMatrixDot computes both matrices. *)
Theorem C31_derivative_splits : forall mb m0 m,
  wf_mb mb -> rigid_mb mb -> mbc_ok mb m0 -> config_ok mb m0 -> after_kinematics mb m0 m ->
  forall w c, cmm_of mb w c -> forall com comDot m3, forwardAcceleration mb m sv0 = Ok m3 ->
  exists c1 c2 c3 c4 n, computeMatrix mb m com c = Ok c1 /\ computeMatrixDot mb m com comDot c = Ok c2 /\
    normalMomentumDot mb m com comDot c = Ok (n, c3) /\ computeMatrixAndMatrixDot mb m com comDot c = Ok c4 /\
    cmm_of mb w c1 /\ cmm_of mb w c2 /\ cmm_of mb w c3 /\ cmm_of mb w c4 /\
    (forall r x, (r < 6)%nat -> ment (cm_mat c4) r x = ment (cm_mat c1) r x /\ ment (cm_dot c4) r x = ment (cm_dot c2) r x) /\
    (forall r, (r < 6)%nat -> mat_vec (cm_dot c2) (concat (alpha m)) r = svcoef r n) /\
    (w = repeat 1 (nrBodies mb) -> exists hd, computeCentroidalMomentumDot mb m3 com comDot = Ok hd /\
       forall r, (r < 6)%nat -> mat_vec (cm_mat c1) (concat (alphaD m)) r + svcoef r n = svcoef r hd).
Proof. exact top_dots. Qed.
Print Assumptions C31_derivative_splits.
(** C31: along a trajectory, about a point com that moves with velocity comDot,
    computeCentroidalMomentumDot is the time derivative of computeCentroidalMomentum. *)
Theorem C31_is_derivative : forall mb (M K : R -> MBC) t, wf_mb mb -> rigid_mb mb ->
  (forall j, In j (mb_joints mb) -> regular j) ->
  (forall s, mbc_ok mb (M s)) -> (forall s, config_ok mb (M s)) -> (forall s, after_kinematics mb (M s) (K s)) ->
  (forall i, (i < nrBodies mb)%nat ->
     follows (nth i (mb_joints mb) jd) (fun s => nth i (q (M s)) []) t (nth i (alpha (M t)) [])) ->
  forall com comDot h hd m3,
  (forall i k, (i < nrBodies mb)%nat -> (k < jdof (nth i (mb_joints mb) jd))%nat ->
     derivable_pt_lim (fun s => co (nth i (alpha (M s)) []) k) t (co (nth i (alphaD (M t)) []) k)) ->
  derivV com t comDot ->
  (forall s, computeCentroidalMomentum mb (K s) (com s) = Ok (h s)) -> forwardAcceleration mb (K t) sv0 = Ok m3 ->
  computeCentroidalMomentumDot mb m3 (com t) comDot = Ok hd -> derivS h t hd.
Proof. exact traj_momentum. Qed.
Print Assumptions C31_is_derivative.
Example C31_applies : exists m m3 c c1 c3 n hd, after_kinematics ex_mb ex_m m /\ forwardAcceleration ex_mb m sv0 = Ok m3 /\
  CMM_ctor (fun _ _ _ => sv0) (fun _ _ _ => 7) ex_mb = Ok c /\ computeMatrix ex_mb m (mkV3 1 2 3) c = Ok c1 /\
  normalMomentumDot ex_mb m (mkV3 1 2 3) (mkV3 4 5 6) c = Ok (n, c3) /\
  computeCentroidalMomentumDot ex_mb m3 (mkV3 1 2 3) (mkV3 4 5 6) = Ok hd /\
  forall r, (r < 6)%nat -> mat_vec (cm_mat c1) (concat (alphaD m)) r + svcoef r n = svcoef r hd.
Proof.
  destruct ex_kin as (m & A). destruct (ex_acc m A) as (m3 & F).
  destruct (C30_constructors (fun _ _ _ => sv0) (fun _ _ _ => 7) ex_mb [] ex_wf ex_names) as ((c & E & H) & _).
  destruct (C31_derivative_splits _ _ m ex_wf ex_rigid ex_mbc_ok ex_config A _ _ H (mkV3 1 2 3) (mkV3 4 5 6) m3 F)
    as (c1 & c2 & c3 & c4 & n & E1 & _ & E3 & _ & _ & _ & _ & _ & _ & _ & U).
  destruct (U eq_refl) as (hd & EH & P).
  exists m, m3, c, c1, c3, n, hd. do 6 (split; [assumption|]). exact P.
Qed.
Example C31_derivative_applies : exists K h, (forall s, computeCentroidalMomentum exd_mb (K s) (mkV3 s 0 0) = Ok (h s)) /\
  forall t, exists m3 hd, forwardAcceleration exd_mb (K t) sv0 = Ok m3 /\
    computeCentroidalMomentumDot exd_mb m3 (mkV3 t 0 0) (mkV3 1 0 0) = Ok hd /\ derivS h t hd.
Proof. exact exd_momentum. Qed.
