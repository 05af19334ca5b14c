(** C06-C12, C63: inverse and forward dynamics. *)
From Coq Require Import Reals String ZArith Bool Arith List.
From Verif Require KinFinP.
From Verif Require Import Res Vec Sva Mat JointM MultiBodyM KinM DynM Spec SpecDyn Ex DynCP DynFinP SolveP DynFin2P DynExP.
Import ListNotations.
Open Scope R_scope.

(** A ForwardDynamics object built for mb has the shape assumed below. *)
Theorem C06_object_shape : forall gR gS gI mb, wf_mb mb -> fd_ok mb (FD_ctor gR gS gI mb).
Proof. exact FD_ctor_ok. Qed.
Print Assumptions C06_object_shape.

(** C06: after the kinematics, computeH, computeC and inverseDynamics all succeed and the
    stacked torques are H alphaD + C. inverseDynamics writes bodyAccB and jointTorque only. *)
Theorem C06_torque_is_H_alphaD_plus_C : forall mb m0 m f s,
  wf_mb mb -> rigid_mb mb -> mbc_ok mb m0 -> config_ok mb m0 ->
  after_kinematics mb m0 m -> length f = nrBodies mb -> fd_ok mb s ->
  exists s1 s2 f' m', computeH mb m s = Ok s1 /\ computeC mb m s1 = Ok s2 /\ inverseDynamics mb f m = Ok (f', m') /\
    length (concat (jointTorque m')) = mb_nrDof mb /\
    (forall r, (r < mb_nrDof mb)%nat ->
      flat (jointTorque m') r =
        rsum (mb_nrDof mb) (fun c => ment (fd_H s2) r c * flat (alphaD m) c) + nth r (fd_C s2) 0) /\
    m' = with_jointTorque (jointTorque m') (with_bodyAccB (bodyAccB m') m).
Proof. exact ID_H_C. Qed.
Print Assumptions C06_torque_is_H_alphaD_plus_C.
Example C06_applies : exists m s1 s2 f' m', after_kinematics ex_mb ex_m m /\
  computeH ex_mb m ex_fd = Ok s1 /\ computeC ex_mb m s1 = Ok s2 /\ inverseDynamics ex_mb ex_f m = Ok (f', m').
Proof.
  destruct ex_kin as (m & A).
  destruct (C06_torque_is_H_alphaD_plus_C _ _ m ex_f ex_fd ex_wf ex_rigid ex_mbc_ok ex_config A eq_refl ex_fd_ok)
    as (s1 & s2 & f' & m' & E1 & E2 & E3 & _). exists m, s1, s2, f', m'. auto.
Qed.

(** C07: H is a symmetric nrDof x nrDof matrix. *)
Theorem C07_mass_matrix_symmetric : forall mb m0 m s,
  wf_mb mb -> rigid_mb mb -> mbc_ok mb m0 -> config_ok mb m0 -> after_kinematics mb m0 m -> fd_ok mb s ->
  exists s', computeH mb m s = Ok s' /\ mrows (fd_H s') = mb_nrDof mb /\ mcols (fd_H s') = mb_nrDof mb /\
    (forall r c, (r < mb_nrDof mb)%nat -> (c < mb_nrDof mb)%nat -> ment (fd_H s') r c = ment (fd_H s') c r) /\
    fd_C s' = fd_C s.
Proof. exact H_sym_total. Qed.
Print Assumptions C07_mass_matrix_symmetric.
Example C07_applies : exists m s', after_kinematics ex_mb ex_m m /\ computeH ex_mb m ex_fd = Ok s'.
Proof. destruct C06_applies as (m & s1 & _ & _ & _ & A & E & _). eauto. Qed.

(** C08: for the rates of the state, alpha^T H alpha is twice the kinetic energy. *)
Theorem C08_kinetic_energy : forall mb m0 m s s',
  wf_mb mb -> rigid_mb mb -> mbc_ok mb m0 -> config_ok mb m0 -> after_kinematics mb m0 m -> fd_ok mb s ->
  computeH mb m s = Ok s' ->
  quad (mb_nrDof mb) (ment (fd_H s')) (flat (alpha m)) (flat (alpha m)) =
  rsum (nrBodies mb) (fun i =>
    svdot (rbim (binertia (nth i (mb_bodies mb) bd)) (nth i (bodyVelB m) sv0)) (nth i (bodyVelB m) sv0)).
Proof. exact H_energy. Qed.
Print Assumptions C08_kinetic_energy.
(** ... and for every vector of rates b, with the velocities forwardVelocity gives for b. *)
Theorem C08_kinetic_energy_any_rates : forall mb m0 m s s' b mv,
  wf_mb mb -> rigid_mb mb -> mbc_ok mb m0 -> config_ok mb m0 -> after_kinematics mb m0 m -> fd_ok mb s ->
  computeH mb m s = Ok s' ->
  sized mb jdof b -> forwardVelocity mb (with_alpha b m) = Ok mv ->
  quad (mb_nrDof mb) (ment (fd_H s')) (flat b) (flat b) =
  rsum (nrBodies mb) (fun i =>
    svdot (rbim (binertia (nth i (mb_bodies mb) bd)) (nth i (bodyVelB mv) sv0)) (nth i (bodyVelB mv) sv0)).
Proof. exact H_energy_any. Qed.
Print Assumptions C08_kinetic_energy_any_rates.
Example C08_applies : exists m s' mv, after_kinematics ex_mb ex_m m /\ computeH ex_mb m ex_fd = Ok s' /\
  forwardVelocity ex_mb (with_alpha ex_rates m) = Ok mv /\ sized ex_mb jdof ex_rates.
Proof.
  destruct C07_applies as (m & s' & A & E). destruct (ex_virtual m A) as (mv & E2).
  exists m, s', mv. repeat (split; [assumption|]). reflexivity.
Qed.

(** C09: positive semi-definite inertias give a positive semi-definite H. *)
Theorem C09_mass_matrix_psd : forall mb m0 m s s',
  wf_mb mb -> rigid_mb mb -> mbc_ok mb m0 -> config_ok mb m0 -> after_kinematics mb m0 m -> fd_ok mb s ->
  computeH mb m s = Ok s' ->
  (forall b, In b (mb_bodies mb) -> inertia_psd (binertia b)) ->
  forall x, 0 <= quad (mb_nrDof mb) (ment (fd_H s')) x x.
Proof. exact H_psd_run. Qed.
Print Assumptions C09_mass_matrix_psd.
(** ... in particular physically consistent bodies have such inertias. *)
Theorem C09_physical_bodies_psd : forall m c J nm, consistent_body m c J -> inertia_psd (binertia (body_mci m c J nm)).
Proof. exact consistent_psd. Qed.
Print Assumptions C09_physical_bodies_psd.
(** ... and with positive definite inertias H is positive definite. *)
Theorem C09_mass_matrix_pd : forall mb m0 m s s',
  wf_mb mb -> rigid_mb mb -> mbc_ok mb m0 -> config_ok mb m0 -> after_kinematics mb m0 m -> fd_ok mb s ->
  computeH mb m s = Ok s' ->
  (forall b, In b (mb_bodies mb) -> inertia_pd (binertia b)) ->
  spd (mb_nrDof mb) (ment (fd_H s')).
Proof.
  intros mb m0 m s s' W RM K C A O E. destruct (H_run mb m0 m s s' W RM K C A O E) as [D P].
  exact (H_pd mb m s s' W RM D P).
Qed.
Print Assumptions C09_mass_matrix_pd.
Example C09_applies : forall b, In b (mb_bodies ex_mb) -> inertia_psd (binertia b) /\ inertia_pd (binertia b).
Proof. intros b H. split; [exact (ex_psd b H)|exact (ex_pd b H)]. Qed.

(** C10: forward dynamics with a correct solver, then inverse dynamics, gives the torques
    back; forward dynamics writes alphaD only. *)
Theorem C10_forward_then_inverse : forall mb m0 m s f solve,
  wf_mb mb -> rigid_mb mb -> mbc_ok mb m0 -> config_ok mb m0 ->
  after_kinematics mb m0 m -> fd_ok mb s -> length f = nrBodies mb ->
  (forall b, In b (mb_bodies mb) -> inertia_pd (binertia b)) -> solver_ok solve ->
  exists s' m' f2 m2, forwardDynamics solve mb m s = Ok (s', m') /\ m' = with_alphaD (alphaD m') m /\ fd_ok mb s' /\
    inverseDynamics mb f m' = Ok (f2, m2) /\ jointTorque m2 = jointTorque m.
Proof. exact FD_then_ID. Qed.
Print Assumptions C10_forward_then_inverse.
Theorem C10_inverse_then_forward : forall mb m0 m s f solve,
  wf_mb mb -> rigid_mb mb -> mbc_ok mb m0 -> config_ok mb m0 ->
  after_kinematics mb m0 m -> fd_ok mb s -> length f = nrBodies mb ->
  (forall b, In b (mb_bodies mb) -> inertia_pd (binertia b)) -> solver_ok solve ->
  exists f' m' s' m2, inverseDynamics mb f m = Ok (f', m') /\
    forwardDynamics solve mb m' s = Ok (s', m2) /\ alphaD m2 = alphaD m.
Proof. exact ID_then_FD. Qed.
Print Assumptions C10_inverse_then_forward.
(** The assumption on the solver can be met: elimination on symmetric positive definite
    matrices. *)
Example C10_solver : solver_ok lsolve.
Proof. exact lsolve_ok. Qed.
Example C10_applies : exists m s' m', after_kinematics ex_mb ex_m m /\ forwardDynamics lsolve ex_mb m ex_fd = Ok (s', m').
Proof.
  destruct ex_kin as (m & A).
  destruct (C10_forward_then_inverse _ _ m ex_fd ex_f lsolve ex_wf ex_rigid ex_mbc_ok ex_config A ex_fd_ok eq_refl ex_pd lsolve_ok)
    as (s' & m' & _ & _ & E & _). eauto.
Qed.

(** C11: changing the external wrenches changes the torque, in any direction b, by minus
    the work of the change on the body velocities produced by b. *)
Theorem C11_external_wrench_virtual_work : forall mb m0 m f F2 f1 m1 f2 m2 b mv,
  wf_mb mb -> rigid_mb mb -> mbc_ok mb m0 -> config_ok mb m0 ->
  after_kinematics mb m0 m -> length f = nrBodies mb -> length F2 = nrBodies mb ->
  inverseDynamics mb f m = Ok (f1, m1) -> inverseDynamics mb f (with_force F2 m) = Ok (f2, m2) ->
  sized mb jdof b -> forwardVelocity mb (with_alpha b m) = Ok mv ->
  rsum (mb_nrDof mb) (fun r => (flat (jointTorque m2) r - flat (jointTorque m1) r) * flat b r) =
  - rsum (nrBodies mb) (fun i =>
      svdot (svsub (nth i F2 sv0) (nth i (force m) sv0))
            (world_twist (nth i (bodyPosW m) ptid) (nth i (bodyVelB mv) sv0))).
Proof. exact ID_force_change. Qed.
Print Assumptions C11_external_wrench_virtual_work.
(** inverseDynamicsNoInertia returns that contribution with the opposite sign: plus the work
    of the external wrenches. *)
Theorem C11_no_inertia_is_opposite : forall mb m0 m f b mv,
  wf_mb mb -> rigid_mb mb -> mbc_ok mb m0 -> config_ok mb m0 ->
  after_kinematics mb m0 m -> length f = nrBodies mb ->
  sized mb jdof b -> forwardVelocity mb (with_alpha b m) = Ok mv ->
  exists f' m', inverseDynamicsNoInertia mb f m = Ok (f', m') /\
  m' = with_jointTorque (jointTorque m') m /\
  rsum (mb_nrDof mb) (fun r => flat (jointTorque m') r * flat b r) =
  rsum (nrBodies mb) (fun i =>
      svdot (nth i (force m) sv0) (world_twist (nth i (bodyPosW m) ptid) (nth i (bodyVelB mv) sv0))).
Proof. exact NoInertia_power. Qed.
Print Assumptions C11_no_inertia_is_opposite.
Example C11_applies : exists m mv r1 r2, after_kinematics ex_mb ex_m m /\
  forwardVelocity ex_mb (with_alpha ex_rates m) = Ok mv /\
  inverseDynamics ex_mb ex_f m = Ok r1 /\ inverseDynamics ex_mb ex_f (with_force ex_forces m) = Ok r2.
Proof.
  destruct ex_kin as (m & A). destruct (ex_virtual m A) as (mv & EV).
  pose proof (after_kin_state _ _ _ ex_wf ex_rigid ex_mbc_ok ex_config A) as D.
  destruct (ID_total ex_mb m ex_f ex_wf (ds_ok _ _ D) eq_refl) as (f1 & m1 & E1 & _).
  pose proof (dyn_state_with_force ex_mb m ex_forces D eq_refl) as D2.
  destruct (ID_total ex_mb _ ex_f ex_wf (ds_ok _ _ D2) eq_refl) as (f2 & m2 & E2 & _).
  exists m, mv, (f1, m1), (f2, m2). auto.
Qed.

(** C12: the power of the torques on virtual rates b is the power of the Newton-Euler body
    forces on the body velocities produced by b. *)
Theorem C12_power_balance : forall mb m0 m f f' m' b mv,
  wf_mb mb -> rigid_mb mb -> mbc_ok mb m0 -> config_ok mb m0 ->
  after_kinematics mb m0 m -> length f = nrBodies mb -> inverseDynamics mb f m = Ok (f', m') ->
  sized mb jdof b -> forwardVelocity mb (with_alpha b m) = Ok mv ->
  rsum (mb_nrDof mb) (fun r => flat (jointTorque m') r * flat b r) =
  rsum (nrBodies mb) (fun i =>
    let I := binertia (nth i (mb_bodies mb) bd) in
    let V := nth i (bodyVelB m) sv0 in
    svdot (svsub (svadd (rbim I (nth i (bodyAccB m') sv0)) (scrossDual V (rbim I V)))
                 (ptdual (nth i (bodyPosW m) ptid) (nth i (force m) sv0)))
          (nth i (bodyVelB mv) sv0)).
Proof. exact ID_power. Qed.
Print Assumptions C12_power_balance.
(** The accelerations in it are those of forwardAcceleration with base acceleration g. *)
Theorem C12_accelerations : forall mb m0 m f f' m' m3,
  wf_mb mb -> rigid_mb mb -> mbc_ok mb m0 -> config_ok mb m0 ->
  after_kinematics mb m0 m -> length f = nrBodies mb -> inverseDynamics mb f m = Ok (f', m') ->
  forwardAcceleration mb m (mkSV v0 (gravity m)) = Ok m3 -> bodyAccB m' = bodyAccB m3.
Proof. exact ID_acc. Qed.
Print Assumptions C12_accelerations.
Example C12_applies : exists m mv f' m' m3, after_kinematics ex_mb ex_m m /\ length ex_f = nrBodies ex_mb /\ sized ex_mb jdof ex_rates /\
  forwardVelocity ex_mb (with_alpha ex_rates m) = Ok mv /\ inverseDynamics ex_mb ex_f m = Ok (f', m') /\ forwardAcceleration ex_mb m (mkSV v0 (gravity m)) = Ok m3.
Proof.
  destruct ex_kin as (m & A). destruct (ex_virtual m A) as (mv & EV).
  pose proof (after_kin_state _ _ _ ex_wf ex_rigid ex_mbc_ok ex_config A) as D.
  destruct (ID_total ex_mb m ex_f ex_wf (ds_ok _ _ D) eq_refl) as (f1 & m1 & E1 & _).
  destruct (KinFinP.FA_total ex_mb m (mkSV v0 (gravity m)) ex_wf (ds_ok _ _ D)) as (m3 & E3 & _).
  exists m, mv, f1, m1, m3. repeat split; auto.
Qed.

(** C63: adding G to the gravity vector adds, in any direction b, the sum over the bodies of
    G . (linear momentum of the body under b). *)
Theorem C63_gravity_change : forall mb m0 m f G f1 m1 f2 m2 b mv,
  wf_mb mb -> rigid_mb mb -> mbc_ok mb m0 -> config_ok mb m0 ->
  after_kinematics mb m0 m -> length f = nrBodies mb ->
  inverseDynamics mb f m = Ok (f1, m1) -> inverseDynamics mb f (with_gravity (vadd (gravity m) G) m) = Ok (f2, m2) ->
  sized mb jdof b -> forwardVelocity mb (with_alpha b m) = Ok mv ->
  rsum (mb_nrDof mb) (fun r => (flat (jointTorque m2) r - flat (jointTorque m1) r) * flat b r) =
  rsum (nrBodies mb) (fun i =>
      vdot G (lin_momentum (nth i (bodyPosW m) ptid) (binertia (nth i (mb_bodies mb) bd)) (nth i (bodyVelB mv) sv0))).
Proof. exact ID_gravity_change. Qed.
Print Assumptions C63_gravity_change.
(** ... and gravity can be replaced by the weight of each body as an external wrench. *)
Theorem C63_gravity_as_weight : forall mb m0 m f g f1 m1 F2,
  wf_mb mb -> rigid_mb mb -> mbc_ok mb m0 -> config_ok mb m0 ->
  after_kinematics mb m0 m -> length f = nrBodies mb -> length F2 = nrBodies mb -> g = gravity m ->
  (forall i, (i < nrBodies mb)%nat -> nth i F2 sv0 =
     svadd (nth i (force m) sv0) (weight g (nth i (bodyPosW m) ptid) (binertia (nth i (mb_bodies mb) bd)))) ->
  inverseDynamics mb f m = Ok (f1, m1) ->
  exists f2 m2, inverseDynamics mb f (with_force F2 (with_gravity v0 m)) = Ok (f2, m2) /\ jointTorque m2 = jointTorque m1.
Proof. exact ID_weight_as_force. Qed.
Print Assumptions C63_gravity_as_weight.
Example C63_applies : gravity ex_m = mkV3 0 (981/100) 0.
Proof. reflexivity. Qed.
