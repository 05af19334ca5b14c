(** C88: what the mass matrix and the dynamics depend on. *)
From Coq Require Import Reals String ZArith Bool Arith List.
From Verif Require Import Res Vec Sva Mat JointM MultiBodyM KinM DynM Spec SpecDyn SpecBase Ex DynExP SolveP BaseP BaseExP.
Import ListNotations.
Open Scope R_scope.

(** C88: the entries of the mass matrix for two joints of which neither carries the other are zero. *)
Theorem C88_branches_uncoupled : forall mb m0 m s s',
  wf_mb mb -> rigid_mb mb -> mbc_ok mb m0 -> config_ok mb m0 -> after_kinematics mb m0 m -> fd_ok mb s ->
  computeH mb m s = Ok s' ->
  forall i j a b, (i < nrBodies mb)%nat -> (j < nrBodies mb)%nat -> (a < dofi mb i)%nat -> (b < dofi mb j)%nat ->
  ~ anc mb i j -> ~ anc mb j i -> ment (fd_H s') (pos mb i + a) (pos mb j + b) = 0.
Proof. exact H_sparse. Qed.
Print Assumptions C88_branches_uncoupled.
Example C88_branches_applies : ~ anc ex_mb 2 3 /\ ~ anc ex_mb 3 2 /\ (0 < dofi ex_mb 2)%nat /\ (0 < dofi ex_mb 3)%nat.
Proof. exact exb_branches. Qed.

(** C88: the mass matrix depends on nothing but the q of the joints that have a predecessor: not on the configuration of
    the roots, not on velocities, accelerations, torques, forces or gravity. *)
Theorem C88_mass_matrix_base : forall mb m0 m m0' m' s s' h h', wf_mb mb -> rigid_mb mb ->
  mbc_ok mb m0 -> config_ok mb m0 -> after_kinematics mb m0 m ->
  mbc_ok mb m0' -> config_ok mb m0' -> after_kinematics mb m0' m' ->
  same_inside mb m0 m0' -> fd_ok mb s -> fd_ok mb s' -> computeH mb m s = Ok h -> computeH mb m' s' = Ok h' ->
  forall r c, (r < mb_nrDof mb)%nat -> (c < mb_nrDof mb)%nat -> ment (fd_H h) r c = ment (fd_H h') r c.
Proof. exact H_base. Qed.
Print Assumptions C88_mass_matrix_base.

(** C88: without gravity and external forces, the vector C, the torques of inverseDynamics and the accelerations of
    forwardDynamics do not depend on the configuration of the roots. *)
Theorem C88_bias_base : forall mb m0 m m0' m', wf_mb mb -> rigid_mb mb ->
  mbc_ok mb m0 -> config_ok mb m0 -> after_kinematics mb m0 m ->
  mbc_ok mb m0' -> config_ok mb m0' -> after_kinematics mb m0' m' ->
  same_inside mb m0 m0' -> alpha m0 = alpha m0' -> weightless mb m0 -> weightless mb m0' ->
  forall s s' c c', fd_ok mb s -> fd_ok mb s' -> computeC mb m s = Ok c -> computeC mb m' s' = Ok c' -> fd_C c = fd_C c'.
Proof. exact base_C. Qed.
Print Assumptions C88_bias_base.
Theorem C88_torques_base : forall mb m0 m m0' m', wf_mb mb -> rigid_mb mb ->
  mbc_ok mb m0 -> config_ok mb m0 -> after_kinematics mb m0 m ->
  mbc_ok mb m0' -> config_ok mb m0' -> after_kinematics mb m0' m' ->
  same_inside mb m0 m0' -> alpha m0 = alpha m0' -> weightless mb m0 -> weightless mb m0' ->
  forall f f' g g' n n', alphaD m0 = alphaD m0' -> length f = nrBodies mb -> length f' = nrBodies mb ->
  inverseDynamics mb f m = Ok (g, n) -> inverseDynamics mb f' m' = Ok (g', n') -> jointTorque n = jointTorque n'.
Proof. exact base_ID. Qed.
Print Assumptions C88_torques_base.
Theorem C88_accelerations_base : forall mb m0 m m0' m', wf_mb mb -> rigid_mb mb ->
  mbc_ok mb m0 -> config_ok mb m0 -> after_kinematics mb m0 m ->
  mbc_ok mb m0' -> config_ok mb m0' -> after_kinematics mb m0' m' ->
  same_inside mb m0 m0' -> alpha m0 = alpha m0' -> weightless mb m0 -> weightless mb m0' ->
  forall solve s s' h h' n n', jointTorque m0 = jointTorque m0' -> fd_ok mb s -> fd_ok mb s' ->
  (forall b, In b (mb_bodies mb) -> inertia_pd (binertia b)) -> solver_ok solve ->
  forwardDynamics solve mb m s = Ok (h, n) -> forwardDynamics solve mb m' s' = Ok (h', n') -> alphaD n = alphaD n'.
Proof. exact base_FD. Qed.
Print Assumptions C88_accelerations_base.
Example C88_applies : wf_mb ex_mb /\ rigid_mb ex_mb /\ fd_ok ex_mb ex_fd /\ solver_ok lsolve /\
  (forall b, In b (mb_bodies ex_mb) -> inertia_pd (binertia b)) /\
  exists m m', mbc_ok ex_mb exb_1 /\ config_ok ex_mb exb_1 /\ after_kinematics ex_mb exb_1 m /\
  mbc_ok ex_mb exb_2 /\ config_ok ex_mb exb_2 /\ after_kinematics ex_mb exb_2 m' /\
  same_inside ex_mb exb_1 exb_2 /\ alpha exb_1 = alpha exb_2 /\ alphaD exb_1 = alphaD exb_2 /\ jointTorque exb_1 = jointTorque exb_2 /\
  weightless ex_mb exb_1 /\ weightless ex_mb exb_2 /\ q exb_1 <> q exb_2.
Proof.
  split; [exact ex_wf|]. split; [exact ex_rigid|]. split; [exact ex_fd_ok|]. split; [exact lsolve_ok|]. split; [exact ex_pd|exact exb_two_places].
Qed.
