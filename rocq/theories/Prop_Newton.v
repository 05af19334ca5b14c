(** C84, C85: Newton's laws and the balance of energy, for what the dynamics of RBDyn return. *)
From Coq Require Import Reals String ZArith Bool Arith List Lia Lra.
From Verif Require Import Res Vec Sva Mat JointM MultiBodyM KinM DynM JacM CoMM MomM Spec SpecDyn SpecJac SpecDeriv SpecCoM SpecRel SpecNewton
  Ex DynExP DerivP DerivExP CoMTopP MomTopP CoMExP CorExP SolveP SvaP VecP MbP DynFinP NewtonP Newton2P Newton3P NewtonExP NewtonEx2P.
Import ListNotations.
Open Scope R_scope.

(** C84: [momentum_rate], which the next statements use, is the time derivative of the momentum
    about a fixed point of a body that moves with velocity V and acceleration A. *)
Theorem C84_rate_is_derivative : forall (X : R -> PT) I (V : R -> SV) A c t,
  (forall s, rigid (X s)) -> moves X t (V t) -> derivS V t A ->
  derivS (fun s => momentum_about c (X s) I (V s)) t (momentum_rate c (X t) I (V t) A).
Proof. exact rate_deriv. Qed.
Print Assumptions C84_rate_is_derivative.

(** C84: the wrench inverseDynamics leaves for body i in its work vector is what joint i transmits:
    with what acts from outside on the bodies it carries, it makes up the rate of change of
    their momentum. [sub] picks the bodies carried by joint i. *)
Theorem C84_transmitted_wrench : forall mb m0 m,
  wf_mb mb -> rigid_mb mb -> mbc_ok mb m0 -> config_ok mb m0 -> after_kinematics mb m0 m ->
  forall f f' m' m3 i (sub : nat -> bool) c, length f = nrBodies mb ->
  inverseDynamics mb f m = Ok (f', m') -> forwardAcceleration mb m sv0 = Ok m3 ->
  (i < nrBodies mb)%nat -> (forall k, (k < nrBodies mb)%nat -> sub k = true <-> anc mb i k) ->
  svadd (wrench_at c (nth i (bodyPosW m) ptid) (nth i f' sv0))
        (svsum (nrBodies mb) (fun k => if sub k then applied_to mb m c k else sv0)) =
  svsum (nrBodies mb) (fun k => if sub k then
     momentum_rate c (nth k (bodyPosW m) ptid) (inertia_of mb k) (nth k (bodyVelB m) sv0) (nth k (bodyAccB m3) sv0) else sv0).
Proof. exact transmitted_wrench. Qed.
Print Assumptions C84_transmitted_wrench.
Example C84_transmitted_applies : exists m f' m' m3, after_kinematics exd_mb (exd_M 0) m /\
  inverseDynamics exd_mb ex_f m = Ok (f', m') /\ forwardAcceleration exd_mb m sv0 = Ok m3 /\
  forall k, (k < nrBodies exd_mb)%nat -> (Nat.eqb k 1 || Nat.eqb k 2)%bool = true <-> anc exd_mb 1 k.
Proof. exact exd_carried. Qed.

(** C84: for a robot hanging on one free joint, what computeCentroidalMomentumDot returns for the
    accelerations of the configuration is the wrench of the free joint found by inverseDynamics,
    and what acts from outside. *)
Theorem C84_floating_inverse : forall mb m0 m,
  wf_mb mb -> one_root mb -> rigid_mb mb -> mbc_ok mb m0 -> config_ok mb m0 -> after_kinematics mb m0 m ->
  forall f f' m' m3 c hd, floating mb -> length f = nrBodies mb ->
  inverseDynamics mb f m = Ok (f', m') -> forwardAcceleration mb m sv0 = Ok m3 ->
  computeCentroidalMomentumDot mb m3 c v0 = Ok hd ->
  hd = svadd (wrench_at c (nth 0 (bodyPosW m) ptid) (sv_of (nth 0 (jointTorque m') []))) (applied mb m c).
Proof. exact newton_ID. Qed.
Print Assumptions C84_floating_inverse.

(** C84: the same for the accelerations forwardDynamics finds, with the torques of the
    configuration. *)
Theorem C84_floating_forward : forall mb m0 m,
  wf_mb mb -> one_root mb -> rigid_mb mb -> mbc_ok mb m0 -> config_ok mb m0 -> after_kinematics mb m0 m ->
  forall s solve s' m' m3 c hd, floating mb -> fd_ok mb s ->
  (forall b, In b (mb_bodies mb) -> inertia_pd (binertia b)) -> solver_ok solve ->
  forwardDynamics solve mb m s = Ok (s', m') -> forwardAcceleration mb m' sv0 = Ok m3 ->
  computeCentroidalMomentumDot mb m3 c v0 = Ok hd ->
  hd = svadd (wrench_at c (nth 0 (bodyPosW m) ptid) (sv_of (nth 0 (jointTorque m) []))) (applied mb m c).
Proof. exact newton_FD. Qed.
Print Assumptions C84_floating_forward.

(** C84: the acceleration of the centre of mass: the internal torques have no effect on it. *)
Theorem C84_com_acceleration : forall mb m0 m,
  wf_mb mb -> one_root mb -> rigid_mb mb -> mbc_ok mb m0 -> config_ok mb m0 -> after_kinematics mb m0 m ->
  forall s solve s' m' m3 a p, floating mb -> fd_ok mb s ->
  (forall b, In b (mb_bodies mb) -> inertia_pd (binertia b)) -> solver_ok solve -> 0 < total_mass_of mb -> com_of mb p ->
  forwardDynamics solve mb m s = Ok (s', m') -> forwardAcceleration mb m' sv0 = Ok m3 ->
  computeCoMAcceleration mb m3 = Ok a ->
  vscale (total_mass_of mb) a =
  vadd (mapp (mtr (rotE (nth 0 (bodyPosW m) ptid))) (slin (sv_of (nth 0 (jointTorque m) []))))
       (vsub (vsum3 (nrBodies mb) (fun i => slin (nth i (force m) sv0))) (vscale (total_mass_of mb) (gravity m))).
Proof. exact newton_com. Qed.
Print Assumptions C84_com_acceleration.
Example C84_applies : exists m s' m' m3 a, after_kinematics exd_mb (exf_M 9.81 0) m /\
  forwardDynamics lsolve exd_mb m exd_fd = Ok (s', m') /\ forwardAcceleration exd_mb m' sv0 = Ok m3 /\
  computeCoMAcceleration exd_mb m3 = Ok a /\ vscale (total_mass_of exd_mb) a = vscale (total_mass_of exd_mb) (mkV3 0 0 (- (9.81))).
Proof.
  destruct (exf_kin 9.81) as (K & HK). destruct (exf_FD 9.81 0 (K 0) (HK 0)) as (s' & m' & E & _).
  destruct (com_acc_exists _ _ (K 0) exd_wf exd_rigid (exf_ok 9.81 0) (exf_config 9.81 0) (HK 0) exd_fd lsolve s' m' exd_fd_ok exd_pd lsolve_ok exd_tm _ exd_com E)
    as (m3 & a & E3 & EC).
  exists (K 0), s', m', m3, a. do 4 (split; auto).
  rewrite (C84_com_acceleration exd_mb (exf_M 9.81 0) (K 0) exd_wf exd_one_root exd_rigid (exf_ok 9.81 0) (exf_config 9.81 0) (HK 0)
    exd_fd lsolve s' m' m3 a _ exd_floating exd_fd_ok exd_pd lsolve_ok exd_tm exd_com E E3 EC).
  destruct (exf_frame 9.81 0 (K 0) (HK 0)) as (_ & _ & E4 & E5 & E6 & E7).
  rewrite E4, E5, E6, E7. exact (exf_forces 9.81 0 _).
Qed.

(** C84: along a trajectory whose accelerations are those forwardDynamics finds, the momentum about
    a fixed point changes as Newton's laws say; without outer wrench it is constant. *)
Theorem C84_momentum_balance : forall mb (M K : R -> MBC) t, wf_mb mb -> rigid_mb mb ->
  (forall j, In j (mb_joints mb) -> regular j) ->
  (forall s, mbc_ok mb (M s)) -> (forall s, config_ok mb (M s)) -> (forall s, after_kinematics mb (M s) (K s)) ->
  (forall i, (i < nrBodies mb)%nat ->
     follows (nth i (mb_joints mb) jd) (fun s => nth i (q (M s)) []) t (nth i (alpha (M t)) [])) ->
  (forall i k, (i < nrBodies mb)%nat -> (k < jdof (nth i (mb_joints mb) jd))%nat ->
     derivable_pt_lim (fun s => co (nth i (alpha (M s)) []) k) t (co (nth i (alphaD (M t)) []) k)) ->
  forall s0 s' solve m', fd_ok mb s0 -> (forall b, In b (mb_bodies mb) -> inertia_pd (binertia b)) -> solver_ok solve ->
  forwardDynamics solve mb (K t) s0 = Ok (s', m') -> alphaD m' = alphaD (M t) ->
  forall c h, one_root mb -> floating mb -> (forall s, computeCentroidalMomentum mb (K s) c = Ok (h s)) ->
  derivS h t (svadd (wrench_at c (nth 0 (bodyPosW (K t)) ptid) (sv_of (nth 0 (jointTorque (K t)) []))) (applied mb (K t) c)).
Proof. exact newton_traj. Qed.
Print Assumptions C84_momentum_balance.
Theorem C84_momentum_conserved : forall mb (M K : R -> MBC), wf_mb mb -> rigid_mb mb ->
  (forall j, In j (mb_joints mb) -> regular j) ->
  (forall s, mbc_ok mb (M s)) -> (forall s, config_ok mb (M s)) -> (forall s, after_kinematics mb (M s) (K s)) ->
  (forall t i, (i < nrBodies mb)%nat ->
     follows (nth i (mb_joints mb) jd) (fun s => nth i (q (M s)) []) t (nth i (alpha (M t)) [])) ->
  (forall t i k, (i < nrBodies mb)%nat -> (k < jdof (nth i (mb_joints mb) jd))%nat ->
     derivable_pt_lim (fun s => co (nth i (alpha (M s)) []) k) t (co (nth i (alphaD (M t)) []) k)) ->
  forall s0 solve, fd_ok mb s0 -> (forall b, In b (mb_bodies mb) -> inertia_pd (binertia b)) -> solver_ok solve ->
  (forall t, exists s' m', forwardDynamics solve mb (K t) s0 = Ok (s', m') /\ alphaD m' = alphaD (M t)) ->
  forall c h, one_root mb -> floating mb -> (forall s, computeCentroidalMomentum mb (K s) c = Ok (h s)) ->
  (forall s, sv_of (nth 0 (jointTorque (K s)) []) = sv0) -> (forall s, applied mb (K s) c = sv0) ->
  forall s t, h s = h t.
Proof. exact momentum_conserved. Qed.
Print Assumptions C84_momentum_conserved.
Example C84_conserved_applies : exists K h, (forall s, after_kinematics exd_mb (exf_M 0 s) (K s)) /\
  (forall s, computeCentroidalMomentum exd_mb (K s) (mkV3 1 2 3) = Ok (h s)) /\ forall s t, h s = h t.
Proof.
  destruct (exf_kin 0) as (K & HK).
  eexists K, _. split; [exact HK|].
  assert (EH : forall s, computeCentroidalMomentum exd_mb (K s) (mkV3 1 2 3) = Ok _) by
    (intro s; exact (top_momentum exd_mb (exf_M 0 s) (K s) exd_wf exd_rigid (exf_ok 0 s) (exf_config 0 s) (HK s) (mkV3 1 2 3))).
  split; [exact EH|].
  apply (C84_momentum_conserved exd_mb (exf_M 0) K exd_wf exd_rigid exd_regular (exf_ok 0) (exf_config 0) HK (exf_follows 0) (exf_alphaD 0)
    exd_fd lsolve exd_fd_ok exd_pd lsolve_ok (fun t => exf_FD 0 t (K t) (HK t)) (mkV3 1 2 3) _ exd_one_root exd_floating EH).
  - intro s. destruct (exf_frame 0 s (K s) (HK s)) as (_ & _ & _ & E & _). rewrite E. reflexivity.
  - intro s. exact (exf_no_force s (K s) _ (HK s)).
Qed.

(** C84: free fall needs no torque: a robot hanging on a free joint that moves without rotation,
    its inner joints at rest, and accelerates with gravity. The external wrenches are zero. *)
Theorem C84_free_fall : forall mb m0 m,
  wf_mb mb -> one_root mb -> rigid_mb mb -> floating mb -> mbc_ok mb m0 -> config_ok mb m0 -> after_kinematics mb m0 m ->
  forall v a, a = vopp (mapp (rotE (nth 0 (bodyPosW m) ptid)) (gravity m)) ->
  nth 0 (alpha m) [] = [0; 0; 0; vx v; vy v; vz v] -> nth 0 (alphaD m) [] = [0; 0; 0; vx a; vy a; vz a] ->
  (forall i x, (0 < i < nrBodies mb)%nat -> In x (nth i (alpha m) []) -> x = 0) ->
  (forall i x, (0 < i < nrBodies mb)%nat -> In x (nth i (alphaD m) []) -> x = 0) ->
  (forall i, (i < nrBodies mb)%nat -> nth i (force m) sv0 = sv0) ->
  forall f f' m', length f = nrBodies mb -> inverseDynamics mb f m = Ok (f', m') ->
  forall i x, In x (nth i (jointTorque m') []) -> x = 0.
Proof. exact free_fall. Qed.
Print Assumptions C84_free_fall.

(** C85: along a trajectory whose accelerations are those forwardDynamics finds, the kinetic and
    potential energy change at the rate of the power of the joint torques and external
    wrenches. Any robot: several roots and fixed bases included. *)
Theorem C85_energy_balance : forall mb (M K : R -> MBC) t, wf_mb mb -> rigid_mb mb ->
  (forall j, In j (mb_joints mb) -> regular j) ->
  (forall s, mbc_ok mb (M s)) -> (forall s, config_ok mb (M s)) -> (forall s, after_kinematics mb (M s) (K s)) ->
  (forall i, (i < nrBodies mb)%nat ->
     follows (nth i (mb_joints mb) jd) (fun s => nth i (q (M s)) []) t (nth i (alpha (M t)) [])) ->
  (forall i k, (i < nrBodies mb)%nat -> (k < jdof (nth i (mb_joints mb) jd))%nat ->
     derivable_pt_lim (fun s => co (nth i (alpha (M s)) []) k) t (co (nth i (alphaD (M t)) []) k)) ->
  forall s0 s' solve m', fd_ok mb s0 -> (forall b, In b (mb_bodies mb) -> inertia_pd (binertia b)) -> solver_ok solve ->
  forwardDynamics solve mb (K t) s0 = Ok (s', m') -> alphaD m' = alphaD (M t) ->
  forall g, (forall s, gravity (M s) = g) ->
  derivable_pt_lim (fun s => kinetic mb (K s) + potential mb (K s)) t (power mb (K t)).
Proof. exact energy_traj. Qed.
Print Assumptions C85_energy_balance.
(** C85: without power the energy is constant. *)
Theorem C85_energy_conserved : forall mb (M K : R -> MBC), wf_mb mb -> rigid_mb mb ->
  (forall j, In j (mb_joints mb) -> regular j) ->
  (forall s, mbc_ok mb (M s)) -> (forall s, config_ok mb (M s)) -> (forall s, after_kinematics mb (M s) (K s)) ->
  (forall t i, (i < nrBodies mb)%nat ->
     follows (nth i (mb_joints mb) jd) (fun s => nth i (q (M s)) []) t (nth i (alpha (M t)) [])) ->
  (forall t i k, (i < nrBodies mb)%nat -> (k < jdof (nth i (mb_joints mb) jd))%nat ->
     derivable_pt_lim (fun s => co (nth i (alpha (M s)) []) k) t (co (nth i (alphaD (M t)) []) k)) ->
  forall s0 solve, fd_ok mb s0 -> (forall b, In b (mb_bodies mb) -> inertia_pd (binertia b)) -> solver_ok solve ->
  (forall t, exists s' m', forwardDynamics solve mb (K t) s0 = Ok (s', m') /\ alphaD m' = alphaD (M t)) ->
  forall g, (forall s, gravity (M s) = g) -> (forall s, power mb (K s) = 0) ->
  forall s t, kinetic mb (K s) + potential mb (K s) = kinetic mb (K t) + potential mb (K t).
Proof. exact energy_conserved. Qed.
Print Assumptions C85_energy_conserved.
Example C85_applies : exists K, (forall s, after_kinematics exd_mb (exf_M 9.81 s) (K s)) /\
  forall s t, kinetic exd_mb (K s) + potential exd_mb (K s) = kinetic exd_mb (K t) + potential exd_mb (K t).
Proof.
  destruct (exf_kin 9.81) as (K & HK). exists K. split; [exact HK|].
  apply (C85_energy_conserved exd_mb (exf_M 9.81) K exd_wf exd_rigid exd_regular (exf_ok 9.81) (exf_config 9.81) HK (exf_follows 9.81) (exf_alphaD 9.81)
    exd_fd lsolve exd_fd_ok exd_pd lsolve_ok (fun t => exf_FD 9.81 t (K t) (HK t)) (mkV3 0 0 9.81)).
  - reflexivity.
  - intro s. exact (exf_power 9.81 s (K s) (HK s)).
Qed.
