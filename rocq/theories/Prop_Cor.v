(** C15, C68: the Coriolis matrix. *)
From Coq Require Import Reals String ZArith Bool Arith List Lia.
From Verif Require Import Res Vec Sva Mat JointM MultiBodyM KinM DynM JacM CoMM CoriolisM Spec SpecDyn SpecJac SpecDeriv SpecCoM SpecCor
  Ex DynExP DerivExP CoMExP CoriolisP CorDerivP CorExP.
Import ListNotations.
Open Scope R_scope.

(** C15: the constructor builds an object for the robot, whatever the memory it starts from holds. *)
Theorem C15_constructor : forall g gm gr mb, wf_mb mb -> names_ok mb ->
  exists c, Coriolis_ctor g gm gr mb = Ok c /\ cor_of mb c.
Proof. exact Coriolis_ctor_ok. Qed.
Print Assumptions C15_constructor.
(** C15: the matrix times the stacked rates is what computeC gives without gravity and
    without external wrench. *)
Theorem C15_coriolis_times_alpha : forall mb m0 m c s,
  wf_mb mb -> rigid_mb mb -> mbc_ok mb m0 -> config_ok mb m0 -> after_kinematics mb m0 m ->
  sane_masses mb -> cor_of mb c -> fd_ok mb s ->
  exists c' s', coriolis mb m c = Ok c' /\ cor_of mb c' /\
    computeC mb (with_gravity v0 (with_force (repeat sv0 (nrBodies mb)) m)) s = Ok s' /\
    forall r, (r < mb_nrDof mb)%nat -> mat_vec (co_mat c') (concat (alpha m)) r = nth r (fd_C s') 0.
Proof. exact coriolis_bias. Qed.
Print Assumptions C15_coriolis_times_alpha.
Example C15_applies : exists c m c' s', Coriolis_ctor (fun _ _ _ => sv0) (fun _ _ => 3) (fun _ _ _ => 5) ex_mb = Ok c /\
  after_kinematics ex_mb ex_m m /\ coriolis ex_mb m c = Ok c' /\
  computeC ex_mb (with_gravity v0 (with_force (repeat sv0 4) m)) ex_fd = Ok s' /\
  forall r, (r < 11)%nat -> mat_vec (co_mat c') (concat (alpha m)) r = nth r (fd_C s') 0.
Proof.
  destruct ex_cor as (c & E & HC). destruct ex_kin as (m & A).
  destruct (C15_coriolis_times_alpha _ _ m c ex_fd ex_wf ex_rigid ex_mbc_ok ex_config A ex_sane HC ex_fd_ok) as (c' & s' & E1 & _ & E2 & H).
  exists c, m, c', s'. auto.
Qed.

(** C68: along a trajectory the entries of the mass matrix of computeH are differentiable and
    their time derivative is the sum of the Coriolis matrix and its transpose. *)
Theorem C68_mass_matrix_rate : forall mb (M K : R -> MBC) t, wf_mb mb -> rigid_mb mb ->
  (forall s, mbc_ok mb (M s)) -> (forall s, config_ok mb (M s)) -> (forall s, after_kinematics mb (M s) (K s)) ->
  (forall j, In j (mb_joints mb) -> regular j) ->
  (forall i, (i < nrBodies mb)%nat ->
     follows (nth i (mb_joints mb) jd) (fun s => nth i (q (M s)) []) t (nth i (alpha (M t)) [])) ->
  forall c, cor_of mb c -> sane_masses mb ->
  forall c' s0 (S : R -> FD), fd_ok mb s0 -> (forall s, computeH mb (K s) s0 = Ok (S s)) -> coriolis mb (K t) c = Ok c' ->
  forall r k, (r < mb_nrDof mb)%nat -> (k < mb_nrDof mb)%nat ->
  derivable_pt_lim (fun s => ment (fd_H (S s)) r k) t (ment (co_mat c') r k + ment (co_mat c') k r).
Proof. exact mass_matrix_rate. Qed.
Print Assumptions C68_mass_matrix_rate.
Example C68_applies : exists (K : R -> MBC) (S : R -> FD), forall t, exists c', cor_of exd_mb c' /\
  forall r k, (r < 11)%nat -> (k < 11)%nat ->
  derivable_pt_lim (fun s => ment (fd_H (S s)) r k) t (ment (co_mat c') r k + ment (co_mat c') k r).
Proof. exact exd_mass_rate. Qed.
