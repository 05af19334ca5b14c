(** Vocabulary for the statements about the safe versions of the analysis functions. *)
From Coq Require Import Reals String ZArith Bool Arith List.
From Verif Require Import Res Vec Sva Mat JointM MultiBodyM JacM CoMM MomM Spec SpecDyn SpecJac.
Import ListNotations.
Open Scope nat_scope.

(** The call r is a guarded version of the call u: when P holds it does what u does, and u
    returns; when P fails it throws std::domain_error. *)
Definition guarded {A} (P : Prop) (r u : res A) : Prop :=
  (P -> r = u /\ exists a, u = Ok a) /\ (~ P -> r = Throw DomainError).

(** Vectors of a configuration that have the size of the robot. *)
Definition pos_sized (mb : MultiBody) (m : MBC) : Prop := length (bodyPosW m) = nrBodies mb.
Definition vel_sized (mb : MultiBody) (m : MBC) : Prop :=
  length (bodyVelW m) = nrBodies mb /\ length (bodyVelB m) = nrBodies mb.
Definition acc_sized (mb : MultiBody) (m : MBC) : Prop := length (bodyAccB m) = nrBodies mb.
Definition subspace_sized (mb : MultiBody) (m : MBC) : Prop := sized mb jdof (motionSubspace m).
Definition jconf_sized (mb : MultiBody) (m : MBC) : Prop := length (jointConfig m) = nrJoints mb.
Definition jvel_sized (mb : MultiBody) (m : MBC) : Prop := length (jointVelocity m) = nrJoints mb.
Definition tree_sized (mb : MultiBody) (m : MBC) : Prop := length (parentToSon m) = nrJoints mb.
Definition jacc_sized (mb : MultiBody) (m : MBC) : Prop := sized mb jdof (alphaD m).
Definition force_sized (mb : MultiBody) (m : MBC) : Prop := length (force m) = nrBodies mb.
Definition torque_sized (mb : MultiBody) (m : MBC) : Prop := sized mb jdof (jointTorque m).
(** Two configurations whose parameter, velocity, acceleration and force vectors have the same
    numbers of entries. *)
Definition same_counts (m m' : MBC) : Prop :=
  length (q m) = length (q m') /\ length (alpha m) = length (alpha m') /\
  length (alphaD m) = length (alphaD m') /\ length (force m) = length (force m').

(** The Jacobian object J has a path of joints of mb and matrices with their degrees of
    freedom. What the matrices hold is arbitrary. *)
Record jac_fits (mb : MultiBody) (J : Jac) : Prop := {
  jf_ne : jc_path J <> [];
  jf_in : forall k, In k (jc_path J) -> k < nrBodies mb;
  jf_sign : length (jc_sign J) = length (jc_path J);
  jf_jac : length (jc_jac J) = path_dof mb (jc_path J);
  jf_dot : length (jc_dot J) = path_dof mb (jc_path J);
  jf_ref : (jc_ref J < Z.of_nat (nrBodies mb))%Z
}.
(** The last body of the path is a body of the configuration. *)
Definition last_body_in (m : MBC) (J : Jac) : Prop := last (jc_path J) 0 < length (bodyPosW m).
(** Some joint of the path is not a joint of mb. *)
Definition leaves (mb : MultiBody) (J : Jac) : Prop := exists k, In k (jc_path J) /\ nrJoints mb <= k.

(** The call returns only objects with the property P. *)
Definition returns {A} (P : A -> Prop) (r : res A) : Prop := forall a, r = Ok a -> P a.

(** Objects for centres of mass and momenta whose tables have the sizes of the robot. What
    the matrices and buffers hold is arbitrary. *)
Definition three_rows (mb : MultiBody) (M : Mat) : Prop := mrows M = 3 /\ mcols M = mb_nrDof mb.
Definition six_by_dof (mb : MultiBody) (M : Mat) : Prop := mrows M = 6 /\ mcols M = mb_nrDof mb.
Record comd_fits (mb : MultiBody) (c : CoMD) : Prop := {
  df_jac : three_rows mb (cd_jac c);
  df_dot : three_rows mb (cd_dot c);
  df_full : three_rows mb (cd_full c);
  df_len : length (cd_vec c) = nrBodies mb;
  df_vec : forall J, In J (cd_vec c) -> jac_fits mb J;
  df_mass : (0 < cd_mass c)%R;
  df_weight : length (cd_weight c) = nrBodies mb
}.
Record comj_fits (mb : MultiBody) (c : CoMJ) : Prop := {
  cf_jac : three_rows mb (cj_jac c);
  cf_dot : three_rows mb (cj_dot c);
  cf_coeff : length (cj_coeff c) = nrBodies mb;
  cf_com : length (cj_com c) = nrBodies mb;
  cf_sub_len : length (cj_sub c) = nrBodies mb;
  cf_sub : forall l z, In l (cj_sub c) -> In z l -> exists b, z = Z.of_nat b /\ b < nrBodies mb;
  cf_comW : length (cj_comW c) = nrBodies mb;
  cf_comV : length (cj_comV c) = nrBodies mb;
  cf_nacc : length (cj_nacc c) = nrBodies mb;
  cf_weight : length (cj_weight c) = nrBodies mb
}.
Record cmm_fits (mb : MultiBody) (c : CMM) : Prop := {
  mf_mat : six_by_dof mb (cm_mat c);
  mf_dot : six_by_dof mb (cm_dot c);
  mf_len : length (cm_vec c) = nrBodies mb;
  mf_blen : length (cm_blocks c) = nrBodies mb;
  mf_vec : forall i, i < nrBodies mb -> exists J bs, nth_error (cm_vec c) i = Some J /\ jac_fits mb J /\
     nth_error (cm_blocks c) i = Some bs /\
     forall b, In b bs -> bl_jac b + bl_len b <= length (jc_jac J) /\ bl_dof b + bl_len b <= mb_nrDof mb;
  mf_work : length (cm_work c) = nrBodies mb;
  mf_nacc : length (cm_nacc c) = nrBodies mb;
  mf_weight : length (cm_weight c) = nrBodies mb
}.
