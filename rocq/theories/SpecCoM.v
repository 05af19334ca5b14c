(** Vocabulary for the statements about centres of mass and momenta. *)
From Coq Require Import Reals String ZArith Bool Arith List.
From Verif Require Import Res Vec Sva Mat JointM MultiBodyM JacM CoMM MomM Spec SpecDyn SpecJac.
Import ListNotations.
Open Scope R_scope.

(** Inertia and mass of body i, total mass. *)
Definition inertia_of (mb : MultiBody) (i : nat) : RBI := binertia (nth i (mb_bodies mb) bd).
Definition mass_of (mb : MultiBody) (i : nat) : R := imass (inertia_of mb i).
Definition total_mass_of (mb : MultiBody) : R := rsum (nrBodies mb) (mass_of mb).

(** Sum of n vectors. *)
Definition vsum3 (n : nat) (f : nat -> V3) : V3 :=
  mkV3 (rsum n (fun i => vx (f i))) (rsum n (fun i => vy (f i))) (rsum n (fun i => vz (f i))).
(** Sum of mass_i * w_i * f_i over the bodies, divided by the total mass. *)
Definition com_mean (mb : MultiBody) (w : nat -> R) (f : nat -> V3) : V3 :=
  vscale (/ total_mass_of mb) (vsum3 (nrBodies mb) (fun i => vscale (mass_of mb i * w i) (f i))).

(** c i is a centre of mass of body i, in body coordinates: its first moment of mass is
    mass * c. Every point is one for a body without mass and first moment. *)
Definition com_of (mb : MultiBody) (c : nat -> V3) : Prop :=
  forall i, (i < nrBodies mb)%nat -> imom (inertia_of mb i) = vscale (mass_of mb i) (c i).
(** The point the CoM Jacobians use for body i. *)
Definition own_com (mb : MultiBody) (i : nat) : V3 :=
  if Rlt_dec 0 (mass_of mb i) then vscale (/ mass_of mb i) (imom (inertia_of mb i)) else v0.
(** No body has a negative mass, and bodies without mass have no first moment. *)
Definition sane_masses (mb : MultiBody) : Prop :=
  forall i, (i < nrBodies mb)%nat -> 0 < mass_of mb i \/ mass_of mb i = 0 /\ imom (inertia_of mb i) = v0.

(** Looking a body up by its name finds this body: true when names are distinct. *)
Definition names_ok (mb : MultiBody) : Prop :=
  forall i, (i < nrBodies mb)%nat -> sBodyIndexByName mb (bname (nth i (mb_bodies mb) bd)) = Ok (Z.of_nat i).

(** c is a CoMJacobian object of mb with weights w. What its matrices and buffers hold is
    arbitrary; the list of joint k holds the bodies k moves, once each. *)
Record comj_of (mb : MultiBody) (w : list R) (c : CoMJ) : Prop := {
  cjo_jac : mrows (cj_jac c) = 3%nat /\ mcols (cj_jac c) = mb_nrDof mb;
  cjo_dot : mrows (cj_dot c) = 3%nat /\ mcols (cj_dot c) = mb_nrDof mb;
  cjo_coeff : cj_coeff c = map (fun i => mass_of mb i * nth i w 0 / total_mass_of mb) (seq 0 (nrBodies mb));
  cjo_com : cj_com c = map (fun i => pttr (own_com mb i)) (seq 0 (nrBodies mb));
  cjo_sub_len : length (cj_sub c) = nrBodies mb;
  cjo_sub : forall k, (k < nrBodies mb)%nat -> exists l, nth_error (cj_sub c) k = Some (map Z.of_nat l) /\
     NoDup l /\ forall b, In b l <-> anc mb k b;
  cjo_comW : length (cj_comW c) = nrBodies mb;
  cjo_comV : length (cj_comV c) = nrBodies mb;
  cjo_nacc : length (cj_nacc c) = nrBodies mb;
  cjo_weight : cj_weight c = w;
  cjo_w : length w = nrBodies mb
}.
(** d is a CoMJacobianDummy object of mb with weights w. *)
Record comd_of (mb : MultiBody) (w : list R) (d : CoMD) : Prop := {
  cdo_jac : mrows (cd_jac d) = 3%nat /\ mcols (cd_jac d) = mb_nrDof mb;
  cdo_dot : mrows (cd_dot d) = 3%nat /\ mcols (cd_dot d) = mb_nrDof mb;
  cdo_full : mrows (cd_full d) = 3%nat /\ mcols (cd_full d) = mb_nrDof mb;
  cdo_len : length (cd_vec d) = nrBodies mb;
  cdo_vec : forall i, (i < nrBodies mb)%nat -> exists J, nth_error (cd_vec d) i = Some J /\ jacobian_of mb i (own_com mb i) J;
  cdo_mass : cd_mass d = total_mass_of mb;
  cdo_weight : cd_weight d = w;
  cdo_w : length w = nrBodies mb
}.
(** c is a CentroidalMomentumMatrix object of mb with weights w. *)
Record cmm_of (mb : MultiBody) (w : list R) (c : CMM) : Prop := {
  cmo_mat : mrows (cm_mat c) = 6%nat /\ mcols (cm_mat c) = mb_nrDof mb;
  cmo_dot : mrows (cm_dot c) = 6%nat /\ mcols (cm_dot c) = mb_nrDof mb;
  cmo_len : length (cm_vec c) = nrBodies mb;
  cmo_blen : length (cm_blocks c) = nrBodies mb;
  cmo_vec : forall i, (i < nrBodies mb)%nat -> exists J bs, nth_error (cm_vec c) i = Some J /\ jacobian_of mb i v0 J /\
     nth_error (cm_blocks c) i = Some bs /\ compactPath mb J = Ok bs;
  cmo_work : length (cm_work c) = nrBodies mb;
  cmo_nacc : length (cm_nacc c) = nrBodies mb;
  cmo_weight : cm_weight c = w;
  cmo_w : length w = nrBodies mb
}.

(** Momentum about the point c, with world axes, of a body of inertia I placed at X with
    velocity V in body coordinates: the angular momentum about the origin of the body, moved
    to c, and the linear momentum. *)
Definition momentum_about (c : V3) (X : PT) (I : RBI) (V : SV) : SV :=
  let h := vadd (vscale (imass I) (slin V)) (vcross (sang V) (imom I)) in
  let k := vadd (mapp (sym_mat (iine I)) (sang V)) (vcross (imom I) (slin V)) in
  mkSV (vadd (mapp (mtr (rotE X)) k) (vcross (vsub (trR X) c) (mapp (mtr (rotE X)) h)))
       (mapp (mtr (rotE X)) h).
(** Sum of n spatial vectors, each scaled. *)
Definition wsum (n : nat) (w : nat -> R) (f : nat -> SV) : SV := svsum n (fun i => svscale (w i) (f i)).
