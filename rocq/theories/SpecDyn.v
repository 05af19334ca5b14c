(** Vocabulary for the statements about the dynamics. *)
From Coq Require Import Reals String ZArith Bool Arith List.
From Verif Require Import Res Vec Sva Mat JointM MultiBodyM KinM DynM Spec.
Import ListNotations.
Open Scope R_scope.

(** Position of the first degree of freedom of joint i, and their number. *)
Definition pos (mb : MultiBody) (i : nat) : nat := list_sum (map jdof (firstn i (mb_joints mb))).
Definition dofi (mb : MultiBody) (i : nat) : nat := jdof (nth i (mb_joints mb) jd).

(** ** Shape of a ForwardDynamics object built for mb *)
Record fd_ok (mb : MultiBody) (s : FD) : Prop := {
  fo_rows : mrows (fd_H s) = mb_nrDof mb;
  fo_cols : mcols (fd_H s) = mb_nrDof mb;
  fo_C : length (fd_C s) = mb_nrDof mb;
  fo_I : length (fd_I s) = nrBodies mb;
  fo_F : sized mb jdof (fd_F s);
  fo_acc : length (fd_acc s) = nrBodies mb;
  fo_f : length (fd_f s) = nrBodies mb;
  fo_tmp : length (fd_tmp s) = mb_nrDof mb;
  fo_pos_len : length (fd_dofPos s) = nrBodies mb;
  fo_pos : forall i, (i < nrBodies mb)%nat -> nth i (fd_dofPos s) 0%nat = pos mb i
}.

(** A flat vector of nrDof coefficients cut into one vector per joint, and back. *)
Definition flat (v : list (list R)) (r : nat) : R := nth r (concat v) 0.

(** y^T H x for flat vectors. *)
Definition quad (n : nat) (H : nat -> nat -> R) (x y : nat -> R) : R :=
  rsum n (fun r => y r * rsum n (fun c => H r c * x c)).

(** Spatial inertias: positive semi-definite, positive definite. *)
Definition inertia_psd (I : RBI) : Prop := forall u, 0 <= svdot (rbim I u) u.
Definition inertia_pd (I : RBI) : Prop := forall u, 0 <= svdot (rbim I u) u /\ (svdot (rbim I u) u = 0 -> u = sv0).

(** Symmetric positive definite matrix, and a linear solver that is right on those. *)
Definition spd (n : nat) (H : nat -> nat -> R) : Prop :=
  (forall r c, (r < n)%nat -> (c < n)%nat -> H r c = H c r) /\
  (forall x, 0 <= quad n H x x) /\
  (forall x, quad n H x x = 0 -> forall r, (r < n)%nat -> x r = 0).
Definition solver_ok (solve : Mat -> list R -> list R) : Prop :=
  forall M b, mrows M = length b -> mcols M = length b -> spd (length b) (ment M) ->
    length (solve M b) = length b /\
    forall r, (r < length b)%nat -> mat_vec M (solve M b) r = nth r b 0.

(** States in which the kinematics have been computed for the current q and alpha. *)
Definition after_kinematics (mb : MultiBody) (m0 m : MBC) : Prop :=
  exists m1, forwardKinematics mb m0 = Ok m1 /\ forwardVelocity mb m1 = Ok m.

(** Velocity V of a body placed at X, expressed at the world origin with world axes: the
    velocity of the body-fixed point that is at the world origin. *)
Definition world_twist (X : PT) (V : SV) : SV :=
  let w := mapp (mtr (rotE X)) (sang V) in
  mkSV w (vadd (mapp (mtr (rotE X)) (slin V)) (vcross w (vopp (trR X)))).

(** Linear momentum, with world axes, of a body of inertia I and velocity V placed at X. *)
Definition lin_momentum (X : PT) (I : RBI) (V : SV) : V3 :=
  mapp (mtr (rotE X)) (vadd (vscale (imass I) (slin V)) (vcross (sang V) (imom I))).

(** Wrench at the world origin of the weight, for the gravity vector g of RBDyn (the
    opposite of the acceleration of free fall), of a body of inertia I placed at X. *)
Definition weight (g : V3) (X : PT) (I : RBI) : SV :=
  mkSV (vcross (vadd (vscale (imass I) (trR X)) (mapp (mtr (rotE X)) (imom I))) (vopp g))
       (vscale (imass I) (vopp g)).

(** A rigid body of mass m, centre of mass c and rotational inertia J at the origin of its
    frame: the inertia at the centre of mass is positive (semi-)definite. *)
Definition consistent_body (m : R) (c : V3) (J : M3) : Prop :=
  0 <= m /\ mtr J = J /\
  forall w, m * vdot (vcross w c) (vcross w c) <= vdot w (mapp J w).
Definition consistent_body_pd (m : R) (c : V3) (J : M3) : Prop :=
  0 < m /\ mtr J = J /\
  forall w, w <> v0 -> m * vdot (vcross w c) (vcross w c) < vdot w (mapp J w).
