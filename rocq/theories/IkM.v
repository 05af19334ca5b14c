(** Model of src/RBDyn/IK.cpp and src/RBDyn/RBDyn/IK.h. *)
From Coq Require Import Reals String ZArith Bool Arith List.
From Verif Require Import Res Vec Sva Mat JointM MultiBodyM KinM JacM.
Import ListNotations.
Open Scope R_scope.

(** IK.h 60-73, the data members. svd_ is only used inside one iteration. *)
Record IK := mkIK { ik_max : Z; ik_lambda : R; ik_threshold : R; ik_zero : R; ik_ef : Z; ik_jac : Jac }.
Definition with_ik_jac J (I : IK) := mkIK (ik_max I) (ik_lambda I) (ik_threshold I) (ik_zero I) (ik_ef I) J.
(** IK.cpp 36-40 and IK.h 24-27, the constructor. [g]: uninitialised coefficients of the Jacobian. *)
Definition IK_ctor (g : nat -> nat -> SV) (mb : MultiBody) (ef : Z) : res IK :=
  b <- getz (mb_bodies mb) ef ;;
  J <- Jacobian_ctor g mb (bname b) v0 ;;
  Ok (mkIK 50 (9 / 10) (/ 10 ^ 8) (/ 10 ^ 8) ef J).

(** IK.cpp 24-32, CwiseRoundOp(-z, z). *)
Definition round_op (z x : R) : R := if Rlt_dec (- z) x then (if Rlt_dec x z then 0 else x) else x.
Definition round_v (z : R) (v : V3) : V3 := mkV3 (round_op z (vx v)) (round_op z (vy v)) (round_op z (vz v)).
Definition round_sv (z : R) (v : SV) : SV := mkSV (round_v z (sang v)) (round_v z (slin v)).

Section Ik.
(** Eigen's JacobiSVD compute and solve, and sva::rotationError: not in /repo. *)
Variable svd : list SV -> SV -> list R.
Variable rotErr : M3 -> M3 -> V3.

(** IK.cpp 60-62: the residual, and its norm. *)
Definition ik_residual (target X : PT) : SV := mkSV (rotErr (rotE X) (rotE target)) (vsub (trR target) (trR X)).
Definition sv_norm (v : SV) : R := sqrt (vdot (sang v) (sang v) + vdot (slin v) (slin v)).
(** IK.cpp 65-74: the update of q; state (dof, ...). *)
Definition ik_param (lambda : R) (r : list R) (k : nat) (s : nat * list R) : res (nat * list R) :=
  x <- get (snd s) k ;;
  d <- get r (fst s) ;;
  qi <- set (snd s) k (x + lambda * d) ;;
  Ok (S (fst s), qi).
Definition ik_joint (lambda : R) (r : list R) (index : nat) (s : nat * list (list R)) : res (nat * list (list R)) :=
  qi <- get (snd s) index ;;
  t <- for_up (length qi) (ik_param lambda r) (fst s, qi) ;;
  qs <- set (snd s) index (snd t) ;;
  Ok (fst t, qs).
(** IK.cpp 56-78: one iteration. *)
Definition ik_iter (mb : MultiBody) (target : PT) (I : IK) (m : MBC) : res (IK * MBC * bool) :=
  J <- jacobian mb m (ik_jac I) ;;
  let I := with_ik_jac J I in
  let jacMat := map (round_sv (ik_zero I)) (jc_jac J) in
  X <- getz (bodyPosW m) (ik_ef I) ;;
  let v := ik_residual target X in
  let converged := if Rlt_dec (sv_norm v) (ik_threshold I) then true else false in
  let r := svd jacMat v in
  s <- for_each (jc_path J) (ik_joint (ik_lambda I) r) (0%nat, q m) ;;
  m <- forwardKinematics mb (with_q (snd s) m) ;;
  m <- forwardVelocity mb m ;;
  Ok (I, m, converged).
(** IK.cpp 54-80: the loop. Running out of fuel is [Diverge]. *)
Fixpoint ik_loop (fuel : nat) (mb : MultiBody) (target : PT) (iter : Z) (converged : bool) (I : IK) (m : MBC) : res (IK * MBC * bool) :=
  if negb converged && (iter <? ik_max I)%Z then
    match fuel with
    | O => Diverge
    | S fuel =>
        s <- ik_iter mb target I m ;;
        ik_loop fuel mb target (iter + 1) (snd s) (fst (fst s)) (snd (fst s))
    end
  else Ok (I, m, converged).
(** IK.cpp 42-81, inverseKinematics: the object, the configuration and the returned flag. *)
Definition inverseKinematics (fuel : nat) (mb : MultiBody) (target : PT) (I : IK) (m : MBC) : res (IK * MBC * bool) :=
  m <- forwardKinematics mb m ;;
  ik_loop fuel mb target 0 false I m.
(** IK.cpp 83-93, sInverseKinematics. *)
Definition sInverseKinematics (fuel : nat) (mb : MultiBody) (target : PT) (I : IK) (m : MBC) : res (IK * MBC * bool) :=
  checkMatchQ mb m ;;; checkMatchBodyPos mb m ;;; checkMatchJointConf mb m ;;; checkMatchParentToSon mb m ;;;
  inverseKinematics fuel mb target I m.
End Ik.
