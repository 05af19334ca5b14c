(** Model of src/RBDyn/Momentum.cpp and src/RBDyn/RBDyn/Momentum.h. *)
From Coq Require Import Reals String ZArith Bool Arith List.
From Verif Require Import Res SMap Vec Sva Mat JointM MultiBodyM JacM CoMM.
Import ListNotations.
Open Scope R_scope.

(** Momentum.cpp 17-35, computeCentroidalMomentum. *)
Definition computeCentroidalMomentum (mb : MultiBody) (m : MBC) (com : V3) : res SV :=
  for_up (nrBodies mb)
    (fun i cm => b <- get (mb_bodies mb) i ;; V <- get (bodyVelB m) i ;; X <- get (bodyPosW m) i ;;
                 Ok (svadd cm (pttrans (ptmul X (pttr (vopp com))) (rbim (binertia b) V)))) sv0.

(** Momentum.cpp 48-73 and 286-313, the derivative of the momentum of one body for its
    acceleration A. *)
Definition body_momentum_dot (com comDot : V3) (X : PT) (I : RBI) (V A : SV) : SV :=
  let com_Vel := mkSV v0 comDot in
  let X_com_i := ptmul X (pttr (vopp com)) in
  let X_i_com := ptinv X_com_i in
  let h := rbim I V in
  svadd (svsub (ptdual X_i_com (scrossDual V h)) (scrossDual com_Vel (ptdual X_i_com h)))
        (pttrans X_com_i (rbim I A)).
(** Momentum.cpp 37-76, computeCentroidalMomentumDot. *)
Definition computeCentroidalMomentumDot (mb : MultiBody) (m : MBC) (com comDot : V3) : res SV :=
  for_up (nrBodies mb)
    (fun i cm => V <- get (bodyVelB m) i ;; X <- get (bodyPosW m) i ;; b <- get (mb_bodies mb) i ;;
                 A <- get (bodyAccB m) i ;;
                 Ok (svadd cm (body_momentum_dot com comDot X (binertia b) V A))) sv0.
(** Momentum.cpp 78-96, the safe versions. *)
Definition sComputeCentroidalMomentum mb m com :=
  checkMatchBodyPos mb m ;;; checkMatchBodyVel mb m ;;; computeCentroidalMomentum mb m com.
Definition sComputeCentroidalMomentumDot mb m com comDot :=
  checkMatchBodyPos mb m ;;; checkMatchBodyVel mb m ;;; checkMatchBodyAcc mb m ;;;
  computeCentroidalMomentumDot mb m com comDot.

(** ** CentroidalMomentumMatrix (Momentum.h, data members). *)
Record CMM := mkCMM {
  cm_mat : Mat;
  cm_dot : Mat;
  cm_vec : list Jac;
  cm_blocks : list (list Block);
  cm_work : list (list SV);
  cm_weight : list R;
  cm_nacc : list SV
}.
Definition with_cm mat dot vec work c := mkCMM mat dot vec (cm_blocks c) work (cm_weight c) (cm_nacc c).
Definition with_cm_nacc a c := mkCMM (cm_mat c) (cm_dot c) (cm_vec c) (cm_blocks c) (cm_work c) (cm_weight c) a.

(** A six-row matrix given by columns, as a Mat. *)
Definition svcoef (r : nat) (v : SV) : R := if (r <? 3)%nat then vcoef r (sang v) else vcoef (r - 3) (slin v).
Definition six_rows (jac : list SV) : Mat := mkMat 6 (length jac) (fun r c => svcoef r (nth c jac sv0)).

(** Momentum.cpp 98-101 and 103-111, jacProjector and jacProjectorDot, applied to a column
    (the code builds the 6 x 6 matrices from dualMatrix(), RBInertia::matrix() and
    vector6ToCrossDualMatrix, which are the matrices of dualMul, operator* and crossDual). *)
Definition jacProjector (X_i_com : PT) (I : RBI) (c : SV) : SV := ptdual X_i_com (rbim I c).
Definition jacProjectorDot (X_i_com : PT) (I : RBI) (V_i V_com : SV) (c : SV) : SV :=
  svsub (ptdual X_i_com (scrossDual V_i (rbim I c))) (scrossDual V_com (ptdual X_i_com (rbim I c))).

(** Momentum.cpp 385-395, init; [g i]: uninitialised coefficients of the Jacobian of body i. *)
Definition cmm_init (g : nat -> nat -> nat -> SV) (mb : MultiBody) : res (list Jac * list (list Block)) :=
  for_up (nrBodies mb)
    (fun i s => b <- get (mb_bodies mb) i ;;
                J <- Jacobian_ctor (g i) mb (bname b) v0 ;;
                bs <- compactPath mb J ;;
                Ok (fst s ++ [J], snd s ++ [bs])) ([], []).
(** Momentum.cpp 113-139, the constructors: init runs before the check of the weights. *)
Definition cmm_fresh (g : nat -> nat -> nat -> SV) (gm : nat -> nat -> nat -> R) (mb : MultiBody)
    (vec : list Jac) (blocks : list (list Block)) (w : list R) : CMM :=
  mkCMM (mkMat 6 (mb_nrDof mb) (gm 0%nat)) (mkMat 6 (mb_nrDof mb) (gm 1%nat)) vec blocks
        (map (fun J => map (g 0%nat 2%nat) (seq 0 (jac_dof J))) vec) w (map (g 0%nat 3%nat) (seq 0 (nrBodies mb))).
Definition CMM_ctor g gm (mb : MultiBody) : res CMM :=
  s <- cmm_init g mb ;; Ok (cmm_fresh g gm mb (fst s) (snd s) (repeat 1 (nrBodies mb))).
Definition CMM_ctor_w g gm (mb : MultiBody) (w : list R) : res CMM :=
  s <- cmm_init g mb ;;
  if (length w =? nrBodies mb)%nat then Ok (cmm_fresh g gm mb (fst s) (snd s) w) else Throw DomainError.

(** [A * J + B * K] for two six-row matrices J, K given by columns, where A and B are given by
    their action on columns; Eigen asserts the same number of columns. *)
Definition cols_plus (A B : SV -> SV) (J K : list SV) : res (list SV) :=
  if (length J =? length K)%nat
  then Ok (map (fun p => svadd (A (fst p)) (B (snd p))) (combine J K)) else UB.

(** Momentum.cpp 150-158, one iteration of computeMatrix; state (jacVec_, jacWork_, cmMat_). *)
Definition cmm_step (mb : MultiBody) (m : MBC) (com : V3) (c : CMM) (i : nat) (s : list Jac * list (list SV) * Mat)
    : res (list Jac * list (list SV) * Mat) :=
  let '(vec, work, M) := s in
  J <- get vec i ;;
  J <- bodyJacobian mb m J ;;
  vec <- set vec i J ;;
  X <- get (bodyPosW m) i ;;
  b <- get (mb_bodies mb) i ;;
  w <- get (cm_weight c) i ;;
  let X_i_com := ptmul (pttr com) (ptinv X) in
  let jw := map (fun col => svscale w (jacProjector X_i_com (binertia b) col)) (jc_jac J) in
  work <- set work i jw ;;
  bs <- get (cm_blocks c) i ;;
  M <- addFullJacobian_compact bs (six_rows jw) M ;;
  Ok (vec, work, M).
(** Momentum.cpp 141-159, computeMatrix. *)
Definition computeMatrix (mb : MultiBody) (m : MBC) (com : V3) (c : CMM) : res CMM :=
  s <- for_up (nrBodies mb) (cmm_step mb m com c) (cm_vec c, cm_work c, mat_clear (cm_mat c)) ;;
  let '(vec, work, M) := s in Ok (with_cm M (cm_dot c) vec work c).

(** Momentum.cpp 172-183, one iteration of computeMatrixDot. *)
Definition cmm_dot_step (mb : MultiBody) (m : MBC) (com comDot : V3) (c : CMM) (i : nat)
    (s : list Jac * list (list SV) * Mat) : res (list Jac * list (list SV) * Mat) :=
  let '(vec, work, M) := s in
  J <- get vec i ;;
  J <- bodyJacobian mb m J ;;
  J <- bodyJacobianDot mb m J ;;
  vec <- set vec i J ;;
  X <- get (bodyPosW m) i ;;
  b <- get (mb_bodies mb) i ;;
  w <- get (cm_weight c) i ;;
  V <- get (bodyVelB m) i ;;
  let X_i_com := ptmul (pttr com) (ptinv X) in
  jw <- cols_plus (fun col => svscale w (jacProjector X_i_com (binertia b) col))
                  (fun col => svscale w (jacProjectorDot X_i_com (binertia b) V (mkSV v0 comDot) col))
                  (jc_dot J) (jc_jac J) ;;
  work <- set work i jw ;;
  bs <- get (cm_blocks c) i ;;
  M <- addFullJacobian_compact bs (six_rows jw) M ;;
  Ok (vec, work, M).
(** Momentum.cpp 161-184, computeMatrixDot. *)
Definition computeMatrixDot (mb : MultiBody) (m : MBC) (com comDot : V3) (c : CMM) : res CMM :=
  s <- for_up (nrBodies mb) (cmm_dot_step mb m com comDot c) (cm_vec c, cm_work c, mat_clear (cm_dot c)) ;;
  let '(vec, work, M) := s in Ok (with_cm (cm_mat c) M vec work c).

(** Momentum.cpp 186-213, computeMatrixAndMatrixDot; state (jacVec_, jacWork_, cmMat_, cmMatDot_). *)
Definition cmm_both_step (mb : MultiBody) (m : MBC) (com comDot : V3) (c : CMM) (i : nat)
    (s : list Jac * list (list SV) * Mat * Mat) : res (list Jac * list (list SV) * Mat * Mat) :=
  let '(vec, work, M, D) := s in
  J <- get vec i ;;
  J <- bodyJacobian mb m J ;;
  J <- bodyJacobianDot mb m J ;;
  vec <- set vec i J ;;
  X <- get (bodyPosW m) i ;;
  b <- get (mb_bodies mb) i ;;
  w <- get (cm_weight c) i ;;
  V <- get (bodyVelB m) i ;;
  let X_i_com := ptmul (pttr com) (ptinv X) in
  let proj := fun col => svscale w (jacProjector X_i_com (binertia b) col) in
  let projDot := fun col => svscale w (jacProjectorDot X_i_com (binertia b) V (mkSV v0 comDot) col) in
  bs <- get (cm_blocks c) i ;;
  let jw := map proj (jc_jac J) in
  work <- set work i jw ;;
  M <- addFullJacobian_compact bs (six_rows jw) M ;;
  jw <- cols_plus proj projDot (jc_dot J) (jc_jac J) ;;
  work <- set work i jw ;;
  D <- addFullJacobian_compact bs (six_rows jw) D ;;
  Ok (vec, work, M, D).
Definition computeMatrixAndMatrixDot (mb : MultiBody) (m : MBC) (com comDot : V3) (c : CMM) : res CMM :=
  s <- for_up (nrBodies mb) (cmm_both_step mb m com comDot c)
         (cm_vec c, cm_work c, mat_clear (cm_mat c), mat_clear (cm_dot c)) ;;
  let '(vec, work, M, D) := s in Ok (with_cm M D vec work c).

(** Momentum.cpp 225-245, momentum. *)
Definition cmm_momentum (mb : MultiBody) (m : MBC) (com : V3) (c : CMM) : res SV :=
  for_up (nrBodies mb)
    (fun i cm => b <- get (mb_bodies mb) i ;; V <- get (bodyVelB m) i ;; X <- get (bodyPosW m) i ;;
                 w <- get (cm_weight c) i ;;
                 Ok (svadd cm (svscale w (pttrans (ptmul X (pttr (vopp com))) (rbim (binertia b) V))))) sv0.
(** Momentum.cpp 275-316, normalMomentumDot with the normal accelerations of the bodies. *)
Definition normalMomentumDot_pre (mb : MultiBody) (m : MBC) (com comDot : V3) (accB : list SV) (c : CMM) : res SV :=
  for_up (nrBodies mb)
    (fun i cm => V <- get (bodyVelB m) i ;; X <- get (bodyPosW m) i ;; b <- get (mb_bodies mb) i ;;
                 A <- get accB i ;; w <- get (cm_weight c) i ;;
                 Ok (svadd cm (svscale w (body_momentum_dot com comDot X (binertia b) V A)))) sv0.
(** Momentum.cpp 247-273, normalMomentumDot. *)
Definition normalMomentumDot (mb : MultiBody) (m : MBC) (com comDot : V3) (c : CMM) : res (SV * CMM) :=
  acc <- for_up (nrJoints mb) (nacc_step mb m) (cm_nacc c) ;;
  let c := with_cm_nacc acc c in
  v <- normalMomentumDot_pre mb m com comDot acc c ;; Ok (v, c).

(** Momentum.cpp 318-383, the safe versions. *)
Definition sComputeMatrix mb m com c :=
  checkMatchBodyPos mb m ;;; checkMatchMotionSubspace mb m ;;; computeMatrix mb m com c.
Definition sComputeMatrixDot mb m com comDot c :=
  checkMatchBodyPos mb m ;;; checkMatchBodyVel mb m ;;; checkMatchMotionSubspace mb m ;;; computeMatrixDot mb m com comDot c.
Definition sComputeMatrixAndMatrixDot mb m com comDot c :=
  checkMatchBodyPos mb m ;;; checkMatchBodyVel mb m ;;; checkMatchMotionSubspace mb m ;;;
  computeMatrixAndMatrixDot mb m com comDot c.
Definition sMomentum mb m com c := checkMatchBodyPos mb m ;;; checkMatchBodyVel mb m ;;; cmm_momentum mb m com c.
Definition sNormalMomentumDot mb m com comDot c :=
  checkMatchBodyPos mb m ;;; checkMatchBodyVel mb m ;;; checkMatchJointConf mb m ;;; checkMatchParentToSon mb m ;;;
  normalMomentumDot mb m com comDot c.
Definition sNormalMomentumDot_pre mb m com comDot accB c :=
  checkMatchBodyPos mb m ;;; checkMatchBodyVel mb m ;;; checkMatchBodiesVector mb accB ;;;
  normalMomentumDot_pre mb m com comDot accB c.
