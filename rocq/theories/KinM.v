(** Model of src/RBDyn/FK.cpp, FV.cpp and FA.cpp. *)
From Coq Require Import Reals String ZArith Bool Arith List.
From Verif Require Import Res Vec Sva JointM MultiBodyM.
Import ListNotations.
Open Scope R_scope.

(** FK.cpp 17-38, forwardKinematics: one iteration of the loop, then the loop. *)
Definition fk_step (mb : MultiBody) (i : nat) (m : MBC) : res MBC :=
  pr <- get (mb_pred mb) i ;;
  su <- get (mb_succ mb) i ;;
  j <- get (mb_joints mb) i ;;
  qi <- get (q m) i ;;
  Xj <- pose j qi ;;
  jc <- set (jointConfig m) i Xj ;;
  let m := with_jointConfig jc m in
  Xt <- get (mb_Xt mb) i ;;
  pts <- set (parentToSon m) i (ptmul Xj Xt) ;;
  let m := with_parentToSon pts m in
  ms <- set (motionSubspace m) i (jS j) ;;
  let m := with_motionSubspace ms m in
  Xi <- get (parentToSon m) i ;;
  if negb (pr =? -1)%Z then
    Xp <- getz (bodyPosW m) pr ;;
    bp <- setz (bodyPosW m) su (ptmul Xi Xp) ;;
    Ok (with_bodyPosW bp m)
  else
    bp <- setz (bodyPosW m) su Xi ;;
    Ok (with_bodyPosW bp m).
Definition forwardKinematics (mb : MultiBody) (m : MBC) : res MBC :=
  for_up (nrJoints mb) (fk_step mb) m.

(** FK.cpp 40-49, sForwardKinematics. *)
Definition sForwardKinematics (mb : MultiBody) (m : MBC) : res MBC :=
  checkMatchQ mb m ;;; checkMatchBodyPos mb m ;;; checkMatchJointConf mb m ;;;
  checkMatchParentToSon mb m ;;; forwardKinematics mb m.

(** FV.cpp 17-40, forwardVelocity. *)
Definition fv_step (mb : MultiBody) (i : nat) (m : MBC) : res MBC :=
  pr <- get (mb_pred mb) i ;;
  su <- get (mb_succ mb) i ;;
  X <- get (parentToSon m) i ;;
  j <- get (mb_joints mb) i ;;
  ai <- get (alpha m) i ;;
  vj <- motion j ai ;;
  jv <- set (jointVelocity m) i vj ;;
  let m := with_jointVelocity jv m in
  vb <- (if negb (pr =? -1)%Z then
           vp <- getz (bodyVelB m) pr ;; Ok (svadd (ptm X vp) vj)
         else Ok vj) ;;
  bv <- setz (bodyVelB m) su vb ;;
  let m := with_bodyVelB bv m in
  Xw <- getz (bodyPosW m) su ;;
  bw <- setz (bodyVelW m) su (ptinvm (ptrot (rotE Xw)) vb) ;;
  Ok (with_bodyVelW bw m).
Definition forwardVelocity (mb : MultiBody) (m : MBC) : res MBC :=
  for_up (nrJoints mb) (fv_step mb) m.

(** FV.cpp 42-54, sForwardVelocity. *)
Definition sForwardVelocity (mb : MultiBody) (m : MBC) : res MBC :=
  checkMatchAlpha mb m ;;; checkMatchBodyPos mb m ;;; checkMatchJointConf mb m ;;;
  checkMatchParentToSon mb m ;;; checkMatchBodyVel mb m ;;; checkMatchJointVelocity mb m ;;;
  checkMatchMotionSubspace mb m ;;; forwardVelocity mb m.

(** FA.cpp 17-40, forwardAcceleration. Note that the code reads bodyVelB[i] and
    writes bodyAccB[succ[i]]. *)
Definition fa_step (mb : MultiBody) (A0 : SV) (i : nat) (m : MBC) : res MBC :=
  pr <- get (mb_pred mb) i ;;
  su <- get (mb_succ mb) i ;;
  X <- get (parentToSon m) i ;;
  vj <- get (jointVelocity m) i ;;
  j <- get (mb_joints mb) i ;;
  adi <- get (alphaD m) i ;;
  at_ <- tanAccel j adi ;;
  vb <- get (bodyVelB m) i ;;
  ap <- (if negb (pr =? -1)%Z then getz (bodyAccB m) pr else Ok A0) ;;
  ba <- setz (bodyAccB m) su (svadd (svadd (ptm X ap) at_) (scross vb vj)) ;;
  Ok (with_bodyAccB ba m).
Definition forwardAcceleration (mb : MultiBody) (m : MBC) (A0 : SV) : res MBC :=
  for_up (nrJoints mb) (fa_step mb A0) m.

(** FA.cpp 42-52, sForwardAcceleration. *)
Definition sForwardAcceleration (mb : MultiBody) (m : MBC) (A0 : SV) : res MBC :=
  checkMatchAlphaD mb m ;;; checkMatchParentToSon mb m ;;; checkMatchJointVelocity mb m ;;;
  checkMatchBodyVel mb m ;;; checkMatchBodyAcc mb m ;;; forwardAcceleration mb m A0.
