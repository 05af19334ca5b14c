(** Model of src/RBDyn/IS.cpp, inverse statics and the derivatives of its torques. *)
From Coq Require Import Reals String ZArith Bool Arith List.
From Verif Require Import Res Vec Sva Mat JointM MultiBodyM DynM JacM CoMM MomM.
Import ListNotations.
Open Scope R_scope.

(** IS.cpp 82-86: bodyAccB and f_ of every body; state (bodyAccB, f_). *)
Definition is_body (mb : MultiBody) (m : MBC) (a0 : SV) (i : nat) (s : list SV * list SV) : res (list SV * list SV) :=
  let (acc, f) := s in
  Xw <- get (bodyPosW m) i ;;
  acc <- set acc i (ptm Xw a0) ;;
  b <- get (mb_bodies mb) i ;;
  ai <- get acc i ;;
  fe <- get (force m) i ;;
  f <- set f i (svsub (rbim (binertia b) ai) (ptdual Xw fe)) ;;
  Ok (acc, f).
(** IS.cpp 88-102: one iteration of the backward loop; state (jointTorque, f_). The product
    f_^T motionSubspace is written over the first dof() coefficients of jointTorque[i]; Eigen
    asserts that it has dof() columns, and a shorter jointTorque[i] is written out of bounds. *)
Definition is_torque (mb : MultiBody) (m : MBC) (i : nat) (s : list (list R) * list SV) : res (list (list R) * list SV) :=
  let (jt, f) := s in
  ti <- get jt i ;;
  j <- get (mb_joints mb) i ;;
  fi <- get f i ;;
  ms <- get (motionSubspace m) i ;;
  if (length ms =? jdof j)%nat then
    ti <- set_seg ti 0 (map (fun c => svdot fi c) ms) ;;
    jt <- set jt i ti ;;
    pr <- get (mb_pred mb) i ;;
    if negb (pr =? -1)%Z then
      fp <- getz f pr ;;
      X <- get (parentToSon m) i ;;
      f <- setz f pr (svadd fp (pttrans X fi)) ;;
      Ok (jt, f)
    else Ok (jt, f)
  else UB.
(** IS.cpp 74-103, inverseStatics. *)
Definition inverseStatics (mb : MultiBody) (f : list SV) (m : MBC) : res (list SV * MBC) :=
  s <- for_up (nrBodies mb) (is_body mb m (mkSV v0 (gravity m))) (bodyAccB m, f) ;;
  let m := with_bodyAccB (fst s) m in
  s <- for_down (nrJoints mb) (is_torque mb m) (jointTorque m, snd s) ;;
  Ok (snd s, with_jointTorque (fst s) m).
(** IS.cpp 232-247, sInverseStatics: the checks are those of sInverseDynamics. *)
Definition sInverseStatics mb f m := id_checks mb m ;;; inverseStatics mb f m.

(** ** Derivatives of the torques *)
(** Members f_, df_, jointTorqueDiff_, jacW_, fullJac_, jacobianSizeHasBeenSet_ (IS.h 106-115). *)
Record ISd := mkISd { id_f : list SV; id_df : list Mat; id_diff : list Mat; id_jac : list Jac; id_full : Mat; id_set : bool }.
(** Six-row matrices: a column, a 6x6 matrix given by its 3x3 blocks times a column, and a linear
    map applied to all columns (the product of a 6x6 and a 6xn matrix; products of several
    matrices are applied from right to left, which is the same in exact arithmetic). *)
Definition svcol (M : Mat) (c : nat) : SV :=
  mkSV (mkV3 (ment M 0 c) (ment M 1 c) (ment M 2 c)) (mkV3 (ment M 3 c) (ment M 4 c) (ment M 5 c)).
Definition m6app (A B C D : M3) (v : SV) : SV := mkSV (vadd (mapp A (sang v)) (mapp B (slin v))) (vadd (mapp C (sang v)) (mapp D (slin v))).
Definition map_cols (F : SV -> SV) (M : Mat) (r c : nat) : R := svcoef r (F (svcol M c)).
(** [A += B]; Eigen asserts equal sizes. *)
Definition mat_add (A B : Mat) : res Mat :=
  if (mrows A =? mrows B)%nat && (mcols A =? mcols B)%nat
  then Ok (mkMat (mrows A) (mcols A) (fun r c => ment A r c + ment B r c)) else UB.
(** IS.cpp 28-45, the constructor. [g], [gf], [gm]: uninitialised coefficients. The bodies are
    looked up by name. jointTorqueDiff_ is zero. *)
Definition ISd_ctor (g : nat -> nat -> nat -> SV) (gf : nat -> SV) (mb : MultiBody) : res ISd :=
  let n := nrBodies mb in
  jacs <- map_res (fun i => b <- get (mb_bodies mb) i ;; Jacobian_ctor (g i) mb (bname b) v0) (seq 0 n) ;;
  Ok (mkISd (map gf (seq 0 n)) (map (fun _ => mat_zero 6 (mb_nrDof mb)) (seq 0 n)) (map (fun j => mat_zero (jdof j) (mb_nrDof mb)) (mb_joints mb))
            jacs (mat_zero 6 (mb_nrDof mb)) false).
(** IS.cpp 47-72, setJacobianSize. *)
Definition is_wanted (mb : MultiBody) (jacs : list Mat) : res nat :=
  for_up (nrBodies mb) (fun i w => J <- get jacs i ;; Ok (if (w <? mcols J)%nat then mcols J else w)) 0%nat.
Definition is_resize (m : MBC) (want i : nat) (s : ISd) : res ISd :=
  d <- get (id_df s) i ;;
  let d := if (mcols d <? want)%nat then mat_zero 6 want else mat_zero (mrows d) (mcols d) in
  df <- set (id_df s) i d ;;
  ms <- get (motionSubspace m) i ;;
  diff <- set (id_diff s) i (mat_zero (length ms) (mcols d)) ;;
  Ok (mkISd (id_f s) df diff (id_jac s) (id_full s) (id_set s)).
Definition setJacobianSize (mb : MultiBody) (m : MBC) (jacs : list Mat) (s : ISd) : res ISd :=
  want <- is_wanted mb jacs ;;
  s <- for_up (nrBodies mb) (is_resize m want) s ;;
  Ok (mkISd (id_f s) (id_df s) (id_diff s) (id_jac s) (id_full s) true).
(** IS.cpp 134-137, 147-170: the blocks of M and N, for a body at Xw with external force fe and base
    acceleration a0; the result of (I M - N) times a column. *)
Definition is_MN (Xw : PT) (I : RBI) (a0 fe v : SV) : SV :=
  let RW := rotE Xw in
  let hatAC := mcross (sang a0) in let hatAF := mcross (slin a0) in
  let hatFC := mcross (sang fe) in let hatFF := mcross (slin fe) in
  let tt := mcross (mapp (mcross (trR Xw)) (sang a0)) in
  let tf := mcross (mapp (mcross (trR Xw)) (slin fe)) in
  let Mv := m6app (mmul RW hatAC) mzero (mmul RW (madd (mscale (-1) tt) hatAF)) (mmul RW hatAC) v in
  let Nv := m6app (mmul RW (msub hatFC tf)) (mmul RW hatFF) (mmul RW hatFF) mzero v in
  svsub (rbim I Mv) Nv.
(** IS.cpp 139-178: one iteration of the first loop; state (object, bodyAccB). jacobian() reads
    bodyPosW and motionSubspace only. *)
Definition isd_body (mb : MultiBody) (m : MBC) (jacs : list Mat) (a0 : SV) (i : nat) (st : ISd * list SV) : res (ISd * list SV) :=
  let (s, acc) := st in
  d <- get (id_df s) i ;;
  let d := mat_zero (mrows d) (mcols d) in
  J <- get (id_jac s) i ;;
  J <- jacobian mb m J ;;
  js <- set (id_jac s) i J ;;
  full <- fullJacobian mb J (six_rows (jc_jac J)) (id_full s) ;;
  Xw <- get (bodyPosW m) i ;;
  acc <- set acc i (ptm Xw a0) ;;
  b <- get (mb_bodies mb) i ;;
  ai <- get acc i ;;
  fe <- get (force m) i ;;
  f <- set (id_f s) i (svsub (rbim (binertia b) ai) (ptdual Xw fe)) ;;
  d <- set_block d 0 0 (mrows full) (mcols full) (map_cols (is_MN Xw (binertia b) a0 fe) full) ;;
  JF <- get jacs i ;;
  d <- (if (0 <? mcols JF)%nat
        then if (mrows JF =? 6)%nat then mat_add d (mkMat 6 (mcols JF) (map_cols (ptdual Xw) JF)) else UB
        else Ok d) ;;
  df <- set (id_df s) i d ;;
  Ok (mkISd f df (id_diff s) js full (id_set s), acc).
(** IS.cpp 111-120, transMat. *)
Definition transMat (X : PT) (v : SV) : SV :=
  let Rt := mtr (rotE X) in m6app Rt (mmul (mcross (trR X)) Rt) mzero Rt v.
(** IS.cpp 193-204, the blocks of MJ, times a column. [mouter a b] is a b^T. *)
Definition mouter (a b : V3) : M3 := mkM3 (vx a * vx b) (vx a * vy b) (vx a * vz b) (vy a * vx b) (vy a * vy b) (vy a * vz b) (vz a * vx b) (vz a * vy b) (vz a * vz b).
Definition is_MJ (Xj : PT) (f v : SV) : SV :=
  let Rt := mtr (rotE Xj) in let t := trR Xj in
  let RfC := mapp Rt (sang f) in let RfF := mapp Rt (slin f) in
  m6app (msub (madd (mcross RfC) (mouter RfF t)) (mscale (vdot RfF t) mid)) (mscale (-1) (mcross RfF)) (mcross RfF) mzero v.
(** IS.cpp 180-209: one iteration of the backward loop. *)
Definition isd_torque (mb : MultiBody) (m : MBC) (i : nat) (s : ISd) : res ISd :=
  ms <- get (motionSubspace m) i ;;
  d <- get (id_df s) i ;;
  diff <- set (id_diff s) i (mkMat (length ms) (mcols d) (fun r c => svdot (nth r ms sv0) (svcol d c))) ;;
  pr <- get (mb_pred mb) i ;;
  if negb (pr =? -1)%Z then
    X <- get (parentToSon m) i ;;
    fp <- getz (id_f s) pr ;;
    fi <- get (id_f s) i ;;
    f <- setz (id_f s) pr (svadd fp (pttrans X fi)) ;;
    dp <- getz (id_df s) pr ;;
    dp <- mat_add dp (mkMat 6 (mcols d) (map_cols (transMat X) d)) ;;
    Xj <- get (jointConfig m) i ;;
    fi <- get f i ;;
    j <- get (mb_joints mb) i ;;
    pos <- get (mb_posDof mb) i ;;
    Xt <- get (mb_Xt mb) i ;;
    dp <- (if (length ms =? jdof j)%nat
           then add_block dp 0 pos 6 (jdof j) (fun r c => - svcoef r (transMat Xt (is_MJ Xj fi (nth c ms sv0))))
           else UB) ;;
    df <- setz (id_df s) pr dp ;;
    Ok (mkISd f df diff (id_jac s) (id_full s) (id_set s))
  else Ok (mkISd (id_f s) (id_df s) diff (id_jac s) (id_full s) (id_set s)).
(** IS.cpp 105-210, computeTorqueJacobianJoint with Jacobians of the forces; the assertion on
    their number is checked. *)
Definition computeTorqueJacobianJoint (mb : MultiBody) (m : MBC) (jacs : list Mat) (s : ISd) : res (ISd * MBC) :=
  if (length jacs =? nrBodies mb)%nat then
    s <- (if id_set s then Ok s else setJacobianSize mb m jacs s) ;;
    st <- for_up (nrBodies mb) (isd_body mb m jacs (mkSV v0 (gravity m))) (s, bodyAccB m) ;;
    let m := with_bodyAccB (snd st) m in
    s <- for_down (nrJoints mb) (isd_torque mb m) (fst st) ;;
    Ok (s, m)
  else UB.
(** IS.cpp 212-218: forces that do not depend on the configuration. *)
Definition computeTorqueJacobianJoint_const (mb : MultiBody) (m : MBC) (s : ISd) : res (ISd * MBC) :=
  computeTorqueJacobianJoint mb m (map (fun _ => mat_zero 0 0) (seq 0 (nrJoints mb))) s.
