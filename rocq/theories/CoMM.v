(** Model of src/RBDyn/CoM.cpp and src/RBDyn/RBDyn/CoM.h. *)
From Coq Require Import Reals String ZArith Bool Arith List.
From Verif Require Import Res SMap Vec Sva Mat JointM MultiBodyM JacM.
Import ListNotations.
Open Scope R_scope.

(** Division of doubles by b. Division by zero gives no real number (inf or nan in C++) and
    is [UB] here. *)
Definition rdiv (a b : R) : res R := if Req_EM_T b 0 then UB else Ok (a / b).
(** assert(mass > 0) followed by a division of a vector by mass: a failed assertion is [UB]
    (with NDEBUG, the code divides by a mass that is not positive). *)
Definition vdiv_mass (v : V3) (mass : R) : res V3 :=
  if Rlt_dec 0 mass then Ok (vscale (/ mass) v) else UB.

(** CoM.cpp 15-35, computeCoM; state (totalMass, com). *)
Definition com_step (mb : MultiBody) (m : MBC) (i : nat) (s : R * V3) : res (R * V3) :=
  b <- get (mb_bodies mb) i ;;
  X <- get (bodyPosW m) i ;;
  let mass := imass (binertia b) in
  let scaled := mkPT (rotE X) (vscale mass (trR X)) in
  Ok (fst s + mass, vadd (snd s) (trR (ptmul (pttr (imom (binertia b))) scaled))).
Definition computeCoM (mb : MultiBody) (m : MBC) : res V3 :=
  s <- for_up (nrBodies mb) (com_step mb m) (0, v0) ;; vdiv_mass (snd s) (fst s).

(** CoM.cpp 37-60, computeCoMVelocity. *)
Definition comv_step (mb : MultiBody) (m : MBC) (i : nat) (s : R * V3) : res (R * V3) :=
  b <- get (mb_bodies mb) i ;;
  X <- get (bodyPosW m) i ;;
  V <- get (bodyVelB m) i ;;
  let mass := imass (binertia b) in
  let X_0_i := mkPT (mtr (rotE X)) (imom (binertia b)) in
  let scaled := mkSV (sang V) (vscale mass (slin V)) in
  Ok (fst s + mass, vadd (snd s) (slin (ptm X_0_i scaled))).
Definition computeCoMVelocity (mb : MultiBody) (m : MBC) : res V3 :=
  s <- for_up (nrBodies mb) (comv_step mb m) (0, v0) ;; vdiv_mass (snd s) (fst s).

(** CoM.cpp 62-93, computeCoMAcceleration. *)
Definition coma_step (mb : MultiBody) (m : MBC) (i : nat) (s : R * V3) : res (R * V3) :=
  b <- get (mb_bodies mb) i ;;
  X <- get (bodyPosW m) i ;;
  VW <- get (bodyVelW m) i ;;
  A <- get (bodyAccB m) i ;;
  V <- get (bodyVelB m) i ;;
  let mass := imass (binertia b) in
  let X_0_iscaled := mkPT (mtr (rotE X)) (imom (binertia b)) in
  let angvel_W := mkSV (sang VW) v0 in
  let scaledA := mkSV (sang A) (vscale mass (slin A)) in
  let scaledV := mkSV (sang V) (vscale mass (slin V)) in
  Ok (fst s + mass,
      vadd (vadd (snd s) (slin (ptm X_0_iscaled scaledA)))
           (slin (scross angvel_W (ptm X_0_iscaled scaledV)))).
Definition computeCoMAcceleration (mb : MultiBody) (m : MBC) : res V3 :=
  s <- for_up (nrBodies mb) (coma_step mb m) (0, v0) ;; vdiv_mass (snd s) (fst s).

(** CoM.cpp 95-114, the safe versions. *)
Definition sComputeCoM mb m := checkMatchBodyPos mb m ;;; computeCoM mb m.
Definition sComputeCoMVelocity mb m :=
  checkMatchBodyPos mb m ;;; checkMatchBodyVel mb m ;;; computeCoMVelocity mb m.
Definition sComputeCoMAcceleration mb m :=
  checkMatchBodyPos mb m ;;; checkMatchBodyVel mb m ;;; checkMatchBodyAcc mb m ;;; computeCoMAcceleration mb m.

(** Coefficients of a Vector3d. *)
Definition vcoef (r : nat) (v : V3) : R := match r with O => vx v | S O => vy v | _ => vz v end.
(** [jac.block(3, 0, 3, jac.cols())] for a six-row matrix given by columns. *)
Definition lin_rows (jac : list SV) : Mat :=
  mkMat 3 (length jac) (fun r c => vcoef r (slin (nth c jac sv0))).
(** [M += B * k] and [M /= k] on dynamic matrices; Eigen asserts equal sizes. *)
Definition mat_addscaled (M B : Mat) (k : R) : res Mat :=
  if (mrows M =? mrows B)%nat && (mcols M =? mcols B)%nat
  then Ok (mkMat (mrows M) (mcols M) (fun r c => ment M r c + ment B r c * k)) else UB.
Definition mat_div (M : Mat) (k : R) : Mat := mkMat (mrows M) (mcols M) (fun r c => ment M r c / k).
(** [M.setZero()] *)
Definition mat_clear (M : Mat) : Mat := mat_zero (mrows M) (mcols M).

(** ** CoMJacobianDummy (CoM.h, data members). *)
Record CoMD := mkCoMD {
  cd_jac : Mat;
  cd_dot : Mat;
  cd_full : Mat;
  cd_vec : list Jac;
  cd_mass : R;
  cd_weight : list R
}.

(** CoM.cpp 204-216, init: the CoM of a body in its frame, the Jacobian of that point, the
    total mass. *)
Definition body_com (I : RBI) : V3 := if Rlt_dec 0 (imass I) then vscale (/ imass I) (imom I) else v0.
Definition comd_init (g : nat -> nat -> nat -> SV) (mb : MultiBody) : res (list Jac * R) :=
  s <- for_up (nrBodies mb)
         (fun i s =>
            b <- get (mb_bodies mb) i ;;
            J <- Jacobian_ctor (g i) mb (bname b) (body_com (binertia b)) ;;
            Ok (fst s ++ [J], snd s + imass (binertia b))) ([], 0) ;;
  Ok s.
(** CoM.cpp 116-141, the constructors: init runs before the check of the weights. [g], [gm]:
    uninitialised coefficients. jacVec_ is created with nrBodies default Jacobians, each
    replaced by init; the model appends instead. *)
Definition comd_mat (gm : nat -> nat -> nat -> R) (mb : MultiBody) (k : nat) : Mat := mkMat 3 (mb_nrDof mb) (gm k).
Definition CoMD_ctor_w (g : nat -> nat -> nat -> SV) (gm : nat -> nat -> nat -> R) (mb : MultiBody) (w : list R) : res CoMD :=
  s <- comd_init g mb ;;
  if (length w =? nrBodies mb)%nat
  then Ok (mkCoMD (comd_mat gm mb 0) (comd_mat gm mb 1) (comd_mat gm mb 2) (fst s) (snd s) w)
  else Throw DomainError.
Definition CoMD_ctor g gm (mb : MultiBody) : res CoMD :=
  s <- comd_init g mb ;;
  Ok (mkCoMD (comd_mat gm mb 0) (comd_mat gm mb 1) (comd_mat gm mb 2) (fst s) (snd s) (repeat 1 (nrBodies mb))).

(** CoM.cpp 145-164 and 166-185, the loops of jacobian and jacobianDot: [run] computes the
    Jacobian of body i and [cols] is the matrix it returns; state (jacVec_, jacFull_, jac_). *)
Definition comd_step (mb : MultiBody) (w : list R) (run : Jac -> res Jac) (cols : Jac -> list SV)
    (i : nat) (s : list Jac * Mat * Mat) : res (list Jac * Mat * Mat) :=
  let '(vec, full, jac) := s in
  J <- get vec i ;;
  J' <- run J ;;
  vec <- set vec i J' ;;
  full <- fullJacobian mb J' (lin_rows (cols J')) full ;;
  b <- get (mb_bodies mb) i ;;
  wi <- get w i ;;
  jac <- mat_addscaled jac full (imass (binertia b) * wi) ;;
  Ok (vec, full, jac).
Definition comd_jacobian (mb : MultiBody) (m : MBC) (c : CoMD) : res CoMD :=
  s <- for_up (nrBodies mb) (comd_step mb (cd_weight c) (jacobian mb m) jc_jac)
         (cd_vec c, cd_full c, mat_clear (cd_jac c)) ;;
  let '(vec, full, jac) := s in
  if Rlt_dec 0 (cd_mass c)
  then Ok (mkCoMD (mat_div jac (cd_mass c)) (cd_dot c) full vec (cd_mass c) (cd_weight c)) else UB.
Definition comd_jacobianDot (mb : MultiBody) (m : MBC) (c : CoMD) : res CoMD :=
  s <- for_up (nrBodies mb) (comd_step mb (cd_weight c) (jacobianDot mb m) jc_dot)
         (cd_vec c, cd_full c, mat_clear (cd_dot c)) ;;
  let '(vec, full, jac) := s in
  if Rlt_dec 0 (cd_mass c)
  then Ok (mkCoMD (cd_jac c) (mat_div jac (cd_mass c)) full vec (cd_mass c) (cd_weight c)) else UB.
(** CoM.cpp 187-202, the safe versions. *)
Definition comd_sJacobian mb m c := checkMatchBodyPos mb m ;;; checkMatchMotionSubspace mb m ;;; comd_jacobian mb m c.
Definition comd_sJacobianDot mb m c :=
  checkMatchBodyPos mb m ;;; checkMatchBodyVel mb m ;;; checkMatchMotionSubspace mb m ;;; comd_jacobianDot mb m c.

(** ** CoMJacobian (CoM.h, data members). *)
Record CoMJ := mkCoMJ {
  cj_jac : Mat;
  cj_dot : Mat;
  cj_coeff : list R;
  cj_com : list PT;
  cj_sub : list (list Z);
  cj_comW : list PT;
  cj_comV : list SV;
  cj_nacc : list SV;
  cj_weight : list R
}.
Definition with_cjac v c := mkCoMJ v (cj_dot c) (cj_coeff c) (cj_com c) (cj_sub c) (cj_comW c) (cj_comV c) (cj_nacc c) (cj_weight c).
Definition with_cdot v c := mkCoMJ (cj_jac c) v (cj_coeff c) (cj_com c) (cj_sub c) (cj_comW c) (cj_comV c) (cj_nacc c) (cj_weight c).
Definition with_coeff v c := mkCoMJ (cj_jac c) (cj_dot c) v (cj_com c) (cj_sub c) (cj_comW c) (cj_comV c) (cj_nacc c) (cj_weight c).
Definition with_com v c := mkCoMJ (cj_jac c) (cj_dot c) (cj_coeff c) v (cj_sub c) (cj_comW c) (cj_comV c) (cj_nacc c) (cj_weight c).
Definition with_sub v c := mkCoMJ (cj_jac c) (cj_dot c) (cj_coeff c) (cj_com c) v (cj_comW c) (cj_comV c) (cj_nacc c) (cj_weight c).
Definition with_comW v c := mkCoMJ (cj_jac c) (cj_dot c) (cj_coeff c) (cj_com c) (cj_sub c) v (cj_comV c) (cj_nacc c) (cj_weight c).
Definition with_comV v c := mkCoMJ (cj_jac c) (cj_dot c) (cj_coeff c) (cj_com c) (cj_sub c) (cj_comW c) v (cj_nacc c) (cj_weight c).
Definition with_nacc v c := mkCoMJ (cj_jac c) (cj_dot c) (cj_coeff c) (cj_com c) (cj_sub c) (cj_comW c) (cj_comV c) v (cj_weight c).
Definition with_weight v c := mkCoMJ (cj_jac c) (cj_dot c) (cj_coeff c) (cj_com c) (cj_sub c) (cj_comW c) (cj_comV c) (cj_nacc c) v.

(** CoM.cpp 249-267, updateInertialParameters: the sum of the masses, then the loop; state
    (bodiesCoeff_, bodiesCoM_). *)
Definition total_mass (mb : MultiBody) : res R :=
  for_up (nrBodies mb) (fun i s => b <- get (mb_bodies mb) i ;; Ok (s + imass (binertia b))) 0.
Definition upd_step (mb : MultiBody) (w : list R) (mass : R) (i : nat) (s : list R * list PT) : res (list R * list PT) :=
  b <- get (mb_bodies mb) i ;;
  wi <- get w i ;;
  k <- rdiv (imass (binertia b) * wi) mass ;;
  coeff <- set (fst s) i k ;;
  com <- set (snd s) i (pttr (body_com (binertia b))) ;;
  Ok (coeff, com).
Definition updateInertialParameters (mb : MultiBody) (c : CoMJ) : res CoMJ :=
  mass <- total_mass mb ;;
  s <- for_up (nrBodies mb) (upd_step mb (cj_weight c) mass) (cj_coeff c, cj_com c) ;;
  Ok (with_com (snd s) (with_coeff (fst s) c)).

(** CoM.cpp 501-512, jointBodiesSuccessors. [fuel] bounds the depth of the recursion;
    running out of it with fuel = number of joints + 1 means a cycle: [Diverge]. *)
Fixpoint jointBodiesSuccessors (mb : MultiBody) (fuel : nat) (joint : nat) (sub : list Z) : res (list Z) :=
  match fuel with
  | O => Diverge
  | S fuel =>
      son <- get (mb_succ mb) joint ;;
      for_up (nrJoints mb)
        (fun i sub => p <- get (mb_pred mb) i ;;
                      if (p =? son)%Z then jointBodiesSuccessors mb fuel i sub else Ok sub)
        (sub ++ [son])
  end.
(** CoM.cpp 514-523, init. *)
Definition comj_init (mb : MultiBody) (c : CoMJ) : res CoMJ :=
  c <- updateInertialParameters mb c ;;
  sub <- for_up (nrJoints mb)
           (fun i sub => s <- get sub i ;; s <- jointBodiesSuccessors mb (S (nrJoints mb)) i s ;; set sub i s)
           (cj_sub c) ;;
  Ok (with_sub sub c).

(** CoM.cpp 224-247, the constructors; std::vector<double>(n) is zero-filled, the other
    members come from uninitialised memory. *)
Definition comj_fresh (g : Garbage) (gm : nat -> nat -> nat -> R) (mb : MultiBody) (w : list R) : CoMJ :=
  let nb := nrBodies mb in
  mkCoMJ (comd_mat gm mb 0) (comd_mat gm mb 1) (repeat 0 nb) (map (gPT g 0%nat) (seq 0 nb))
         (repeat [] (nrJoints mb)) (map (gPT g 1%nat) (seq 0 nb)) (map (gSV g 0%nat) (seq 0 nb))
         (map (gSV g 1%nat) (seq 0 (nrJoints mb))) w.
Definition CoMJ_ctor g gm (mb : MultiBody) : res CoMJ := comj_init mb (comj_fresh g gm mb (repeat 1 (nrBodies mb))).
Definition CoMJ_ctor_w g gm (mb : MultiBody) (w : list R) : res CoMJ :=
  if (length w =? nrBodies mb)%nat then comj_init mb (comj_fresh g gm mb w) else Throw DomainError.

(** CoM.cpp 274-278, weight(mb, w). *)
Definition set_weight (mb : MultiBody) (w : list R) (c : CoMJ) : res CoMJ :=
  updateInertialParameters mb (with_weight w c).
(** CoM.cpp 423-433, sUpdateInertialParameters; 435-452, sWeight. *)
Definition sUpdateInertialParameters (mb : MultiBody) (c : CoMJ) : res CoMJ :=
  if negb (length (cj_coeff c) =? nrBodies mb)%nat then Throw DomainError else updateInertialParameters mb c.
Definition sWeight (mb : MultiBody) (w : list R) (c : CoMJ) : res CoMJ :=
  if negb (length (cj_coeff c) =? nrBodies mb)%nat then Throw DomainError
  else if negb (length (cj_weight c) =? nrBodies mb)%nat then Throw DomainError
  else set_weight mb w c.

(** [jac.col(c) += v * k] on a three-row matrix. *)
Definition add_col (M : Mat) (c : nat) (v : V3) (k : R) : res Mat :=
  add_block M 0 c 3 1 (fun r _ => vcoef r v * k).

(** CoM.cpp 295-310 and 331-357, the loops over joints, sub-bodies and dofs of jacobian and
    jacobianDot: [pre i Xinv b] computes what the code computes once per sub-body (here
    returned as the function from subspace columns to matrix columns); state (curJ, jac). *)
Definition comj_step (mb : MultiBody) (m : MBC) (c : CoMJ) (pre : nat -> PT -> Z -> res (SV -> V3))
    (i : nat) (s : nat * Mat) : res (nat * Mat) :=
  sub <- get (cj_sub c) i ;;
  Xi <- get (bodyPosW m) i ;;
  let X_i_0 := ptinv Xi in
  j <- get (mb_joints mb) i ;;
  M <- for_each sub
         (fun b M =>
            f <- pre i X_i_0 b ;;
            for_up (jdof j)
              (fun dof M =>
                 ms <- get (motionSubspace m) i ;; S <- get ms dof ;;
                 k <- getz (cj_coeff c) b ;;
                 add_col M (fst s + dof) (f S) k) M) (snd s) ;;
  Ok ((fst s + jdof j)%nat, M).

(** CoM.cpp 280-313, jacobian. *)
Definition comj_jacobian (mb : MultiBody) (m : MBC) (c : CoMJ) : res CoMJ :=
  comW <- for_up (nrBodies mb)
            (fun i W => X <- get (bodyPosW m) i ;; C <- get (cj_com c) i ;;
                        set W i (pttr (trR (ptmul C X)))) (cj_comW c) ;;
  let c := with_comW comW c in
  s <- for_up (nrJoints mb)
         (comj_step mb m c (fun _ X_i_0 b => W <- getz comW b ;; Ok (ptm_lin (ptmul W X_i_0))))
         (0%nat, mat_clear (cj_jac c)) ;;
  Ok (with_cjac (snd s) c).
(** CoM.cpp 315-360, jacobianDot. *)
Definition comj_jacobianDot (mb : MultiBody) (m : MBC) (c : CoMJ) : res CoMJ :=
  st <- for_up (nrBodies mb)
          (fun i st => X <- get (bodyPosW m) i ;; C <- get (cj_com c) i ;; V <- get (bodyVelB m) i ;;
                       W <- set (fst st) i (ptmul C X) ;; U <- set (snd st) i (ptm C V) ;;
                       Ok (W, U)) (cj_comW c, cj_comV c) ;;
  let c := with_comV (snd st) (with_comW (fst st) c) in
  s <- for_up (nrJoints mb)
         (comj_step mb m c
            (fun i X_i_0 b =>
               W <- getz (fst st) b ;;
               Xb <- getz (bodyPosW m) b ;;
               VWb <- getz (bodyVelW m) b ;;
               Vi <- get (bodyVelB m) i ;;
               Ub <- getz (snd st) b ;;
               let X_i_com := ptmul W X_i_0 in
               let E_b_0 := ptrot (mtr (rotE Xb)) in
               let E_Vb := mkSV (sang VWb) v0 in
               let V := svsub (ptm X_i_com Vi) Ub in
               Ok (fun S => vadd (slin (scross E_Vb (ptm (ptmul E_b_0 X_i_com) S)))
                                 (slin (ptm E_b_0 (scross V (ptm X_i_com S)))))))
         (0%nat, mat_clear (cj_dot c)) ;;
  Ok (with_cdot (snd s) c).

(** CoM.cpp 362-376, velocity. *)
Definition comj_velocity (mb : MultiBody) (m : MBC) (c : CoMJ) : res V3 :=
  for_up (nrBodies mb)
    (fun i s => C <- get (cj_com c) i ;; X <- get (bodyPosW m) i ;; V <- get (bodyVelB m) i ;; k <- get (cj_coeff c) i ;;
                Ok (vadd s (vscale k (slin (ptm (mkPT (mtr (rotE X)) (trR C)) V))))) v0.

(** CoM.cpp 401-421, normalAcceleration(mb, mbc, normalAccB). *)
Definition comj_normalAcceleration_pre (mb : MultiBody) (m : MBC) (accB : list SV) (c : CoMJ) : res V3 :=
  for_up (nrBodies mb)
    (fun i s => C <- get (cj_com c) i ;; X <- get (bodyPosW m) i ;; VW <- get (bodyVelW m) i ;;
                A <- get accB i ;; V <- get (bodyVelB m) i ;; k <- get (cj_coeff c) i ;;
                let X_0_i := mkPT (mtr (rotE X)) (trR C) in
                Ok (vadd (vadd s (vscale k (slin (ptm X_0_i A))))
                         (vscale k (slin (scross (mkSV (sang VW) v0) (ptm X_0_i V)))))) v0.
(** CoM.cpp 378-399, normalAcceleration(mb, mbc); the recursion over the joints is the same
    as in Momentum.cpp 257-270. *)
Definition nacc_step (mb : MultiBody) (m : MBC) (i : nat) (acc : list SV) : res (list SV) :=
  X <- get (parentToSon m) i ;; vj <- get (jointVelocity m) i ;; vb <- get (bodyVelB m) i ;;
  pr <- get (mb_pred mb) i ;; su <- get (mb_succ mb) i ;;
  if negb (pr =? -1)%Z then
    a <- getz acc pr ;; setz acc su (svadd (ptm X a) (scross vb vj))
  else setz acc su (scross vb vj).
Definition comj_normalAcceleration (mb : MultiBody) (m : MBC) (c : CoMJ) : res (V3 * CoMJ) :=
  acc <- for_up (nrJoints mb) (nacc_step mb m) (cj_nacc c) ;;
  let c := with_nacc acc c in
  v <- comj_normalAcceleration_pre mb m acc c ;; Ok (v, c).

(** CoM.cpp 454-498, the safe versions. *)
Definition comj_sJacobian mb m c := checkMatchBodyPos mb m ;;; checkMatchMotionSubspace mb m ;;; comj_jacobian mb m c.
Definition comj_sJacobianDot mb m c :=
  checkMatchBodyPos mb m ;;; checkMatchBodyVel mb m ;;; checkMatchMotionSubspace mb m ;;; comj_jacobianDot mb m c.
Definition comj_sVelocity mb m c := checkMatchBodyPos mb m ;;; checkMatchBodyVel mb m ;;; comj_velocity mb m c.
Definition comj_sNormalAcceleration mb m c :=
  checkMatchBodyPos mb m ;;; checkMatchBodyVel mb m ;;; checkMatchJointConf mb m ;;; checkMatchParentToSon mb m ;;;
  comj_normalAcceleration mb m c.
Definition comj_sNormalAcceleration_pre mb m accB c :=
  checkMatchBodyPos mb m ;;; checkMatchBodyVel mb m ;;; checkMatchBodiesVector mb accB ;;;
  comj_normalAcceleration_pre mb m accB c.
