(** Model of src/RBDyn/IDIM.cpp and src/RBDyn/RBDyn/IDIM.h. *)
From Coq Require Import Reals String ZArith Bool Arith List.
From Verif Require Import Res Vec Sva Mat JointM MultiBodyM DynM.
Import ListNotations.
Open Scope R_scope.

(** IDIM.cpp 16-28, IMPhi: a 6 x 10 matrix, given by its columns. The second block of three
    columns is [-vector3ToCrossMatrix(v); vector3ToCrossMatrix(w)]. *)
Definition IMPhi (mv : SV) : list SV :=
  let w := sang mv in
  let v := slin mv in
  [ mkSV v0 v;
    mkSV (vopp (vcross v (mkV3 1 0 0))) (vcross w (mkV3 1 0 0));
    mkSV (vopp (vcross v (mkV3 0 1 0))) (vcross w (mkV3 0 1 0));
    mkSV (vopp (vcross v (mkV3 0 0 1))) (vcross w (mkV3 0 0 1));
    mkSV (mkV3 (vx w) 0 0) v0;
    mkSV (mkV3 (vy w) (vx w) 0) v0;
    mkSV (mkV3 (vz w) 0 (vx w)) v0;
    mkSV (mkV3 0 (vy w) 0) v0;
    mkSV (mkV3 0 (vz w) (vy w)) v0;
    mkSV (mkV3 0 0 (vz w)) v0 ].

(** IDIM.cpp 30-37, inertiaToVector. *)
Definition inertiaToVector (I : RBI) : list R :=
  [ imass I; vx (imom I); vy (imom I); vz (imom I);
    sxx (iine I); sxy (iine I); sxz (iine I); syy (iine I); syz (iine I); szz (iine I) ].
(** IDIM.cpp 39-44, vectorToInertia. The argument has static size 10: another size does not
    type-check in C++ (or violates an Eigen assertion), here [UB]. RBInertiad keeps the lower
    triangle of I. *)
Definition vectorToInertia (v : list R) : res RBI :=
  if (length v =? 10)%nat then
    let c k := nth k v 0 in
    Ok (mkRBI (c 0%nat) (mkV3 (c 1%nat) (c 2%nat) (c 3%nat))
          (sym_lower (mkM3 (c 4%nat) (c 5%nat) (c 6%nat) (c 5%nat) (c 7%nat) (c 8%nat) (c 6%nat) (c 8%nat) (c 9%nat))))
  else UB.
(** IDIM.cpp 46-55, sVectorToInertia. *)
Definition sVectorToInertia (v : list R) : res RBI :=
  if negb (length v =? 10)%nat then Throw OutOfRange else vectorToInertia v.
(** IDIM.cpp 57-65, multiBodyToInertialVector; [g]: uninitialised coefficients. *)
Definition multiBodyToInertialVector (g : nat -> R) (mb : MultiBody) : res (list R) :=
  for_up (nrBodies mb)
    (fun i v => b <- get (mb_bodies mb) i ;; set_seg v (i * 10) (inertiaToVector (binertia b)))
    (map g (seq 0 (nrBodies mb * 10))).

(** IDIM.cpp 67, the constructor. The only member is Y_. *)
Definition IDIM_ctor (mb : MultiBody) : Mat := mat_zero (mb_nrDof mb) (nrBodies mb * 10).

(** IDIM.cpp 96-114, the while loop over the ancestors of body i; state (bodyFPhi, Y_). [fuel]
    as in [anc_loop]. *)
Fixpoint idim_loop (mb : MultiBody) (m : MBC) (i : nat) (fuel : nat) (j : nat) (F : list SV) (Y : Mat) : res Mat :=
  match fuel with
  | O => Diverge
  | S fuel =>
      pr <- get (mb_pred mb) j ;;
      if negb (pr =? -1)%Z then
        X <- get (parentToSon m) j ;;
        F <- for_up 10 (fun c F => f <- get F c ;; set F c (pttrans X f)) F ;;
        let j := Z.to_nat pr in
        pj <- getz (mb_posDof mb) pr ;;
        jj <- getz (mb_joints mb) pr ;;
        if negb (jdof jj =? 0)%nat then
          ms <- getz (motionSubspace m) pr ;;
          B <- smat_tmul ms F (jdof jj) 10 ;;
          Y <- set_block Y pj (i * 10) (jdof jj) 10 B ;;
          idim_loop mb m i fuel j F Y
        else idim_loop mb m i fuel j F Y
      else Ok Y
  end.
(** IDIM.cpp 76-115, one iteration of computeY. *)
Definition idim_step (mb : MultiBody) (m : MBC) (i : nat) (Y : Mat) : res Mat :=
  V <- get (bodyVelB m) i ;;
  A <- get (bodyAccB m) i ;;
  F <- for_up 10 (fun c F => f <- get F c ;; p <- get (IMPhi V) c ;; set F c (svadd f (scrossDual V p))) (IMPhi A) ;;
  pi <- get (mb_posDof mb) i ;;
  j <- get (mb_joints mb) i ;;
  ms <- get (motionSubspace m) i ;;
  B <- smat_tmul ms F (jdof j) 10 ;;
  Y <- set_block Y pi (i * 10) (jdof j) 10 B ;;
  idim_loop mb m i (S (nrJoints mb)) i F Y.
(** IDIM.cpp 69-116, computeY. *)
Definition computeY (mb : MultiBody) (m : MBC) (Y : Mat) : res Mat := for_down (nrBodies mb) (idim_step mb m) Y.
(** IDIM.cpp 118-126, sComputeY. *)
Definition sComputeY mb m Y :=
  checkMatchParentToSon mb m ;;; checkMatchBodyVel mb m ;;; checkMatchMotionSubspace mb m ;;; checkMatchBodyAcc mb m ;;;
  computeY mb m Y.
