(** Model of src/RBDyn/ZMP.cpp. Division by zero is [UB] (inf or nan in C++), see [rdiv]. *)
From Coq Require Import Reals String ZArith Bool Arith List.
From Verif Require Import Res Vec Sva Mat JointM MultiBodyM JacM CoMM.
Import ListNotations.
Open Scope R_scope.

(** ZMP.cpp 15-28, computeCentroidalZMP. *)
Definition computeCentroidalZMP (m : MBC) (com comA : V3) (altitude : R) : res V3 :=
  let g := vz (gravity m) in
  x <- rdiv ((vz com - altitude) * vx comA) (vz comA + g) ;;
  y <- rdiv ((vz com - altitude) * vy comA) (vz comA + g) ;;
  Ok (mkV3 (vx com - x) (vy com - y) altitude).
(** ZMP.cpp 30-37, computeCentroidalZMPNoGravity. *)
Definition computeCentroidalZMPNoGravity (com comA : V3) (altitude : R) : res V3 :=
  x <- rdiv ((vz com - altitude) * vx comA) (vz comA) ;;
  y <- rdiv ((vz com - altitude) * vy comA) (vz comA) ;;
  Ok (mkV3 (vx com - x) (vy com - y) altitude).
(** ZMP.cpp 39-57, computeCentroidalZMPComplete. *)
Definition computeCentroidalZMPComplete (m : MBC) (com comA : V3) (altitude : R) (wr : SV) (mass : R) : res V3 :=
  let g := vz (gravity m) in
  let denom := mass * g - vz (slin wr) in
  k <- rdiv (mass * g) denom ;;
  x <- rdiv ((vz com - altitude) * vx comA * k) (vz comA) ;;
  cy <- rdiv (vy (sang wr)) denom ;;
  fx <- rdiv (vz com * vx (slin wr)) denom ;;
  y <- rdiv ((vz com - altitude) * vy comA * k) (vz comA) ;;
  cx <- rdiv (vx (sang wr)) denom ;;
  fy <- rdiv (vz com * vy (slin wr)) denom ;;
  Ok (mkV3 (vx com - x + cy + fx) (vy com - y - cx + fy) altitude).
