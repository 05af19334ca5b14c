(** Model of src/RBDyn/VisServo.cpp. *)
From Coq Require Import Reals ZArith Bool List.
From Verif Require Import Vec Sva IntegM.
Import ListNotations.
Open Scope R_scope.

(** Matrix<double, 2, 6>: its rows, as (first three columns, last three columns). *)
Record M26 := mkM26 { row0 : SV; row1 : SV }.
(** Matrix<double, 6, 6> by 3x3 blocks: upper left, upper right, lower left, lower right. *)
Record M66 := mkM66 { b00 : M3; b01 : M3; b10 : M3; b11 : M3 }.
Definition row (a b c d e f : R) : SV := mkSV (mkV3 a b c) (mkV3 d e f).

(** VisServo.cpp 12-17, imagePointJacobian of a normalised point and a depth. *)
Definition imagePointJacobian (x y depth : R) : M26 :=
  mkM26 (row (x * y) (- (1 + x * x)) y (-1 / depth) 0 (x / depth))
        (row (1 + y * y) (- x * y) (- x) 0 (-1 / depth) (y / depth)).
(** VisServo.cpp 19-26, imagePointJacobian of a 3D point. *)
Definition imagePointJacobian3 (p : V3) : M26 := imagePointJacobian (vx p / vz p) (vy p / vz p) (vz p).
(** VisServo.cpp 28-40, imagePointJacobianDot. *)
Definition imagePointJacobianDot (x y xD yD depth depthD : R) : M26 :=
  let Z_sq := depth * depth in
  mkM26 (row (xD * y + x * yD) (-2 * x * xD) yD (depthD / Z_sq) 0 ((xD * depth - x * depthD) / Z_sq))
        (row (2 * y * yD) (- xD * y - x * yD) (- xD) 0 (depthD / Z_sq) ((yD * depth - y * depthD) / Z_sq)).
(** VisServo.cpp 79-82, getSkewSym. *)
Definition getSkewSym (v : V3) : M3 := mkM3 0 (- vz v) (vy v) (vz v) 0 (- vx v) (- vy v) (vx v) 0.
(** VisServo.cpp 70-77, getAngleAxis. *)
Definition getAngleAxis (E : M3) : R * V3 :=
  let acosV := (m00 E + m11 E + m22 E - 1) * (1 / 2) in
  (acos (Rmin (Rmax acosV (-1)) 1), mkV3 (- m21 E + m12 E) (- m02 E + m20 E) (- m10 E + m01 E)).
(** VisServo.cpp 42-61, poseJacobian. *)
Definition poseJacobian (E : M3) : M66 :=
  let aa := getAngleAxis (mtr E) in
  let sinc_part := sinc (fst aa) / (sinc (fst aa / 2) ^ 2) in
  let A := getSkewSym (snd aa) in
  let L := madd (madd mid (mscale (- (fst aa * (1 / 2))) A)) (mmul (mscale (1 - sinc_part) A) A) in
  mkM66 L mzero mzero (mtr E).
(** VisServo.cpp 63-68, depthDotJacobian. *)
Definition depthDotJacobian (x y depth : R) : SV := row 0 0 (-1) (- y * depth) (x * depth) 0.
