(** Vectors and matrices of R^3 with Eigen's operations (fixed-size).
    Eigen is not part of /repo; these are its documented semantics. *)
From Coq Require Import Reals.
Open Scope R_scope.

(** Eigen::Vector3d *)
Record V3 := mkV3 { vx : R; vy : R; vz : R }.

Definition v0 : V3 := mkV3 0 0 0.
Definition vadd (a b : V3) := mkV3 (vx a + vx b) (vy a + vy b) (vz a + vz b).
Definition vsub (a b : V3) := mkV3 (vx a - vx b) (vy a - vy b) (vz a - vz b).
Definition vopp (a : V3) := mkV3 (- vx a) (- vy a) (- vz a).
Definition vscale (k : R) (a : V3) := mkV3 (k * vx a) (k * vy a) (k * vz a).
Definition vdot (a b : V3) := vx a * vx b + vy a * vy b + vz a * vz b.
Definition vcross (a b : V3) :=
  mkV3 (vy a * vz b - vz a * vy b) (vz a * vx b - vx a * vz b) (vx a * vy b - vy a * vx b).
Definition unitX := mkV3 1 0 0.
Definition unitY := mkV3 0 1 0.
Definition unitZ := mkV3 0 0 1.

(** Eigen::Matrix3d, entries in row-major order *)
Record M3 := mkM3 {
  m00 : R; m01 : R; m02 : R;
  m10 : R; m11 : R; m12 : R;
  m20 : R; m21 : R; m22 : R }.

Definition mid : M3 := mkM3 1 0 0 0 1 0 0 0 1.
Definition mzero : M3 := mkM3 0 0 0 0 0 0 0 0 0.
Definition madd (A B : M3) := mkM3
  (m00 A + m00 B) (m01 A + m01 B) (m02 A + m02 B)
  (m10 A + m10 B) (m11 A + m11 B) (m12 A + m12 B)
  (m20 A + m20 B) (m21 A + m21 B) (m22 A + m22 B).
Definition msub (A B : M3) := mkM3
  (m00 A - m00 B) (m01 A - m01 B) (m02 A - m02 B)
  (m10 A - m10 B) (m11 A - m11 B) (m12 A - m12 B)
  (m20 A - m20 B) (m21 A - m21 B) (m22 A - m22 B).
Definition mscale (k : R) (A : M3) := mkM3
  (k * m00 A) (k * m01 A) (k * m02 A)
  (k * m10 A) (k * m11 A) (k * m12 A)
  (k * m20 A) (k * m21 A) (k * m22 A).
Definition mtr (A : M3) := mkM3
  (m00 A) (m10 A) (m20 A) (m01 A) (m11 A) (m21 A) (m02 A) (m12 A) (m22 A).
Definition mmul (A B : M3) := mkM3
  (m00 A * m00 B + m01 A * m10 B + m02 A * m20 B)
  (m00 A * m01 B + m01 A * m11 B + m02 A * m21 B)
  (m00 A * m02 B + m01 A * m12 B + m02 A * m22 B)
  (m10 A * m00 B + m11 A * m10 B + m12 A * m20 B)
  (m10 A * m01 B + m11 A * m11 B + m12 A * m21 B)
  (m10 A * m02 B + m11 A * m12 B + m12 A * m22 B)
  (m20 A * m00 B + m21 A * m10 B + m22 A * m20 B)
  (m20 A * m01 B + m21 A * m11 B + m22 A * m21 B)
  (m20 A * m02 B + m21 A * m12 B + m22 A * m22 B).
Definition mapp (A : M3) (v : V3) := mkV3
  (m00 A * vx v + m01 A * vy v + m02 A * vz v)
  (m10 A * vx v + m11 A * vy v + m12 A * vz v)
  (m20 A * vx v + m21 A * vy v + m22 A * vz v).
Definition mdet (A : M3) :=
  m00 A * (m11 A * m22 A - m12 A * m21 A)
  - m01 A * (m10 A * m22 A - m12 A * m20 A)
  + m02 A * (m10 A * m21 A - m11 A * m20 A).
(** sva::vector3ToCrossMatrix *)
Definition mcross (a : V3) : M3 :=
  mkM3 0 (- vz a) (vy a) (vz a) 0 (- vx a) (- vy a) (vx a) 0.

(** A proper rotation matrix: orthonormal with determinant one. *)
Definition SO3 (E : M3) : Prop := mmul (mtr E) E = mid /\ mdet E = 1.
