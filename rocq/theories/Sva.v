(** Spatial algebra: the SpaceVecAlg types and operations used by RBDyn.
    SpaceVecAlg is an external dependency, not part of /repo; this file is its
    semantics as documented (R. Featherstone, Rigid Body Dynamics Algorithms,
    App. A) and belongs to the trusted base. *)
From Coq Require Import Reals List.
From Verif Require Import Vec.
Import ListNotations.
Open Scope R_scope.

(** sva::MotionVecd and sva::ForceVecd: an angular (couple) and a linear
    (force) part. One record is used for both. *)
Record SV := mkSV { sang : V3; slin : V3 }.

Definition sv0 : SV := mkSV v0 v0.
Definition svadd (a b : SV) := mkSV (vadd (sang a) (sang b)) (vadd (slin a) (slin b)).
Definition svsub (a b : SV) := mkSV (vsub (sang a) (sang b)) (vsub (slin a) (slin b)).
Definition svopp (a : SV) := mkSV (vopp (sang a)) (vopp (slin a)).
Definition svscale (k : R) (a : SV) := mkSV (vscale k (sang a)) (vscale k (slin a)).
(** MotionVec::dot(ForceVec), or v.vector().transpose() * f.vector() *)
Definition svdot (a b : SV) : R := vdot (sang a) (sang b) + vdot (slin a) (slin b).

(** MotionVec::cross *)
Definition scross (a b : SV) : SV :=
  mkSV (vcross (sang a) (sang b))
       (vadd (vcross (sang a) (slin b)) (vcross (slin a) (sang b))).
(** MotionVec::crossDual *)
Definition scrossDual (a f : SV) : SV :=
  mkSV (vadd (vcross (sang a) (sang f)) (vcross (slin a) (slin f)))
       (vcross (sang a) (slin f)).

(** sva::PTransformd: rotation E and translation r of a Plücker transform. *)
Record PT := mkPT { rotE : M3; trR : V3 }.

Definition ptid : PT := mkPT mid v0.
(** PTransform(E): pure rotation; PTransform(r): pure translation *)
Definition ptrot (E : M3) : PT := mkPT E v0.
Definition pttr (r : V3) : PT := mkPT mid r.
(** operator*(PTransform) *)
Definition ptmul (X1 X2 : PT) : PT :=
  mkPT (mmul (rotE X1) (rotE X2)) (vadd (trR X2) (mapp (mtr (rotE X2)) (trR X1))).
(** inv() *)
Definition ptinv (X : PT) : PT := mkPT (mtr (rotE X)) (vopp (mapp (rotE X) (trR X))).
(** operator*(MotionVec) *)
Definition ptm (X : PT) (m : SV) : SV :=
  mkSV (mapp (rotE X) (sang m))
       (mapp (rotE X) (vsub (slin m) (vcross (trR X) (sang m)))).
(** angularMul, linearMul: the two halves of operator*(MotionVec) *)
Definition ptm_ang (X : PT) (m : SV) : V3 := sang (ptm X m).
Definition ptm_lin (X : PT) (m : SV) : V3 := slin (ptm X m).
(** invMul(MotionVec) *)
Definition ptinvm (X : PT) (m : SV) : SV :=
  mkSV (mapp (mtr (rotE X)) (sang m))
       (vadd (mapp (mtr (rotE X)) (slin m))
             (vcross (trR X) (mapp (mtr (rotE X)) (sang m)))).
(** dualMul(ForceVec) *)
Definition ptdual (X : PT) (f : SV) : SV :=
  mkSV (mapp (rotE X) (vsub (sang f) (vcross (trR X) (slin f))))
       (mapp (rotE X) (slin f)).
(** transMul(ForceVec) *)
Definition pttrans (X : PT) (f : SV) : SV :=
  mkSV (vadd (mapp (mtr (rotE X)) (sang f))
             (vcross (trR X) (mapp (mtr (rotE X)) (slin f))))
       (mapp (mtr (rotE X)) (slin f)).

(** Symmetric 3x3 matrix: sva::RBInertiad stores the lower triangle only. *)
Record Sym3 := mkSym { sxx : R; sxy : R; sxz : R; syy : R; syz : R; szz : R }.
Definition sym_mat (s : Sym3) : M3 :=
  mkM3 (sxx s) (sxy s) (sxz s) (sxy s) (syy s) (syz s) (sxz s) (syz s) (szz s).
Definition sym_lower (A : M3) : Sym3 :=
  mkSym (m00 A) (m10 A) (m20 A) (m11 A) (m21 A) (m22 A).
Definition sym_add (a b : Sym3) : Sym3 :=
  mkSym (sxx a + sxx b) (sxy a + sxy b) (sxz a + sxz b)
        (syy a + syy b) (syz a + syz b) (szz a + szz b).
Definition sym0 : Sym3 := mkSym 0 0 0 0 0 0.

(** sva::RBInertiad: mass, first moment of mass, rotational inertia at the origin. *)
Record RBI := mkRBI { imass : R; imom : V3; iine : Sym3 }.

Definition rbi0 : RBI := mkRBI 0 v0 sym0.
(** operator+, operator+= *)
Definition rbiadd (a b : RBI) : RBI :=
  mkRBI (imass a + imass b) (vadd (imom a) (imom b)) (sym_add (iine a) (iine b)).
(** RBInertia * MotionVec *)
Definition rbim (I : RBI) (m : SV) : SV :=
  mkSV (vadd (mapp (sym_mat (iine I)) (sang m)) (vcross (imom I) (slin m)))
       (vsub (vscale (imass I) (slin m)) (vcross (imom I) (sang m))).
(** transMul(RBInertia): X^T I X, from frame B to frame A *)
Definition pttransI (X : PT) (I : RBI) : RBI :=
  let Et := mtr (rotE X) in
  let Eh := mapp Et (imom I) in
  let h' := vadd Eh (vscale (imass I) (trR X)) in
  mkRBI (imass I) h'
    (sym_lower
       (msub (msub (mmul (mmul Et (sym_mat (iine I))) (rotE X))
                   (mmul (mcross (trR X)) (mcross Eh)))
             (mmul (mcross h') (mcross (trR X))))).
(** dualMul(RBInertia): X^* I X^{-1}, from frame A to frame B *)
Definition ptdualI (X : PT) (I : RBI) : RBI :=
  let E := rotE X in
  let h' := vsub (imom I) (vscale (imass I) (trR X)) in
  mkRBI (imass I) (mapp E h')
    (sym_lower
       (mmul (mmul E (madd (madd (sym_mat (iine I)) (mmul (mcross (trR X)) (mcross (imom I))))
                           (mmul (mcross h') (mcross (trR X)))))
             (mtr E))).

(** A 6 x n matrix of motion vectors (columns) times a vector. *)
Fixpoint smul (M : list SV) (x : list R) : SV :=
  match M, x with
  | s :: M, k :: x => svadd (svscale k s) (smul M x)
  | _, _ => sv0
  end.

(** sva::RotX/RotY/RotZ *)
Definition RotX (t : R) : M3 := mkM3 1 0 0 0 (cos t) (sin t) 0 (- sin t) (cos t).
Definition RotY (t : R) : M3 := mkM3 (cos t) 0 (- sin t) 0 1 0 (sin t) 0 (cos t).
Definition RotZ (t : R) : M3 := mkM3 (cos t) (sin t) 0 (- sin t) (cos t) 0 0 0 1.

(** Eigen::AngleAxisd(angle, axis).matrix() *)
Definition angleAxis (t : R) (a : V3) : M3 :=
  let s := vscale (sin t) a in
  let c := cos t in
  let c1 := vscale (1 - c) a in
  mkM3 (vx c1 * vx a + c)        (vx c1 * vy a - vz s)    (vx c1 * vz a + vy s)
       (vx c1 * vy a + vz s)     (vy c1 * vy a + c)       (vy c1 * vz a - vx s)
       (vx c1 * vz a - vy s)     (vy c1 * vz a + vx s)    (vz c1 * vz a + c).

(** Eigen::Quaterniond (w, x, y, z) *)
Record Quat := mkQ { qw : R; qx : R; qy : R; qz : R }.
Definition qnorm2 (q : Quat) : R := qw q * qw q + qx q * qx q + qy q * qy q + qz q * qz q.
Definition qmul (a b : Quat) : Quat := mkQ
  (qw a * qw b - qx a * qx b - qy a * qy b - qz a * qz b)
  (qw a * qx b + qx a * qw b + qy a * qz b - qz a * qy b)
  (qw a * qy b + qy a * qw b + qz a * qx b - qx a * qz b)
  (qw a * qz b + qz a * qw b + qx a * qy b - qy a * qx b).
Definition qconj (q : Quat) : Quat := mkQ (qw q) (- qx q) (- qy q) (- qz q).
(** Quaternion::inverse(): conj / squaredNorm, zero for the zero quaternion *)
Definition qinv (q : Quat) : Quat :=
  if Rlt_dec 0 (qnorm2 q)
  then mkQ (qw q / qnorm2 q) (- qx q / qnorm2 q) (- qy q / qnorm2 q) (- qz q / qnorm2 q)
  else mkQ 0 0 0 0.
(** Quaternion::toRotationMatrix() *)
Definition qmat (q : Quat) : M3 :=
  let w := qw q in let x := qx q in let y := qy q in let z := qz q in
  mkM3 (1 - (2*y*y + 2*z*z)) (2*x*y - 2*w*z) (2*x*z + 2*w*y)
       (2*x*y + 2*w*z) (1 - (2*x*x + 2*z*z)) (2*y*z - 2*w*x)
       (2*x*z - 2*w*y) (2*y*z + 2*w*x) (1 - (2*x*x + 2*y*y)).
