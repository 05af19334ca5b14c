(** Model of src/RBDyn/RBDyn/Joint.h and src/RBDyn/RBDyn/Body.h. *)
From Coq Require Import Reals String Bool List.
From Verif Require Import Res Vec Sva.
Import ListNotations.
Open Scope R_scope.

(** Joint.h 39-48, enum Type. *)
Inductive jtype := Rev | Prism | Spherical | Planar | Cylindrical | Free | Fixed.

(** Joint.h 257-271, the data members. Simplifications: [dir_] is 1 or -1 and is
    stored as a boolean (the default constructor, 285, which leaves dir_ = 0 and
    type_ uninitialised, is not modelled); [S_] (6 x n) is the list of its columns;
    [params_] and [dof_] are naturals. *)
Record Joint := mkJoint {
  jtyp : jtype;
  jS : list SV;
  jfwd : bool;
  jparams : nat;
  jdof : nat;
  jname : string;
  jmimic : bool;
  jmimicName : string;
  jmimicMul : R;
  jmimicOff : R
}.

(** Body.h 20-70. *)
Record Body := mkBody { binertia : RBI; bname : string }.

(** Body.h 37-40, Body(mass, com, inertia, name): stores mass * com and the lower
    triangle of inertia. *)
Definition body_mci (m : R) (c : V3) (I : M3) (nm : string) : Body :=
  mkBody (mkRBI m (vscale m c) (sym_lower I)) nm.

(** [dir_] as a number. *)
Definition dirR (fwd : bool) : R := if fwd then 1 else -1.

(** The columns written by constructJoint before multiplication by dir_
    (Joint.h 530-574). *)
Definition baseS (t : jtype) (a : V3) : list SV :=
  match t with
  | Rev => [mkSV a v0]
  | Prism => [mkSV v0 a]
  | Spherical => [mkSV unitX v0; mkSV unitY v0; mkSV unitZ v0]
  | Planar => [mkSV unitZ v0; mkSV v0 unitX; mkSV v0 unitY]
  | Cylindrical => [mkSV a v0; mkSV v0 a]
  | Free => [mkSV unitX v0; mkSV unitY v0; mkSV unitZ v0;
             mkSV v0 unitX; mkSV v0 unitY; mkSV v0 unitZ]
  | Fixed => []
  end.

(** params_ and dof_ as set by constructJoint (Joint.h 530-574). *)
Definition tparams (t : jtype) : nat :=
  match t with Rev | Prism => 1 | Spherical => 4 | Planar => 3 | Cylindrical => 2 | Free => 7 | Fixed => 0 end.
Definition tdof (t : jtype) : nat :=
  match t with Rev | Prism => 1 | Spherical => 3 | Planar => 3 | Cylindrical => 2 | Free => 6 | Fixed => 0 end.

(** Joint.h 316-320, Joint(type, axis, forward, name), with constructJoint 526-576. *)
Definition mkJ (t : jtype) (axis : V3) (fwd : bool) (nm : string) : Joint :=
  mkJoint t (map (svscale (dirR fwd)) (baseS t axis)) fwd (tparams t) (tdof t) nm
          false EmptyString 1 0.

(** Joint.h 322-326, Joint(type, forward, name): the axis is UnitZ. *)
Definition mkJz (t : jtype) (fwd : bool) (nm : string) : Joint := mkJ t unitZ fwd nm.
(** Joint.h 328-331, Joint(name): a fixed joint. *)
Definition mkJfixed (nm : string) : Joint := mkJ Fixed unitZ true nm.

(** Joint.h 333-339, makeMimic. *)
Definition makeMimic (j : Joint) (nm : string) (mul off : R) : Joint :=
  mkJoint (jtyp j) (jS j) (jfwd j) (jparams j) (jdof j) (jname j) true nm mul off.

(** Joint.h 123-127, forward(bool): S_ is negated when the direction changes. *)
Definition set_forward (j : Joint) (fwd : bool) : Joint :=
  mkJoint (jtyp j)
          (if Bool.eqb fwd (jfwd j) then jS j else map (svscale (-1)) (jS j))
          fwd (jparams j) (jdof j) (jname j) (jmimic j) (jmimicName j) (jmimicMul j) (jmimicOff j).

(** Joint.h 578-604, QuatToE. Reads q[0..3]. *)
Definition QuatToE (p0 p1 p2 p3 : R) : M3 :=
  mscale 2 (mkM3
    (p0 * p0 + p1 * p1 - 1/2) (p1 * p2 + p0 * p3) (p1 * p3 - p0 * p2)
    (p1 * p2 - p0 * p3) (p0 * p0 + p2 * p2 - 1/2) (p2 * p3 + p0 * p1)
    (p1 * p3 + p0 * p2) (p2 * p3 - p0 * p1) (p0 * p0 + p3 * p3 - 1/2)).

(** Joint.h 341-381, pose (instantiated at double). Reads of q and of the columns of
    S_ are checked: out of range is undefined behaviour. *)
Definition pose (j : Joint) (q : list R) : res PT :=
  match jtyp j with
  | Rev =>
      q0 <- get q 0 ;; s <- get (jS j) 0 ;;
      Ok (ptrot (angleAxis (- q0) (sang s)))
  | Prism =>
      q0 <- get q 0 ;; s <- get (jS j) 0 ;;
      Ok (pttr (vscale q0 (slin s)))
  | Spherical =>
      q0 <- get q 0 ;; q1 <- get q 1 ;; q2 <- get q 2 ;; q3 <- get q 3 ;;
      let d := dirR (jfwd j) in
      Ok (ptrot (qmat (qinv (mkQ q0 (d * q1) (d * q2) (d * q3)))))
  | Planar =>
      q0 <- get q 0 ;; q1 <- get q 1 ;; q2 <- get q 2 ;;
      let rot := RotZ q0 in
      let X := mkPT rot (mapp (mtr rot) (mkV3 q1 q2 0)) in
      Ok (if jfwd j then X else ptinv X)
  | Cylindrical =>
      q0 <- get q 0 ;; s0 <- get (jS j) 0 ;; s1 <- get (jS j) 1 ;; q1 <- get q 1 ;;
      Ok (mkPT (angleAxis (- q0) (sang s0)) (vscale q1 (slin s1)))
  | Free =>
      q0 <- get q 0 ;; q1 <- get q 1 ;; q2 <- get q 2 ;; q3 <- get q 3 ;;
      q4 <- get q 4 ;; q5 <- get q 5 ;; q6 <- get q 6 ;;
      let X := mkPT (QuatToE q0 q1 q2 q3) (mkV3 q4 q5 q6) in
      Ok (if jfwd j then X else ptinv X)
  | Fixed => Ok ptid
  end.

(** [S_ * Vector(x...)]: Eigen product, the sizes must agree. *)
Definition smul_chk (M : list SV) (x : list R) : res SV :=
  if Nat.eqb (length M) (length x) then Ok (smul M x) else UB.

(** Joint.h 383-406 motion, 408-431 tanAccel: the two bodies are identical text
    except for the name of the argument. *)
Definition motion (j : Joint) (a : list R) : res SV :=
  match jtyp j with
  | Rev =>
      a0 <- get a 0 ;; s <- get (jS j) 0 ;; Ok (mkSV (vscale a0 (sang s)) v0)
  | Prism =>
      a0 <- get a 0 ;; s <- get (jS j) 0 ;; Ok (mkSV v0 (vscale a0 (slin s)))
  | Spherical | Planar =>
      a0 <- get a 0 ;; a1 <- get a 1 ;; a2 <- get a 2 ;; smul_chk (jS j) [a0; a1; a2]
  | Cylindrical =>
      a0 <- get a 0 ;; a1 <- get a 1 ;; smul_chk (jS j) [a0; a1]
  | Free =>
      a0 <- get a 0 ;; a1 <- get a 1 ;; a2 <- get a 2 ;;
      a3 <- get a 3 ;; a4 <- get a 4 ;; a5 <- get a 5 ;;
      smul_chk (jS j) [a0; a1; a2; a3; a4; a5]
  | Fixed => Ok sv0
  end.
Definition tanAccel (j : Joint) (aD : list R) : res SV :=
  match jtyp j with
  | Rev =>
      a0 <- get aD 0 ;; s <- get (jS j) 0 ;; Ok (mkSV (vscale a0 (sang s)) v0)
  | Prism =>
      a0 <- get aD 0 ;; s <- get (jS j) 0 ;; Ok (mkSV v0 (vscale a0 (slin s)))
  | Spherical | Planar =>
      a0 <- get aD 0 ;; a1 <- get aD 1 ;; a2 <- get aD 2 ;; smul_chk (jS j) [a0; a1; a2]
  | Cylindrical =>
      a0 <- get aD 0 ;; a1 <- get aD 1 ;; smul_chk (jS j) [a0; a1]
  | Free =>
      a0 <- get aD 0 ;; a1 <- get aD 1 ;; a2 <- get aD 2 ;;
      a3 <- get aD 3 ;; a4 <- get aD 4 ;; a5 <- get aD 5 ;;
      smul_chk (jS j) [a0; a1; a2; a3; a4; a5]
  | Fixed => Ok sv0
  end.

(** Joint.h 484-503, ZeroParam. *)
Definition ZeroParam (t : jtype) : list R :=
  match t with
  | Rev | Prism => [0]
  | Spherical => [1; 0; 0; 0]
  | Planar => [0; 0; 0]
  | Cylindrical => [0; 0]
  | Free => [1; 0; 0; 0; 0; 0; 0]
  | Fixed => []
  end.
(** Joint.h 505-524, ZeroDof. *)
Definition ZeroDof (t : jtype) : list R :=
  match t with
  | Rev | Prism => [0]
  | Spherical => [0; 0; 0]
  | Planar => [0; 0; 0]
  | Cylindrical => [0; 0]
  | Free => [0; 0; 0; 0; 0; 0]
  | Fixed => []
  end.
(** Joint.h 433-444, zeroParam: every parameter of a mimic joint is offset. *)
Definition zeroParam (j : Joint) : list R :=
  let q := ZeroParam (jtyp j) in
  if jmimic j then map (fun x => x + jmimicOff j) q else q.
(** Joint.h 446-449, zeroDof. *)
Definition zeroDof (j : Joint) : list R := ZeroDof (jtyp j).

(** Joint.h 451-460, sPose. *)
Definition sPose (j : Joint) (q : list R) : res PT :=
  if Nat.eqb (length q) (jparams j) then pose j q else Throw DomainError.
(** Joint.h 462-471, sMotion. *)
Definition sMotion (j : Joint) (a : list R) : res SV :=
  if Nat.eqb (length a) (jdof j) then motion j a else Throw DomainError.
(** Joint.h 473-482, sTanAccel. *)
Definition sTanAccel (j : Joint) (a : list R) : res SV :=
  if Nat.eqb (length a) (jdof j) then tanAccel j a else Throw DomainError.
