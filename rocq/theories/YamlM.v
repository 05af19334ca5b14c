(** Model of src/parsers/yaml.cpp (class RBDynFromYAML, src/parsers/RBDyn/parsers/yaml.h) and
    to_yaml.cpp.

    The text layer (yaml-cpp, characters of a YAML file) is not modelled: a document is the tree
    of its maps. yaml-cpp prints doubles with enough digits to read the same number back, prints
    and reads infinite numbers, and prints a std::vector as a sequence. Exceptions of yaml-cpp
    derive from std::runtime_error. Materials, visual and collision elements are in GeomM
    (yaml.cpp 231-440, to_yaml.cpp 105-207). *)
From Coq Require Import Reals String DecimalString ZArith Bool Arith List.
From Verif Require Import Res SMap Vec Sva JointM MultiBodyM KinM GraphM ParserM.
Import ListNotations.
Open Scope R_scope.

(** A node where numbers are expected: a number, a sequence, or something else. *)
Inductive yv (A : Type) := YNum (a : A) | YSeq (l : list (yv A)) | YOther.
Arguments YNum {A} _. Arguments YSeq {A} _. Arguments YOther {A}.
(** [node.as<double>(def)]: the default when the node is absent or is not a number. *)
Definition as_num {A} (o : option (yv A)) (def : A) : A := match o with Some (YNum a) => a | _ => def end.
(** The elements of a sequence; [element.as<double>()] throws on an element that is not a number. *)
Fixpoint elems {A} (l : list (yv A)) : res (list A) :=
  match l with
  | [] => Ok []
  | YNum a :: l => v <- elems l ;; Ok (a :: v)
  | _ => Throw RuntimeError
  end.
(** [node.as<std::vector<double>>()] of a node that is there. *)
Definition as_vec {A} (y : yv A) : res (list A) := match y with YSeq l => elems l | _ => Throw RuntimeError end.
(** [node.as<std::vector<double>>(def)]. *)
Definition as_vec_def {A} (o : option (yv A)) (def : list A) : res (list A) :=
  match o with Some (YSeq l) => elems l | _ => Ok def end.
(** [node.as<bool>(def)], [node.as<std::string>(def)]. *)
Definition as_or {A} (o : option A) (def : A) : A := match o with Some a => a | None => def end.

(** ** The document. *)
Record YFrame := mkYF { yf_xyz : option (yv R); yf_rpy : option (yv R); yf_deg : option bool }.
Record YIne := mkYI { y_Ixx : option (yv R); y_Iyy : option (yv R); y_Izz : option (yv R);
                      y_Iyz : option (yv R); y_Ixz : option (yv R); y_Ixy : option (yv R) }.
Record YInertial := mkYIn { yi_mass : option (yv R); yi_frame : option YFrame; yi_inertia : option YIne }.
Record YLink := mkYL { yl_name : option string; yl_inertial : option YInertial }.
Record YLimits := mkYLim { y_lower : option (yv dbl); y_upper : option (yv dbl); y_effort : option (yv dbl);
                           y_velocity : option (yv dbl); y_deg : option bool }.
Record YJoint := mkYJ { yj_name : option string; yj_type : option string; yj_parent : option string; yj_child : option string;
                        yj_axis : option (yv R); yj_frame : option YFrame; yj_limits : option YLimits }.
Record YRobot := mkYR { yr_name : option string; yr_deg : option bool; yr_links : option (list YLink); yr_joints : option (list YJoint) }.
(** A document, [None] when it has no 'robot' map. *)
Definition YDoc := option YRobot.

(** ** Reading (yaml.cpp). *)
(** yaml.cpp 143-148, makeInertia. *)
Definition makeInertia (ixx iyy izz iyz ixz ixy : R) : M3 := mkM3 ixx ixy ixz ixy iyy iyz ixz iyz izz.
(** Eigen: AngleAxisd converted to a quaternion (a product of AngleAxisd is a product of
    quaternions). *)
Definition aa_quat (t : R) (a : V3) : Quat := mkQ (cos (t / 2)) (sin (t / 2) * vx a) (sin (t / 2) * vy a) (sin (t / 2) * vz a).
(** yaml.cpp 150-157, MatrixFromRPY. *)
Definition MatrixFromRPY (r p y : R) : M3 :=
  mtr (qmat (qmul (qmul (aa_quat r unitX) (aa_quat p unitY)) (aa_quat y unitZ))).
(** std::copy_n(begin, 3, v.data()) after the size check. *)
Definition three (l : list R) : res V3 := match l with [x; y; z] => Ok (mkV3 x y z) | _ => Throw RuntimeError end.
(** yaml.cpp 159-193, parseFrame: xyz and rpy. [deg] is angles_in_degrees_. *)
Definition parseFrame (deg : bool) (f : option YFrame) : res (V3 * V3) :=
  match f with
  | None => Ok (v0, v0)
  | Some f =>
      xyz <- match yf_xyz f with Some y => l <- as_vec y ;; three l | None => Ok v0 end ;;
      rpy <- match yf_rpy f with
             | Some y => l <- as_vec y ;; v <- three l ;; Ok (if as_or (yf_deg f) deg then vscale (PI / 180) v else v)
             | None => Ok v0
             end ;;
      Ok (xyz, rpy)
  end.
(** yaml.cpp 195-204, parseInertia. *)
Definition parseInertia (i : option YIne) : M3 :=
  match i with
  | None => mid
  | Some i => makeInertia (as_num (y_Ixx i) 1) (as_num (y_Iyy i) 1) (as_num (y_Izz i) 1) (as_num (y_Iyz i) 0) (as_num (y_Ixz i) 0) (as_num (y_Ixy i) 0)
  end.
(** yaml.cpp 206-229, parseInertial, and the body made of it (yaml.cpp 475-481). *)
Definition parseInertial (deg transform : bool) (n : string) (i : option YInertial) : res Body :=
  match i with
  | None => Ok (body_mci 0 v0 mzero n)
  | Some i =>
      let mass := as_num (yi_mass i) 0 in
      f <- parseFrame deg (yi_frame i) ;;
      let (xyz, rpy) := (f : V3 * V3) in
      let inertia := parseInertia (yi_inertia i) in
      let inertia := if transform then inertiaToOrigin inertia mass xyz (MatrixFromRPY (vx rpy) (vy rpy) (vz rpy)) else inertia in
      Ok (body_mci mass xyz inertia n)
  end.
(** yaml.cpp 58-61, joint_types_. *)
Definition joint_types : smap jtype :=
  [("revolute", Rev); ("continuous", Rev); ("prismatic", Prism); ("spherical", Spherical); ("ball", Spherical); ("free", Free); ("fixed", Fixed)]%string.
(** yaml.cpp 512-572, parseJointType: the type and whether the joint is continuous. *)
Definition parseJointType (suffix : string) (type : option string) (n : string) (force_fixed : bool) : res (jtype * bool) :=
  if force_fixed then Ok (Fixed, false)
  else match type with
       | None => Ok (Rev, false)
       | Some t =>
           let t := if String.eqb t "floating" then (if ends_with n suffix then "spherical" else "free")%string else t in
           match mfind joint_types t with
           | Some ty => Ok (ty, String.eqb t "continuous")
           | None => Throw RuntimeError
           end
       end.
(** yaml.cpp 574-589, parseJointAxis. *)
Definition parseJointAxis (a : option (yv R)) : res V3 :=
  match a with Some y => l <- as_vec y ;; three l | None => Ok unitZ end.
(** Multiplication of a double by a positive number. *)
Definition dscale (k : R) (d : dbl) : dbl := match d with Fin x => Fin (k * x) | _ => d end.
(** [v[i] *= k] *)
Definition mul_at (k : R) (v : list dbl) (i : nat) : res (list dbl) := x <- get v i ;; set v i (dscale k x).
(** yaml.cpp 591-653, parseJointLimits: lower, upper, effort, velocity. *)
Definition parseJointLimits (deg : bool) (lim : option YLimits) (j : Joint) (continuous : bool) : res (list dbl * list dbl * list dbl * list dbl) :=
  let n := jdof j in
  let lo := repeat MInf n in
  let up := repeat PInf n in
  match lim with
  | None => Ok (lo, up, up, up)
  | Some l =>
      v <- (if (1 <? n)%nat then
              lower <- (if continuous then Ok lo else as_vec_def (y_lower l) lo) ;;
              upper <- (if continuous then Ok up else as_vec_def (y_upper l) up) ;;
              effort <- as_vec_def (y_effort l) up ;;
              velocity <- as_vec_def (y_velocity l) up ;;
              Ok (lower, upper, effort, velocity)
            else if (n =? 1)%nat then
              Ok (if continuous then lo else [as_num (y_lower l) MInf], if continuous then up else [as_num (y_upper l) PInf],
                  [as_num (y_effort l) PInf], [as_num (y_velocity l) PInf])
            else Ok (lo, up, up, up)) ;;
      let '(lower, upper, effort, velocity) := v in
      if as_or (y_deg l) deg then
        s <- for_up n (fun i s => let '(a, b, c) := s in
               a <- mul_at (PI / 180) a i ;; b <- mul_at (PI / 180) b i ;; c <- mul_at (PI / 180) c i ;; Ok (a, b, c))
             (lower, upper, velocity) ;;
        let '(lower, upper, velocity) := s in Ok (lower, upper, effort, velocity)
      else Ok (lower, upper, effort, velocity)
  end.
(** std::to_string *)
Definition str_of (n : nat) : string := NilZero.string_of_uint (Nat.to_uint n).
(** yaml.cpp 442-510, parseLink. State: graph, base_link_, link_idx_, fixed_links_, removed_links_. *)
Record YS := mkYS { ys_g : GSt; ys_base : string; ys_link : nat; ys_fixed : list string; ys_removed : list string }.
Definition parseLink (p : PParams) (deg : bool) (l : YLink) (s : YS) : res YS :=
  let n := as_or (yl_name l) (append "link" (str_of (ys_link s))) in
  if pp_remove_virtual p && match yl_inertial l with None => true | Some _ => false end
  then Ok (mkYS (ys_g s) (ys_base s) (ys_link s) (ys_fixed s) (ys_removed s ++ [n]))
  else if in_names (pp_filtered p) n && pp_remove_filtered p
  then Ok (mkYS (ys_g s) (ys_base s) (ys_link s) (ys_fixed s) (ys_removed s ++ [n]))
  else
    let fixedl := if in_names (pp_filtered p) n then ys_fixed s ++ [n] else ys_fixed s in
    let base := if String.eqb (ys_base s) "" then n else ys_base s in
    b <- parseInertial deg (pp_transform p) n (yl_inertial l) ;;
    g <- grun (addBody b) (ys_g s) ;;
    Ok (mkYS g base (S (ys_link s)) fixedl (ys_removed s)).
(** yaml.cpp 655-718, parseJoint. State: joint_idx_, graph, limits. *)
Definition parseJoint (p : PParams) (deg : bool) (fixedl removed : list string) (j : YJoint) (s : nat * GSt * Limits) : res (nat * GSt * Limits) :=
  let '(idx, g, lims) := s in
  let n := as_or (yj_name j) (append "joint" (str_of idx)) in
  let parent := as_or (yj_parent j) (append "link" (str_of idx)) in
  let child := as_or (yj_child j) (append "link" (str_of (S idx))) in
  if in_names removed child || in_names removed parent then Ok s
  else
    tc <- parseJointType (pp_suffix p) (yj_type j) n (in_names fixedl child) ;;
    let (type, continuous) := (tc : jtype * bool) in
    axis <- parseJointAxis (yj_axis j) ;;
    f <- parseFrame deg (yj_frame j) ;;
    let (xyz, rpy) := (f : V3 * V3) in
    let jt := mkJ type axis true n in
    l <- parseJointLimits deg (yj_limits j) jt continuous ;;
    let '(lo, up, ef, ve) := l in
    g <- grun (addJoint jt) g ;;
    g <- grun (linkBodies parent (mkPT (MatrixFromRPY (vx rpy) (vy rpy) (vz rpy)) xyz) child ptid n true) g ;;
    Ok (S idx, g, lim_set lims n lo up ve ef).
(** yaml.cpp 45-141, the constructor of RBDynFromYAML up to the graph. *)
Definition parse_yaml (d : YDoc) (p : PParams) : res (string * string * GSt * Limits) :=
  match d with
  | None => Throw RuntimeError
  | Some r =>
      match yr_name r, yr_links r, yr_deg r with
      | Some name, Some links, Some deg =>
          s <- for_each links (parseLink p deg) (mkYS empty_graph EmptyString 1 [] []) ;;
          match yr_joints r with
          | None => Throw RuntimeError
          | Some joints =>
              t <- for_each joints (parseJoint p deg (ys_fixed s) (ys_removed s)) (1%nat, ys_g s, lim0) ;;
              let '(_, g, l) := t in
              Ok (if String.eqb (pp_base p) "" then ys_base s else pp_base p, name, g, l)
          end
      | _, _, _ => Throw RuntimeError
      end
  end.
(** yaml.cpp 45-141 and 733-740, from_yaml. *)
Definition from_yaml (fuel : nat) (g : Garbage) (d : YDoc) (p : PParams) : res PResult :=
  x <- parse_yaml d p ;;
  let '(base, name, s, l) := x in make_result fuel g base (pp_fixed p) s l name.

(** ** Writing (to_yaml.cpp). *)
(** to_yaml.cpp 21-26, set_vec3d. *)
Definition yw_vec3d (v : V3) : yv R := YSeq [YNum (vx v); YNum (vy v); YNum (vz v)].
(** to_yaml.cpp 28-45, set_origin_from_ptransform; [euler] is Eigen's eulerAngles(0,1,2). *)
Definition yw_frame (euler : M3 -> V3) (X : PT) : option YFrame :=
  let xyz := trR X in
  let rpy := euler (mtr (rotE X)) in
  if isZero3 xyz && isZero3 rpy then None
  else Some (mkYF (if isZero3 xyz then None else Some (yw_vec3d xyz)) (if isZero3 rpy then None else Some (yw_vec3d rpy)) None).
(** to_yaml.cpp 54-103. *)
Definition yw_inertial (I : RBI) : option YInertial :=
  if has_inertial I then
    let A := inertia_at_com I in
    let d x := Some (YNum x) in
    Some (mkYIn (if positive (imass I) then d (imass I) else None)
                (if isZero3 (com_of I) then None else Some (mkYF (Some (yw_vec3d (com_of I))) None None))
                (if isZeroM (sym_mat (iine I)) then None
                 else Some (mkYI (d (m00 A)) (d (m11 A)) (d (m22 A)) (d (m12 A)) (d (m02 A)) (d (m01 A)))))
  else None.
Definition yw_link (b : Body) : YLink := mkYL (Some (bname b)) (yw_inertial (binertia b)).
(** to_yaml.cpp 234-235 set_vector (the vector is a sequence inside a sequence), 255-270 set_limit. *)
Definition yw_limit (m : smap (list dbl)) (n : string) : option (yv dbl) :=
  match mfind m n with
  | Some [x] => Some (YNum x)
  | Some v => Some (YSeq [YSeq (map YNum v)])
  | None => None
  end.
(** to_yaml.cpp 272-383: one joint; [None] for the root joint, which is skipped. Mimic joints
    are not written. *)
Definition yw_joint (euler : M3 -> V3) (r : PResult) (j : Joint) : res (option YJoint) :=
  idx <- jointIndexByName (pr_mb r) (jname j) ;;
  if (idx =? 0)%Z then Ok None
  else
    ty <- type_name (pr_limits r) j ;;
    pc <- ends_of (pr_mb r) idx ;;
    nd <- nodeByName (bname (fst pc)) (pr_mbg r) ;;
    axis <- axis_of j ;;
    wl <- write_limits (pr_limits r) j ;;
    let lim m := yw_limit m (jname j) in
    Ok (Some (mkYJ (Some (jname j)) (Some ty) (Some (bname (fst pc))) (Some (bname (snd pc)))
                   (if isZero3 axis then None else Some (yw_vec3d axis))
                   (first_some (fun a => yw_frame euler (aX a)) (arcs_named (nArcs nd) (jname j)))
                   (if wl : bool then Some (mkYLim (lim (l_lower (pr_limits r))) (lim (l_upper (pr_limits r)))
                                           (lim (l_torque (pr_limits r))) (lim (l_velocity (pr_limits r))) None) else None))).
(** to_yaml.cpp 10-390, to_yaml. *)
Definition to_yaml (euler : M3 -> V3) (r : PResult) : res YDoc :=
  js <- for_each (mb_joints (pr_mb r)) (fun j l => o <- yw_joint euler r j ;; Ok (match o with Some u => l ++ [u] | None => l end)) [] ;;
  Ok (Some (mkYR (Some (pr_name r)) (Some false) (Some (map yw_link (mb_bodies (pr_mb r)))) (Some js))).
