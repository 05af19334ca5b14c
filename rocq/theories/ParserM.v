(** Model of src/parsers/common.cpp, urdf.cpp and to_urdf.cpp (declarations in
    src/parsers/RBDyn/parsers/common.h and urdf.h).

    The text layer (tinyxml2, characters of an XML file) is not modelled: a document is the
    tree of its elements and attributes, and a numeric attribute is the sequence of the results
    of the successive extractions [ss >> x]. Visual, collision and material elements are
    in GeomM (urdf.cpp 151-326, 443-463, to_urdf.cpp 114-216). *)
From Coq Require Import Reals String ZArith Bool Arith List.
From Verif Require Import Res SMap Vec Sva JointM MultiBodyM KinM GraphM.
Import ListNotations.
Open Scope R_scope.

(** ** common.cpp *)
(** std::string::rfind(pat, pos): the last position not after [pos] where [pat] is read. *)
Fixpoint rfind (s pat : string) (pos : nat) : option nat :=
  if prefix pat (substring pos (String.length s - pos) s) then Some pos
  else match pos with O => None | S p => rfind s pat p end.
(** common.cpp 47-57, prefix_path. *)
Definition prefix_path (path : string) : string :=
  let at0 pat := match rfind path pat 0 with Some i => (i =? 0)%nat | None => false end in
  if at0 "package://"%string || at0 "file://"%string then path else append "file://" path.
(** common.cpp 28-45, from_file; the two readers are arguments. npos + 1 is 0. *)
Definition from_file {A} (from_yaml_file from_urdf_file : string -> res A) (path : string) : res A :=
  let start := match rfind path "." (String.length path) with Some i => S i | None => O end in
  let ext := substring start (String.length path - start) path in
  if String.eqb ext "yaml" || String.eqb ext "yml" then from_yaml_file path
  else if String.eqb ext "urdf" then from_urdf_file path
  else Throw RuntimeError.

(** common.h 141-226, ParserParameters. *)
Record PParams := mkPP {
  pp_fixed : bool; pp_filtered : list string; pp_remove_filtered : bool; pp_transform : bool;
  pp_base : string; pp_remove_virtual : bool; pp_suffix : string }.
(** A double that may be infinite (limits of joints). NaN is not modelled. *)
Inductive dbl := Fin (x : R) | PInf | MInf.
(** common.h 32-39, Limits. *)
Record Limits := mkLim { l_lower : smap (list dbl); l_upper : smap (list dbl); l_velocity : smap (list dbl); l_torque : smap (list dbl) }.
Definition lim0 : Limits := mkLim [] [] [] [].
Definition lim_set (l : Limits) (n : string) (lo up ve to_ : list dbl) : Limits :=
  mkLim (mset (l_lower l) n lo) (mset (l_upper l) n up) (mset (l_velocity l) n ve) (mset (l_torque l) n to_).
(** common.h 228-237, ParserResult, without the visual and collision maps. *)
Record PResult := mkPR { pr_mb : MultiBody; pr_mbc : MBC; pr_mbg : GSt; pr_limits : Limits; pr_name : string }.

(** A call on the graph of a result: an exception leaves the function. *)
Definition grun (x : GM unit) (s : GSt) : res GSt :=
  match x s with GRet _ s => Ok s | GExc e _ => Throw e | GUB => UB | GDiv => Diverge end.
(** Body in a list of names. *)
Definition in_names (l : list string) (n : string) : bool := existsb (String.eqb n) l.
(** The end of from_urdf (urdf.cpp 624-631) and of RBDynFromYAML's constructor (yaml.cpp 133-140):
    the multibody and its zero configuration, with forward kinematics and velocity. *)
Definition make_result (fuel : nat) (g : Garbage) (base : string) (fixed : bool) (s : GSt) (l : Limits) (name : string) : res PResult :=
  mb <- makeMultiBody_fixed fuel base fixed ptid ptid s ;;
  m <- MBC_zero mb (MBC_ctor g mb) ;;
  m <- forwardKinematics mb m ;;
  m <- forwardVelocity mb m ;;
  Ok (mkPR mb m s l name).
(** sva::inertiaToOrigin (SpaceVecAlg): inertia at the centre of mass, in a rotated frame, to the
    origin. *)
Definition inertiaToOrigin (I : M3) (m : R) (c : V3) (rot : M3) : M3 :=
  madd (mmul (mmul rot I) (mtr rot)) (mmul (mcross (vscale m c)) (mtr (mcross c))).
(** Eigen's normalized(). *)
Definition normalized (v : V3) : V3 := if Rlt_dec 0 (vdot v v) then vscale (/ sqrt (vdot v v)) v else v.
(** std::string::substr at the end of the name against the suffix (urdf.cpp 517-522,
    yaml.cpp 530-532). *)
Definition ends_with (n suf : string) : bool :=
  (String.length suf <=? String.length n)%nat &&
  String.eqb (substring (String.length n - String.length suf) (String.length suf) n) suf.

(** ** The URDF document. *)
(** Result of one extraction of a double from a text: a number, or a failure (nothing is
    extracted after it). *)
Inductive tok := TNum (x : R) | TBad.
Definition Attr := option (list tok).
Record UOrigin := mkUO { uo_xyz : Attr; uo_rpy : Attr }.
Record UIne := mkUI { u_ixx : Attr; u_ixy : Attr; u_ixz : Attr; u_iyy : Attr; u_iyz : Attr; u_izz : Attr }.
(** <inertial>: its <origin>, <mass value> and <inertia> elements. *)
Record UInertial := mkUIn { ui_origin : option UOrigin; ui_mass : option Attr; ui_inertia : option UIne }.
Record ULink := mkUL { ul_name : option string; ul_inertial : option UInertial }.
Record UMimic := mkUM { um_joint : option string; um_mult : Attr; um_off : Attr }.
Record ULimit := mkULim { u_lower : Attr; u_upper : Attr; u_effort : Attr; u_velocity : Attr }.
(** <joint>; [uj_parent], [uj_child]: the element, then its attribute "link". *)
Record UJoint := mkUJ {
  uj_name : option string; uj_type : option string;
  uj_parent : option (option string); uj_child : option (option string);
  uj_origin : option UOrigin; uj_axis : option Attr; uj_mimic : option UMimic; uj_limit : option ULimit }.
Record URobot := mkUR { ur_name : option string; ur_links : list ULink; ur_joints : list UJoint }.
(** A document, [None] when it has no <robot> element (or is not XML). *)
Definition UDoc := option URobot.
(** Reading through a null pointer (an absent element or attribute). *)
Definition deref {A} (o : option A) : res A := match o with Some a => Ok a | None => UB end.

(** ** Reading (urdf.cpp). *)
(** urdf.cpp 25-46, attrToDouble. *)
Definition attrToDouble (a : Attr) (def : R) : R := match a with Some (TNum x :: _) => x | _ => def end.
(** urdf.cpp 48-79, attrToList: the numbers before the first failure. *)
Fixpoint nums (l : list tok) : list R := match l with TNum x :: l => x :: nums l | _ => [] end.
Definition attrToList (a : Attr) (def : list R) : list R := match a with Some l => nums l | None => def end.
(** urdf.cpp 81-92, attrToVector. *)
Definition attrToVector (a : Attr) (def : V3) : V3 :=
  match attrToList a [vx def; vy def; vz def] with [x; y; z] => mkV3 x y z | _ => def end.
(** urdf.cpp 94-106, RPY(r, p, y). *)
Definition RPY (r p y : R) : M3 :=
  let ca1 := cos y in let sa1 := sin y in let cb1 := cos p in let sb1 := sin p in let cc1 := cos r in let sc1 := sin r in
  mtr (mkM3 (ca1 * cb1) (ca1 * sb1 * sc1 - sa1 * cc1) (ca1 * sb1 * cc1 + sa1 * sc1)
            (sa1 * cb1) (sa1 * sb1 * sc1 + ca1 * cc1) (sa1 * sb1 * cc1 - ca1 * sc1)
            (- sb1) (cb1 * sc1) (cb1 * cc1)).
(** urdf.cpp 108-116, RPY(vector): a std::string is thrown. *)
Definition RPY_list (l : list R) : res M3 := match l with [r; p; y] => Ok (RPY r p y) | _ => Throw StringThrown end.
(** urdf.cpp 118-125, readInertia. *)
Definition readInertia (u : UIne) : M3 :=
  let d a := attrToDouble a 0 in
  mkM3 (d (u_ixx u)) (d (u_ixy u)) (d (u_ixz u)) (d (u_ixy u)) (d (u_iyy u)) (d (u_iyz u)) (d (u_ixz u)) (d (u_iyz u)) (d (u_izz u)).
(** urdf.cpp 127-149, rbdynFromUrdfJoint. *)
Definition rbdynFromUrdfJoint (type : string) (sph : bool) : jtype :=
  if String.eqb type "revolute" then Rev
  else if String.eqb type "prismatic" then Prism
  else if String.eqb type "continuous" then Rev
  else if String.eqb type "floating" then (if sph then Spherical else Free)
  else if String.eqb type "ball" then Spherical
  else Fixed.
(** urdf.cpp 361-398: the links kept, those whose joint is fixed, those removed. *)
Record LinkSel := mkLS { ls_links : list (string * option UInertial); ls_fixed : list string; ls_removed : list string }.
Definition handle_link (p : PParams) (l : ULink) (s : LinkSel) : res LinkSel :=
  n <- deref (ul_name l) ;;
  let keep := ls_links s ++ [(n, ul_inertial l)] in
  if match ul_inertial l with None => pp_remove_virtual p | Some _ => false end then Ok (mkLS (ls_links s) (ls_fixed s) (ls_removed s ++ [n]))
  else if in_names (pp_filtered p) n then
    (if pp_remove_filtered p then Ok (mkLS (ls_links s) (ls_fixed s) (ls_removed s ++ [n]))
     else Ok (mkLS keep (ls_fixed s ++ [n]) (ls_removed s)))
  else Ok (mkLS keep (ls_fixed s) (ls_removed s)).
(** urdf.cpp 409-442, 465-466: the body of a link. *)
Definition read_body (transform : bool) (n : string) (i : option UInertial) : res Body :=
  match i with
  | None => Ok (body_mci 0 v0 mzero n)
  | Some u =>
      let com := match ui_origin u with Some o => attrToVector (uo_xyz o) v0 | None => v0 end in
      let rpy := match ui_origin u with Some o => attrToList (uo_rpy o) [0; 0; 0] | None => [0; 0; 0] end in
      comFrame <- RPY_list rpy ;;
      massDom <- deref (ui_mass u) ;;
      let mass := attrToDouble massDom 0 in
      inertiaDom <- deref (ui_inertia u) ;;
      let inertia := readInertia inertiaDom in
      let inertia_o := if transform then inertiaToOrigin inertia mass com comFrame else inertia in
      Ok (body_mci mass com inertia_o n)
  end.
(** urdf.cpp 500-507, also 210-231: the transform of an <origin> element. *)
Definition read_origin (o : option UOrigin) : res PT :=
  match o with
  | None => Ok ptid
  | Some o => E <- RPY_list (attrToList (uo_rpy o) [0; 0; 0]) ;; Ok (mkPT E (attrToVector (uo_xyz o) v0))
  end.
(** urdf.cpp 469-492: the joints that do not touch a removed link; the type of those that lead
    to a fixed link is overwritten. *)
Definition extract_joint (fixedl removed : list string) (j : UJoint) (l : list UJoint) : res (list UJoint) :=
  pd <- deref (uj_parent j) ;; pa <- deref pd ;;
  cd <- deref (uj_child j) ;; ch <- deref cd ;;
  let j' := if in_names fixedl ch
            then mkUJ (uj_name j) (Some "fixed"%string) (uj_parent j) (uj_child j) (uj_origin j) (uj_axis j) (uj_mimic j) (uj_limit j) else j in
  Ok (if negb (in_names removed pa) && negb (in_names removed ch) then l ++ [j'] else l).
(** urdf.cpp 496-540: what is read of a joint before the graph is changed. *)
Record JointRead := mkJR { jr_joint : Joint; jr_type : string; jr_parent : string; jr_child : string; jr_X : PT }.
Definition read_joint (p : PParams) (j : UJoint) : res JointRead :=
  n <- deref (uj_name j) ;;
  ty <- deref (uj_type j) ;;
  X <- read_origin (uj_origin j) ;;
  let axis := match uj_axis j with Some a => normalized (attrToVector a v0) | None => unitZ end in
  let type := rbdynFromUrdfJoint ty (ends_with n (pp_suffix p)) in
  pd <- deref (uj_parent j) ;; pa <- deref pd ;;
  cd <- deref (uj_child j) ;; ch <- deref cd ;;
  let jt := mkJ type axis true n in
  jt <- match uj_mimic j, type with
        | None, _ => Ok jt
        | Some _, Fixed => Ok jt
        | Some m, _ => mj <- deref (um_joint m) ;; Ok (makeMimic jt mj (attrToDouble (um_mult m) 1) (attrToDouble (um_off m) 0))
        end ;;
  Ok (mkJR jt ty pa ch X).
(** urdf.cpp 546-578: the limits of a joint, in the order lower, upper, effort, velocity. *)
Definition read_limits (jt : Joint) (ty : string) (lim : option ULimit) : list dbl * list dbl * list dbl * list dbl :=
  let lo := repeat MInf (jdof jt) in
  let up := repeat PInf (jdof jt) in
  let fl a := map Fin (attrToList a []) in
  match lim, jtyp jt with
  | None, _ => (lo, up, up, up)
  | Some _, Fixed => (lo, up, up, up)
  | Some l, _ =>
      if String.eqb ty "continuous" then (lo, up, fl (u_effort l), fl (u_velocity l))
      else (fl (u_lower l), fl (u_upper l), fl (u_effort l), fl (u_velocity l))
  end.
Definition do_joint (p : PParams) (j : UJoint) (s : GSt * Limits) : res (GSt * Limits) :=
  r <- read_joint p j ;;
  let n := jname (jr_joint r) in
  g <- grun (addJoint (jr_joint r)) (fst s) ;;
  g <- grun (linkBodies (jr_parent r) (jr_X r) (jr_child r) ptid n true) g ;;
  let '(lo, up, ef, ve) := read_limits (jr_joint r) (jr_type r) (uj_limit j) in
  Ok (g, lim_set (snd s) n lo up ve ef).
(** The graph of a default-constructed ParserResult. *)
Definition empty_graph : GSt := (mkHeap [] [], Graph_ctor "Root").
(** urdf.cpp 328-582, parseMultiBodyGraphFromURDF; returns the base link, the name, the graph and
    the limits. *)
Definition parse_urdf (d : UDoc) (p : PParams) : res (string * string * GSt * Limits) :=
  match d with
  | None => Throw RuntimeError
  | Some r =>
      match ur_name r with
      | None => Throw RuntimeError
      | Some name =>
          sel <- for_each (ur_links r) (handle_link p) (mkLS [] [] []) ;;
          match ls_links sel with
          | [] => Throw RuntimeError
          | (first, _) :: _ =>
              let base := if String.eqb (pp_base p) "" then first else pp_base p in
              g <- for_each (ls_links sel) (fun l g => b <- read_body (pp_transform p) (fst l) (snd l) ;; grun (addBody b) g) empty_graph ;;
              js <- for_each (ur_joints r) (extract_joint (ls_fixed sel) (ls_removed sel)) [] ;;
              s <- for_each js (do_joint p) (g, lim0) ;;
              Ok (base, name, fst s, snd s)
          end
      end
  end.
(** urdf.cpp 618-632, from_urdf. *)
Definition from_urdf (fuel : nat) (g : Garbage) (d : UDoc) (p : PParams) : res PResult :=
  x <- parse_urdf d p ;;
  let '(base, name, s, l) := x in make_result fuel g base (pp_fixed p) s l name.

(** ** Writing (to_urdf.cpp). *)
(** What the writers take from the environment: [w_num x] is the number read back from the text
    of [x] (an ostream prints six significant digits by default), and Eigen's eulerAngles(0,1,2). *)
Record Writer := mkW { w_num : R -> R; w_euler : M3 -> V3 }.
(** Eigen's isZero(): every coefficient at most 1e-12 in absolute value. *)
Definition prec : R := / 1000000000000.
Definition small (x : R) : bool := if Rle_dec (Rabs x) prec then true else false.
Definition isZero3 (v : V3) : bool := small (vx v) && small (vy v) && small (vz v).
Definition isZeroM (A : M3) : bool :=
  small (m00 A) && small (m01 A) && small (m02 A) && small (m10 A) && small (m11 A) && small (m12 A)
  && small (m20 A) && small (m21 A) && small (m22 A).
(** to_urdf.cpp 19-25 set_double, 27-34 set_vec3d. *)
Definition wr_double (W : Writer) (x : R) : Attr := Some [TNum (w_num W x)].
Definition wr_vec3d (W : Writer) (v : V3) : Attr := Some [TNum (w_num W (vx v)); TNum (w_num W (vy v)); TNum (w_num W (vz v))].
(** to_urdf.cpp 36-53, set_origin_from_ptransform. *)
Definition wr_origin (W : Writer) (X : PT) : option UOrigin :=
  let xyz := trR X in
  let rpy := w_euler W (mtr (rotE X)) in
  if isZero3 xyz && isZero3 rpy then None
  else Some (mkUO (if isZero3 xyz then None else wr_vec3d W xyz) (if isZero3 rpy then None else wr_vec3d W rpy)).
(** to_urdf.cpp 62-80 and to_yaml.cpp 55-77: centre of mass of a body. *)
Definition positive (x : R) : bool := if Rlt_dec 0 x then true else false.
Definition com_of (I : RBI) : V3 := if positive (imass I) then vscale (/ imass I) (imom I) else v0.
Definition has_inertial (I : RBI) : bool :=
  positive (imass I) || negb (isZero3 (imom I)) || negb (isZeroM (sym_mat (iine I))).
Definition inertia_at_com (I : RBI) : M3 := inertiaToOrigin (sym_mat (iine I)) (- imass I) (com_of I) mid.
(** to_urdf.cpp 61-112. *)
Definition wr_inertial (W : Writer) (I : RBI) : option UInertial :=
  if has_inertial I then
    let A := inertia_at_com I in
    let d := wr_double W in
    Some (mkUIn (if isZero3 (com_of I) then None else Some (mkUO (wr_vec3d W (com_of I)) None))
                (if positive (imass I) then Some (d (imass I)) else None)
                (if isZeroM (sym_mat (iine I)) then None
                 else Some (mkUI (d (m00 A)) (d (m01 A)) (d (m02 A)) (d (m11 A)) (d (m12 A)) (d (m22 A)))))
  else None.
Definition wr_link (W : Writer) (b : Body) : ULink := mkUL (Some (bname b)) (wr_inertial W (binertia b)).
(** to_urdf.cpp 221-241 and to_yaml.cpp 212-232, is_continuous: [v[0]] is not checked. *)
Definition is_continuous (l : Limits) (n : string) : res bool :=
  match mfind (l_upper l) n, mfind (l_lower l) n with
  | None, None => Ok true
  | ou, ol =>
      u <- match ou with Some v => x <- get v 0 ;; Ok (match x with PInf => false | _ => true end) | None => Ok false end ;;
      if u : bool then Ok false
      else w <- match ol with Some v => x <- get v 0 ;; Ok (match x with MInf => false | _ => true end) | None => Ok false end ;;
           Ok (negb w)
  end.
(** to_urdf.cpp 243-256 set_vector; infinite numbers are printed as "inf", which is not read
    back as a number. *)
Definition wr_tok (W : Writer) (d : dbl) : tok := match d with Fin x => TNum (w_num W x) | _ => TBad end.
(** to_urdf.cpp 258-274, has_limits. *)
Definition has_limits (l : Limits) (n : string) : bool :=
  let check m := match mfind m n with Some (_ :: _) => true | _ => false end in
  check (l_lower l) && check (l_upper l) && check (l_velocity l) && check (l_torque l).
(** to_urdf.cpp 276-284, set_limit. *)
Definition wr_limit (W : Writer) (m : smap (list dbl)) (n : string) : Attr :=
  match mfind m n with Some v => Some (map (wr_tok W) v) | None => None end.
(** to_urdf.cpp 296-326 and to_yaml.cpp 285-315: the name of the type of a joint. *)
Definition type_name (l : Limits) (j : Joint) : res string :=
  match jtyp j with
  | Rev => c <- is_continuous l (jname j) ;; Ok (if c : bool then "continuous" else "revolute")%string
  | Prism => Ok "prismatic"%string
  | Spherical => Throw InvalidArgument
  | Planar => Ok "planar"%string
  | Cylindrical => Throw InvalidArgument
  | Free => Ok "floating"%string
  | Fixed => Ok "fixed"%string
  end.
(** to_urdf.cpp 328-345 and to_yaml.cpp 317-333: the parent and the child body of joint [i]. *)
Definition ends_of (mb : MultiBody) (i : Z) : res (Body * Body) :=
  pred <- getz (mb_pred mb) i ;;
  parent <- (if (pred =? -1)%Z then getz (mb_bodies mb) 0 else getz (mb_bodies mb) pred) ;;
  succ <- getz (mb_succ mb) i ;;
  child <- getz (mb_bodies mb) succ ;;
  Ok (parent, child).
(** to_urdf.cpp 361-383 and to_yaml.cpp 344-366: the axis of a joint. *)
Definition axis_of (j : Joint) : res V3 :=
  match jtyp j with
  | Rev => s <- get (jS j) 0 ;; Ok (sang s)
  | Prism => s <- get (jS j) 0 ;; Ok (slin s)
  | Spherical => Throw InvalidArgument
  | Planar => Ok unitZ
  | Cylindrical => Throw InvalidArgument
  | Free | Fixed => Ok v0
  end.
(** to_urdf.cpp 390 and to_yaml.cpp 372: whether the limits of a joint are written. *)
Definition write_limits (l : Limits) (j : Joint) : res bool :=
  if has_limits l (jname j) then
    match jtyp j with Rev => c <- is_continuous l (jname j) ;; Ok (negb c) | _ => Ok true end
  else Ok false.
(** to_urdf.cpp 352-358: the origins written for the arcs of the parent that carry the joint;
    a reader only sees the first. *)
Definition arcs_named (arcs : list Arc) (n : string) : list Arc := filter (fun a => String.eqb (ajn a) n) arcs.
Fixpoint first_some {A B} (f : A -> option B) (l : list A) : option B :=
  match l with [] => None | a :: l => match f a with Some b => Some b | None => first_some f l end end.
(** to_urdf.cpp 286-410: one joint; [None] for the root joint, which is skipped. *)
Definition wr_joint (W : Writer) (r : PResult) (j : Joint) : res (option UJoint) :=
  idx <- jointIndexByName (pr_mb r) (jname j) ;;
  if (idx =? 0)%Z then Ok None
  else
    ty <- type_name (pr_limits r) j ;;
    pc <- ends_of (pr_mb r) idx ;;
    nd <- nodeByName (bname (fst pc)) (pr_mbg r) ;;
    axis <- axis_of j ;;
    wl <- write_limits (pr_limits r) j ;;
    let lim m := wr_limit W m (jname j) in
    Ok (Some (mkUJ (Some (jname j)) (Some ty) (Some (Some (bname (fst pc)))) (Some (Some (bname (snd pc))))
                   (first_some (fun a => wr_origin W (aX a)) (arcs_named (nArcs nd) (jname j)))
                   (if isZero3 axis then None else Some (wr_vec3d W axis))
                   (if jmimic j then Some (mkUM (Some (jmimicName j)) (wr_double W (jmimicMul j)) (wr_double W (jmimicOff j))) else None)
                   (if wl : bool then Some (mkULim (lim (l_lower (pr_limits r))) (lim (l_upper (pr_limits r)))
                                           (lim (l_torque (pr_limits r))) (lim (l_velocity (pr_limits r)))) else None))).
(** to_urdf.cpp 11-418, to_urdf. *)
Definition to_urdf (W : Writer) (r : PResult) : res UDoc :=
  js <- for_each (mb_joints (pr_mb r)) (fun j l => o <- wr_joint W r j ;; Ok (match o with Some u => l ++ [u] | None => l end)) [] ;;
  Ok (Some (mkUR (Some (pr_name r)) (map (wr_link W) (mb_bodies (pr_mb r))) js)).
