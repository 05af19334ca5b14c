(** Model of the visual, collision and material elements of robot descriptions:
    src/parsers/urdf.cpp, to_urdf.cpp, yaml.cpp, to_yaml.cpp (declarations in
    src/parsers/RBDyn/parsers/common.h).

    As in ParserM and YamlM a document is a tree. The elements modelled here are read and written
    independently of those of ParserM and YamlM: a link is reduced to its name, whether it has an
    inertial element, and its visual and collision elements. *)
From Coq Require Import Reals String ZArith Bool Arith List.
From Verif Require Import Res SMap Vec Sva JointM MultiBodyM ParserM YamlM.
Import ListNotations.
Open Scope R_scope.

(** common.h 41-96, Geometry. The type and the data are one value: a geometry whose type and data
    disagree is not modelled (boost::get throws on it). *)
Inductive Geometry :=
| GMesh (filename : string) (scale : V3)
| GBox (size : V3)
| GCylinder (radius length : R)
| GSphere (radius : R)
| GSuperellipsoid (size : V3) (epsilon1 epsilon2 : R)
| GUnknown.
(** common.h 105-130, Material. *)
Inductive Material := MNone | MColor (r g b a : R) | MTexture (filename : string).
(** common.h 132-138, Visual. *)
Record Visual := mkVis { v_name : string; v_origin : PT; v_geometry : Geometry; v_material : Material }.
(** common.h 228-237: the maps of visual and collision elements of a ParserResult. *)
Definition VMaps := (smap (list Visual) * smap (list Visual))%type.
(** [map[name].push_back(v)] *)
Definition push (m : smap (list Visual)) (n : string) (v : Visual) : smap (list Visual) := mset m n (as_or (mfind m n) [] ++ [v]).

(** ** URDF documents. *)
(** <material name>: its <color rgba> and <texture filename> elements. *)
Record UMat := mkUMt { umt_name : option string; umt_color : option Attr; umt_texture : option (option string) }.
(** <geometry>: its <mesh filename scale>, <box size>, <cylinder radius length>, <sphere radius> and
    <superellipsoid size epsilon1 epsilon2> elements. *)
Record UGeom := mkUG { ug_mesh : option (option string * Attr); ug_box : option Attr; ug_cylinder : option (Attr * Attr);
                       ug_sphere : option Attr; ug_superellipsoid : option (Attr * Attr * Attr) }.
(** <visual name> or <collision name>. *)
Record UVis := mkUV { uv_name : option string; uv_origin : option UOrigin; uv_geometry : option UGeom; uv_material : option UMat }.
Record UVLink := mkUVL { uvl_name : option string; uvl_inertial : bool; uvl_visual : list UVis; uvl_collision : list UVis }.
Record UVRobot := mkUVR { uvr_materials : list UMat; uvr_links : list UVLink }.

(** urdf.cpp 176-207: the material an element with a name defines itself. *)
Definition own_material (u : UMat) : option Material :=
  match umt_color u with
  | Some rgba => match attrToList rgba [1; 0; 0; 1] with [r; g; b; a] => Some (MColor r g b a) | _ => None end
  | None => match umt_texture u with Some (Some f) => Some (MTexture f) | _ => None end
  end.
(** urdf.cpp 161-208, materialFromTag with a constant cache. *)
Definition materialFromTag (c : smap Material) (u : UMat) : option Material :=
  match umt_name u with
  | None => None
  | Some n => match mfind c n with Some m => Some m | None => own_material u end
  end.
(** urdf.cpp 161-208, materialFromTag with a cache that is extended, as called at 347-358. *)
Definition cache_material (c : smap Material) (u : UMat) : smap Material :=
  match umt_name u with
  | None => c
  | Some n => match mfind c n with
              | Some _ => c
              | None => match own_material u with Some m => mset c n m | None => c end
              end
  end.
(** urdf.cpp 233-248, geometryFromMesh: a std::string is made of a null pointer when there is no
    filename; with neither 1 nor 3 numbers the assertion fails. *)
Definition geometryFromMesh (filename : option string) (scale : Attr) : res Geometry :=
  f <- deref filename ;;
  match attrToList scale [1] with
  | [x; y; z] => Ok (GMesh f (mkV3 x y z))
  | [x] => Ok (GMesh f (mkV3 x x x))
  | _ => UB
  end.
(** urdf.cpp 250-279 and 288-310: the first kind that is there, in this order. *)
Definition geometryFromTag (g : UGeom) : res Geometry :=
  match ug_mesh g with Some (f, s) => geometryFromMesh f s | None =>
  match ug_box g with Some s => Ok (GBox (attrToVector s v0)) | None =>
  match ug_cylinder g with Some (r, l) => Ok (GCylinder (attrToDouble r 0) (attrToDouble l 0)) | None =>
  match ug_sphere g with Some r => Ok (GSphere (attrToDouble r 0)) | None =>
  match ug_superellipsoid g with
  | Some (s, e1, e2) => Ok (GSuperellipsoid (attrToVector s v0) (attrToDouble e1 1) (attrToDouble e2 1))
  | None => Ok GUnknown
  end end end end end.
(** urdf.cpp 281-326, visualFromTag; [None] when it returns false. *)
Definition visualFromTag (c : smap Material) (u : UVis) : res (option Visual) :=
  match uv_geometry u with
  | None => Ok None
  | Some g =>
      X <- read_origin (uv_origin u) ;;
      geo <- geometryFromTag g ;;
      let n := as_or (uv_name u) EmptyString in
      let m := match uv_material u with Some m => as_or (materialFromTag c m) MNone | None => MNone end in
      Ok (Some (mkVis n X geo m))
  end.
(** urdf.cpp 443-463: one loop. *)
Definition read_visuals (c : smap Material) (n : string) (l : list UVis) (m : smap (list Visual)) : res (smap (list Visual)) :=
  for_each l (fun u m => o <- visualFromTag c u ;; Ok (match o with Some v => push m n v | None => m end)) m.
(** urdf.cpp 367-395: whether a link is kept. *)
Definition link_kept (p : PParams) (n : string) (inertial : bool) : bool :=
  negb (negb inertial && pp_remove_virtual p) && negb (in_names (pp_filtered p) n && pp_remove_filtered p).
(** urdf.cpp 347-463: the materials, then the elements of the links kept. *)
Definition urdf_visuals (p : PParams) (r : UVRobot) : res VMaps :=
  let c := fold_left cache_material (uvr_materials r) [] in
  for_each (uvr_links r) (fun l s =>
    n <- deref (uvl_name l) ;;
    if link_kept p n (uvl_inertial l) then
      v <- read_visuals c n (uvl_visual l) (fst s) ;;
      w <- read_visuals c n (uvl_collision l) (snd s) ;;
      Ok (v, w)
    else Ok s) ([], []).

(** ** Writing URDF. *)
(** to_urdf.cpp 134-157: the material element of element number [i] of a link. *)
Definition wr_material (W : Writer) (n : string) (i : nat) (m : Material) : option UMat :=
  let name := Some (append "material_" (append n (append "_" (str_of i)))) in
  match m with
  | MNone => None
  | MColor r g b a => Some (mkUMt name (Some (Some [TNum (w_num W r); TNum (w_num W g); TNum (w_num W b); TNum (w_num W a)])) None)
  | MTexture f => Some (mkUMt name None (Some (Some (prefix_path f))))
  end.
(** to_urdf.cpp 159-208. *)
Definition wr_geometry (W : Writer) (g : Geometry) : UGeom :=
  let d := wr_double W in
  let v := wr_vec3d W in
  match g with
  | GMesh f s => mkUG (Some (Some (prefix_path f), v s)) None None None None
  | GBox s => mkUG None (Some (v s)) None None None
  | GCylinder r l => mkUG None None (Some (d r, d l)) None None
  | GSphere r => mkUG None None None (Some (d r)) None
  | GSuperellipsoid s a b => mkUG None None None None (Some (v s, d a, d b))
  | GUnknown => mkUG None None None None None
  end.
(** to_urdf.cpp 122-212: element number [i]; the name of the visual is not written. *)
Definition wr_visual (W : Writer) (n : string) (i : nat) (v : Visual) : list UVis :=
  match v_geometry v with
  | GUnknown => []
  | g => [mkUV None (wr_origin W (v_origin v)) (Some (wr_geometry W g)) (wr_material W n i (v_material v))]
  end.
Fixpoint wr_from (W : Writer) (n : string) (i : nat) (l : list Visual) : list UVis :=
  match l with [] => [] | v :: l => wr_visual W n i v ++ wr_from W n (S i) l end.
(** to_urdf.cpp 115-213, generate_visual. *)
Definition wr_visuals (W : Writer) (m : smap (list Visual)) (n : string) : list UVis :=
  match mfind m n with Some l => wr_from W n 0 l | None => [] end.
(** to_urdf.cpp 55-217: the links of a file, without their inertial elements. *)
Definition urdf_links (W : Writer) (bodies : list Body) (s : VMaps) : UVRobot :=
  mkUVR [] (map (fun b => mkUVL (Some (bname b)) (has_inertial (binertia b)) (wr_visuals W (fst s) (bname b)) (wr_visuals W (snd s) (bname b))) bodies).

(** ** YAML documents. *)
(** A material: its name, its color (then its rgba), its texture (then its filename). *)
Record YMat := mkYMt { ymt_name : option string; ymt_color : option (option (yv R)); ymt_texture : option (option string) }.
(** The fields of one geometry. *)
Record YShape := mkYSh { ys_filename : option string; ys_scale : option (yv R); ys_size : option (yv R); ys_radius : option (yv R);
                         ys_length : option (yv R); ys_eps1 : option (yv R); ys_eps2 : option (yv R) }.
(** A geometry maps names of kinds to fields, in the order of the document. *)
Record YVis := mkYV { yv_name : option string; yv_frame : option YFrame; yv_material : option YMat; yv_geometry : option (list (string * YShape)) }.
Record YVLink := mkYVL { yvl_name : option string; yvl_inertial : bool; yvl_visual : list YVis; yvl_collision : list YVis }.
Record YVRobot := mkYVR { yvr_deg : bool; yvr_materials : list YMat; yvr_links : list YVLink }.

(** [node.as<double>()], [node.as<std::string>()], [node.as<std::vector<double>>()]. *)
Definition as_num_req {A} (o : option (yv A)) : res A := match o with Some (YNum a) => Ok a | _ => Throw RuntimeError end.
Definition as_str_req (o : option string) : res string := match o with Some s => Ok s | None => Throw RuntimeError end.
Definition as_vec_req {A} (o : option (yv A)) : res (list A) := match o with Some y => as_vec y | None => Throw RuntimeError end.
(** yaml.cpp 245-291, parseMaterial(material, out, true). *)
Definition parseMaterial (c : smap Material) (m : option YMat) (out : Material) : res Material :=
  match m with
  | None => Ok out
  | Some u =>
      let n := as_or (ymt_name u) EmptyString in
      if String.eqb n EmptyString then Ok out
      else
        let out := match mfind c n with Some m => m | None => out end in
        match ymt_color u with
        | Some rgba => l <- as_vec_req rgba ;; Ok (match l with [r; g; b; a] => MColor r g b a | _ => out end)
        | None => match ymt_texture u with
                  | Some f => let f := as_or f EmptyString in Ok (if String.eqb f EmptyString then out else MTexture f)
                  | None => Ok out
                  end
        end
  end.
(** yaml.cpp 231-243, parseMaterial(material): [materials_[name]] makes an entry. *)
Definition yaml_cache_material (u : YMat) (c : smap Material) : res (smap Material) :=
  let n := as_or (ymt_name u) EmptyString in
  if String.eqb n EmptyString then Ok c
  else
    let out := as_or (mfind c n) MNone in
    let c := mset c n out in
    m <- parseMaterial c (Some u) out ;; Ok (mset c n m).
(** Eigen::Vector3d(vector.data()): three numbers are read, whatever the size of the vector; the
    check that follows looks at the size of the Vector3d. *)
Definition three_of_data (l : list R) : res V3 := match l with x :: y :: z :: _ => Ok (mkV3 x y z) | _ => UB end.
(** yaml.cpp 293-416, parseGeometry: one entry of the map. *)
Definition parseShape (type : string) (s : YShape) : res Geometry :=
  if String.eqb type "mesh" then
    f <- as_str_req (ys_filename s) ;;
    l <- as_vec_def (ys_scale s) [1] ;;
    match l with
    | [x; y; z] => Ok (GMesh f (mkV3 x y z))
    | [x] => Ok (GMesh f (mkV3 x x x))
    | _ => UB
    end
  else if String.eqb type "box" then l <- as_vec_req (ys_size s) ;; v <- three_of_data l ;; Ok (GBox v)
  else if String.eqb type "cylinder" then r <- as_num_req (ys_radius s) ;; l <- as_num_req (ys_length s) ;; Ok (GCylinder r l)
  else if String.eqb type "sphere" then r <- as_num_req (ys_radius s) ;; Ok (GSphere r)
  else if String.eqb type "superellipsoid" then
    l <- as_vec_req (ys_size s) ;; v <- three_of_data l ;;
    a <- as_num_req (ys_eps1 s) ;; b <- as_num_req (ys_eps2 s) ;; Ok (GSuperellipsoid v a b)
  else Throw RuntimeError.
(** yaml.cpp 293-416: [None] when it returns false. *)
Definition parseGeometry (g : option (list (string * YShape))) : res (option Geometry) :=
  match g with
  | None => Ok None
  | Some l => for_each l (fun e _ => x <- parseShape (fst e) (snd e) ;; Ok (Some x)) None
  end.
(** yaml.cpp 418-440, parseVisuals: one element. *)
Definition parseVisual (deg : bool) (c : smap Material) (u : YVis) : res (option Visual) :=
  f <- parseFrame deg (yv_frame u) ;;
  let (xyz, rpy) := (f : V3 * V3) in
  m <- parseMaterial c (yv_material u) MNone ;;
  o <- parseGeometry (yv_geometry u) ;;
  Ok (match o with
      | Some g => Some (mkVis (as_or (yv_name u) EmptyString) (mkPT (MatrixFromRPY (vx rpy) (vy rpy) (vz rpy)) xyz) g m)
      | None => None
      end).
Definition parseVisuals (deg : bool) (c : smap Material) (n : string) (l : list YVis) (m : smap (list Visual)) : res (smap (list Visual)) :=
  for_each l (fun u m => o <- parseVisual deg c u ;; Ok (match o with Some v => push m n v | None => m end)) m.
(** yaml.cpp 84-116 and 442-510: the materials, then the elements of the links kept. State:
    link_idx_ and the two maps. *)
Definition yaml_visuals (p : PParams) (r : YVRobot) : res VMaps :=
  c <- for_each (yvr_materials r) yaml_cache_material [] ;;
  s <- for_each (yvr_links r) (fun l s =>
    let '(i, m) := (s : nat * VMaps) in
    let n := as_or (yvl_name l) (append "link" (str_of i)) in
    if link_kept p n (yvl_inertial l) then
      v <- parseVisuals (yvr_deg r) c n (yvl_visual l) (fst m) ;;
      w <- parseVisuals (yvr_deg r) c n (yvl_collision l) (snd m) ;;
      Ok (S i, (v, w))
    else Ok s) (1%nat, ([], [])) ;;
  Ok (snd s).

(** ** Writing YAML. *)
(** to_yaml.cpp 125-145. *)
Definition yw_material (n : string) (i : nat) (m : Material) : option YMat :=
  let name := Some (append "material_" (append n (append "_" (str_of i)))) in
  match m with
  | MNone => None
  | MColor r g b a => Some (mkYMt name (Some (Some (YSeq [YNum r; YNum g; YNum b; YNum a]))) None)
  | MTexture f => Some (mkYMt name None (Some (Some (prefix_path f))))
  end.
(** to_yaml.cpp 147-196. *)
Definition yw_geometry (g : Geometry) : list (string * YShape) :=
  let d x := Some (YNum x) in
  let v x := Some (yw_vec3d x) in
  match g with
  | GMesh f s => [("mesh"%string, mkYSh (Some (prefix_path f)) (v s) None None None None None)]
  | GBox s => [("box"%string, mkYSh None None (v s) None None None None)]
  | GCylinder r l => [("cylinder"%string, mkYSh None None None (d r) (d l) None None)]
  | GSphere r => [("sphere"%string, mkYSh None None None (d r) None None None)]
  | GSuperellipsoid s a b => [("superellipsoid"%string, mkYSh None None (v s) None None (d a) (d b))]
  | GUnknown => []
  end.
(** to_yaml.cpp 113-201: element number [i]; the name of the visual is not written. *)
Definition yw_visual (euler : M3 -> V3) (n : string) (i : nat) (v : Visual) : list YVis :=
  match v_geometry v with
  | GUnknown => []
  | g => [mkYV None (yw_frame euler (v_origin v)) (yw_material n i (v_material v)) (Some (yw_geometry g))]
  end.
Fixpoint yw_from (euler : M3 -> V3) (n : string) (i : nat) (l : list Visual) : list YVis :=
  match l with [] => [] | v :: l => yw_visual euler n i v ++ yw_from euler n (S i) l end.
(** to_yaml.cpp 105-204, generate_visual. *)
Definition yw_visuals (euler : M3 -> V3) (m : smap (list Visual)) (n : string) : list YVis :=
  match mfind m n with Some l => yw_from euler n 0 l | None => [] end.
(** to_yaml.cpp 10-16 and 47-209: the links of a file, without their inertial elements. *)
Definition yaml_links (euler : M3 -> V3) (bodies : list Body) (s : VMaps) : YVRobot :=
  mkYVR false [] (map (fun b => mkYVL (Some (bname b)) (has_inertial (binertia b)) (yw_visuals euler (fst s) (bname b)) (yw_visuals euler (snd s) (bname b))) bodies).
