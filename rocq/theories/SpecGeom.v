(** Vocabulary for the statements about visual elements, collision elements and materials. *)
From Coq Require Import Reals String ZArith Bool Arith List.
From Verif Require Import Res SMap Vec Sva JointM MultiBodyM ParserM YamlM GeomM SpecParser.
Import ListNotations.
Open Scope R_scope.

(** The elements a result gives for a link. *)
Definition seen (m : smap (list Visual)) (n : string) : list Visual := match mfind m n with Some l => l | None => [] end.
Definition given {A} (o : option A) (d : A) : A := match o with Some a => a | None => d end.
Definition is_there {A} (o : option A) : bool := match o with Some _ => true | None => false end.
(** Whether the options of the reader keep a link. *)
Definition stays (p : PParams) (n : string) (inertial : bool) : bool :=
  (inertial || negb (pp_remove_virtual p)) && (negb (existsb (String.eqb n) (pp_filtered p)) || negb (pp_remove_filtered p)).

(** ** What a URDF document says. *)
(** The numbers at the beginning of an attribute. *)
Definition numbers (a : Attr) (l : list R) : Prop :=
  a = Some (map TNum l) \/ exists t, a = Some (map TNum l ++ TBad :: t).
(** A number, the default when there is none; a vector, the default unless there are three numbers. *)
Definition number_or (a : Attr) (d x : R) : Prop :=
  (exists t, a = Some (TNum x :: t)) \/ ((forall y t, a <> Some (TNum y :: t)) /\ x = d).
Definition vector_or (a : Attr) (d v : V3) : Prop :=
  numbers a [vx v; vy v; vz v] \/ ((forall x y z, ~ numbers a [x; y; z]) /\ v = d).
Inductive urdf_shape (g : UGeom) : Geometry -> Prop :=
| us_mesh f s x y z : ug_mesh g = Some (Some f, s) -> numbers s [x; y; z] -> urdf_shape g (GMesh f (mkV3 x y z))
| us_mesh_uniform f s x : ug_mesh g = Some (Some f, s) -> numbers s [x] -> urdf_shape g (GMesh f (mkV3 x x x))
| us_mesh_plain f : ug_mesh g = Some (Some f, None) -> urdf_shape g (GMesh f (mkV3 1 1 1))
| us_box s v : ug_mesh g = None -> ug_box g = Some s -> vector_or s v0 v -> urdf_shape g (GBox v)
| us_cylinder a b r l : ug_mesh g = None -> ug_box g = None -> ug_cylinder g = Some (a, b) -> number_or a 0 r -> number_or b 0 l ->
    urdf_shape g (GCylinder r l)
| us_sphere a r : ug_mesh g = None -> ug_box g = None -> ug_cylinder g = None -> ug_sphere g = Some a -> number_or a 0 r ->
    urdf_shape g (GSphere r)
| us_superellipsoid s a b v e1 e2 : ug_mesh g = None -> ug_box g = None -> ug_cylinder g = None -> ug_sphere g = None ->
    ug_superellipsoid g = Some (s, a, b) -> vector_or s v0 v -> number_or a 1 e1 -> number_or b 1 e2 -> urdf_shape g (GSuperellipsoid v e1 e2)
| us_unknown : ug_mesh g = None -> ug_box g = None -> ug_cylinder g = None -> ug_sphere g = None -> ug_superellipsoid g = None ->
    urdf_shape g GUnknown.
Inductive urdf_origin : option UOrigin -> PT -> Prop :=
| uo_none : urdf_origin None ptid
| uo_some o v r p y : vector_or (uo_xyz o) v0 v -> numbers (uo_rpy o) [r; p; y] \/ (uo_rpy o = None /\ r = 0 /\ p = 0 /\ y = 0) ->
    urdf_origin (Some o) (mkPT (mtr (euler_zyx r p y)) v).
(** The material an element describes itself. *)
Inductive urdf_own (u : UMat) : Material -> Prop :=
| uw_color a r g b t : umt_color u = Some a -> numbers a [r; g; b; t] -> urdf_own u (MColor r g b t)
| uw_red : umt_color u = Some None -> urdf_own u (MColor 1 0 0 1)
| uw_texture f : umt_color u = None -> umt_texture u = Some (Some f) -> urdf_own u (MTexture f).
(** The materials of the robot element: the first that describes the name. *)
Definition urdf_shared (l : list UMat) (n : string) (m : Material) : Prop :=
  exists l1 u l2, l = l1 ++ u :: l2 /\ umt_name u = Some n /\ urdf_own u m /\ forall u' m', In u' l1 -> umt_name u' = Some n -> ~ urdf_own u' m'.
(** The material of a visual: the shared one of that name, else its own, else none. *)
Inductive urdf_material (l : list UMat) : option UMat -> Material -> Prop :=
| um_none : urdf_material l None MNone
| um_unnamed u : umt_name u = None -> urdf_material l (Some u) MNone
| um_shared u n m : umt_name u = Some n -> urdf_shared l n m -> urdf_material l (Some u) m
| um_own u n m : umt_name u = Some n -> (forall m', ~ urdf_shared l n m') -> urdf_own u m -> urdf_material l (Some u) m
| um_empty u n : umt_name u = Some n -> (forall m', ~ urdf_shared l n m') -> (forall m', ~ urdf_own u m') -> urdf_material l (Some u) MNone.
Definition urdf_visual (l : list UMat) (u : UVis) (v : Visual) : Prop :=
  exists g, uv_geometry u = Some g /\ urdf_shape g (v_geometry v) /\ urdf_origin (uv_origin u) (v_origin v) /\
    v_name v = given (uv_name u) EmptyString /\ urdf_material l (uv_material u) (v_material v).
(** The elements with a geometry of the links of that name that are kept, in document order. *)
Definition urdf_elements (p : PParams) (r : UVRobot) (f : UVLink -> list UVis) (n : string) : list UVis :=
  flat_map (fun l => filter (fun u => is_there (uv_geometry u)) (f l))
    (filter (fun l => String.eqb (given (uvl_name l) EmptyString) n && stays p n (uvl_inertial l)) (uvr_links r)).
(** Documents that can be read: links have a name, and the elements of those kept say something. *)
Definition urdf_readable (p : PParams) (r : UVRobot) : Prop :=
  forall l, In l (uvr_links r) -> exists n, uvl_name l = Some n /\
    (stays p n (uvl_inertial l) = true -> forall u, In u (uvl_visual l ++ uvl_collision l) -> uv_geometry u = None \/ exists v, urdf_visual (uvr_materials r) u v).
(** Meshes with a file name and one or three factors of scale, if any. *)
Definition urdf_mesh_ok (g : UGeom) : Prop :=
  forall f s, ug_mesh g = Some (f, s) -> f <> None /\ (s = None \/ (exists x, numbers s [x]) \/ exists x y z, numbers s [x; y; z]).

(** ** What a YAML document says. *)
Definition given_vec (o : option (yv R)) (l : list R) : Prop := o = Some (YSeq (map YNum l)).
Definition given_num (o : option (yv R)) (x : R) : Prop := o = Some (YNum x).
Definition vec3 (v : V3) : list R := [vx v; vy v; vz v].
(** A mesh whose scale is not a sequence has no scale; what follows the third component of a size
    is not looked at. *)
Inductive yaml_shape (s : YShape) : string -> Geometry -> Prop :=
| ys_mesh f v : ys_filename s = Some f -> given_vec (ys_scale s) (vec3 v) -> yaml_shape s "mesh" (GMesh f v)
| ys_mesh_uniform f x : ys_filename s = Some f -> given_vec (ys_scale s) [x] -> yaml_shape s "mesh" (GMesh f (mkV3 x x x))
| ys_mesh_plain f : ys_filename s = Some f -> (forall l, ys_scale s <> Some (YSeq l)) -> yaml_shape s "mesh" (GMesh f (mkV3 1 1 1))
| ys_box v more : given_vec (ys_size s) (vec3 v ++ more) -> yaml_shape s "box" (GBox v)
| ys_cylinder r l : given_num (ys_radius s) r -> given_num (ys_length s) l -> yaml_shape s "cylinder" (GCylinder r l)
| ys_sphere r : given_num (ys_radius s) r -> yaml_shape s "sphere" (GSphere r)
| ys_superellipsoid v more a b : given_vec (ys_size s) (vec3 v ++ more) -> given_num (ys_eps1 s) a -> given_num (ys_eps2 s) b ->
    yaml_shape s "superellipsoid" (GSuperellipsoid v a b).
(** Several shapes: the last one. *)
Definition yaml_geometry (l : list (string * YShape)) (g : Geometry) : Prop :=
  exists l' t s, l = l' ++ [(t, s)] /\ yaml_shape s t g /\ forall t' s', In (t', s') l' -> exists g', yaml_shape s' t' g'.
Definition vec_or_zero (o : option (yv R)) (v : V3) : Prop := given_vec o (vec3 v) \/ (o = None /\ v = v0).
Inductive yaml_frame_at (deg : bool) : option YFrame -> PT -> Prop :=
| yfa_none : yaml_frame_at deg None ptid
| yfa_some f v w : vec_or_zero (yf_xyz f) v -> vec_or_zero (yf_rpy f) w ->
    let k := if given (yf_deg f) deg then PI / 180 else 1 in
    yaml_frame_at deg (Some f) (mkPT (mtr (euler_xyz (k * vx w) (k * vy w) (k * vz w))) v).
Inductive yaml_own (u : YMat) : Material -> Prop :=
| yw_color r g b a y : ymt_color u = Some y -> given_vec y [r; g; b; a] -> yaml_own u (MColor r g b a)
| yw_texture f : ymt_color u = None -> ymt_texture u = Some (Some f) -> f <> EmptyString -> yaml_own u (MTexture f).
Definition yaml_name (u : YMat) (n : string) : Prop := ymt_name u = Some n /\ n <> EmptyString.
(** A color must give its numbers. *)
Definition yaml_mat_ok (u : YMat) : Prop :=
  forall n, yaml_name u n -> ymt_color u = None \/ exists y l, ymt_color u = Some y /\ given_vec y l.
(** The materials of the robot: the last that describes the name. *)
Definition yaml_shared (l : list YMat) (n : string) (m : Material) : Prop :=
  exists l1 u l2, l = l1 ++ u :: l2 /\ yaml_name u n /\ yaml_own u m /\ forall u' m', In u' l2 -> yaml_name u' n -> ~ yaml_own u' m'.
(** The material of a visual: its own, else the shared one of that name, else none. *)
Inductive yaml_material (l : list YMat) : option YMat -> Material -> Prop :=
| ym_none : yaml_material l None MNone
| ym_unnamed u : (forall n, ~ yaml_name u n) -> yaml_material l (Some u) MNone
| ym_own u n m : yaml_name u n -> yaml_own u m -> yaml_material l (Some u) m
| ym_shared u n m : yaml_name u n -> (forall m', ~ yaml_own u m') -> yaml_shared l n m -> yaml_material l (Some u) m
| ym_empty u n : yaml_name u n -> (forall m', ~ yaml_own u m') -> (forall m', ~ yaml_shared l n m') -> yaml_material l (Some u) MNone.
Definition yaml_has (u : YVis) : bool := match yv_geometry u with Some (_ :: _) => true | _ => false end.
Definition yaml_visual (deg : bool) (l : list YMat) (u : YVis) (v : Visual) : Prop :=
  exists g, yv_geometry u = Some g /\ yaml_geometry g (v_geometry v) /\ yaml_frame_at deg (yv_frame u) (v_origin v) /\
    v_name v = given (yv_name u) EmptyString /\ yaml_material l (yv_material u) (v_material v).
(** The links kept with their names; those without a name are numbered, from 1, among the links kept. *)
Fixpoint yaml_kept (p : PParams) (i : nat) (l : list YVLink) : list (string * YVLink) :=
  match l with
  | [] => []
  | k :: l => let n := given (yvl_name k) (append "link" (str_of i)) in
      if stays p n (yvl_inertial k) then (n, k) :: yaml_kept p (S i) l else yaml_kept p i l
  end.
Definition yaml_elements (p : PParams) (r : YVRobot) (f : YVLink -> list YVis) (n : string) : list YVis :=
  flat_map (fun k => filter yaml_has (f (snd k))) (filter (fun k => String.eqb (fst k) n) (yaml_kept p 1 (yvr_links r))).
(** Documents that can be read. *)
Definition yaml_vis_ok (r : YVRobot) (u : YVis) : Prop :=
  (exists X, yaml_frame_at (yvr_deg r) (yv_frame u) X) /\ (forall m, yv_material u = Some m -> yaml_mat_ok m) /\
  (yaml_has u = false \/ exists g l, yv_geometry u = Some l /\ yaml_geometry l g).
Definition yaml_readable (p : PParams) (r : YVRobot) : Prop :=
  (forall m, In m (yvr_materials r) -> yaml_mat_ok m) /\
  forall k u, In k (yaml_kept p 1 (yvr_links r)) -> In u (yvl_visual (snd k) ++ yvl_collision (snd k)) -> yaml_vis_ok r u.
(** Shapes that cannot send the reader out of range: a scale of one or three factors, a size of at
    least three components. *)
Definition yaml_shape_sized (t : string) (s : YShape) : Prop :=
  (t = "mesh"%string -> forall l, ys_scale s = Some (YSeq (map YNum l)) -> List.length l = 1%nat \/ List.length l = 3%nat) /\
  (t = "box"%string \/ t = "superellipsoid"%string -> forall l, ys_size s = Some (YSeq (map YNum l)) -> (3 <= List.length l)%nat).

(** ** Written and read back. *)
Definition known (v : Visual) : bool := match v_geometry v with GUnknown => false | _ => true end.
(** File names are written with a prefix; names of elements are not written. *)
Definition same_shape (g g' : Geometry) : Prop :=
  match g with GMesh f s => g' = GMesh (prefix_path f) s | _ => g' = g end.
Definition same_material (m m' : Material) : Prop :=
  match m with MTexture f => m' = MTexture (prefix_path f) | _ => m' = m end.
Definition comes_back (v v' : Visual) : Prop :=
  v_name v' = EmptyString /\ v_origin v' = v_origin v /\ same_shape (v_geometry v) (v_geometry v') /\ same_material (v_material v) (v_material v').
(** What is written completely: no name, a known shape, file names with a prefix. *)
Definition has_prefix (f : string) : Prop := starts_with "package://" f \/ starts_with "file://" f.
Definition complete (v : Visual) : Prop :=
  v_name v = EmptyString /\ known v = true /\ (forall f s, v_geometry v = GMesh f s -> has_prefix f) /\ (forall f, v_material v = MTexture f -> has_prefix f).
(** The frames of elements a format can describe. *)
Definition yaml_frames (euler : M3 -> V3) (m : smap (list Visual)) : Prop :=
  forall n v, In v (seen m n) -> let X := v_origin v in SO3 (rotE X) /\ visible (trR X) /\ visible (euler (mtr (rotE X))).
Definition urdf_frames (euler : M3 -> V3) (m : smap (list Visual)) : Prop :=
  yaml_frames euler m /\ forall n v, In v (seen m n) -> let w := euler (mtr (rotE (v_origin v))) in
    euler_zyx (vx w) (vy w) (vz w) = euler_xyz (vx w) (vy w) (vz w).
