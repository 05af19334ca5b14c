(** Specification for C75: what the <link> and <joint> elements of a document say, without the
    functions of the readers. *)
From Coq Require Import Reals String ZArith Bool Arith List.
From Verif Require Import Res SMap Vec Sva JointM MultiBodyM ParserM YamlM SpecParser SpecGeom SpecDoc SpecIne.
Import ListNotations.
Open Scope R_scope.

Definition has_suffix (n s : string) : Prop := exists a, n = append a s.
(** The body a link describes. Without an inertial element it has no mass. With transform_inertia the
    inertia is about the centre of mass, in the axes of the inertial frame (turned by the inverse of its
    rotation, see C90), else it is about the origin of the link. *)
Definition body_says (transform : bool) (b : Body) (m : R) (c : V3) (F I : M3) : Prop :=
  if transform then has_inertia b m c (mtr F) I
  else imass (binertia b) = m /\ imom (binertia b) = vscale m c /\ sym_mat (iine (binertia b)) = I.
Definition massless (b : Body) : Prop := imass (binertia b) = 0 /\ imom (binertia b) = v0 /\ sym_mat (iine (binertia b)) = mzero.

(** ** URDF. *)
Definition urdf_link_says (p : PParams) (l : ULink) (b : Body) : Prop :=
  bname b = ulink_name l /\
  match ul_inertial l with
  | None => massless b
  | Some u => exists m c F I, urdf_inertial u m c F I /\ body_says (pp_transform p) b m c F I
  end.
(** The type attribute; names that are not known mean fixed. *)
Inductive urdf_type (suffix n : string) : string -> jtype -> Prop :=
| ut_revolute : urdf_type suffix n "revolute" Rev
| ut_continuous : urdf_type suffix n "continuous" Rev
| ut_prismatic : urdf_type suffix n "prismatic" Prism
| ut_ball : urdf_type suffix n "ball" Spherical
| ut_ball_by_name : has_suffix n suffix -> urdf_type suffix n "floating" Spherical
| ut_floating : ~ has_suffix n suffix -> urdf_type suffix n "floating" Free
| ut_fixed t : ~ In t ["revolute"; "continuous"; "prismatic"; "ball"; "floating"]%string -> urdf_type suffix n t Fixed.
(** The axis: z by default, else the unit vector of the direction given. *)
Inductive urdf_axis : option Attr -> V3 -> Prop :=
| ua_none : urdf_axis None unitZ
| ua_zero a : vector_or a v0 v0 -> urdf_axis (Some a) v0
| ua_some a v k : vdot v v = 1 -> 0 < k -> vector_or a v0 (vscale k v) -> urdf_axis (Some a) v.
(** A mimic element says which joint is followed; fixed joints follow none. *)
Inductive urdf_mimic (j : Joint) : option UMimic -> Joint -> Prop :=
| umi_none : urdf_mimic j None j
| umi_fixed m : jtyp j = Fixed -> urdf_mimic j (Some m) j
| umi_some m n x y : jtyp j <> Fixed -> um_joint m = Some n -> number_or (um_mult m) 1 x -> number_or (um_off m) 0 y ->
    urdf_mimic j (Some m) (makeMimic j n x y).
(** Limits: none by default and for fixed joints, no bounds for continuous ones. *)
Definition urdf_values (a : Attr) (l : list dbl) : Prop := exists v, l = map Fin v /\ (numbers a v \/ (a = None /\ v = [])).
Inductive urdf_limits (t : jtype) (ty : string) : option ULimit -> list dbl -> list dbl -> list dbl -> list dbl -> Prop :=
| uli_none : let n := tdof t in urdf_limits t ty None (repeat MInf n) (repeat PInf n) (repeat PInf n) (repeat PInf n)
| uli_fixed l : t = Fixed -> urdf_limits t ty (Some l) [] [] [] []
| uli_continuous l ve ef : t <> Fixed -> ty = "continuous"%string -> urdf_values (u_velocity l) ve -> urdf_values (u_effort l) ef ->
    urdf_limits t ty (Some l) (repeat MInf (tdof t)) (repeat PInf (tdof t)) ve ef
| uli_some l lo up ve ef : t <> Fixed -> ty <> "continuous"%string -> urdf_values (u_lower l) lo -> urdf_values (u_upper l) up ->
    urdf_values (u_velocity l) ve -> urdf_values (u_effort l) ef -> urdf_limits t ty (Some l) lo up ve ef.
Inductive urdf_joint_says (p : PParams) (lims : Limits) (u : UJoint) : DLink -> Prop :=
| ujs n ty pa ch t a j X lo up ve ef :
    uj_name u = Some n -> uj_type u = Some ty -> uj_parent u = Some (Some pa) -> uj_child u = Some (Some ch) ->
    urdf_type (pp_suffix p) n ty t -> urdf_axis (uj_axis u) a -> urdf_mimic (mkJ t a true n) (uj_mimic u) j -> urdf_origin (uj_origin u) X ->
    limits_at lims n lo up ve ef -> urdf_limits t ty (uj_limit u) lo up ve ef ->
    urdf_joint_says p lims u (mkDL j pa ch X).

(** ** YAML. *)
Definition yaml_link_says (p : PParams) (deg : bool) (n : string) (l : YLink) (b : Body) : Prop :=
  bname b = n /\
  match yl_inertial l with
  | None => massless b
  | Some i => exists m c F I, yaml_inertial deg i m c F I /\ body_says (pp_transform p) b m c F I
  end.
(** The type, and whether the joint is continuous. *)
Inductive yaml_type (suffix n : string) : option string -> jtype -> bool -> Prop :=
| yt_none : yaml_type suffix n None Rev false
| yt_revolute : yaml_type suffix n (Some "revolute"%string) Rev false
| yt_continuous : yaml_type suffix n (Some "continuous"%string) Rev true
| yt_prismatic : yaml_type suffix n (Some "prismatic"%string) Prism false
| yt_spherical : yaml_type suffix n (Some "spherical"%string) Spherical false
| yt_ball : yaml_type suffix n (Some "ball"%string) Spherical false
| yt_free : yaml_type suffix n (Some "free"%string) Free false
| yt_fixed : yaml_type suffix n (Some "fixed"%string) Fixed false
| yt_ball_by_name : has_suffix n suffix -> yaml_type suffix n (Some "floating"%string) Spherical false
| yt_floating : ~ has_suffix n suffix -> yaml_type suffix n (Some "floating"%string) Free false.
(** The axis: z by default, else the vector given, whatever its length. *)
Definition yaml_axis (o : option (yv R)) (v : V3) : Prop := given_vec o (vec3 v) \/ (o = None /\ v = unitZ).
(** A bound of a joint with n degrees of freedom: a number, or n of them; the default if there are none. *)
Inductive yaml_bound (n : nat) (inf : dbl) (o : option (yv dbl)) : list dbl -> Prop :=
| yb_fixed : n = 0%nat -> yaml_bound n inf o []
| yb_one x : n = 1%nat -> o = Some (YNum x) -> yaml_bound n inf o [x]
| yb_many l : (1 < n)%nat -> List.length l = n -> o = Some (YSeq (map YNum l)) -> yaml_bound n inf o l
| yb_none : (forall x, n = 1%nat -> o <> Some (YNum x)) -> (forall l, (1 < n)%nat -> o <> Some (YSeq l)) -> yaml_bound n inf o (repeat inf n).
(** Bounds and speeds are in degrees when the element, or else the document, says so (for sliding joints too, see C61). *)
Inductive yaml_limits (deg : bool) (t : jtype) (continuous : bool) : option YLimits -> list dbl -> list dbl -> list dbl -> list dbl -> Prop :=
| yli_none : let n := tdof t in yaml_limits deg t continuous None (repeat MInf n) (repeat PInf n) (repeat PInf n) (repeat PInf n)
| yli_some l lo up ve ef : let n := tdof t in let u := unit_of (given (y_deg l) deg) in
    yaml_bound n MInf (y_lower l) lo -> yaml_bound n PInf (y_upper l) up -> yaml_bound n PInf (y_velocity l) ve -> yaml_bound n PInf (y_effort l) ef ->
    yaml_limits deg t continuous (Some l) (if continuous then repeat MInf n else map u lo) (if continuous then repeat PInf n else map u up) (map u ve) ef.
Inductive yaml_joint_says (p : PParams) (deg : bool) (lims : Limits) (ns : string * (string * string)) (j : YJoint) : DLink -> Prop :=
| yjs t c a X lo up ve ef :
    yaml_type (pp_suffix p) (fst ns) (yj_type j) t c -> yaml_axis (yj_axis j) a -> yaml_frame_at deg (yj_frame j) X ->
    limits_at lims (fst ns) lo up ve ef -> yaml_limits deg t c (yj_limits j) lo up ve ef ->
    yaml_joint_says p deg lims ns j (mkDL (mkJ t a true (fst ns)) (fst (snd ns)) (snd (snd ns)) X).

(** ** A document for C76: fixed joints from "base" to "arm", one metre away, and to "hand"; and
    parameters that take the link n as the base. *)
Definition ub_joint (n ty pa ch : string) (o : option UOrigin) : UJoint := mkUJ (Some n) (Some ty) (Some (Some pa)) (Some (Some ch)) o None None None.
Definition base_doc : URobot := mkUR (Some "robot"%string) [mkUL (Some "base"%string) None; mkUL (Some "arm"%string) None; mkUL (Some "hand"%string) None]
  [ub_joint "j" "fixed" "base" "arm" (Some (mkUO (Some [TNum 1; TNum 0; TNum 0]) None)); ub_joint "k" "fixed" "base" "hand" None].
Definition from_base (p : PParams) (n : string) : PParams := mkPP (pp_fixed p) (pp_filtered p) (pp_remove_filtered p) (pp_transform p) n (pp_remove_virtual p) (pp_suffix p).
