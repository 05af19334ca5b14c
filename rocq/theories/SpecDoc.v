(** Vocabulary for the statements about whole robots that are written to a document and read
    back. *)
From Coq Require Import Reals String ZArith Bool Arith List Permutation.
From Verif Require Import Res SMap Vec Sva JointM MultiBodyM KinM GraphM ParserM YamlM Spec SpecGraph SpecParser.
Import ListNotations.
Open Scope R_scope.

(** A robot as the readers leave it: a graph without cycles whose links start, at the far end of
    their joint, in the frame of the body, the multibody made of it, and the zero configuration. *)
Definition tree_robot (g : Garbage) (fixed : bool) (r : PResult) : Prop :=
  let s := pr_mbg r in
  graph_ok s /\ cycle_free (fst s) (snd s) /\ gRoot (snd s) = "Root"%string /\
  (forall a e, In a (gNodes (snd s)) -> In e (arcs_at (fst s) a) -> jfwd (aJoint e) = false -> aX e = ptid) /\
  exists fuel base, (List.length (gNodes (snd s)) <= fuel)%nat /\ make_result fuel g base fixed s (pr_limits r) (pr_name r) = Ok r.
(** Names of joints are distinct (the root joint has one too), and the first body has a name. *)
Definition named (r : PResult) : Prop :=
  NoDup (map jname (mb_joints (pr_mb r))) /\ bname (nth 0 (mb_bodies (pr_mb r)) bd) <> EmptyString.
(** Parameters that keep all the links and take the base from the document. *)
Definition plain (p : PParams) : Prop :=
  pp_filtered p = [] /\ pp_transform p = true /\ pp_remove_virtual p = false /\ pp_base p = EmptyString.
(** Limits that are there, one per degree of freedom. *)
Definition limits_at (l : Limits) (n : string) (lo up ve to_ : list dbl) : Prop :=
  mfind (l_lower l) n = Some lo /\ mfind (l_upper l) n = Some up /\ mfind (l_velocity l) n = Some ve /\ mfind (l_torque l) n = Some to_.
Definition same_limits (l l' : Limits) (n : string) : Prop :=
  exists lo up ve to_, limits_at l n lo up ve to_ /\ limits_at l' n lo up ve to_.
(** ** What can be written. *)
(** The limits of a joint, where there are any, are not empty vectors. *)
Definition limits_given (l : Limits) (n : string) : Prop :=
  forall v, mfind (l_lower l) n = Some v \/ mfind (l_upper l) n = Some v -> v <> [].
(** Neither format has a name for the other types. *)
Definition writable (j : Joint) : Prop := match jtyp j with Spherical | Cylindrical => False | _ => True end.
Definition proper (r : PResult) : Prop :=
  forall i j, (0 < i)%nat -> nth_error (mb_joints (pr_mb r)) i = Some j -> joint_ok j /\ jfwd j = true /\ limits_given (pr_limits r) (jname j).
(** A robot of two bodies without inertia, with a joint between them. *)
Definition rb_base : Body := mkBody rbi0 "base".
Definition rb_arm : Body := mkBody rbi0 "arm".
Definition two_of (g : Garbage) (fixed : bool) (j : Joint) (X : PT) (l : Limits) (r : PResult) : Prop :=
  tree_robot g fixed r /\ named r /\ mb_bodies (pr_mb r) = [rb_base; rb_arm] /\ mb_joints (pr_mb r) = [mkJ (if fixed then Fixed else Free) unitZ true "Root"; j] /\
  mb_Xt (pr_mb r) = [ptid; X] /\ mb_parent (pr_mb r) = [(-1)%Z; 0%Z] /\ pr_limits r = l /\ pr_name r = "robot"%string.
(** Limits of the joint "j" only: lower, upper, velocity, torque. *)
Definition lims1 (lo up ve ef : list dbl) : Limits := lim_set lim0 "j" lo up ve ef.
(** A document of two links and a joint. *)
Definition ref_u : UJoint := mkUJ (Some "j"%string) (Some "revolute"%string) (Some (Some "base"%string)) (Some (Some "arm"%string)) None None None (Some (mkULim None None (Some [TNum 10]) (Some [TNum 3]))).
Definition ref_doc (u : UJoint) : URobot := mkUR (Some "robot"%string) [mkUL (Some "base"%string) None; mkUL (Some "arm"%string) None] [u].
(** ** What YAML can describe. *)
Definition yaml_able_body (b : Body) : Prop :=
  binertia b = rbi0 \/
  ((0 < imass (binertia b) \/ (imass (binertia b) = 0 /\ imom (binertia b) = v0)) /\ visible_sym (iine (binertia b)) /\ visible (com_of (binertia b))).
Definition yaml_able_limits (l : Limits) (j : Joint) : Prop :=
  match jtyp j with
  | Fixed => limits_at l (jname j) [] [] [] []
  | Rev => exists lo up ve to_, limits_at l (jname j) [lo] [up] [ve] [to_] /\ (lo = MInf -> up = PInf -> ve = PInf /\ to_ = PInf)
  | Prism => exists lo up ve to_, limits_at l (jname j) [lo] [up] [ve] [to_]
  | _ => False
  end.
Definition yaml_able_joint (l : Limits) (j : Joint) : Prop :=
  joint_unit j /\ jfwd j = true /\ jmimic j = false /\ yaml_able_limits l j.
Definition yaml_able_frame (euler : M3 -> V3) (X : PT) : Prop :=
  SO3 (rotE X) /\ visible (trR X) /\ visible (euler (mtr (rotE X))).
(** ** What URDF can describe. *)
Definition urdf_able_body (b : Body) : Prop :=
  binertia b = rbi0 \/ (0 < imass (binertia b) /\ visible_sym (iine (binertia b)) /\ visible (com_of (binertia b))).
Definition finite (l : list dbl) : Prop := l <> [] /\ forall d, In d l -> exists x, d = Fin x.
Definition urdf_able_limits (l : Limits) (j : Joint) : Prop :=
  match jtyp j with
  | Fixed => limits_at l (jname j) [] [] [] []
  | Rev => limits_at l (jname j) [MInf] [PInf] [PInf] [PInf] \/
           exists lo up ve to_, limits_at l (jname j) lo up ve to_ /\ finite lo /\ finite up /\ finite ve /\ finite to_
  | Prism | Free => exists lo up ve to_, limits_at l (jname j) lo up ve to_ /\ finite lo /\ finite up /\ finite ve /\ finite to_
  | _ => False
  end.
Definition urdf_able_joint (suffix : string) (l : Limits) (j : Joint) : Prop :=
  joint_unit j /\ jfwd j = true /\ urdf_joint suffix j /\ urdf_able_limits l j.
(** The angles that are written mean the same rotation in both conventions. *)
Definition urdf_able_frame (euler : M3 -> V3) (X : PT) : Prop :=
  SO3 (rotE X) /\ visible (trR X) /\ visible (euler (mtr (rotE X))) /\
  let v := euler (mtr (rotE X)) in euler_zyx (vx v) (vy v) (vz v) = euler_xyz (vx v) (vy v) (vz v).

(** ** Documents that describe a tree. *)
(** A joint of a document: between which links, and where it is in the frame of its parent. *)
Record DLink := mkDL { dl_joint : Joint; dl_parent : string; dl_child : string; dl_X : PT }.
(** The names of the links, and for every joint its name, its parent and its child: names are
    distinct, joints are between links of the document, every link but the first is the child of
    exactly one joint, and no link is its own ancestor. The order of the joints is free, and that
    of the links too, except for the first. *)
Definition tree_names (ns : list string) (js : list (string * (string * string))) : Prop :=
  let parent j := fst (snd (j : string * (string * string))) in let child j := snd (snd (j : string * (string * string))) in
  ns <> [] /\ NoDup ns /\ NoDup (map fst js) /\ NoDup (map child js) /\
  (forall n, In n (tl ns) -> In n (map child js)) /\
  (forall j, In j js -> In (parent j) ns /\ In (child j) ns) /\
  exists rank : string -> nat, forall j, In j js -> (rank (parent j) < rank (child j))%nat.
(** The multibody with these bodies and joints, rooted at the first body. *)
Definition robot_of (bodies : list Body) (links : list DLink) (root : Joint) (mb : MultiBody) : Prop :=
  wf_mb mb /\ Permutation (mb_bodies mb) bodies /\ nth 0 (mb_bodies mb) bd = nth 0 bodies bd /\
  nth 0 (mb_joints mb) jd = root /\ nth 0 (mb_parent mb) 0%Z = (-1)%Z /\ nth 0 (mb_Xt mb) ptid = ptid /\
  forall i, (0 < i < List.length bodies)%nat -> exists k p, In k links /\ (p < i)%nat /\
    nth i (mb_joints mb) jd = dl_joint k /\ nth i (mb_Xt mb) ptid = dl_X k /\ bname (nth i (mb_bodies mb) bd) = dl_child k /\
    nth i (mb_parent mb) 0%Z = Z.of_nat p /\ bname (nth p (mb_bodies mb) bd) = dl_parent k.

(** Two lists of the same length, matched element by element; the elements are numbered from i. *)
Fixpoint matched {A B} (Q : nat -> A -> B -> Prop) (i : nat) (l : list A) (l' : list B) : Prop :=
  match l, l' with [], [] => True | a :: l, b :: l' => Q i a b /\ matched Q (S i) l l' | _, _ => False end.
(** Parameters that keep all the links and take the base from the document. *)
Definition keeps_all (p : PParams) : Prop := pp_filtered p = [] /\ pp_remove_virtual p = false /\ pp_base p = EmptyString.
(** ** URDF documents. *)
Definition text {A} (o : option A) (d : A) : A := match o with Some a => a | None => d end.
Definition ulink_name (l : ULink) : string := text (ul_name l) EmptyString.
Definition ujoint_names (u : UJoint) : string * (string * string) :=
  (text (uj_name u) EmptyString, (text (text (uj_parent u) None) EmptyString, text (text (uj_child u) None) EmptyString)).
(** An rpy attribute, if there is one, has three numbers. *)
Definition uorigin_ok (o : option UOrigin) : Prop :=
  match o with Some o => match uo_rpy o with Some l => exists a b c l', l = [TNum a; TNum b; TNum c] ++ l' /\ match l' with TNum _ :: _ => False | _ => True end | None => True end | None => True end.
(** A link has a name, and its inertial element, if it has one, has a mass and an inertia. *)
Definition ulink_ok (l : ULink) : Prop :=
  ul_name l <> None /\
  match ul_inertial l with Some u => uorigin_ok (ui_origin u) /\ ui_mass u <> None /\ ui_inertia u <> None | None => True end.
(** A joint has a name, a type, a parent and a child; a mimic element names a joint. *)
Definition ujoint_ok (u : UJoint) : Prop :=
  uj_name u <> None /\ uj_type u <> None /\ (exists n, uj_parent u = Some (Some n)) /\ (exists n, uj_child u = Some (Some n)) /\
  uorigin_ok (uj_origin u) /\ match uj_mimic u with Some m => um_joint m <> None | None => True end.
(** [b] is the body of the element [l], [k] and the limits are those of the element [u]. *)
Definition urdf_body_of (p : PParams) (l : ULink) (b : Body) : Prop := bname b = ulink_name l /\ read_body (pp_transform p) (ulink_name l) (ul_inertial l) = Ok b.
Definition urdf_link_of (p : PParams) (lims : Limits) (u : UJoint) (k : DLink) : Prop :=
  (jname (dl_joint k), (dl_parent k, dl_child k)) = ujoint_names u /\
  read_joint p u = Ok (mkJR (dl_joint k) (text (uj_type u) EmptyString) (dl_parent k) (dl_child k) (dl_X k)) /\
  exists lo up ve ef, limits_at lims (jname (dl_joint k)) lo up ve ef /\ read_limits (dl_joint k) (text (uj_type u) EmptyString) (uj_limit u) = (lo, up, ef, ve).
(** ** YAML documents. *)
(** Names default to "link1", "joint1", ..., and the links of a joint to those of its number. *)
Definition ylink_name (i : nat) (l : YLink) : string := text (yl_name l) (append "link" (str_of i)).
Definition yjoint_names (i : nat) (j : YJoint) : string * (string * string) :=
  (text (yj_name j) (append "joint" (str_of i)), (text (yj_parent j) (append "link" (str_of i)), text (yj_child j) (append "link" (str_of (S i))))).
Fixpoint numbered {A B} (f : nat -> A -> B) (i : nat) (l : list A) : list B :=
  match l with [] => [] | a :: l => f i a :: numbered f (S i) l end.
(** A vector, if there is one, is a sequence of three numbers. *)
Definition yvec_ok (o : option (yv R)) : Prop := match o with Some y => exists a b c, y = YSeq [YNum a; YNum b; YNum c] | None => True end.
Definition yframe_ok (f : option YFrame) : Prop := match f with Some f => yvec_ok (yf_xyz f) /\ yvec_ok (yf_rpy f) | None => True end.
Definition ylink_ok (l : YLink) : Prop := match yl_inertial l with Some i => yframe_ok (yi_frame i) | None => True end.
(** Limits of a joint of several degrees of freedom: as many numbers as degrees of freedom. *)
Definition ylimit_ok (n : nat) (o : option (yv dbl)) : Prop := match o with Some (YSeq l) => exists v, l = map YNum v /\ List.length v = n | _ => True end.
Definition ylimits_ok (n : nat) (o : option YLimits) : Prop :=
  match o with Some l => (n <= 1)%nat \/ (ylimit_ok n (y_lower l) /\ ylimit_ok n (y_upper l) /\ ylimit_ok n (y_effort l) /\ ylimit_ok n (y_velocity l)) | None => True end.
(** Types of joints that are known, and their number of degrees of freedom (at most). *)
Definition yaml_types : list (string * nat) :=
  [("revolute", 1); ("continuous", 1); ("prismatic", 1); ("fixed", 0); ("spherical", 3); ("ball", 3); ("free", 6)]%string%nat.
Definition yjoint_ok (p : PParams) (n : string) (j : YJoint) : Prop :=
  yvec_ok (yj_axis j) /\ yframe_ok (yj_frame j) /\
  match yj_type j with
  | None => True
  | Some t => (t = "floating"%string /\ ylimits_ok (if ends_with n (pp_suffix p) then 3 else 6) (yj_limits j)) \/
              exists d, In (t, d) yaml_types /\ ylimits_ok d (yj_limits j)
  end.
Definition yaml_body_of (p : PParams) (deg : bool) (n : string) (l : YLink) (b : Body) : Prop :=
  bname b = n /\ parseInertial deg (pp_transform p) n (yl_inertial l) = Ok b.
Definition yaml_link_of (p : PParams) (deg : bool) (lims : Limits) (ns : string * (string * string)) (j : YJoint) (k : DLink) : Prop :=
  (jname (dl_joint k), (dl_parent k, dl_child k)) = ns /\ yaml_pt deg (yj_frame j) = Ok (dl_X k) /\
  exists t c a, parseJointType (pp_suffix p) (yj_type j) (fst ns) false = Ok (t, c) /\ parseJointAxis (yj_axis j) = Ok a /\ dl_joint k = mkJ t a true (fst ns) /\
  exists lo up ve ef, limits_at lims (fst ns) lo up ve ef /\ parseJointLimits deg (yj_limits j) (dl_joint k) c = Ok (lo, up, ef, ve).
