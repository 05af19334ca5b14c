(** Properties of the readers and writers of robot descriptions: C59 to C62, C73, C74. *)
From Coq Require Import Reals String Ascii ZArith Bool Arith List Lra.
From Verif Require Import Res SMap Vec VecP Sva JointM MultiBodyM GraphM ParserM YamlM Spec SpecParser ParserP ParserRotP ParserRtP ParserBodyP ParserJointP ParserExP.
Import ListNotations.
Open Scope R_scope.

(** C62 *)
Theorem C62_prefix_path : forall s,
  (starts_with "package://" s \/ starts_with "file://" s -> prefix_path s = s) /\
  (~ starts_with "package://" s -> ~ starts_with "file://" s -> prefix_path s = append "file://" s) /\
  prefix_path (prefix_path s) = prefix_path s.
Proof. exact prefix_path_spec. Qed.
Print Assumptions C62_prefix_path.
Example C62_package : prefix_path "package://robot/a.stl" = "package://robot/a.stl"%string. Proof. reflexivity. Qed.
Example C62_plain : prefix_path "/a/file://b" = "file:///a/file://b"%string. Proof. reflexivity. Qed.

(** C73: the reader is chosen by what follows the last dot of the path. *)
Theorem C73_from_file : forall A (from_yaml_file from_urdf_file : string -> res A) path ext, extension path ext ->
  from_file from_yaml_file from_urdf_file path =
  if String.eqb ext "yaml" || String.eqb ext "yml" then from_yaml_file path
  else if String.eqb ext "urdf" then from_urdf_file path else Throw RuntimeError.
Proof. exact @from_file_spec. Qed.
Print Assumptions C73_from_file.
Theorem C73_extension_exists : forall path, exists ext, extension path ext.
Proof. exact extension_exists. Qed.
Print Assumptions C73_extension_exists.
Example C73_case : extension "models/v1.2/arm.urdf" "urdf".
Proof. split; [cbn; intuition discriminate|]. right. exists "models/v1.2/arm"%string. reflexivity. Qed.
Example C73_no_dot : extension "urdf" "urdf".
Proof. split; [cbn; intuition discriminate|]. now left. Qed.

(** C59: the rotation each format's three angles stand for. *)
Theorem C59_rpy_meaning : forall r p y,
  RPY r p y = mtr (euler_zyx r p y) /\ MatrixFromRPY r p y = mtr (euler_xyz r p y).
Proof. intros r p y. exact (conj (RPY_eq r p y) (MatrixFromRPY_eq r p y)). Qed.
Print Assumptions C59_rpy_meaning.
Theorem C59_rpy_agree_partial : forall r p y,
  (p = 0 /\ y = 0) \/ (r = 0 /\ y = 0) \/ (r = 0 /\ p = 0) -> RPY r p y = MatrixFromRPY r p y.
Proof. intros r p y H. rewrite RPY_eq, MatrixFromRPY_eq, (rpy_one r p y H). reflexivity. Qed.
Print Assumptions C59_rpy_agree_partial.
Theorem C59_rpy_refuted : exists r p y, RPY r p y <> MatrixFromRPY r p y.
Proof. exists (PI / 2), 0, (PI / 2). rewrite RPY_eq, MatrixFromRPY_eq. intro H. exact (rpy_disagree (mtr_inj _ _ H)). Qed.
Print Assumptions C59_rpy_refuted.
(** A frame written in YAML is read back. *)
Theorem C59_yaml_frame : forall euler X, euler_ok euler -> SO3 (rotE X) -> visible (trR X) -> visible (euler (mtr (rotE X))) ->
  yaml_pt false (yw_frame euler X) = Ok X.
Proof. exact yaml_frame_rt. Qed.
Print Assumptions C59_yaml_frame.
Example C59_yaml_case : yaml_pt false (yw_frame eul exp_Y) = Ok exp_Y.
Proof. destruct exp_Y_ok as (A & B & C). exact (C59_yaml_frame eul exp_Y eul_ok A B C). Qed.
(** A frame written in URDF is read back exactly when the two conventions agree on the angles
    written, which they do for rotations about one axis. *)
Theorem C59_urdf_frame_partial : forall W X, exact_text W -> euler_ok (w_euler W) -> SO3 (rotE X) -> visible (trR X) -> visible (w_euler W (mtr (rotE X))) ->
  let v := w_euler W (mtr (rotE X)) in
  read_origin (wr_origin W X) = Ok X <-> euler_zyx (vx v) (vy v) (vz v) = euler_xyz (vx v) (vy v) (vz v).
Proof. exact urdf_frame_iff. Qed.
Print Assumptions C59_urdf_frame_partial.
Theorem C59_urdf_axis_partial : forall W X t u, exact_text W -> euler_ok (w_euler W) -> rotE X = angleAxis t u ->
  u = unitX \/ u = unitZ \/ (u = unitY /\ cos t <> 0) -> visible (trR X) -> visible (w_euler W (mtr (rotE X))) ->
  read_origin (wr_origin W X) = Ok X.
Proof. exact urdf_axis. Qed.
Print Assumptions C59_urdf_axis_partial.
Example C59_urdf_case : read_origin (wr_origin exw exp_Y) = Ok exp_Y.
Proof. destruct exw_ok as (E & O). destruct exp_Y_ok as (A & B & C). exact (C59_urdf_axis_partial exw exp_Y 1 unitX E O eq_refl (or_introl eq_refl) B C). Qed.
Theorem C59_urdf_refuted : exists X, SO3 (rotE X) /\ forall W, exact_text W -> euler_ok (w_euler W) -> read_origin (wr_origin W X) <> Ok X.
Proof. exists (mkPT (mtr bad_rot) v0). exact (conj (SO3_tr _ (SO3_euler_xyz _ _ _)) urdf_bad). Qed.
Print Assumptions C59_urdf_refuted.
(** Six significant digits lose translations. *)
Theorem C59_urdf_digits_refuted : exists X, SO3 (rotE X) /\ forall W, (forall x, six_digits (w_num W x)) -> read_origin (wr_origin W X) <> Ok X.
Proof. exists (mkPT mid (mkV3 (10000001 / 10000000) 0 0)). exact (conj SO3_id urdf_digits). Qed.
Print Assumptions C59_urdf_digits_refuted.
Example C59_digits_case : forall x, six_digits (w_num exw6 x). Proof. exact exw6_ok. Qed.

(** C60 *)
Theorem C60_urdf_body_partial : forall W b, exact_text W -> 0 < imass (binertia b) -> visible_sym (iine (binertia b)) -> visible (com_of (binertia b)) ->
  read_body true (bname b) (wr_inertial W (binertia b)) = Ok b.
Proof. exact urdf_body. Qed.
Print Assumptions C60_urdf_body_partial.
Theorem C60_yaml_body_partial : forall b, (0 < imass (binertia b) \/ (imass (binertia b) = 0 /\ imom (binertia b) = v0)) ->
  visible_sym (iine (binertia b)) -> visible (com_of (binertia b)) ->
  parseInertial false true (bname b) (yw_inertial (binertia b)) = Ok b.
Proof. exact yaml_body. Qed.
Print Assumptions C60_yaml_body_partial.
Example C60_case : 0 < imass exp_I /\ visible_sym (iine exp_I) /\ visible (com_of exp_I). Proof. exact exp_I_ok. Qed.
Theorem C60_no_inertia : forall W n,
  read_body true n (wr_inertial W rbi0) = Ok (mkBody rbi0 n) /\ parseInertial false true n (yw_inertial rbi0) = Ok (mkBody rbi0 n).
Proof. intros W n. exact (conj (urdf_zero W n) (yaml_zero n)). Qed.
Print Assumptions C60_no_inertia.
(** A point mass at the origin: the URDF that is written makes the reader use a null pointer; read
    from YAML it has a unit inertia. *)
Theorem C60_urdf_point_mass_refuted : exists I, 0 < imass I /\ forall W n, exact_text W -> read_body true n (wr_inertial W I) = UB.
Proof. exists point_mass. exact (conj Rlt_0_1 urdf_point). Qed.
Print Assumptions C60_urdf_point_mass_refuted.
Theorem C60_urdf_massless_refuted : forall W n s, visible_sym s -> read_body true n (wr_inertial W (mkRBI 0 v0 s)) = UB.
Proof. exact urdf_massless. Qed.
Print Assumptions C60_urdf_massless_refuted.
Theorem C60_yaml_point_mass_refuted : exists I J, 0 < imass I /\ I <> J /\ forall n, parseInertial false true n (yw_inertial I) = Ok (mkBody J n).
Proof.
  exists point_mass, (mkRBI 1 v0 (mkSym 1 0 0 1 0 1)). split; [exact Rlt_0_1|]. split; [|exact yaml_point].
  intro H. injection H. intros. lra.
Qed.
Print Assumptions C60_yaml_point_mass_refuted.
Theorem C60_urdf_digits_refuted : exists I, 0 < imass I /\ visible_sym (iine I) /\ forall W n, (forall x, six_digits (w_num W x)) -> read_body true n (wr_inertial W I) <> Ok (mkBody I n).
Proof.
  exists (mkRBI (10000001 / 10000000) v0 (mkSym 1 0 0 1 0 1)). split; [cbn; lra|]. split; [exists 1; split; [cbn; auto|rewrite Rabs_R1; lra]|]. exact urdf_mass_digits.
Qed.
Print Assumptions C60_urdf_digits_refuted.

(** C61: lower, upper, effort, velocity limits of a joint with one degree of freedom, and with
    several. *)
Theorem C61_one_dof_partial : forall deg dg lo up ef ve j (continuous : bool), jdof j = 1%nat ->
  parseJointLimits deg (Some (mkYLim (given1 lo) (given1 up) (given1 ef) (given1 ve) dg)) j continuous =
  Ok ([if continuous then MInf else unit_of (as_or dg deg) (as_or lo MInf)], [if continuous then PInf else unit_of (as_or dg deg) (as_or up PInf)],
      [as_or ef PInf], [unit_of (as_or dg deg) (as_or ve PInf)]).
Proof. exact limits_1. Qed.
Print Assumptions C61_one_dof_partial.
Theorem C61_many_dof_partial : forall deg dg lo up ef ve j (continuous : bool), (1 < jdof j)%nat ->
  (forall l, lo = Some l -> List.length l = jdof j) -> (forall l, up = Some l -> List.length l = jdof j) -> (forall l, ve = Some l -> List.length l = jdof j) ->
  let n := jdof j in
  parseJointLimits deg (Some (mkYLim (givenv lo) (givenv up) (givenv ef) (givenv ve) dg)) j continuous =
  Ok (if continuous then repeat MInf n else map (unit_of (as_or dg deg)) (as_or lo (repeat MInf n)),
      if continuous then repeat PInf n else map (unit_of (as_or dg deg)) (as_or up (repeat PInf n)),
      as_or ef (repeat PInf n), map (unit_of (as_or dg deg)) (as_or ve (repeat PInf n))).
Proof. exact limits_n. Qed.
Print Assumptions C61_many_dof_partial.
Example C61_case : parseJointLimits false (Some (mkYLim (givenv (Some [Fin 0; Fin (-90); MInf])) None (givenv (Some [Fin 5])) None (Some true))) (mkJ Spherical unitX true "ball") false =
  Ok ([Fin (0 * PI / 180); Fin (-90 * PI / 180); MInf], [PInf; PInf; PInf], [Fin 5], [PInf; PInf; PInf]).
Proof.
  refine (C61_many_dof_partial false (Some true) (Some [Fin 0; Fin (-90); MInf]) None (Some [Fin 5]) None (mkJ Spherical unitX true "ball") false _ _ _ _).
  - apply Nat.ltb_lt. reflexivity.
  - intros l E. injection E as <-. reflexivity.
  - discriminate.
  - discriminate.
Qed.
(** No out-of-range access unless angles are in degrees and a vector is too short. *)
Theorem C61_in_range_partial : forall deg o j c, let n := jdof j in
  (match o with None => True | Some l => as_or (y_deg l) deg = false \/ (n <= 1)%nat \/
     ((c = true \/ ~ short n (y_lower l)) /\ (c = true \/ ~ short n (y_upper l)) /\ ~ short n (y_velocity l)) end) ->
  parseJointLimits deg o j c <> UB.
Proof. exact limits_safe. Qed.
Print Assumptions C61_in_range_partial.
Theorem C61_prismatic_refuted : exists l j, jtyp j = Prism /\ l = mkYLim (given1 (Some (Fin 1))) None None None None /\
  parseJointLimits true (Some l) j false <> Ok ([Fin 1], [PInf], [PInf], [PInf]).
Proof.
  exists (mkYLim (given1 (Some (Fin 1))) None None None None), (mkJ Prism unitX true "slide"). split; [reflexivity|]. split; [reflexivity|].
  rewrite limits_prism. intro H. injection H as H. pose proof PI_4. lra.
Qed.
Print Assumptions C61_prismatic_refuted.
Theorem C61_short_vector_refuted : exists l j, parseJointLimits true (Some l) j false = UB.
Proof. exists (mkYLim (givenv (Some [Fin 0])) None None None None), (mkJ Spherical unitX true "ball"). exact (limits_short "ball"). Qed.
Print Assumptions C61_short_vector_refuted.

(** C74: a joint written in URDF is read back with the same type, motion subspace, name and mimic. *)
Theorem C74_joint_urdf_partial : forall W p r j u, exact_text W -> joint_unit j -> urdf_joint (pp_suffix p) j -> wr_joint W r j = Ok (Some u) ->
  exists jr, read_joint p u = Ok jr /\ same_joint (jr_joint jr) j /\ jfwd (jr_joint jr) = true.
Proof. exact joint_back. Qed.
Print Assumptions C74_joint_urdf_partial.
Example C74_case : joint_unit exp_j /\ urdf_joint "_spherical" exp_j. Proof. exact exp_j_ok. Qed.
