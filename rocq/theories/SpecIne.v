(** Specification for C90: what an <inertial> element says about a body. *)
From Coq Require Import Reals List.
From Verif Require Import Res Vec Sva JointM MultiBodyM ParserM YamlM SpecParser SpecGeom.
Import ListNotations.
Open Scope R_scope.

(** A body of mass m with centre of mass c and inertia I about c, where I is written in the axes that the rotation
    F makes of those of the link: twice its kinetic energy when it turns about the origin of the link with the
    angular velocity w (Koenig: the turn about the centre of mass and the velocity of the centre of mass). *)
Definition turn_energy (m : R) (c : V3) (F I : M3) (w : V3) : R :=
  let w' := mapp (mtr F) w in vdot w' (mapp I w') + m * vdot (vcross w c) (vcross w c).
(** Mass, first moment and inertia about the origin of the link are those of this body. *)
Definition has_inertia (b : Body) (m : R) (c : V3) (F I : M3) : Prop :=
  imass (binertia b) = m /\ imom (binertia b) = vscale m c /\
  forall w, vdot w (mapp (sym_mat (iine (binertia b))) w) = turn_energy m c F I w.
Definition sym_of (xx yy zz xy xz yz : R) : M3 := mkM3 xx xy xz xy yy yz xz yz zz.

(** What the URDF element says; numbers that are missing are 0, <mass> and <inertia> are there. *)
Inductive urdf_inertial (u : UInertial) : R -> V3 -> M3 -> M3 -> Prop :=
| uin X a m i xx yy zz xy xz yz : urdf_origin (ui_origin u) X -> ui_mass u = Some a -> number_or a 0 m -> ui_inertia u = Some i ->
    number_or (u_ixx i) 0 xx -> number_or (u_iyy i) 0 yy -> number_or (u_izz i) 0 zz ->
    number_or (u_ixy i) 0 xy -> number_or (u_ixz i) 0 xz -> number_or (u_iyz i) 0 yz ->
    urdf_inertial u m (trR X) (mtr (rotE X)) (sym_of xx yy zz xy xz yz).
(** What the YAML node says; a missing inertia is the unit one, missing diagonal elements are 1. *)
Definition ynum_or (o : option (yv R)) (d x : R) : Prop := given_num o x \/ ((forall y, ~ given_num o y) /\ x = d).
Inductive yaml_inertia : option YIne -> M3 -> Prop :=
| yin_none : yaml_inertia None (sym_of 1 1 1 0 0 0)
| yin_some i xx yy zz xy xz yz : ynum_or (y_Ixx i) 1 xx -> ynum_or (y_Iyy i) 1 yy -> ynum_or (y_Izz i) 1 zz ->
    ynum_or (y_Ixy i) 0 xy -> ynum_or (y_Ixz i) 0 xz -> ynum_or (y_Iyz i) 0 yz -> yaml_inertia (Some i) (sym_of xx yy zz xy xz yz).
Inductive yaml_inertial (deg : bool) (i : YInertial) : R -> V3 -> M3 -> M3 -> Prop :=
| yin X m I : yaml_frame_at deg (yi_frame i) X -> ynum_or (yi_mass i) 0 m -> yaml_inertia (yi_inertia i) I ->
    yaml_inertial deg i m (trR X) (mtr (rotE X)) I.

(** The other formula one may expect of sva::inertiaToOrigin (the parallel axis term is turned too). *)
Definition inertiaToOrigin_all_turned (I : M3) (m : R) (c : V3) (rot : M3) : M3 :=
  mmul (mmul rot (madd I (mmul (mcross (vscale m c)) (mtr (mcross c))))) (mtr rot).
