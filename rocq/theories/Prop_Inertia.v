(** C90: the inertia that the readers make of an <inertial> element. Only property theorems and
    examples. *)
From Coq Require Import Reals String List Lra.
From Verif Require Import Res Vec Sva JointM MultiBodyM ParserM YamlM SpecParser SpecGeom SpecIne InertiaP.
Import ListNotations.
Open Scope R_scope.

(** C90: with transform_inertia, the body has the mass, centre of mass and inertia that the element
    describes when the rotation of its frame is its own inverse (no rotation, or half a turn).
    Partial: false for the other rotations, see below. *)
Theorem C90_urdf_partial : forall u m c F I n, urdf_inertial u m c F I -> mtr F = F ->
  exists b, read_body true n (Some u) = Ok b /\ bname b = n /\ has_inertia b m c F I.
Proof. intros u m c F I n H E. rewrite <- E. now apply urdf_turned. Qed.
Print Assumptions C90_urdf_partial.
Theorem C90_yaml_partial : forall deg i m c F I n, yaml_inertial deg i m c F I -> mtr F = F ->
  exists b, parseInertial deg true n (Some i) = Ok b /\ bname b = n /\ has_inertia b m c F I.
Proof. intros deg i m c F I n H E. rewrite <- E. now apply (yaml_turned deg). Qed.
Print Assumptions C90_yaml_partial.
Example C90_applies : urdf_inertial straight_u 2 (mkV3 1 2 3) mid (sym_of 1 1 1 0 (1/10) 0) /\ mtr mid = mid /\
  yaml_inertial true straight_y 2 (mkV3 1 2 3) mid (sym_of 1 1 1 0 (1/10) 0).
Proof. exact (conj straight_u_says (conj eq_refl straight_y_says)). Qed.

(** C90: in general the inertia is turned the other way: it is the one of a body whose frame is
    rotated by the inverse. *)
Theorem C90_urdf_inverse : forall u m c F I n, urdf_inertial u m c F I ->
  exists b, read_body true n (Some u) = Ok b /\ bname b = n /\ has_inertia b m c (mtr F) I.
Proof. exact urdf_turned. Qed.
Print Assumptions C90_urdf_inverse.
Theorem C90_yaml_inverse : forall deg i m c F I n, yaml_inertial deg i m c F I ->
  exists b, parseInertial deg true n (Some i) = Ok b /\ bname b = n /\ has_inertia b m c (mtr F) I.
Proof. exact yaml_turned. Qed.
Print Assumptions C90_yaml_inverse.
Theorem C90_urdf_refuted : exists u m c F I, urdf_inertial u m c F I /\
  forall n b, read_body true n (Some u) = Ok b -> ~ has_inertia b m c F I.
Proof.
  exists quarter_u, 2, v0, quarter, (sym_of 1 1 1 0 (1/10) 0). split; [exact quarter_u_says|]. intros n b E.
  destruct (urdf_turned _ _ _ _ _ n quarter_u_says) as (b' & E' & _ & H). rewrite E in E'. injection E' as <-. now apply quarter_not.
Qed.
Print Assumptions C90_urdf_refuted.
Theorem C90_yaml_refuted : exists deg i m c F I, yaml_inertial deg i m c F I /\
  forall n b, parseInertial deg true n (Some i) = Ok b -> ~ has_inertia b m c F I.
Proof.
  exists true, quarter_y, 2, v0, quarter, (sym_of 1 1 1 0 (1/10) 0). split; [exact quarter_y_says|]. intros n b E.
  destruct (yaml_turned _ _ _ _ _ _ n quarter_y_says) as (b' & E' & _ & H). rewrite E in E'. injection E' as <-. now apply quarter_not.
Qed.
Print Assumptions C90_yaml_refuted.

(** C90: without transform_inertia the numbers are taken as the inertia about the origin of the
    link, and the rotation is not used. *)
Theorem C90_untransformed : forall n,
  (forall u m c F I, urdf_inertial u m c F I -> exists b, read_body false n (Some u) = Ok b /\ bname b = n /\
     imass (binertia b) = m /\ imom (binertia b) = vscale m c /\ sym_mat (iine (binertia b)) = I) /\
  (forall deg i m c F I, yaml_inertial deg i m c F I -> exists b, parseInertial deg false n (Some i) = Ok b /\ bname b = n /\
     imass (binertia b) = m /\ imom (binertia b) = vscale m c /\ sym_mat (iine (binertia b)) = I).
Proof. intro n. split; intros; [eapply urdf_as_is|eapply yaml_as_is]; eauto. Qed.
Print Assumptions C90_untransformed.
Example C90_untransformed_applies : urdf_inertial quarter_u 2 v0 quarter (sym_of 1 1 1 0 (1/10) 0) /\ yaml_inertial true quarter_y 2 v0 quarter (sym_of 1 1 1 0 (1/10) 0).
Proof. exact (conj quarter_u_says quarter_y_says). Qed.

(** C90: sva::inertiaToOrigin is not part of the repository. The formula of the model leaves the parallel
    axis term as it is; a formula that turns it too gives the same when the centre of mass is the origin, as in the refutations
    above, or when there is no rotation. *)
Theorem C90_conventions_agree : forall I m c rot, c = v0 \/ rot = mid ->
  inertiaToOrigin I m c rot = inertiaToOrigin_all_turned I m c rot.
Proof. exact conventions_agree. Qed.
Print Assumptions C90_conventions_agree.
Example C90_conventions_agree_applies : (v0 = v0 \/ quarter = mid) /\ (mkV3 1 2 3 = v0 \/ mid = mid).
Proof. split; [now left|now right]. Qed.
