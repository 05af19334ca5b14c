(** C57, C58, C72: visual servoing. *)
From Coq Require Import Reals.
From Verif Require Import Vec Sva SpecDeriv SpecVis VisM VisP EulerP VisExP.
Open Scope R_scope.

(** C57: the camera moves with velocity V and looks at a fixed point P of non-zero depth. The
    rows of the matrix times V are the velocity of its normalised image. *)
Theorem C57_image_velocity : forall X t V P, SO3 (rotE (X t)) -> moves X t V -> depth (X t) P <> 0 ->
  let J := imagePointJacobian (image_x (X t) P) (image_y (X t) P) (depth (X t) P) in
  derivable_pt_lim (fun s => image_x (X s) P) t (times (row0 J) V) /\
  derivable_pt_lim (fun s => image_y (X s) P) t (times (row1 J) V).
Proof. exact image_jacobian. Qed.
Print Assumptions C57_image_velocity.
(** C57: the overload for a 3D point in camera coordinates is the same matrix. *)
Theorem C57_overload : forall X P,
  imagePointJacobian3 (seen X P) = imagePointJacobian (image_x X P) (image_y X P) (depth X P).
Proof. exact image_3d. Qed.
Print Assumptions C57_overload.
(** C57: imagePointJacobianDot is the derivative of the matrix along any motion of the image
    point and depth. *)
Theorem C57_dot : forall (x y z : R -> R) t xD yD zD,
  derivable_pt_lim x t xD -> derivable_pt_lim y t yD -> derivable_pt_lim z t zD -> z t <> 0 ->
  let J := imagePointJacobianDot (x t) (y t) xD yD (z t) zD in
  deriv_row (fun s => row0 (imagePointJacobian (x s) (y s) (z s))) t (row0 J) /\
  deriv_row (fun s => row1 (imagePointJacobian (x s) (y s) (z s))) t (row1 J).
Proof. exact image_dot. Qed.
Print Assumptions C57_dot.
Example C57_applies : SO3 (rotE (exv_Y 2)) /\ moves exv_Y 2 exv_U /\ seen (exv_Y 2) exv_P = mkV3 (-2) 1 1.
Proof. exact (conj VecP.SO3_id (conj (exv_Y_moves 2) (exv_Y_seen 2))). Qed.
Example C57_dot_applies : exists x y z : R -> R, derivable_pt_lim x 1 1 /\ derivable_pt_lim y 1 2 /\ derivable_pt_lim z 1 3 /\ z 1 <> 0.
Proof. exact exv_dot_example. Qed.

(** C58: any rotation matrix E (of a frame, so that its transpose maps the coordinates of the
    frame to those of the reference) is that of a frame turned by some a in [0, pi] about some
    unit vector n. getAngleAxis returns a, and 2 sin a times n.
    Partial: the axis has the right direction but is not a unit vector. *)
Theorem C58_angle_axis_partial : forall E, SO3 E -> exists a n, 0 <= a <= PI /\ vdot n n = 1 /\
  mtr E = angleAxis a n /\ getAngleAxis E = (a, vscale (2 * sin a) n).
Proof. exact angle_axis. Qed.
Print Assumptions C58_angle_axis_partial.
Theorem C58_unit_axis_refuted : exists E, SO3 E /\ vdot (snd (getAngleAxis E)) (snd (getAngleAxis E)) = 4.
Proof. exact axis_refuted. Qed.
Print Assumptions C58_unit_axis_refuted.
(** C58: when the axis happens to have norm 1, poseJacobian maps the camera velocity to the
    derivative of (a n, position). *)
Theorem C58_pose_jacobian_partial : forall X a n t V a' n', SO3 (rotE (X t)) -> moves X t V ->
  (forall s, turned (X s) (a s) (n s)) -> derivable_pt_lim a t a' -> derivV n t n' -> 0 < a t <= PI ->
  (let axis := snd (getAngleAxis (mtr (rotE (X t)))) in vdot axis axis = 1) ->
  derivS (fun s => mkSV (vscale (a s) (n s)) (trR (X s))) t (block_times (poseJacobian (rotE (X t))) V).
Proof. exact pose_jacobian. Qed.
Print Assumptions C58_pose_jacobian_partial.
(** C58: in general it does not (here: an angle of pi/2 about an axis that turns). *)
Theorem C58_pose_jacobian_refuted : exists X a n t V a' n', SO3 (rotE (X t)) /\ moves X t V /\
  (forall s, turned (X s) (a s) (n s)) /\ derivable_pt_lim a t a' /\ derivV n t n' /\ 0 < a t <= PI /\
  ~ derivS (fun s => mkSV (vscale (a s) (n s)) (trR (X s))) t (block_times (poseJacobian (rotE (X t))) V).
Proof. exact pose_refuted. Qed.
Print Assumptions C58_pose_jacobian_refuted.
Example C58_applies : SO3 (rotE (exv_Z 0)) /\ moves exv_Z 0 exv_VZ /\ (forall s, turned (exv_Z s) (PI / 6 + s) unitX) /\ derivable_pt_lim (fun s => PI / 6 + s) 0 1 /\ derivV (fun _ => unitX) 0 v0 /\ 0 < PI / 6 + 0 <= PI /\
  (let axis := snd (getAngleAxis (mtr (rotE (exv_Z 0)))) in vdot axis axis = 1).
Proof. exact exv_Z_applies. Qed.

(** C72: depthDotJacobian, given the image point, maps the camera velocity to the derivative of
    the depth when the velocity is written with its linear part first ... *)
Theorem C72_depth_partial : forall X t V P, SO3 (rotE (X t)) -> moves X t V -> depth (X t) P <> 0 ->
  derivable_pt_lim (fun s => depth (X s) P) t
    (times (depthDotJacobian (image_x (X t) P) (image_y (X t) P) (depth (X t) P)) (swap V)).
Proof. exact depth_jacobian. Qed.
Print Assumptions C72_depth_partial.
Example C72_applies : SO3 (rotE (exv_Y 2)) /\ moves exv_Y 2 exv_U /\ depth (exv_Y 2) exv_P <> 0.
Proof. destruct C57_applies as (A & B & C). split; [exact A|]. split; [exact B|]. unfold depth. rewrite C. exact R1_neq_R0. Qed.
(** ... and not with its angular part first, as imagePointJacobian wants it. *)
Theorem C72_order_refuted : exists X t V P, SO3 (rotE (X t)) /\ moves X t V /\ depth (X t) P <> 0 /\
  ~ derivable_pt_lim (fun s => depth (X s) P) t
    (times (depthDotJacobian (image_x (X t) P) (image_y (X t) P) (depth (X t) P)) V).
Proof. exact depth_refuted. Qed.
Print Assumptions C72_order_refuted.
