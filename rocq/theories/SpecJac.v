(** Vocabulary for the statements about Jacobians. *)
From Coq Require Import Reals String ZArith Bool Arith List.
From Verif Require Import Res Vec Sva Mat JointM MultiBodyM JacM Spec.
Import ListNotations.
Open Scope R_scope.

(** Velocity, with world axes, of the point p (body coordinates) of a body placed at X with
    velocity V = (w, v) in body coordinates: the angular velocity of the body and the velocity
    v + w x p of the point. *)
Definition point_velocity (X : PT) (p : V3) (V : SV) : SV :=
  mkSV (mapp (mtr (rotE X)) (sang V))
       (mapp (mtr (rotE X)) (vadd (slin V) (vcross (sang V) p))).
(** The same in body axes. *)
Definition body_point_velocity (p : V3) (V : SV) : SV :=
  mkSV (sang V) (vadd (slin V) (vcross (sang V) p)).
(** World position of the point. *)
Definition point_position (X : PT) (p : V3) : V3 := vadd (trR X) (mapp (mtr (rotE X)) p).
(** Acceleration, with world axes, of the point p: angular acceleration, and a + dw x p +
    w x (v + w x p), for the velocity V = (w, v) and acceleration A = (dw, a) of the body in
    body coordinates. *)
Definition point_acceleration (X : PT) (p : V3) (V A : SV) : SV :=
  mkSV (mapp (mtr (rotE X)) (sang A))
       (mapp (mtr (rotE X)) (vadd (vadd (slin A) (vcross (sang A) p))
                                  (vcross (sang V) (vadd (slin V) (vcross (sang V) p))))).

(** The entries of v belonging to the joints of a path, one after the other. *)
Definition on_path {A} (path : list nat) (v : list (list A)) : list A :=
  concat (map (fun k => nth k v []) path).
(** Number of degrees of freedom of a path. *)
Definition path_dof (mb : MultiBody) (path : list nat) : nat :=
  list_sum (map (fun k => jdof (nth k (mb_joints mb) jd)) path).

(** J is a Jacobian object for body i and the point p of that body. What its matrices hold
    is arbitrary. *)
Record jacobian_of (mb : MultiBody) (i : nat) (p : V3) (J : Jac) : Prop := {
  jo_path : root_path mb i (jc_path J);
  jo_sign : jc_sign J = map (fun _ => 1) (jc_path J);
  jo_point : jc_point J = pttr p;
  jo_jac : length (jc_jac J) = path_dof mb (jc_path J);
  jo_dot : length (jc_dot J) = path_dof mb (jc_path J);
  jo_body : jc_body J = Z.of_nat i;
  jo_ref : jc_ref J = 0%Z
}.
