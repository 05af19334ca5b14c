(** Vocabulary for visual servoing. *)
From Coq Require Import Reals.
From Verif Require Import Vec Sva SpecDeriv.
Open Scope R_scope.

(** The point P of the reference frame, in the coordinates of a camera placed at X; its image. *)
Definition seen (X : PT) (P : V3) : V3 := mapp (rotE X) (vsub P (trR X)).
Definition image_x (X : PT) (P : V3) : R := vx (seen X P) / vz (seen X P).
Definition image_y (X : PT) (P : V3) : R := vy (seen X P) / vz (seen X P).
Definition depth (X : PT) (P : V3) : R := vz (seen X P).
(** A row of six numbers times the spatial velocity (angular, linear). *)
Definition times (r V : SV) : R :=
  vx (sang r) * vx (sang V) + vy (sang r) * vy (sang V) + vz (sang r) * vz (sang V) +
  (vx (slin r) * vx (slin V) + vy (slin r) * vy (slin V) + vz (slin r) * vz (slin V)).
(** Every number of a row has the corresponding derivative. *)
Definition deriv_row (f : R -> SV) (t : R) (d : SV) : Prop := derivV (fun s => sang (f s)) t (sang d) /\ derivV (fun s => slin (f s)) t (slin d).
(** Linear velocity first. *)
Definition swap (V : SV) : SV := mkSV (slin V) (sang V).
(** A unit vector, as axis of a rotation by the angle a in [0, pi]: the orientation, whose
    transpose is the rotation matrix of a camera oriented so. *)
Definition turned (X : PT) (a : R) (n : V3) : Prop := mtr (rotE X) = angleAxis a n /\ vdot n n = 1.
