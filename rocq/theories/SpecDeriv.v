(** Vocabulary for statements about time derivatives. *)
From Coq Require Import Reals String ZArith Bool Arith List.
From Verif Require Import Res Vec Sva Mat JointM MultiBodyM Spec.
Import ListNotations.
Open Scope R_scope.

(** Derivatives of vector and matrix valued functions of time, entry by entry, with the
    standard library's [derivable_pt_lim f t d]: "f has derivative d at t". *)
Definition derivV (f : R -> V3) (t : R) (d : V3) : Prop :=
  derivable_pt_lim (fun s => vx (f s)) t (vx d) /\
  derivable_pt_lim (fun s => vy (f s)) t (vy d) /\
  derivable_pt_lim (fun s => vz (f s)) t (vz d).
Definition derivM (f : R -> M3) (t : R) (d : M3) : Prop :=
  (derivable_pt_lim (fun s => m00 (f s)) t (m00 d) /\
   derivable_pt_lim (fun s => m01 (f s)) t (m01 d) /\
   derivable_pt_lim (fun s => m02 (f s)) t (m02 d)) /\
  (derivable_pt_lim (fun s => m10 (f s)) t (m10 d) /\
   derivable_pt_lim (fun s => m11 (f s)) t (m11 d) /\
   derivable_pt_lim (fun s => m12 (f s)) t (m12 d)) /\
  (derivable_pt_lim (fun s => m20 (f s)) t (m20 d) /\
   derivable_pt_lim (fun s => m21 (f s)) t (m21 d) /\
   derivable_pt_lim (fun s => m22 (f s)) t (m22 d)).
Definition derivS (f : R -> SV) (t : R) (d : SV) : Prop :=
  derivV (fun s => sang (f s)) t (sang d) /\ derivV (fun s => slin (f s)) t (slin d).

(** At time t the frame placed by X (rotation E: coordinates of the reference to
    coordinates of the frame; r: origin, in the reference) moves with the spatial velocity
    V = (w, v), given in the coordinates of the moving frame: E' = -[w]x E, r' = E^T v. *)
Definition moves (X : R -> PT) (t : R) (V : SV) : Prop :=
  derivM (fun s => rotE (X s)) t (mmul (mscale (-1) (mcross (sang V))) (rotE (X t))) /\
  derivV (fun s => trR (X s)) t (mapp (mtr (rotE (X t))) (slin V)).

(** Coefficient i of a vector of parameters. *)
Definition co (q : list R) (i : nat) : R := nth i q 0.

(** The kinematic law of a joint type: the rate of the parameters q for the joint
    velocity a. One number per parameter. Spherical and free joints: quaternion product
    1/2 q (0, w), and the translation is expressed in the parent frame. Planar: the
    translation is expressed in the rotated frame. *)
Definition qrate (t : jtype) (q a : list R) : list R :=
  let quat w1 w2 w3 :=
    [ - (co q 1 * w1 + co q 2 * w2 + co q 3 * w3) / 2;
      (co q 0 * w1 + co q 2 * w3 - co q 3 * w2) / 2;
      (co q 0 * w2 + co q 3 * w1 - co q 1 * w3) / 2;
      (co q 0 * w3 + co q 1 * w2 - co q 2 * w1) / 2 ] in
  match t with
  | Rev | Prism => [co a 0]
  | Cylindrical => [co a 0; co a 1]
  | Planar => [co a 0; co a 1 + co a 0 * co q 2; co a 2 - co a 0 * co q 1]
  | Spherical => quat (co a 0) (co a 1) (co a 2)
  | Free =>
      let v := mapp (mtr (QuatToE (co q 0) (co q 1) (co q 2) (co q 3))) (mkV3 (co a 3) (co a 4) (co a 5)) in
      quat (co a 0) (co a 1) (co a 2) ++ [vx v; vy v; vz v]
  | Fixed => []
  end.
(** The parameters q(s) of a joint follow its kinematic law at time t with velocity a. *)
Definition follows (j : Joint) (q : R -> list R) (t : R) (a : list R) : Prop :=
  forall i, (i < jparams j)%nat ->
    derivable_pt_lim (fun s => co (q s) i) t (co (qrate (jtyp j) (q t) a) i).

(** Joints whose velocity is that of their pose: every forward joint, and the reversed
    revolute, prismatic, cylindrical and fixed ones. *)
Definition regular (j : Joint) : Prop :=
  jfwd j = true \/ jtyp j = Rev \/ jtyp j = Prism \/ jtyp j = Cylindrical \/ jtyp j = Fixed.
