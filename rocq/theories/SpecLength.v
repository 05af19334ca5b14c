(** One robot and one state written in two units of length: numbers of lengths are [L] times as large, angles are the same. *)
From Coq Require Import Reals String ZArith Bool Arith List.
From Verif Require Import Res Vec Sva Mat JointM MultiBodyM Spec SpecUnits.
Import ListNotations.
Open Scope R_scope.

(** Linear velocities and accelerations are lengths, angular ones are not; moments are forces times lengths. *)
Definition pose_len (L : R) (X : PT) : PT := mkPT (rotE X) (vscale L (trR X)).
Definition motion_len (L : R) (v : SV) : SV := mkSV (sang v) (vscale L (slin v)).
Definition wrench_len (L : R) (f : SV) : SV := mkSV (vscale (L * L) (sang f)) (vscale L (slin f)).
Definition body_len (L : R) (b : Body) : Body :=
  mkBody (mkRBI (imass (binertia b)) (vscale L (imom (binertia b))) (sym_times (L * L) (iine (binertia b)))) (bname b).
(** Which numbers of the position and of the velocity of a joint are lengths. *)
Definition param_lengths (t : jtype) : list bool :=
  match t with
  | Rev => [false] | Prism => [true] | Spherical => [false; false; false; false] | Planar => [false; true; true]
  | Cylindrical => [false; true] | Free => [false; false; false; false; true; true; true] | Fixed => []
  end.
Definition dof_lengths (t : jtype) : list bool :=
  match t with
  | Rev => [false] | Prism => [true] | Spherical => [false; false; false] | Planar => [false; true; true]
  | Cylindrical => [false; true] | Free => [false; false; false; true; true; true] | Fixed => []
  end.
Definition as_length (L : R) (b : bool) : R := if b then L else 1.
Definition lengths_times (L : R) (d : list bool) (x : list R) : list R := map (fun e => as_length L (fst e) * snd e) (combine d x).
(** The torque of an angle is a force times a length (twice [L]: forces are masses times accelerations), that of a length is a force. *)
Definition as_torque (L : R) (b : bool) : R := if b then L else L * L.
Definition torques_times (L : R) (d : list bool) (x : list R) : list R := map (fun e => as_torque L (fst e) * snd e) (combine d x).
Record other_length (L : R) (mb : MultiBody) (m : MBC) (mb' : MultiBody) (m' : MBC) : Prop := {
  ol_bodies : mb_bodies mb' = map (body_len L) (mb_bodies mb);
  ol_joints : mb_joints mb' = mb_joints mb;
  ol_pred : mb_pred mb' = mb_pred mb;
  ol_Xt : mb_Xt mb' = map (pose_len L) (mb_Xt mb);
  ol_q : forall i j, nth_error (mb_joints mb) i = Some j -> nth i (q m') [] = lengths_times L (param_lengths (jtyp j)) (nth i (q m) []);
  ol_alpha : forall i j, nth_error (mb_joints mb) i = Some j -> nth i (alpha m') [] = lengths_times L (dof_lengths (jtyp j)) (nth i (alpha m) []);
  ol_alphaD : forall i j, nth_error (mb_joints mb) i = Some j -> nth i (alphaD m') [] = lengths_times L (dof_lengths (jtyp j)) (nth i (alphaD m) []);
  ol_gravity : gravity m' = vscale L (gravity m);
  ol_force : force m' = map (wrench_len L) (force m)
}.
