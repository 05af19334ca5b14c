(** Vocabulary for the statements about the readers and writers of robot descriptions. *)
From Coq Require Import Reals String Ascii ZArith Bool Arith List.
From Verif Require Import Res SMap Vec Sva JointM MultiBodyM GraphM ParserM YamlM.
Import ListNotations.
Open Scope R_scope.

(** ** Strings. *)
Definition starts_with (p s : string) : Prop := exists t, s = append p t.
Fixpoint has_char (c : Ascii.ascii) (s : string) : Prop :=
  match s with EmptyString => False | String a s => a = c \/ has_char c s end.
(** The part of a path after its last dot, the whole path when there is none. *)
Definition extension (path ext : string) : Prop :=
  ~ has_char "."%char ext /\ (path = ext \/ exists stem, path = append stem (append "." ext)).

(** ** Rotations. *)
(** Rotation about X by r, then about the rotated Y by p, then about the rotated Z by y. *)
Definition euler_xyz (r p y : R) : M3 := mmul (mmul (angleAxis r unitX) (angleAxis p unitY)) (angleAxis y unitZ).
(** Roll, pitch and yaw of URDF: about the fixed axes X, Y, Z in this order. *)
Definition euler_zyx (r p y : R) : M3 := mmul (mmul (angleAxis y unitZ) (angleAxis p unitY)) (angleAxis r unitX).
(** Eigen's eulerAngles(0, 1, 2). *)
Definition euler_ok (euler : M3 -> V3) : Prop :=
  forall M, SO3 M -> M = euler_xyz (vx (euler M)) (vy (euler M)) (vz (euler M)).
(** ** Numbers. *)
(** Zero, or large enough not to be taken for zero. *)
Definition visible (v : V3) : Prop :=
  v = v0 \/ 1 / 1000000000000 < Rabs (vx v) \/ 1 / 1000000000000 < Rabs (vy v) \/ 1 / 1000000000000 < Rabs (vz v).
Definition visible_sym (s : Sym3) : Prop :=
  exists x, In x [sxx s; sxy s; sxz s; syy s; syz s; szz s] /\ 1 / 1000000000000 < Rabs x.
(** A number of at most six significant decimal digits. *)
Definition six_digits (x : R) : Prop := exists m e : Z, (Z.abs m < 1000000)%Z /\ x = IZR m * powerRZ 10 e.
(** Texts of numbers that give the same number back. *)
Definition exact_text (W : Writer) : Prop := forall x, w_num W x = x.
(** Degrees to radians. *)
Definition radians (d : dbl) : dbl := match d with Fin x => Fin (x * PI / 180) | _ => d end.
(** ** Frames. *)
(** The transform of a frame of a YAML document. *)
Definition yaml_pt (deg : bool) (f : option YFrame) : res PT :=
  v <- parseFrame deg f ;; Ok (mkPT (MatrixFromRPY (vx (snd v)) (vy (snd v)) (vz (snd v))) (fst v)).
(** ** Limits. *)
(** A number, or a sequence of numbers, where a document may give one. *)
Definition given1 (o : option dbl) : option (yv dbl) := option_map YNum o.
Definition givenv (o : option (list dbl)) : option (yv dbl) := option_map (fun l => YSeq (map YNum l)) o.
Definition unit_of (degrees : bool) (d : dbl) : dbl := if degrees then radians d else d.
Definition short (n : nat) (o : option (yv dbl)) : Prop := exists l, o = Some (YSeq l) /\ (List.length l < n)%nat.
(** ** Joints: the same in everything but the direction flag. *)
Definition same_joint (j j' : Joint) : Prop :=
  jtyp j = jtyp j' /\ jS j = jS j' /\ jparams j = jparams j' /\ jdof j = jdof j' /\ jname j = jname j' /\
  jmimic j = jmimic j' /\ jmimicName j = jmimicName j' /\ jmimicMul j = jmimicMul j' /\ jmimicOff j = jmimicOff j'.
(** The joints a URDF file can describe. *)
Definition urdf_joint (suffix : string) (j : Joint) : Prop :=
  match jtyp j with
  | Rev | Prism => True
  | Fixed => jmimic j = false
  | Free => jfwd j = true /\ ends_with (jname j) suffix = false
  | _ => False
  end.
