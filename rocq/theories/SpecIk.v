(** Vocabulary for inverse kinematics. *)
From Coq Require Import Reals ZArith Bool List.
From Verif Require Import Res Vec Sva Mat JointM MultiBodyM KinM JacM Spec SpecDeriv SpecJac.
Import ListNotations.
Open Scope R_scope.

Section Gap.
(** The rotation error used, and the least-squares solver: any functions. *)
Variable svd : list SV -> SV -> list R.
Variable rotErr : M3 -> M3 -> V3.
(** What separates the pose X from the target: rotation error, then translation; its norm. *)
Definition gap (target X : PT) : SV := mkSV (rotErr (rotE X) (rotE target)) (vsub (trR target) (trR X)).
Definition gap_norm (target X : PT) : R :=
  let g := gap target X in
  sqrt (vx (sang g) * vx (sang g) + vy (sang g) * vy (sang g) + vz (sang g) * vz (sang g) +
        (vx (slin g) * vx (slin g) + vy (slin g) * vy (slin g) + vz (slin g) * vz (slin g))).
(** A number closer to 0 than z becomes 0. *)
Definition flush (z x : R) : R := if Rlt_dec (Rabs x) z then 0 else x.
Definition flush_col (z : R) (c : SV) : SV :=
  mkSV (mkV3 (flush z (vx (sang c))) (flush z (vy (sang c))) (flush z (vz (sang c))))
       (mkV3 (flush z (vx (slin c))) (flush z (vy (slin c))) (flush z (vz (slin c)))).
(** From configuration m to m': each parameter of a joint of the path gets lambda times its entry
    of the solution of (flushed Jacobian) r = gap, in the order of the path; the other joints do
    not move; then forward kinematics and velocity are run. *)
Definition newton (mb : MultiBody) (i : nat) (J : Jac) (lambda z : R) (target : PT) (m m' : MBC) : Prop :=
  exists J1 X, jacobian mb m J = Ok J1 /\ nth_error (bodyPosW m) i = Some X /\
    let r := svd (map (flush_col z) (jc_jac J1)) (gap target X) in
    map (@length R) (q m') = map (@length R) (q m) /\
    (forall d, (d < path_dof mb (jc_path J))%nat -> co (on_path (jc_path J) (q m')) d = co (on_path (jc_path J) (q m)) d + lambda * co r d) /\
    (forall k, ~ In k (jc_path J) -> nth k (q m') [] = nth k (q m) []) /\
    exists mk, forwardKinematics mb (with_q (q m') m) = Ok mk /\ forwardVelocity mb mk = Ok m'.
(** The distance from body i to the target in configuration m. *)
Definition far (i : nat) (target : PT) (m : MBC) : R := gap_norm target (nth i (bodyPosW m) ptid).
End Gap.
(** As many parameters as degrees of freedom: neither spherical nor free. *)
Definition plain (t : jtype) : Prop := t <> Spherical /\ t <> Free.
