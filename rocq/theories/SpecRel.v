(** Vocabulary for the statements about Jacobians relative to a body. *)
From Coq Require Import Reals String ZArith Bool Arith List.
From Verif Require Import Res Vec Sva Mat JointM MultiBodyM JacM Spec SpecJac.
Import ListNotations.
Open Scope R_scope.

(** Only body 0 is attached to the world. This is what makeMultiBody produces. *)
Definition one_root (mb : MultiBody) : Prop := forall i, nth_error (mb_pred mb) i = Some (-1)%Z -> i = 0%nat.
(** Pose of a body placed at Xb with respect to one placed at Xr, and its velocity (in coordinates
    of the first body) when the two bodies have velocities Vb and Vr. *)
Definition relative_pose (Xb Xr : PT) : PT := ptmul Xb (ptinv Xr).
Definition relative_velocity (Xb Xr : PT) (Vb Vr : SV) : SV := svsub Vb (ptm (relative_pose Xb Xr) Vr).
(** Change of axes of a velocity. *)
Definition turn (E : M3) (V : SV) : SV := mkSV (mapp E (sang V)) (mapp E (slin V)).

(** J has been built for the body called [name] relative to the one called [ref], and its matrices
    may have been computed since. *)
Definition built_relative (mb : MultiBody) (name ref : string) (p : V3) (J : Jac) : Prop :=
  exists g J0, Jacobian_ref_ctor g mb name ref p = Ok J0 /\
    jc_path J = jc_path J0 /\ jc_sign J = jc_sign J0 /\ jc_point J = jc_point J0 /\
    length (jc_jac J) = length (jc_jac J0) /\ length (jc_dot J) = length (jc_dot J0) /\
    jc_body J = jc_body J0 /\ jc_ref J = jc_ref J0.

(** The reference is an ancestor of the body, or they have a common ancestor other than the root,
    or the joint of the root is fixed. *)
Definition joined (mb : MultiBody) (b r : nat) : Prop :=
  anc mb r b \/ (exists c, c <> 0%nat /\ anc mb c b /\ anc mb c r) \/ (forall j, nth_error (mb_joints mb) 0 = Some j -> jdof j = 0%nat).
(** The reference is not an ancestor of the body, and the root is their only common ancestor. *)
Definition meets_root (mb : MultiBody) (b r : nat) : Prop := ~ anc mb r b /\ forall c, anc mb c b -> anc mb c r -> c = 0%nat.
