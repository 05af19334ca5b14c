(** C32-C35: joints. *)
From Coq Require Import Reals String ZArith Bool Arith Lra List.
From Verif Require Import Res Vec Sva Mat JointM MultiBodyM Spec Ex JointFinP.
Import ListNotations.
Open Scope R_scope.

(** C32: changing the direction of a joint inverts its pose, for every type with unit axis
    and unit quaternion. *)
Theorem C32_reversed_pose : forall j x X, joint_unit j -> q_ok j x -> pose j x = Ok X ->
  pose (set_forward j (negb (jfwd j))) x = Ok (ptinv X).
Proof. exact pose_reverse. Qed.
Print Assumptions C32_reversed_pose.
Example C32_applies : exists X, pose (mkJz Spherical false "neck") [0; 3/5; 0; 4/5] = Ok X /\
  pose (set_forward (mkJz Spherical false "neck") true) [0; 3/5; 0; 4/5] = Ok (ptinv X).
Proof.
  eexists. split; [reflexivity|]. apply (C32_reversed_pose (mkJz Spherical false "neck")).
  - apply ex_joint_unit. simpl. auto.
  - split; [reflexivity|]. unfold quat_unit; simpl. lra.
  - reflexivity.
Qed.
(** C32: changing it back restores the joint. *)
Theorem C32_reversing_twice : forall j, set_forward (set_forward j (negb (jfwd j))) (jfwd j) = j.
Proof. exact reverse_twice. Qed.
Print Assumptions C32_reversing_twice.
(** C32: for joints with one axis, the velocity of the reversed joint is the velocity of
    the inverse motion: the joint velocity seen from the other side, negated. *)
Theorem C32_reversed_motion_partial : forall j x a X V, joint_unit j ->
  (jtyp j = Rev \/ jtyp j = Prism \/ jtyp j = Cylindrical \/ jtyp j = Fixed) ->
  q_ok j x -> pose j x = Ok X -> motion j a = Ok V -> length a = jdof j ->
  motion (set_forward j (negb (jfwd j))) a = Ok (svscale (-1) (ptinvm X V)).
Proof. exact motion_reverse. Qed.
Print Assumptions C32_reversed_motion_partial.
Example C32_motion_applies : exists X V, pose (mkJ Cylindrical unitX true "c") [1; 2] = Ok X /\
  motion (mkJ Cylindrical unitX true "c") [3; 4] = Ok V /\
  motion (set_forward (mkJ Cylindrical unitX true "c") false) [3; 4] = Ok (svscale (-1) (ptinvm X V)).
Proof.
  eexists _, _. split; [reflexivity|]. split; [reflexivity|].
  apply (C32_reversed_motion_partial (mkJ Cylindrical unitX true "c") [1; 2]); auto.
  - exists unitX. split; [apply unitX_unit|constructor].
  - split; [reflexivity|exact I].
Qed.
(** C32: the other types break the velocity claim. *)
Theorem C32_reversed_motion_refuted : forall t, t = Spherical \/ t = Planar \/ t = Free ->
  exists j x a X V V', joint_unit j /\ jtyp j = t /\ jfwd j = true /\ q_ok j x /\ length a = jdof j /\
    pose j x = Ok X /\ motion j a = Ok V /\ motion (set_forward j false) a = Ok V' /\
    V' <> svscale (-1) (ptinvm X V).
Proof. exact reversal_refuted. Qed.
Print Assumptions C32_reversed_motion_refuted.

(** C33: params() and dof() are the sizes of zeroParam() and zeroDof(), and dof() the number
    of columns of the motion subspace, mimic or not. *)
Theorem C33_sizes : forall j, joint_ok j ->
  length (zeroParam j) = jparams j /\ length (zeroDof j) = jdof j /\ length (jS j) = jdof j.
Proof. exact sizes. Qed.
Print Assumptions C33_sizes.
(** C33: the zero configuration of a joint that mimics no other is its identity pose. *)
Theorem C33_zero_pose : forall j, joint_ok j -> jmimic j = false ->
  zeroParam j = ZeroParam (jtyp j) /\ pose j (zeroParam j) = Ok ptid.
Proof. exact pose_zero. Qed.
Print Assumptions C33_zero_pose.
Theorem C33_zero_motion : forall j, joint_ok j -> motion j (zeroDof j) = Ok sv0 /\ tanAccel j (zeroDof j) = Ok sv0.
Proof. exact motion_zero. Qed.
Print Assumptions C33_zero_motion.
Example C33_applies : joint_ok (mkJ Cylindrical (mkV3 1 2 3) false "c") /\ jmimic (mkJ Cylindrical (mkV3 1 2 3) false "c") = false.
Proof. split; [exists (mkV3 1 2 3); constructor|reflexivity]. Qed.

(** C34: exactly when the zero configuration of a mimic joint is valid. *)
Theorem C34_mimic_zero_partial : forall j, joint_ok j -> jmimic j = true ->
  (q_ok j (zeroParam j) <->
   match jtyp j with Spherical | Free => jmimicOff j = 0 \/ jmimicOff j = - (1/2) | _ => True end).
Proof. exact mimic_zero. Qed.
Print Assumptions C34_mimic_zero_partial.
(** C34: so the claim is false for spherical and free joints. *)
Theorem C34_mimic_zero_refuted : forall t, t = Spherical \/ t = Free ->
  exists j, joint_unit j /\ jtyp j = t /\ jmimic j = true /\ ~ q_ok j (zeroParam j).
Proof.
  intros t T. exists (makeMimic (mkJz t true "a") "b" 1 1).
  split; [exists unitZ; split; [apply unitZ_unit|constructor; constructor]|].
  split; [reflexivity|]. split; [reflexivity|].
  rewrite C34_mimic_zero_partial; [|exists unitZ; constructor; constructor|reflexivity].
  destruct T; subst t; simpl; lra.
Qed.
Print Assumptions C34_mimic_zero_refuted.
Example C34_applies : joint_ok (makeMimic (mkJ Rev unitX true "a") "b" 2 3) /\ jmimic (makeMimic (mkJ Rev unitX true "a") "b" 2 3) = true.
Proof. split; [exists unitX; constructor; constructor|reflexivity]. Qed.

(** C35: the safe functions throw exactly on a wrong length and otherwise agree with the
    unchecked ones, which then succeed. *)
Theorem C35_safe_joint_functions : forall j x a, joint_ok j ->
  (length x = jparams j -> sPose j x = pose j x /\ exists X, pose j x = Ok X) /\
  (length x <> jparams j -> sPose j x = Throw DomainError) /\
  (length a = jdof j -> sMotion j a = motion j a /\ sTanAccel j a = tanAccel j a /\
     (exists V, motion j a = Ok V) /\ exists A, tanAccel j a = Ok A) /\
  (length a <> jdof j -> sMotion j a = Throw DomainError /\ sTanAccel j a = Throw DomainError).
Proof. exact safe_joint. Qed.
Print Assumptions C35_safe_joint_functions.
Example C35_applies : sPose (mkJz Free true "f") [1; 2] = Throw DomainError.
Proof. apply (C35_safe_joint_functions _ _ []); [exists unitZ; constructor|discriminate]. Qed.
