(** C41, C54, C55, C71: inverse kinematics. *)
From Coq Require Import Reals String ZArith Bool Arith List.
From Verif Require Import Res Vec Sva Mat JointM MultiBodyM KinM JacM IkM Spec SpecDeriv SpecJac SpecIk Ex KinP KinFinP JacExP IkP IkExP.
Import ListNotations.
Open Scope R_scope.

(** C54: let the path from the root to body i hold no spherical and no free joint, and let the
    solver return one number per column. Then inverseKinematics returns. It ran forward kinematics
    and then k <= max_iterations_ updates; every update adds lambda_ times the solution to the
    parameters, in path order. It stopped at the first iteration that found the body nearer to the
    target than the threshold, and the flag is true exactly when its last iteration did. The object
    can be used again.
    Partial: with a spherical or free joint on the path, C55_curved_joints_refuted applies. *)
Theorem C54_bounded_partial : forall svd rotErr mb i I target m fuel,
  (forall A v, length (svd A v) = length A) ->
  wf_mb mb -> mbc_ok mb m -> jacobian_of mb i v0 (ik_jac I) -> ik_ef I = Z.of_nat i ->
  (forall k, In k (jc_path (ik_jac I)) -> plain (jtyp (nth k (mb_joints mb) jd))) ->
  (Z.to_nat (ik_max I) <= fuel)%nat ->
  exists I' m' b (ms : nat -> MBC) k,
    inverseKinematics svd rotErr fuel mb target I m = Ok (I', m', b) /\
    mbc_ok mb m' /\ same_ik I I' /\ jacobian_of mb i v0 (ik_jac I') /\
    (k <= Z.to_nat (ik_max I))%nat /\ (b = false -> k = Z.to_nat (ik_max I)) /\
    forwardKinematics mb m = Ok (ms 0%nat) /\ ms k = m' /\
    (forall t, (t < k)%nat -> newton svd rotErr mb i (ik_jac I) (ik_lambda I) (ik_zero I) target (ms t) (ms (S t))) /\
    (forall t, (S t < k)%nat -> ik_threshold I <= far rotErr i target (ms t)) /\
    (b = true <-> exists t, k = S t /\ far rotErr i target (ms t) < ik_threshold I).
Proof. exact ik_bounded. Qed.
Print Assumptions C54_bounded_partial.
(** C54: objects for body i, built when no other body has its name first, are as above. *)
Theorem C54_constructed : forall g mb i b, wf_mb mb -> nth_error (mb_bodies mb) i = Some b ->
  sBodyIndexByName mb (bname b) = Ok (Z.of_nat i) ->
  exists I, IK_ctor g mb (Z.of_nat i) = Ok I /\ jacobian_of mb i v0 (ik_jac I) /\ ik_ef I = Z.of_nat i /\ ik_max I = 50%Z.
Proof. exact ctor_ik. Qed.
Print Assumptions C54_constructed.
(** C54: the flag speaks of the pose before the last update. A call may return true and leave the
    body at the threshold or further away (the distance is exactly 1 here and the threshold 1). *)
Theorem C54_final_pose_refuted : exists svd rotErr mb i I target m fuel I' m',
  (forall A v, length (svd A v) = length A) /\ wf_mb mb /\ mbc_ok mb m /\ jacobian_of mb i v0 (ik_jac I) /\ ik_ef I = Z.of_nat i /\
  (forall k, In k (jc_path (ik_jac I)) -> plain (jtyp (nth k (mb_joints mb) jd))) /\
  inverseKinematics svd rotErr fuel mb target I m = Ok (I', m', true) /\ ik_threshold I <= far rotErr i target m'.
Proof.
  destruct (exs_flag 50 (le_n 50)) as (I' & m' & H).
  exact (ex_intro _ exk_svd (ex_intro _ exk_err (ex_intro _ exs_mb (ex_intro _ 0%nat (ex_intro _ exs_I (ex_intro _ exs_target (ex_intro _ exs_m (ex_intro _ 50%nat (ex_intro _ I' (ex_intro _ m'
    (conj exk_svd_len (conj exs_wf (conj exs_mbc_ok (conj exs_J_of (conj eq_refl (conj exs_plain H)))))))))))))))).
Qed.
Print Assumptions C54_final_pose_refuted.
Example C54_applies : wf_mb exk_mb /\ mbc_ok exk_mb exk_m /\ IK_ctor (fun _ _ => sv0) exk_mb 1 = Ok exk_I /\ jacobian_of exk_mb 1 v0 (ik_jac exk_I) /\
  jc_path (ik_jac exk_I) = [0; 1]%nat /\ (forall k, In k (jc_path (ik_jac exk_I)) -> plain (jtyp (nth k (mb_joints exk_mb) jd))) /\ (forall A v, length (exk_svd A v) = length A).
Proof. exact (conj exk_wf (conj exk_mbc_ok (conj exk_ctor (conj exk_J_of (conj eq_refl (conj exk_plain exk_svd_len)))))). Qed.

(** C55: as soon as the path holds a spherical or a free joint, the first iteration reads the
    solution beyond its end: these joints have one more parameter than degrees of freedom. *)
Theorem C55_curved_joints_refuted : forall svd rotErr mb i I target m fuel,
  (forall A v, length (svd A v) = length A) ->
  wf_mb mb -> mbc_ok mb m -> jacobian_of mb i v0 (ik_jac I) -> ik_ef I = Z.of_nat i ->
  (0 < ik_max I)%Z -> (0 < fuel)%nat ->
  forall k, In k (jc_path (ik_jac I)) -> ~ plain (jtyp (nth k (mb_joints mb) jd)) ->
  inverseKinematics svd rotErr fuel mb target I m = UB.
Proof. exact ik_curved. Qed.
Print Assumptions C55_curved_joints_refuted.
(** The hand of the example robot: its path starts with the free joint of the base. *)
Example C55_applies : exists J, wf_mb ex_mb /\ mbc_ok ex_mb ex_m /\ Jacobian_ctor (fun _ _ => sv0) ex_mb "hand"%string v0 = Ok J /\ jacobian_of ex_mb 2 v0 J /\
  In 0%nat (jc_path J) /\ ~ plain (jtyp (nth 0 (mb_joints ex_mb) jd)).
Proof. exact ex_hand_curved. Qed.

(** C71: when the body is on the target already, one iteration is made, the flag is true and
    neither the joints nor the bodies move. *)
Theorem C71_on_target : forall svd rotErr mb i I target m m0 fuel,
  (forall A v, length (svd A v) = length A) ->
  wf_mb mb -> mbc_ok mb m -> jacobian_of mb i v0 (ik_jac I) -> ik_ef I = Z.of_nat i ->
  (forall k, In k (jc_path (ik_jac I)) -> plain (jtyp (nth k (mb_joints mb) jd))) ->
  (Z.to_nat (ik_max I) <= fuel)%nat ->
  (forall A d, co (svd A sv0) d = 0) -> rotErr (rotE target) (rotE target) = v0 -> (0 < ik_max I)%Z -> 0 < ik_threshold I ->
  forwardKinematics mb m = Ok m0 -> nth i (bodyPosW m0) ptid = target ->
  exists I' m', inverseKinematics svd rotErr fuel mb target I m = Ok (I', m', true) /\ q m' = q m /\ bodyPosW m' = bodyPosW m0.
Proof. exact ik_at_target. Qed.
Print Assumptions C71_on_target.
Example C71_applies : exists m0, forwardKinematics exk_mb exk_m = Ok m0 /\ (forall A d, co (exk_svd A sv0) d = 0) /\ exk_err (rotE (nth 1 (bodyPosW m0) ptid)) (rotE (nth 1 (bodyPosW m0) ptid)) = v0 /\
  (0 < ik_max exk_I)%Z /\ 0 < ik_threshold exk_I.
Proof. exact exk_on_target. Qed.

(** C41: sInverseKinematics is inverseKinematics on a configuration of the right sizes ... *)
Theorem C41_safe_inverse_kinematics_partial : forall svd rotErr mb I target m fuel, wf_mb mb -> mbc_ok mb m ->
  sInverseKinematics svd rotErr fuel mb target I m = inverseKinematics svd rotErr fuel mb target I m.
Proof. exact sIK_ok. Qed.
Print Assumptions C41_safe_inverse_kinematics_partial.
Example C41_applies : wf_mb exk_mb /\ mbc_ok exk_mb exk_m.
Proof. destruct C54_applies as (A & B & _). auto. Qed.
(** ... but it does not check alpha, which forwardVelocity reads. *)
Theorem C41_inverse_kinematics_refuted : exists svd rotErr mb I target m, wf_mb mb /\ jacobian_of mb 0 v0 (ik_jac I) /\
  (forall k, In k (jc_path (ik_jac I)) -> plain (jtyp (nth k (mb_joints mb) jd))) /\
  forall fuel, sInverseKinematics svd rotErr (S fuel) mb target I m = UB.
Proof.
  exact (ex_intro _ exk_svd (ex_intro _ exk_err (ex_intro _ exs_mb (ex_intro _ exs_I (ex_intro _ exs_target (ex_intro _ exs_bad (conj exs_wf (conj exs_J_of (conj exs_plain exs_unsafe))))))))).
Qed.
Print Assumptions C41_inverse_kinematics_refuted.
