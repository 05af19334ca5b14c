(** C01, C02, C03, C05: forward kinematics. *)
From Coq Require Import Reals String ZArith Bool Arith List.
From Verif Require Import Res Vec Sva Mat JointM MultiBodyM KinM Spec Ex KinFinP.
Import ListNotations.
Open Scope R_scope.

(** C01: forwardKinematics succeeds on every well-formed multibody and well-shaped
    configuration. The world pose of body i is the composition, from the root to i, of
    (joint pose at q) * (fixed joint placement). Only kinematic outputs change. *)
Theorem C01_forward_kinematics_path : forall mb m, wf_mb mb -> mbc_ok mb m ->
  exists m', forwardKinematics mb m = Ok m' /\ mbc_ok mb m' /\
    (forall P, (forall k j qk Xt, nth_error (mb_joints mb) k = Some j -> nth_error (q m) k = Some qk ->
                  nth_error (mb_Xt mb) k = Some Xt ->
                  exists Xj, pose j qk = Ok Xj /\ P k = ptmul Xj Xt) ->
     forall i path, root_path mb i path -> nth_error (bodyPosW m') i = Some (chain P path)) /\
    q m' = q m /\ alpha m' = alpha m /\ alphaD m' = alphaD m /\ force m' = force m /\
    jointVelocity m' = jointVelocity m /\ jointTorque m' = jointTorque m /\
    bodyVelW m' = bodyVelW m /\ bodyVelB m' = bodyVelB m /\ bodyAccB m' = bodyAccB m /\
    gravity m' = gravity m.
Proof. exact FK_paths. Qed.
Print Assumptions C01_forward_kinematics_path.
Example C01_applies : exists m', forwardKinematics ex_mb ex_m = Ok m'.
Proof. destruct (C01_forward_kinematics_path _ _ ex_wf ex_mbc_ok) as (m' & E & _). eauto. Qed.
Example C01_path : root_path ex_mb 2 [0; 1; 2]%nat.
Proof. apply (rp_step ex_mb 2 1 [0; 1]%nat eq_refl). apply (rp_step ex_mb 1 0 [0]%nat eq_refl). now constructor. Qed.

(** C02: with unit axes, rigid placements and unit quaternions, every rotation produced is
    a rotation matrix. *)
Theorem C02_poses_are_rigid : forall mb m m', wf_mb mb -> rigid_mb mb -> mbc_ok mb m -> config_ok mb m ->
  forwardKinematics mb m = Ok m' ->
  forall X, In X (bodyPosW m') \/ In X (parentToSon m') -> SO3 (rotE X).
Proof. exact FK_all_rigid. Qed.
Print Assumptions C02_poses_are_rigid.
Example C02_applies : exists m', forwardKinematics ex_mb ex_m = Ok m' /\
  forall X, In X (bodyPosW m') -> SO3 (rotE X).
Proof.
  destruct (C01_forward_kinematics_path _ _ ex_wf ex_mbc_ok) as (m' & E & _). exists m'. split; auto.
  intros X H. exact (C02_poses_are_rigid _ _ _ ex_wf ex_rigid ex_mbc_ok ex_config E X (or_introl H)).
Qed.

(** C03: after forwardKinematics, forwardVelocity gives body i the sum over the joints of
    its root path of (motion subspace * alpha) expressed in body i, and the same vector with
    world axes in bodyVelW. *)
Theorem C03_forward_velocity_path : forall mb m0 m1, wf_mb mb -> rigid_mb mb -> mbc_ok mb m0 -> config_ok mb m0 ->
  forwardKinematics mb m0 = Ok m1 ->
  exists m2, forwardVelocity mb m1 = Ok m2 /\ mbc_ok mb m2 /\
   (forall i path, root_path mb i path ->
     exists Vb, nth_error (bodyVelB m2) i = Some Vb /\
     (forall vj, (forall k j ak, nth_error (mb_joints mb) k = Some j -> nth_error (alpha m0) k = Some ak ->
                    vj k = smul (jS j) ak) ->
        Vb = path_sum (fun k => ptm (relX (bodyPosW m1) i k) (vj k)) path) /\
     exists X, nth_error (bodyPosW m1) i = Some X /\
       nth_error (bodyVelW m2) i =
         Some (mkSV (mapp (mtr (rotE X)) (sang Vb)) (mapp (mtr (rotE X)) (slin Vb)))) /\
   q m2 = q m1 /\ alpha m2 = alpha m1 /\ alphaD m2 = alphaD m1 /\ force m2 = force m1 /\
   jointConfig m2 = jointConfig m1 /\ motionSubspace m2 = motionSubspace m1 /\
   jointTorque m2 = jointTorque m1 /\ bodyPosW m2 = bodyPosW m1 /\
   parentToSon m2 = parentToSon m1 /\ bodyAccB m2 = bodyAccB m1 /\ gravity m2 = gravity m1.
Proof. exact FKV_paths. Qed.
Print Assumptions C03_forward_velocity_path.
Example C03_applies : exists m1 m2, forwardKinematics ex_mb ex_m = Ok m1 /\ forwardVelocity ex_mb m1 = Ok m2.
Proof.
  destruct (C01_forward_kinematics_path _ _ ex_wf ex_mbc_ok) as (m1 & E & _).
  destruct (C03_forward_velocity_path _ _ _ ex_wf ex_rigid ex_mbc_ok ex_config E) as (m2 & E2 & _). eauto.
Qed.

(** C05: after forwardKinematics and forwardVelocity, forwardAcceleration with base
    acceleration A0 gives body i the base acceleration seen from i plus, for each joint k of
    the root path, S_k alphaD_k + V_k x S_k alpha_k expressed in body i. Nothing else changes. *)
Theorem C05_forward_acceleration_path : forall mb m0 m1 m2 A0,
  wf_mb mb -> rigid_mb mb -> mbc_ok mb m0 -> config_ok mb m0 ->
  forwardKinematics mb m0 = Ok m1 -> forwardVelocity mb m1 = Ok m2 ->
  exists m3, forwardAcceleration mb m2 A0 = Ok m3 /\
   m3 = with_bodyAccB (bodyAccB m3) m2 /\
   (forall i path, root_path mb i path ->
     forall (aj vj : nat -> SV),
       (forall k j ak adk, nth_error (mb_joints mb) k = Some j ->
          nth_error (alpha m0) k = Some ak -> nth_error (alphaD m0) k = Some adk ->
          vj k = smul (jS j) ak /\ aj k = smul (jS j) adk) ->
     exists X, nth_error (bodyPosW m2) i = Some X /\
     nth_error (bodyAccB m3) i =
       Some (svadd (ptm X A0)
          (path_sum (fun k => ptm (relX (bodyPosW m2) i k)
              (svadd (aj k) (scross (nth k (bodyVelB m2) sv0) (vj k)))) path))).
Proof. exact FKVA_paths. Qed.
Print Assumptions C05_forward_acceleration_path.
Example C05_applies : exists m1 m2 m3, forwardKinematics ex_mb ex_m = Ok m1 /\
  forwardVelocity ex_mb m1 = Ok m2 /\ forwardAcceleration ex_mb m2 (mkSV v0 (mkV3 0 0 9)) = Ok m3.
Proof.
  destruct C03_applies as (m1 & m2 & E1 & E2).
  destruct (C05_forward_acceleration_path _ _ _ _ (mkSV v0 (mkV3 0 0 9)) ex_wf ex_rigid ex_mbc_ok ex_config E1 E2)
    as (m3 & E3 & _). eauto 10.
Qed.
