(** C95: fixing joints is holding them at zero. *)
From Coq Require Import Reals String ZArith Bool Arith List.
From Verif Require Import Res SMap Vec Sva Mat JointM MultiBodyM KinM DynM CoMM MomM GraphM Spec SpecDyn SpecGraph SpecGraphOp SpecHold Ex DynExP
  GraphTopP GraphExP GraphOpExP GraphCopyP GraphCopyExP GraphFixP HoldTopP HoldExP TurnMomP.
Import ListNotations.
Open Scope R_scope.

(** C95: a robot some of whose joints are held still at their identity pose has the poses, velocities, accelerations
    and centre of mass of the robot in which these joints are fixed. *)
Theorem C95_kinematics : forall mb mb' m0 m0', wf_mb mb -> wf_mb mb' -> same_tree mb mb' -> mbc_ok mb m0 -> mbc_ok mb' m0' ->
  held_state mb m0 mb' m0' ->
  exists m m', after_kinematics mb m0 m /\ after_kinematics mb' m0' m' /\
    bodyPosW m' = bodyPosW m /\ bodyVelB m' = bodyVelB m /\ bodyVelW m' = bodyVelW m /\
    computeCoM mb' m' = computeCoM mb m /\ computeCoMVelocity mb' m' = computeCoMVelocity mb m /\
    forall A0, exists n n', forwardAcceleration mb m A0 = Ok n /\ forwardAcceleration mb' m' A0 = Ok n' /\ bodyAccB n' = bodyAccB n.
Proof. exact held_kinematics. Qed.
Print Assumptions C95_kinematics.
Example C95_kinematics_applies : wf_mb ex_mb /\ wf_mb exh_mb /\ same_tree ex_mb exh_mb /\ mbc_ok ex_mb exh_m /\ mbc_ok exh_mb exh_m' /\
  held_state ex_mb exh_m exh_mb exh_m' /\ nth 3 (mb_joints exh_mb) jd <> nth 3 (mb_joints ex_mb) jd.
Proof.
  split; [exact ex_wf|]. split; [exact exh_wf|]. split; [exact exh_tree|]. split; [exact exh_ok|]. split; [exact exh_ok'|].
  split; [exact exh_held|exact (proj1 exh_moves)].
Qed.
(** ... and the joints that are not fixed have the same torques, the same mass matrix entries and the same bias. *)
Theorem C95_dynamics : forall mb mb' m0 m m0' m' f f' s s', wf_mb mb -> wf_mb mb' -> rigid_mb mb -> rigid_mb mb' -> same_tree mb mb' ->
  mbc_ok mb m0 -> config_ok mb m0 -> mbc_ok mb' m0' -> held_state mb m0 mb' m0' ->
  after_kinematics mb m0 m -> after_kinematics mb' m0' m' ->
  length f = nrBodies mb -> length f' = nrBodies mb' -> fd_ok mb s -> fd_ok mb' s' ->
  exists g n g' n' h h' c c', inverseDynamics mb f m = Ok (g, n) /\ inverseDynamics mb' f' m' = Ok (g', n') /\
    computeH mb m s = Ok h /\ computeH mb' m' s' = Ok h' /\ computeC mb m s = Ok c /\ computeC mb' m' s' = Ok c' /\
    bodyAccB n' = bodyAccB n /\ g' = g /\
    forall i, (i < nrBodies mb)%nat -> nth i (mb_joints mb') jd = nth i (mb_joints mb) jd ->
      nth i (jointTorque n') [] = nth i (jointTorque n) [] /\
      (forall a, (a < dofi mb i)%nat -> nth (pos mb' i + a) (fd_C c') 0 = nth (pos mb i + a) (fd_C c) 0) /\
      (forall j a b, (j < nrBodies mb)%nat -> nth j (mb_joints mb') jd = nth j (mb_joints mb) jd -> (a < dofi mb i)%nat -> (b < dofi mb j)%nat ->
         ment (fd_H h') (pos mb' i + a) (pos mb' j + b) = ment (fd_H h) (pos mb i + a) (pos mb j + b)).
Proof. exact held_dynamics. Qed.
Print Assumptions C95_dynamics.
Example C95_dynamics_applies : rigid_mb ex_mb /\ rigid_mb exh_mb /\ config_ok ex_mb exh_m /\ held_state ex_mb exh_m exh_mb exh_m' /\
  mb_nrDof ex_mb = 11%nat /\ mb_nrDof exh_mb = 8%nat.
Proof.
  split; [exact ex_rigid|]. split; [exact exh_rigid|]. split; [exact exh_config|]. split; [exact exh_held|exact (proj2 exh_moves)].
Qed.
(** fixJoints with a list of joints makes such a robot: with these joints at zero, the robot made from the graph and the
    one made from the graph with fixed joints are in the relation of the two theorems above. *)
Theorem C95_fix_joints : forall (s : GSt) names fuel root t axis X0 Xb mb, names_ok_g s -> links_inside s ->
  (forall n, In n names -> In n (joint_names s)) -> makeMultiBody fuel root t axis X0 Xb s = Ok mb -> wf_mb mb ->
  exists s' mb', fixJoints (snd s) names false (fst s) = Ok s' /\ makeMultiBody fuel root t axis X0 Xb s' = Ok mb' /\
    wf_mb mb' /\ (rigid_mb mb -> rigid_mb mb') /\ same_tree mb mb' /\
    (forall i, (i < nrBodies mb)%nat -> i = 0%nat \/ ~ In (jname (nth i (mb_joints mb) jd)) names -> nth i (mb_joints mb') jd = nth i (mb_joints mb) jd) /\
    forall m0 m0', gravity m0' = gravity m0 -> force m0' = force m0 ->
      (forall i, (i < nrBodies mb)%nat -> i = 0%nat \/ ~ In (jname (nth i (mb_joints mb) jd)) names ->
         nth i (q m0') [] = nth i (q m0) [] /\ nth i (alpha m0') [] = nth i (alpha m0) [] /\ nth i (alphaD m0') [] = nth i (alphaD m0) []) ->
      (forall i, (0 < i < nrBodies mb)%nat -> In (jname (nth i (mb_joints mb) jd)) names ->
         let j := nth i (mb_joints mb) jd in jmimic j = false /\ nth i (q m0) [] = zeroParam j /\ nth i (alpha m0) [] = zeroDof j /\ nth i (alphaD m0) [] = zeroDof j) ->
      held_state mb m0 mb' m0'.
Proof. exact fix_held. Qed.
Print Assumptions C95_fix_joints.
Example C95_fix_joints_applies : names_ok_g exg /\ links_inside exg /\ In "neck"%string (joint_names exg) /\
  exists mb, makeMultiBody 5 "base" Fixed unitZ ptid ptid exg = Ok mb /\ wf_mb mb.
Proof.
  destruct (gok_inside _ exg_gok) as (A & B). split; [exact A|]. split; [exact B|]. split; [cbn; auto|].
  destruct exg_gok as (G & CF).
  destruct (graph_tree exg "base" 0 Fixed unitZ ptid ptid 5 G CF eq_refl ltac:(apply Nat.leb_le; reflexivity)) as (mb & ord & bs & E & _ & H).
  exists mb. split; [exact E|]. apply H. intros x e Hx He. destruct (exg_joints x e Hx He) as (ax & _ & Hb). exists ax. exact Hb.
Qed.
(** ... and a robot with held joints has the acceleration of the centre of mass, the centroidal momentum and the rate of the
    momentum of the robot in which these joints are fixed. *)
Theorem C95_momentum : forall mb mb' m0 m m0' m' A0, wf_mb mb -> wf_mb mb' -> same_tree mb mb' -> mbc_ok mb m0 -> mbc_ok mb' m0' -> held_state mb m0 mb' m0' ->
  after_kinematics mb m0 m -> after_kinematics mb' m0' m' ->
  exists n n', forwardAcceleration mb m A0 = Ok n /\ forwardAcceleration mb' m' A0 = Ok n' /\
    computeCoMAcceleration mb' n' = computeCoMAcceleration mb n /\
    (forall com, computeCentroidalMomentum mb' n' com = computeCentroidalMomentum mb n com) /\
    (forall com comDot, computeCentroidalMomentumDot mb' n' com comDot = computeCentroidalMomentumDot mb n com comDot).
Proof. exact held_momentum. Qed.
Print Assumptions C95_momentum.
Example C95_momentum_applies : same_tree ex_mb exh_mb /\ held_state ex_mb exh_m exh_mb exh_m' /\
  exists m m', after_kinematics ex_mb exh_m m /\ after_kinematics exh_mb exh_m' m'.
Proof.
  split; [exact exh_tree|]. split; [exact exh_held|].
  destruct (held_kinematics ex_mb exh_mb exh_m exh_m' ex_wf exh_wf exh_tree exh_ok exh_ok' exh_held) as (m & m' & A & A' & _).
  exists m, m'. split; [exact A|exact A'].
Qed.
