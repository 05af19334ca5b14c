(** C36-C41: multibodies and configurations as containers. *)
From Coq Require Import Reals String ZArith Bool Arith Lia Lra List.
From Verif Require Import Res ResP Vec Sva Mat JointM MultiBodyM KinM DynM Spec SpecDyn SpecConf Ex DynExP DynCP MbP ConfFinP.
Import ListNotations.
Open Scope nat_scope.

(** C36: the parameter and dof ranges of the joints tile [0, nrParams) and [0, nrDof). *)
Theorem C36_positions_tile : forall bodies joints pred succ parent Xt mb, length joints = length bodies ->
  MultiBody_ctor bodies joints pred succ parent Xt = Ok mb ->
  mb_joints mb = joints /\ mb_bodies mb = bodies /\
  tiles (mb_posParam mb) (map jparams joints) (mb_nrParams mb) /\
  tiles (mb_posDof mb) (map jdof joints) (mb_nrDof mb).
Proof. exact ctor_tiles. Qed.
Print Assumptions C36_positions_tile.
Example C36_applies : tiles [0; 7; 8; 9] [7; 1; 1; 4] 13 /\ tiles [0; 6; 7; 8] [6; 1; 1; 3] 11.
Proof. exact (proj2 (proj2 (C36_positions_tile ex_bodies ex_joints _ _ _ _ _ eq_refl ex_ctor))). Qed.

(** C37: with distinct names, the index of a name is its position. *)
Theorem C37_index_by_name : forall bodies joints pred succ parent Xt mb, length joints = length bodies ->
  MultiBody_ctor bodies joints pred succ parent Xt = Ok mb ->
  NoDup (map bname bodies) -> NoDup (map jname joints) ->
  (forall i b, nth_error bodies i = Some b ->
     bodyIndexByName mb (bname b) = Ok (Z.of_nat i) /\ sBodyIndexByName mb (bname b) = Ok (Z.of_nat i)) /\
  (forall i j, nth_error joints i = Some j ->
     jointIndexByName mb (jname j) = Ok (Z.of_nat i) /\ sJointIndexByName mb (jname j) = Ok (Z.of_nat i)).
Proof. exact names_distinct. Qed.
Print Assumptions C37_index_by_name.
(** C37: the safe lookups throw out_of_range, and the unsafe ones are undefined, exactly on
    names that are not there. *)
Theorem C37_absent_names : forall bodies joints pred succ parent Xt mb, length joints = length bodies ->
  MultiBody_ctor bodies joints pred succ parent Xt = Ok mb ->
  forall n,
  (sBodyIndexByName mb n = Throw OutOfRange <-> ~ In n (map bname bodies)) /\
  (sJointIndexByName mb n = Throw OutOfRange <-> ~ In n (map jname joints)) /\
  (bodyIndexByName mb n = UB <-> ~ In n (map bname bodies)) /\
  (jointIndexByName mb n = UB <-> ~ In n (map jname joints)).
Proof. exact names_absent. Qed.
Print Assumptions C37_absent_names.
(** C37: without the assumption, a name designates the last element that bears it. *)
Theorem C37_last_of_duplicates : forall bodies joints pred succ parent Xt mb, length joints = length bodies ->
  MultiBody_ctor bodies joints pred succ parent Xt = Ok mb ->
  forall n i,
  (bodyIndexByName mb n = Ok (Z.of_nat i) <->
     nth_error (map bname bodies) i = Some n /\ forall k, i < k -> nth_error (map bname bodies) k <> Some n) /\
  (jointIndexByName mb n = Ok (Z.of_nat i) <->
     nth_error (map jname joints) i = Some n /\ forall k, i < k -> nth_error (map jname joints) k <> Some n).
Proof. exact names_duplicates. Qed.
Print Assumptions C37_last_of_duplicates.
Example C37_applies : bodyIndexByName ex_mb "hand" = Ok 2%Z /\ sJointIndexByName ex_mb "neck" = Ok 3%Z /\
  sBodyIndexByName ex_mb "foot" = Throw OutOfRange /\ bodyIndexByName ex_mb "foot" = UB.
Proof.
  pose proof (C37_index_by_name ex_bodies ex_joints _ _ _ _ _ eq_refl ex_ctor) as [B J].
  1,2: repeat constructor; simpl; intuition discriminate.
  pose proof (C37_absent_names ex_bodies ex_joints _ _ _ _ _ eq_refl ex_ctor "foot"%string) as (A & _ & U & _).
  split; [apply (B 2 _ eq_refl)|]. split; [apply (J 3 _ eq_refl)|].
  split; [apply A|apply U]; simpl; intuition discriminate.
Qed.

(** C38: paramToVector concatenates in joint order and vectorToParam undoes it, and conversely. *)
Theorem C38_param_round_trip : forall mb, wf_mb mb ->
  (forall g v, sized mb jparams v -> mbParamToVector g mb v = Ok (concat v) /\
     sMbParamToVector g mb v = Ok (concat v) /\ length (concat v) = mb_nrParams mb /\
     mbVectorToParam mb (concat v) = Ok v /\ sMbVectorToParam mb (concat v) = Ok v) /\
  (forall g e, length e = mb_nrParams mb -> exists v, mbVectorToParam mb e = Ok v /\ sMbVectorToParam mb e = Ok v /\
     sized mb jparams v /\ mbParamToVector g mb v = Ok e).
Proof. exact param_round_trip. Qed.
Print Assumptions C38_param_round_trip.
Theorem C38_dof_round_trip : forall mb, wf_mb mb ->
  (forall g v, sized mb jdof v -> mbDofToVector g mb v = Ok (concat v) /\
     sMbDofToVector g mb v = Ok (concat v) /\ length (concat v) = mb_nrDof mb /\
     mbVectorToDof mb (concat v) = Ok v /\ sMbVectorToDof mb (concat v) = Ok v) /\
  (forall g e, length e = mb_nrDof mb -> exists v, mbVectorToDof mb e = Ok v /\ sMbVectorToDof mb e = Ok v /\
     sized mb jdof v /\ mbDofToVector g mb v = Ok e).
Proof. exact dof_round_trip. Qed.
Print Assumptions C38_dof_round_trip.
(** C38: the safe conversions throw out_of_range exactly on a size mismatch. *)
Theorem C38_safe_throw : forall mb, wf_mb mb ->
  (forall g v, sMbParamToVector g mb v = Throw OutOfRange <-> ~ sized mb jparams v) /\
  (forall g v, sMbDofToVector g mb v = Throw OutOfRange <-> ~ sized mb jdof v) /\
  (forall e, sMbVectorToParam mb e = Throw OutOfRange <-> length e <> mb_nrParams mb) /\
  (forall e, sMbVectorToDof mb e = Throw OutOfRange <-> length e <> mb_nrDof mb).
Proof. exact conv_safe_throw. Qed.
Print Assumptions C38_safe_throw.
(** C38: the versions without a multibody, for any vector of vectors. *)
Theorem C38_plain_versions : forall v e,
  (length (concat v) = length e -> sParamToVector v e = Ok (concat v) /\ paramToVector v e = Ok (concat v) /\
     exists v', sVectorToParam e v = Ok v' /\ vectorToParam e v = Ok v' /\
       map (@length R) v' = map (@length R) v /\ concat v' = e) /\
  (length (concat v) <> length e -> sParamToVector v e = Throw OutOfRange /\ sVectorToParam e v = Throw OutOfRange).
Proof. exact conv_plain. Qed.
Print Assumptions C38_plain_versions.
Example C38_applies : sized ex_mb jparams (q ex_m) /\ sized ex_mb jdof (alpha ex_m) /\
  mbVectorToParam ex_mb (concat (q ex_m)) = Ok (q ex_m) /\ ~ sized ex_mb jdof (q ex_m).
Proof.
  pose proof ex_mbc_ok as K. destruct (C38_param_round_trip ex_mb ex_wf) as [A _].
  split; [apply K|]. split; [apply K|]. split; [apply (A (fun _ => 0%R) _ (ok_q _ _ K))|]. intros H. discriminate H.
Qed.

(** C39: a fresh configuration has the sizes of its multibody and passes every check. *)
Theorem C39_fresh_configuration : forall g mb, nrJoints mb = nrBodies mb ->
  mbc_ok mb (MBC_ctor g mb) /\
  let m := MBC_ctor g mb in
  checkMatchBodyPos mb m = Ok tt /\ checkMatchParentToSon mb m = Ok tt /\ checkMatchBodyVel mb m = Ok tt /\
  checkMatchBodyAcc mb m = Ok tt /\ checkMatchJointConf mb m = Ok tt /\ checkMatchJointVelocity mb m = Ok tt /\
  checkMatchJointTorque mb m = Ok tt /\ checkMatchMotionSubspace mb m = Ok tt /\ checkMatchQ mb m = Ok tt /\
  checkMatchAlpha mb m = Ok tt /\ checkMatchAlphaD mb m = Ok tt /\ checkMatchForce mb m = Ok tt.
Proof. exact fresh_ok. Qed.
Print Assumptions C39_fresh_configuration.
(** C39: its numbers are zeros (also those of quaternions), and gravity is 9.81 along y. *)
Theorem C39_fresh_values : forall g mb i j, nth_error (mb_joints mb) i = Some j ->
  let m := MBC_ctor g mb in
  (forall v, nth_error (q m) i = Some v -> length v = jparams j /\ forall x, In x v -> x = 0%R) /\
  (forall v, nth_error (alpha m) i = Some v \/ nth_error (alphaD m) i = Some v \/ nth_error (jointTorque m) i = Some v -> length v = jdof j /\ forall x, In x v -> x = 0%R) /\
  vx (gravity m) = 0%R /\ vy (gravity m) = (981 / 100)%R /\ vz (gravity m) = 0%R.
Proof. exact fresh_values. Qed.
Print Assumptions C39_fresh_values.
(** C39: zero(mb) writes the zero parameters, velocities, accelerations, torques and forces,
    and nothing else. *)
Theorem C39_zero : forall mb m, wf_mb mb -> mbc_ok mb m ->
  exists m', MBC_zero mb m = Ok m' /\ mbc_ok mb m' /\
    q m' = map zeroParam (mb_joints mb) /\
    alpha m' = map (fun j => repeat 0%R (jdof j)) (mb_joints mb) /\
    alphaD m' = map (fun j => repeat 0%R (jdof j)) (mb_joints mb) /\
    jointTorque m' = map (fun j => repeat 0%R (jdof j)) (mb_joints mb) /\
    force m' = repeat sv0 (nrBodies mb) /\
    jointConfig m' = jointConfig m /\ jointVelocity m' = jointVelocity m /\ motionSubspace m' = motionSubspace m /\
    bodyPosW m' = bodyPosW m /\ parentToSon m' = parentToSon m /\ bodyVelW m' = bodyVelW m /\
    bodyVelB m' = bodyVelB m /\ bodyAccB m' = bodyAccB m /\ gravity m' = gravity m.
Proof. exact zero_ok. Qed.
Print Assumptions C39_zero.
Example C39_applies : exists m', MBC_zero ex_mb ex_m = Ok m' /\
  q m' = [[1; 0; 0; 0; 0; 0; 0]; [0]; [0]; [1; 0; 0; 0]]%R.
Proof. destruct (C39_zero _ _ ex_wf ex_mbc_ok) as (m' & E & _ & H & _). exists m'. split; auto. Qed.

(** C40: convert copies q, alpha and alphaD of every joint but the first of [from] to the joint
    of [to] with the same name, the force of every body to the body with the same name, and
    changes nothing else. *)
Theorem C40_convert_by_name : forall from to_ mf mt,
  constructed from -> constructed to_ -> distinct_names from -> distinct_names to_ ->
  0 < nrJoints from ->
  (forall n, In n (tl (joint_names from)) -> In n (joint_names to_)) ->
  (forall n, In n (body_names from) -> In n (body_names to_)) ->
  shaped from mf -> shaped to_ mt ->
  exists cc m', CC_ctor from to_ = Ok cc /\ CC_convert cc mf mt = Ok m' /\
    m' = with_force (force m') (with_alphaD (alphaD m') (with_alpha (alpha m') (with_q (q m') mt))) /\
    length (q m') = length (q mt) /\ length (alpha m') = length (alpha mt) /\ length (alphaD m') = length (alphaD mt) /\
    length (force m') = length (force mt) /\
    (forall i k n, 0 < i -> nth_error (joint_names from) i = Some n -> nth_error (joint_names to_) k = Some n ->
       nth_error (q m') k = nth_error (q mf) i /\ nth_error (alpha m') k = nth_error (alpha mf) i /\
       nth_error (alphaD m') k = nth_error (alphaD mf) i) /\
    (forall k n, nth_error (joint_names to_) k = Some n -> ~ In n (tl (joint_names from)) ->
       nth_error (q m') k = nth_error (q mt) k /\ nth_error (alpha m') k = nth_error (alpha mt) k /\
       nth_error (alphaD m') k = nth_error (alphaD mt) k) /\
    (forall i k n, nth_error (body_names from) i = Some n -> nth_error (body_names to_) k = Some n ->
       nth_error (force m') k = nth_error (force mf) i) /\
    (forall k n, nth_error (body_names to_) k = Some n -> ~ In n (body_names from) ->
       nth_error (force m') k = nth_error (force mt) k).
Proof. exact converter_ok. Qed.
Print Assumptions C40_convert_by_name.
(** C40: converting forth and back restores the forces, and the joints that are first in
    neither multibody. *)
Theorem C40_round_trip : forall from to_ mf mt mf2,
  constructed from -> constructed to_ -> distinct_names from -> distinct_names to_ ->
  0 < nrJoints from -> 0 < nrJoints to_ ->
  (forall n, In n (joint_names from) <-> In n (joint_names to_)) ->
  (forall n, In n (body_names from) <-> In n (body_names to_)) ->
  shaped from mf -> shaped to_ mt -> shaped from mf2 ->
  exists cc cc' m' m'', CC_ctor from to_ = Ok cc /\ CC_ctor to_ from = Ok cc' /\
    CC_convert cc mf mt = Ok m' /\ CC_convert cc' m' mf2 = Ok m'' /\
    force m'' = force mf /\
    forall i n, 0 < i -> nth_error (joint_names from) i = Some n -> nth_error (joint_names to_) 0 <> Some n ->
      nth_error (q m'') i = nth_error (q mf) i /\ nth_error (alpha m'') i = nth_error (alpha mf) i /\
      nth_error (alphaD m'') i = nth_error (alphaD mf) i.
Proof. exact roundtrip_ok. Qed.
Print Assumptions C40_round_trip.
(** C40: the checked constructor refuses, with domain_error, exactly the pairs of multibodies
    that do not have the same numbers of bodies and joints and all names of [from] in [to]. *)
Theorem C40_safe_constructor : forall from to_, constructed from -> constructed to_ ->
  (nrBodies from = nrBodies to_ /\ nrJoints from = nrJoints to_ /\
   (forall n, In n (joint_names from) -> In n (joint_names to_)) /\ (forall n, In n (body_names from) -> In n (body_names to_)) ->
   CC_sConstructor from to_ = CC_ctor from to_) /\
  (~ (nrBodies from = nrBodies to_ /\ nrJoints from = nrJoints to_ /\
   (forall n, In n (joint_names from) -> In n (joint_names to_)) /\ (forall n, In n (body_names from) -> In n (body_names to_))) ->
   CC_sConstructor from to_ = Throw DomainError).
Proof. exact sConstructor_ok. Qed.
Print Assumptions C40_safe_constructor.
(** The robot of the examples with its head before its arm. *)
Definition ex_bodies2 := [nth 0 ex_bodies bd; nth 3 ex_bodies bd; nth 1 ex_bodies bd; nth 2 ex_bodies bd].
Definition ex_joints2 := [nth 0 ex_joints jd; nth 3 ex_joints jd; nth 1 ex_joints jd; nth 2 ex_joints jd].
Definition ex_mb2 : MultiBody :=
  match MultiBody_ctor ex_bodies2 ex_joints2 [-1; 0; 0; 2]%Z ex_succ [-1; 0; 0; 2]%Z ex_Xt with Ok mb => mb | _ => ex_mb end.
Example C40_applies : exists cc m', CC_ctor ex_mb ex_mb2 = Ok cc /\
  CC_convert cc ex_m (MBC_ctor ex_garbage ex_mb2) = Ok m' /\
  nth_error (q m') 1 = nth_error (q ex_m) 3 /\ nth_error (q m') 2 = nth_error (q ex_m) 1.
Proof.
  destruct (C40_convert_by_name ex_mb ex_mb2 ex_m (MBC_ctor ex_garbage ex_mb2)) as (cc & m' & E1 & E2 & _ & _ & _ & _ & _ & H & _).
  - exists ex_bodies, ex_joints, ex_pred, ex_succ, ex_pred, ex_Xt. split; reflexivity.
  - exists ex_bodies2, ex_joints2, [-1; 0; 0; 2]%Z, ex_succ, [-1; 0; 0; 2]%Z, ex_Xt. split; reflexivity.
  - split; repeat constructor; simpl; intuition discriminate.
  - split; repeat constructor; simpl; intuition discriminate.
  - cbn. lia.
  - cbn. intuition.
  - cbn. intuition.
  - apply mbc_ok_shaped, ex_mbc_ok.
  - apply mbc_ok_shaped, MBC_ctor_ok. reflexivity.
  - exists cc, m'. do 2 (split; [assumption|]). split.
    + apply (H 3 1 "neck"%string); auto.
    + apply (H 1 2 "shoulder"%string); auto.
Qed.

(** C41: on a well-formed multibody and any configuration, the checked algorithms throw
    domain_error or return; no access is out of range. *)
Theorem C41_safe_functions : forall mb m, wf_mb mb ->
  defined (sForwardVelocity mb m) /\
  (forall A0, defined (sForwardAcceleration mb m A0)) /\
  (forall f, length f = nrBodies mb -> defined (sInverseDynamics mb f m) /\ defined (sInverseDynamicsNoInertia mb f m)) /\
  (forall s, fd_ok mb s -> defined (sComputeH mb m s) /\ defined (sComputeC mb m s)) /\
  (forall solve s, fd_ok mb s -> (forall M b, length (solve M b) = length b) -> defined (sForwardDynamics solve mb m s)).
Proof. exact safe_functions. Qed.
Print Assumptions C41_safe_functions.
(** C41: sForwardKinematics forgets to check motionSubspace; with the right number of these it
    is safe too. *)
Theorem C41_safe_forward_kinematics_partial : forall mb m, wf_mb mb -> length (motionSubspace m) = nrJoints mb ->
  defined (sForwardKinematics mb m).
Proof. exact sFK_defined. Qed.
Print Assumptions C41_safe_forward_kinematics_partial.
Theorem C41_forward_kinematics_refuted : exists mb m, wf_mb mb /\ sForwardKinematics mb m = UB.
Proof. exact sFK_refuted. Qed.
Print Assumptions C41_forward_kinematics_refuted.
(** C41: the checks accept exactly the configurations that have the sizes of the multibody. *)
Theorem C41_checks_exact : forall mb m,
  (checkMatchQ mb m = Ok tt <-> sized mb jparams (q m)) /\ (checkMatchQ mb m = Throw DomainError <-> ~ sized mb jparams (q m)) /\
  (checkMatchAlpha mb m = Ok tt <-> sized mb jdof (alpha m)) /\ (checkMatchAlpha mb m = Throw DomainError <-> ~ sized mb jdof (alpha m)) /\
  (checkMatchAlphaD mb m = Ok tt <-> sized mb jdof (alphaD m)) /\ (checkMatchAlphaD mb m = Throw DomainError <-> ~ sized mb jdof (alphaD m)) /\
  (checkMatchJointTorque mb m = Ok tt <-> sized mb jdof (jointTorque m)) /\
  (checkMatchJointTorque mb m = Throw DomainError <-> ~ sized mb jdof (jointTorque m)) /\
  (checkMatchMotionSubspace mb m = Ok tt <-> sized mb jdof (motionSubspace m)) /\
  (checkMatchMotionSubspace mb m = Throw DomainError <-> ~ sized mb jdof (motionSubspace m)) /\
  (checkMatchForce mb m = Ok tt <-> length (force m) = nrBodies mb) /\
  (checkMatchBodyPos mb m = Ok tt <-> length (bodyPosW m) = nrBodies mb) /\
  (checkMatchBodyVel mb m = Ok tt <-> length (bodyVelW m) = nrBodies mb /\ length (bodyVelB m) = nrBodies mb) /\
  (checkMatchBodyAcc mb m = Ok tt <-> length (bodyAccB m) = nrBodies mb) /\
  (checkMatchJointConf mb m = Ok tt <-> length (jointConfig m) = nrJoints mb) /\
  (checkMatchJointVelocity mb m = Ok tt <-> length (jointVelocity m) = nrJoints mb) /\
  (checkMatchParentToSon mb m = Ok tt <-> length (parentToSon m) = nrJoints mb).
Proof. exact checks_exact. Qed.
Print Assumptions C41_checks_exact.
Example C41_applies : defined (sForwardVelocity ex_mb (with_alpha [[1%R]] ex_m)) /\
  sForwardVelocity ex_mb (with_alpha [[1%R]] ex_m) = Throw DomainError /\
  exists m', sForwardVelocity ex_mb ex_m = Ok m'.
Proof.
  split; [apply (C41_safe_functions ex_mb _ ex_wf)|]. split; [reflexivity|].
  exact (sFV_total ex_mb ex_m ex_wf ex_mbc_ok).
Qed.
