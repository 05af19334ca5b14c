(** C77: the chain extracted by subMultiBody. *)
From Coq Require Import Reals String ZArith Bool Arith List Lia Lra.
From Verif Require Import Res Vec Sva Mat JointM MultiBodyM KinM JacM Spec SpecDyn SpecJac SpecRel SpecSub Ex JacExP RelP RelFinP RelExP SubTopP SubRelP SubExP.
Import ListNotations.
Open Scope R_scope.

(** C77: for a Jacobian without reference, subMultiBody returns the robot reduced to the path: it has
    the bodies, joints and placements of the path, and the same poses, velocities and Jacobian. *)
Theorem C77_root_chain : forall mb b p J, wf_mb mb -> rigid_mb mb -> jacobian_of mb b p J ->
  exists ch, subMultiBody mb J = Ok ch /\ is_chain mb (jc_path J) ch /\ same_joints mb (jc_path J) ch /\
    forall m0 m c0 c, mbc_ok mb m0 -> config_ok mb m0 -> after_kinematics mb m0 m ->
    mbc_ok ch c0 -> along (jc_path J) m0 c0 -> after_kinematics ch c0 c ->
    (forall k, (k < length (jc_path J))%nat ->
      nth_error (bodyPosW c) k = nth_error (bodyPosW m) (nth k (jc_path J) 0%nat) /\
      nth_error (bodyVelB c) k = nth_error (bodyVelB m) (nth k (jc_path J) 0%nat) /\
      nth_error (bodyVelW c) k = nth_error (bodyVelW m) (nth k (jc_path J) 0%nat)) /\
    forall Jc, jacobian_of ch (length (jc_path J) - 1) p Jc ->
      exists J1 Jc1, jacobian mb m J = Ok J1 /\ jacobian ch c Jc = Ok Jc1 /\ jc_jac J1 = jc_jac Jc1.
Proof. exact root_chain. Qed.
Print Assumptions C77_root_chain.
Example C77_root_chain_applies : exists ch, subMultiBody ex_mb ex_J = Ok ch /\ is_chain ex_mb (jc_path ex_J) ch.
Proof. destruct (C77_root_chain ex_mb 2%nat _ ex_J ex_wf ex_rigid ex_J_of) as (ch & E & HC & _). exists ch. auto. Qed.

(** C77 with a reference body: subMultiBody succeeds, its last body is the body of the Jacobian, and
    every body of the path above the turn has in the chain its pose relative to the reference. If
    the reference is an ancestor of the body, so it is for velocities. Missing: poses when the
    placements at the turn do not commute (false, see below) or when the bodies meet at a root that
    moves, velocities when the path turns. *)
Theorem C77_reference_partial : forall mb name ref b r p J, wf_mb mb -> rigid_mb mb -> one_root mb -> (b < nrBodies mb)%nat -> (r < nrBodies mb)%nat ->
  sBodyIndexByName mb name = Ok (Z.of_nat b) -> sBodyIndexByName mb ref = Ok (Z.of_nat r) -> built_relative mb name ref p J ->
  exists ch, subMultiBody mb J = Ok ch /\ is_chain mb (jc_path J) ch /\
    (b <> r -> (anc mb b r -> b = 0%nat) -> exists l, jc_path J = l ++ [b]) /\
    forall m0 m Xr Vr, mbc_ok mb m0 -> config_ok mb m0 -> after_kinematics mb m0 m ->
    nth_error (bodyPosW m) r = Some Xr -> nth_error (bodyVelB m) r = Some Vr ->
    (exists c0 c, mbc_ok ch c0 /\ along (jc_path J) m0 c0 /\ after_kinematics ch c0 c) /\
    forall c0 c, mbc_ok ch c0 -> along (jc_path J) m0 c0 -> after_kinematics ch c0 c ->
    forall k i Xi Vi, nth_error (jc_path J) k = Some i -> nth_error (bodyPosW m) i = Some Xi -> nth_error (bodyVelB m) i = Some Vi -> anc mb i b ->
    exists X V, nth_error (bodyPosW c) k = Some X /\ nth_error (bodyVelB c) k = Some V /\
      (placements_commute mb b r -> (meets_root mb b r -> fixed_root mb) -> X = relative_pose Xi Xr) /\
      (anc mb r b -> X = relative_pose Xi Xr /\ V = relative_velocity Xi Xr Vi Vr).
Proof. exact rel_chain_top. Qed.
Print Assumptions C77_reference_partial.
Example C77_reference_applies : exists J ch, built_relative rex_mb "arm" "head" v0 J /\ subMultiBody rex_mb J = Ok ch /\ is_chain rex_mb (jc_path J) ch /\
  (exists l, jc_path J = l ++ [2%nat]) /\ placements_commute rex_mb 2 3 /\ ~ meets_root rex_mb 2 3.
Proof.
  destruct (rex_ctor "arm" "head" v0 2 3) as (Eb & Er & Lb & Lr & J & HB); [cbn; tauto|cbn; tauto|].
  destruct (C77_reference_partial rex_mb _ _ 2%nat 3%nat v0 J rex_wf rex_rigid rex_root Lb Lr Eb Er HB) as (ch & E & HC & LL & _).
  exists J, ch. split; [exact HB|]. split; [exact E|]. split; [exact HC|]. split; [apply LL; [lia|exact rex_apart]|]. split; [apply rex_commute|].
  intros (_ & M). destruct rex_joined as [A|[(c & N & A1 & A2)|F]].
  - apply (KinPathP.root_path_anc _ _ _ rex_wf rp2) in A. cbn in A. lia.
  - apply N. auto.
  - specialize (F _ eq_refl). discriminate.
Qed.

(** C77: when the path turns at a body d that is not the root, going down through k and up through
    i, the pose of the last body is right exactly when the placements of i and k commute. *)
Theorem C77_turn_exact : forall mb name ref b r p J, wf_mb mb -> rigid_mb mb -> one_root mb -> (b < nrBodies mb)%nat -> (r < nrBodies mb)%nat ->
  sBodyIndexByName mb name = Ok (Z.of_nat b) -> sBodyIndexByName mb ref = Ok (Z.of_nat r) -> built_relative mb name ref p J ->
  forall d i k, d <> 0%nat -> nth_error (mb_pred mb) i = Some (Z.of_nat d) -> nth_error (mb_pred mb) k = Some (Z.of_nat d) -> i <> k -> anc mb i b -> anc mb k r ->
  forall ch m0 m c0 c Xb Xr, subMultiBody mb J = Ok ch -> mbc_ok mb m0 -> config_ok mb m0 -> after_kinematics mb m0 m ->
  mbc_ok ch c0 -> along (jc_path J) m0 c0 -> after_kinematics ch c0 c ->
  nth_error (bodyPosW m) b = Some Xb -> nth_error (bodyPosW m) r = Some Xr ->
  forall Xi Xk, nth_error (mb_Xt mb) i = Some Xi -> nth_error (mb_Xt mb) k = Some Xk ->
  (nth_error (bodyPosW c) (length (jc_path J) - 1) = Some (relative_pose Xb Xr) <-> ptmul (ptinv Xk) Xi = ptmul Xi (ptinv Xk)).
Proof. exact turn_exact_top. Qed.
Print Assumptions C77_turn_exact.
(** C77 is false of a robot whose head is mounted turned by a quarter. The hypotheses of
    C77_turn_exact are met by the same robot. *)
Theorem C77_turn_refuted : exists mb m0 m name ref b r p J ch c0 c Xb Xr X,
  wf_mb mb /\ rigid_mb mb /\ mbc_ok mb m0 /\ config_ok mb m0 /\ after_kinematics mb m0 m /\ one_root mb /\
  (b < nrBodies mb)%nat /\ (r < nrBodies mb)%nat /\ sBodyIndexByName mb name = Ok (Z.of_nat b) /\ sBodyIndexByName mb ref = Ok (Z.of_nat r) /\
  built_relative mb name ref p J /\ ~ anc mb b r /\ ~ anc mb r b /\ joined mb b r /\
  subMultiBody mb J = Ok ch /\ mbc_ok ch c0 /\ along (jc_path J) m0 c0 /\ after_kinematics ch c0 c /\
  nth_error (bodyPosW m) b = Some Xb /\ nth_error (bodyPosW m) r = Some Xr /\
  nth_error (bodyPosW c) (length (jc_path J) - 1) = Some X /\ X <> relative_pose Xb Xr.
Proof. exact turn_wrong. Qed.
Print Assumptions C77_turn_refuted.
