(** C91, C92: reading and editing a multibody, moving joint data between multibodies. *)
From Coq Require Import Reals String ZArith Bool Arith Lia Lra List.
From Verif Require Import Res ResP Vec Sva Mat JointM MultiBodyM KinM Spec SpecConf SpecAcc AccM Ex MbP KinP KinFinP DynCP DynExP AccP.
Import ListNotations.
Open Scope nat_scope.

(** C91: the checked accessors return what the others return, and throw out_of_range where
    those are undefined. *)
Theorem C91_accessors : forall mb,
  reads (mb_bodies mb) (sBody mb) (body mb) /\ reads (mb_joints mb) (sJoint mb) (joint mb) /\
  reads (mb_pred mb) (sPredecessor mb) (predecessor mb) /\ reads (mb_succ mb) (sSuccessor mb) (successor mb) /\
  reads (mb_parent mb) (sParent mb) (parent mb) /\ reads (mb_Xt mb) (sTransform mb) (transform mb) /\
  reads (mb_posParam mb) (sJointPosInParam mb) (jointPosInParam mb) /\
  reads (mb_posDof mb) (sJointPosInDof mb) (jointPosInDof mb).
Proof. exact accessors_ok. Qed.
Print Assumptions C91_accessors.
Example C91_accessors_applies : sPredecessor ex_mb 2 = Ok 1%Z /\ sJointPosInDof ex_mb 3 = Ok 8 /\
  sBody ex_mb (-1) = Throw OutOfRange /\ body ex_mb 4 = UB.
Proof.
  destruct (C91_accessors ex_mb) as (B & _ & P & _ & _ & _ & _ & D).
  split; [apply (proj1 P 2 1%Z eq_refl)|]. split; [apply (proj1 D 3 8 eq_refl)|].
  split; [apply (proj2 B (-1)%Z); lia|apply (proj2 B 4%Z); cbn; lia].
Qed.

(** C91: the setters of one element change that element and nothing else, or throw. *)
Theorem C91_put_body : forall mb z b,
  ((0 <= z < Z.of_nat (nrBodies mb))%Z -> exists mb', sPutBody mb z b = Ok mb' /\ put_body mb z b = Ok mb' /\
     same_structure mb mb' /\ mb_Xt mb' = mb_Xt mb /\ replaced (mb_bodies mb) (Z.to_nat z) b (mb_bodies mb')) /\
  ((z < 0 \/ Z.of_nat (nrBodies mb) <= z)%Z -> sPutBody mb z b = Throw OutOfRange /\ put_body mb z b = UB).
Proof. exact put_body_ok. Qed.
Print Assumptions C91_put_body.
Theorem C91_put_transform : forall mb z X,
  ((0 <= z < Z.of_nat (length (mb_Xt mb)))%Z -> exists mb', sPutTransform mb z X = Ok mb' /\ put_transform mb z X = Ok mb' /\
     same_structure mb mb' /\ mb_bodies mb' = mb_bodies mb /\ replaced (mb_Xt mb) (Z.to_nat z) X (mb_Xt mb')) /\
  ((z < 0 \/ Z.of_nat (length (mb_Xt mb)) <= z)%Z -> sPutTransform mb z X = Throw OutOfRange /\ put_transform mb z X = UB).
Proof. exact put_transform_ok. Qed.
Print Assumptions C91_put_transform.
(** C91: the setters of all bodies or transforms. *)
Theorem C91_put_all : forall mb,
  (forall bs, (length bs = nrBodies mb -> exists mb', sBodies mb bs = Ok mb' /\ mb_bodies mb' = bs /\
      same_structure mb mb' /\ mb_Xt mb' = mb_Xt mb) /\
    (length bs <> nrBodies mb -> sBodies mb bs = Throw RuntimeError)) /\
  (forall Xs, (length Xs = length (mb_Xt mb) -> exists mb', sTransforms mb Xs = Ok mb' /\ mb_Xt mb' = Xs /\
      same_structure mb mb' /\ mb_bodies mb' = mb_bodies mb) /\
    (length Xs <> length (mb_Xt mb) -> sTransforms mb Xs = Throw RuntimeError)).
Proof. exact put_all_ok. Qed.
Print Assumptions C91_put_all.

(** C91: any sequence of checked edits can be carried out and leaves a well-formed multibody
    of the same structure. *)
Theorem C91_edits_keep_well_formed : forall mb es, wf_mb mb ->
  (exists mb', edited mb es mb') /\
  forall mb', edited mb es mb' -> wf_mb mb' /\ same_structure mb mb' /\ nrBodies mb' = nrBodies mb.
Proof. exact edited_wf. Qed.
Print Assumptions C91_edits_keep_well_formed.
(** C91: as long as no call renames a body, the names still designate the right elements. *)
Theorem C91_names_partial : forall mb es mb', constructed mb -> distinct_names mb -> edited mb es mb' ->
  (forall e es1 es2 mb1, es = es1 ++ e :: es2 -> edited mb es1 mb1 -> keeps_names mb1 e) ->
  (forall i b, nth_error (mb_bodies mb') i = Some b -> sBodyIndexByName mb' (bname b) = Ok (Z.of_nat i)) /\
  (forall i j, nth_error (mb_joints mb') i = Some j -> sJointIndexByName mb' (jname j) = Ok (Z.of_nat i)).
Proof. exact names_after. Qed.
Print Assumptions C91_names_partial.
(** C91: after a renaming, the new name is unknown and the old one designates the body. *)
Theorem C91_renaming_refuted : exists mb z b mb', constructed mb /\ distinct_names mb /\ sPutBody mb z b = Ok mb' /\
  distinct_names mb' /\ sBody mb' z = Ok b /\
  sBodyIndexByName mb' (bname b) = Throw OutOfRange /\
  (exists old, sBodyIndexByName mb' old = Ok z /\ ~ In old (body_names mb')).
Proof. exact rename_refuted. Qed.
Print Assumptions C91_renaming_refuted.
(** C91: the inertias and names of the bodies have no influence on the kinematics. *)
Theorem C91_kinematics_ignore_bodies : forall mb bs m, length bs = nrBodies mb ->
  let mb' := mb_with_bodies mb bs in
  forwardKinematics mb' m = forwardKinematics mb m /\ forwardVelocity mb' m = forwardVelocity mb m /\
  (forall A0, forwardAcceleration mb' m A0 = forwardAcceleration mb m A0) /\
  sForwardKinematics mb' m = sForwardKinematics mb m /\ sForwardVelocity mb' m = sForwardVelocity mb m /\
  (forall A0, sForwardAcceleration mb' m A0 = sForwardAcceleration mb m A0).
Proof. exact kin_bodies. Qed.
Print Assumptions C91_kinematics_ignore_bodies.
(** A heavier arm, an edit that throws, another placement of the head. *)
Definition heavy_arm : Body := mkBody (mkRBI 5 (mkV3 1 0 0) (mkSym 1 0 0 2 0 2)) "arm".
Definition ex_edits : list Edit := [EBody 1 heavy_arm; EBodies []; ETransform 3 ptid].
Example C91_edits_applies : exists mb', edited ex_mb ex_edits mb' /\ wf_mb mb' /\
  sBody mb' 1 = Ok heavy_arm /\ sTransform mb' 3 = Ok ptid /\ sBodyIndexByName mb' "arm" = Ok 1%Z.
Proof.
  set (mb1 := mb_with_bodies ex_mb (upd ex_bodies 1 heavy_arm)).
  set (mb2 := mb_with_Xt mb1 (upd ex_Xt 3 ptid)).
  assert (H : edited ex_mb ex_edits mb2).
  { apply (edited_ok _ _ mb1); [reflexivity|]. apply (edited_throw _ _ RuntimeError); [reflexivity|auto|].
    apply (edited_ok _ _ mb2); [reflexivity|]. constructor. }
  exists mb2. split; [exact H|]. split; [apply (proj2 (C91_edits_keep_well_formed ex_mb ex_edits ex_wf) _ H)|].
  split; [reflexivity|]. split; [reflexivity|].
  assert (K : forall e es1 es2 mb3, ex_edits = es1 ++ e :: es2 -> edited ex_mb es1 mb3 -> keeps_names mb3 e).
  { intros e es1 es2 mb3 E H3. destruct es1 as [|a [|a' [|a'' [|]]]]; try discriminate E; injection E; intros; subst; cbn [keeps_names].
    - inversion H3; subst. intros b0 B0. injection B0 as <-. reflexivity.
    - intros L. exfalso. assert (W : nrBodies mb3 = nrBodies ex_mb)
        by (apply (proj2 (C91_edits_keep_well_formed ex_mb _ ex_wf) _ H3)). rewrite W in L. discriminate L.
    - exact I. }
  apply (proj1 (C91_names_partial ex_mb ex_edits mb2 ex_constructed ex_distinct H K) 1 heavy_arm eq_refl).
Qed.
Example C91_kinematics_applies : exists m', forwardKinematics ex_mb ex_m = Ok m' /\
  forwardKinematics (mb_with_bodies ex_mb (upd ex_bodies 1 heavy_arm)) ex_m = Ok m'.
Proof.
  destruct (FK_total ex_mb ex_m ex_wf ex_mbc_ok) as (m' & E & _). exists m'. split; [exact E|].
  destruct (C91_kinematics_ignore_bodies ex_mb (upd ex_bodies 1 heavy_arm) ex_m eq_refl) as (-> & _). exact E.
Qed.

(** C91: the motion subspaces read and written from python are those of the configuration;
    writing one without six rows is undefined. *)
Theorem C91_python_round_trip : forall m m',
  python_setMotionSubspace (python_getMotionSubspace m) m' = Ok (with_motionSubspace (motionSubspace m) m').
Proof. exact python_get_set. Qed.
Print Assumptions C91_python_round_trip.
Theorem C91_python_write : forall v m,
  ((forall M, In M v -> mrows M = 6) -> exists m', python_setMotionSubspace v m = Ok m' /\
     m' = with_motionSubspace (motionSubspace m') m /\
     length (motionSubspace m') = length v /\
     forall i M M', nth_error v i = Some M -> nth_error (python_getMotionSubspace m') i = Some M' ->
       mrows M' = 6 /\ mcols M' = mcols M /\ forall r c, r < 6 -> c < mcols M -> ment M' r c = ment M r c) /\
  ((exists M, In M v /\ mrows M <> 6) -> python_setMotionSubspace v m = UB).
Proof. exact python_set. Qed.
Print Assumptions C91_python_write.

(** C92: convertJoint moves the data of every joint but the first to the joint of the same
    name; the checked version does the same when the multibodies have as many joints, and
    throws domain_error otherwise. *)
Theorem C92_convert_joint : forall from to_, constructed from -> constructed to_ -> distinct_names from -> distinct_names to_ ->
  0 < nrJoints from ->
  (forall n, In n (tl (joint_names from)) -> In n (joint_names to_)) ->
  (forall n, In n (body_names from) -> In n (body_names to_)) ->
  exists cc, CC_ctor from to_ = Ok cc /\
    forall A (vf vt : list A), length vf = nrJoints from -> length vt = nrJoints to_ ->
    exists v', CC_convertJoint cc vf vt = Ok v' /\ length v' = length vt /\
      (nrJoints from = nrJoints to_ -> CC_sConvertJoint cc vf vt = Ok v') /\
      (nrJoints from <> nrJoints to_ -> CC_sConvertJoint cc vf vt = Throw DomainError) /\
      (forall i k n, 0 < i -> nth_error (joint_names from) i = Some n -> nth_error (joint_names to_) k = Some n ->
         nth_error v' k = nth_error vf i) /\
      (forall k n, nth_error (joint_names to_) k = Some n -> ~ In n (tl (joint_names from)) ->
         nth_error v' k = nth_error vt k).
Proof. exact cj_by_name. Qed.
Print Assumptions C92_convert_joint.
(** C92: the version that returns a new vector, between multibodies with as many joints. *)
Theorem C92_convert_joint_new_partial : forall from to_, constructed from -> constructed to_ -> distinct_names from -> distinct_names to_ ->
  0 < nrJoints from -> nrJoints from = nrJoints to_ ->
  (forall n, In n (tl (joint_names from)) -> In n (joint_names to_)) ->
  (forall n, In n (body_names from) -> In n (body_names to_)) ->
  exists cc, CC_ctor from to_ = Ok cc /\
    forall A (d : A) (vf : list A), length vf = nrJoints from ->
    exists v', CC_convertJoint1 d cc vf = Ok v' /\ length v' = nrJoints to_ /\
      (forall i k n, 0 < i -> nth_error (joint_names from) i = Some n -> nth_error (joint_names to_) k = Some n ->
         nth_error v' k = nth_error vf i) /\
      (forall k n, nth_error (joint_names to_) k = Some n -> ~ In n (tl (joint_names from)) -> nth_error v' k = Some d).
Proof. exact cj1_by_name. Qed.
Print Assumptions C92_convert_joint_new_partial.
(** C92: to a multibody with more joints, it writes outside of the vector it returns. *)
Theorem C92_convert_joint_new_refuted : exists from to_ cc (vf : list nat), constructed from /\ constructed to_ /\
  distinct_names from /\ distinct_names to_ /\
  (forall n, In n (joint_names from) -> In n (joint_names to_)) /\
  (forall n, In n (body_names from) -> In n (body_names to_)) /\
  CC_ctor from to_ = Ok cc /\ length vf = nrJoints from /\ CC_convertJoint1 0 cc vf = UB.
Proof. exact cj1_refuted. Qed.
Print Assumptions C92_convert_joint_new_refuted.
(** C92: the checked version does not compare the vectors with the multibodies. *)
Theorem C92_checked_refuted : exists from to_ cc (vf vt : list nat), constructed from /\ constructed to_ /\
  CC_sConstructor from to_ = Ok cc /\ CC_sConvertJoint cc vf vt = UB.
Proof. exact scj_refuted. Qed.
Print Assumptions C92_checked_refuted.
(** From the chain of the base and the head to the whole robot. *)
Example C92_applies : exists cc v', CC_ctor end_mb ex_mb = Ok cc /\
  CC_convertJoint cc [10; 20] [1; 2; 3; 4] = Ok v' /\ v' = [1; 2; 3; 20] /\
  CC_sConvertJoint cc [10; 20] [1; 2; 3; 4] = Throw DomainError.
Proof.
  destruct (C92_convert_joint end_mb ex_mb) as (cc & E & H).
  - apply end_constructed.
  - apply ex_constructed.
  - split; repeat constructor; simpl; intuition discriminate.
  - apply ex_distinct.
  - cbn. lia.
  - cbn. intuition.
  - cbn. intuition.
  - destruct (H nat [10; 20] [1; 2; 3; 4] eq_refl eq_refl) as (v' & E' & L & _ & T & G & U).
    exists cc, v'. split; [exact E|]. split; [exact E'|]. split; [|apply T; cbn; lia].
    pose proof (G 1 3 "neck"%string ltac:(lia) eq_refl eq_refl) as G3.
    pose proof (U 0 "Root"%string eq_refl ltac:(cbn; intuition discriminate)) as U0.
    pose proof (U 1 "shoulder"%string eq_refl ltac:(cbn; intuition discriminate)) as U1.
    pose proof (U 2 "slide"%string eq_refl ltac:(cbn; intuition discriminate)) as U2.
    destruct v' as [|a [|b [|c [|d [|]]]]]; try discriminate L. cbn in *. congruence.
Qed.
