(** Final forms of the kinematics results. *)
From Coq Require Import Reals String ZArith Bool Arith Lia List.
From Verif Require Import Res ResP Vec VecP Sva SvaP Mat JointM MultiBodyM KinM Spec JointP KinP KinPathP MbP.
Import ListNotations.
Open Scope R_scope.

Lemma FK_total mb m : wf_mb mb -> mbc_ok mb m ->
  exists m', forwardKinematics mb m = Ok m' /\ fk_post mb m m'.
Proof.
  intros W K. apply FK_ok; auto; try apply K. rewrite <- (sized_length mb jdof (motionSubspace m)); auto. apply K.
Qed.
Lemma FK_run mb m m' : wf_mb mb -> mbc_ok mb m -> forwardKinematics mb m = Ok m' -> fk_post mb m m'.
Proof. intros W K E. destruct (FK_total mb m W K) as (m2 & E2 & F). congruence. Qed.
Lemma FV_total mb m : wf_mb mb -> mbc_ok mb m ->
  exists m', forwardVelocity mb m = Ok m' /\ fv_post mb m m'.
Proof. intros W K. apply FV_ok; auto; apply K. Qed.
Lemma FV_run mb m m' : wf_mb mb -> mbc_ok mb m -> forwardVelocity mb m = Ok m' -> fv_post mb m m'.
Proof. intros W K E. destruct (FV_total mb m W K) as (m2 & E2 & F). congruence. Qed.
Lemma FA_total mb m A0 : wf_mb mb -> mbc_ok mb m ->
  exists m', forwardAcceleration mb m A0 = Ok m' /\ fa_post mb A0 m m'.
Proof. intros W K. apply FA_ok; auto; apply K. Qed.
Lemma FA_run mb m A0 m' : wf_mb mb -> mbc_ok mb m -> forwardAcceleration mb m A0 = Ok m' -> fa_post mb A0 m m'.
Proof. intros W K E. destruct (FA_total mb m A0 W K) as (m2 & E2 & F). congruence. Qed.

Lemma nth_error_of_nth {A} (l : list A) i d x : (i < length l)%nat -> nth i l d = x -> nth_error l i = Some x.
Proof. intros L <-. now apply nth_error_nth'. Qed.

Lemma chain_ext P Q l : (forall k, In k l -> P k = Q k) -> chain P l = chain Q l.
Proof.
  unfold chain. generalize ptid. induction l; simpl; intros X H; auto.
  rewrite (H a) by auto. apply IHl. auto.
Qed.

Lemma FK_paths mb m : wf_mb mb -> mbc_ok mb m ->
  exists m', forwardKinematics mb m = Ok m' /\ mbc_ok mb m' /\
    (forall P, (forall k j qk Xt, nth_error (mb_joints mb) k = Some j -> nth_error (q m) k = Some qk ->
                  nth_error (mb_Xt mb) k = Some Xt ->
                  exists Xj, pose j qk = Ok Xj /\ P k = ptmul Xj Xt) ->
     forall i path, root_path mb i path -> nth_error (bodyPosW m') i = Some (chain P path)) /\
    q m' = q m /\ alpha m' = alpha m /\ alphaD m' = alphaD m /\ force m' = force m /\
    jointVelocity m' = jointVelocity m /\ jointTorque m' = jointTorque m /\
    bodyVelW m' = bodyVelW m /\ bodyVelB m' = bodyVelB m /\ bodyAccB m' = bodyAccB m /\
    gravity m' = gravity m.
Proof.
  intros W K. destruct (FK_total mb m W K) as (m' & E & F). exists m'. split; auto.
  split; [eapply FK_mbc_ok; eauto|]. split.
  - intros P HP i l R. destruct (root_path_lt mb i l W R) as [L LL].
    apply (nth_error_of_nth _ _ ptid). { rewrite (fk_bp_len _ _ _ F). now rewrite (ok_bodyPosW _ _ K). }
    rewrite (fk_chain mb m m' i l W F R). apply chain_ext. intros k Hk. apply LL in Hk.
    assert (Lk : (k < nrBodies mb)%nat) by lia.
    destruct (HP k (nth k (mb_joints mb) jd) (nth k (q m) []) (nth k (mb_Xt mb) ptid)) as (Xj & EX & ->).
    + apply nth_error_nth'. rewrite (wf_joints mb W). auto.
    + apply nth_error_nth'. rewrite (sized_length _ _ _ (ok_q _ _ K)), (wf_nrJoints mb W). auto.
    + apply nth_error_nth'. rewrite (wf_Xt_len mb W). auto.
    + rewrite (fk_pts _ _ _ F) by auto. pose proof (fk_jc _ _ _ F k Lk). congruence.
  - pose proof (fk_frame _ _ _ F) as Fr. rewrite Fr; cbn. auto 20.
Qed.

Lemma FK_all_rigid mb m m' : wf_mb mb -> rigid_mb mb -> mbc_ok mb m -> config_ok mb m ->
  forwardKinematics mb m = Ok m' ->
  forall X, In X (bodyPosW m') \/ In X (parentToSon m') -> SO3 (rotE X).
Proof.
  intros W RM K C E X HX. pose proof (FK_run mb m m' W K E) as F.
  pose proof (sized_length _ _ _ (ok_q _ _ K)) as Lq.
  destruct HX as [HX|HX]; apply (In_nth _ _ ptid) in HX; destruct HX as (i & L & <-).
  - apply (fk_rigid mb m m'); auto. rewrite (fk_bp_len _ _ _ F), (ok_bodyPosW _ _ K) in L. auto.
  - apply (fk_rigid_pts mb m m'); auto. rewrite (fk_pts_len _ _ _ F), (ok_parentToSon _ _ K) in L. auto.
Qed.

Lemma FKV_paths mb m0 m1 : wf_mb mb -> rigid_mb mb -> mbc_ok mb m0 -> config_ok mb m0 ->
  forwardKinematics mb m0 = Ok m1 ->
  exists m2, forwardVelocity mb m1 = Ok m2 /\ mbc_ok mb m2 /\
   (forall i path, root_path mb i path ->
     exists Vb, nth_error (bodyVelB m2) i = Some Vb /\
     (forall vj, (forall k j ak, nth_error (mb_joints mb) k = Some j -> nth_error (alpha m0) k = Some ak ->
                    vj k = smul (jS j) ak) ->
        Vb = path_sum (fun k => ptm (relX (bodyPosW m1) i k) (vj k)) path) /\
     exists X, nth_error (bodyPosW m1) i = Some X /\
       nth_error (bodyVelW m2) i =
         Some (mkSV (mapp (mtr (rotE X)) (sang Vb)) (mapp (mtr (rotE X)) (slin Vb)))) /\
   q m2 = q m1 /\ alpha m2 = alpha m1 /\ alphaD m2 = alphaD m1 /\ force m2 = force m1 /\
   jointConfig m2 = jointConfig m1 /\ motionSubspace m2 = motionSubspace m1 /\
   jointTorque m2 = jointTorque m1 /\ bodyPosW m2 = bodyPosW m1 /\
   parentToSon m2 = parentToSon m1 /\ bodyAccB m2 = bodyAccB m1 /\ gravity m2 = gravity m1.
Proof.
  intros W RM K C E. pose proof (FK_run mb m0 m1 W K E) as F.
  pose proof (FK_mbc_ok mb m0 m1 W K F) as K1.
  pose proof (sized_length _ _ _ (ok_q _ _ K)) as Lq.
  pose proof (fk_placed mb m0 m1 W RM C Lq F) as PL.
  destruct (FV_total mb m1 W K1) as (m2 & E2 & V). exists m2. split; auto.
  split; [eapply FV_mbc_ok; eauto|]. split.
  - intros i l R. destruct (root_path_lt mb i l W R) as [L LL].
    exists (nth i (bodyVelB m2) sv0). split.
    { apply nth_error_nth'. rewrite (fv_vb_len _ _ _ V), (ok_bodyVelB _ _ K1). auto. }
    split.
    + intros vj Hv. rewrite (fv_closed mb m1 m2 i l W PL V R). apply path_sum_ext.
      intros k Hk. apply LL in Hk. f_equal. symmetry. apply Hv.
      * apply nth_error_nth'. rewrite (wf_joints mb W). lia.
      * replace (alpha m1) with (alpha m0) by (rewrite (fk_frame _ _ _ F); reflexivity).
        apply nth_error_nth'. rewrite (sized_length _ _ _ (ok_alpha _ _ K)), (wf_nrJoints mb W). lia.
    + exists (nth i (bodyPosW m1) ptid). split.
      { apply nth_error_nth'. rewrite (ok_bodyPosW _ _ K1). auto. }
      apply (nth_error_of_nth _ _ sv0). { rewrite (fv_vw_len _ _ _ V), (ok_bodyVelW _ _ K1). auto. }
      rewrite (fv_vw _ _ _ V) by auto. unfold ptinvm; cbn. f_equal.
      generalize (mapp (mtr (rotE (nth i (bodyPosW m1) ptid))) (sang (nth i (bodyVelB m2) sv0))) as u.
      generalize (mapp (mtr (rotE (nth i (bodyPosW m1) ptid))) (slin (nth i (bodyVelB m2) sv0))) as w.
      intros. v3ring.
  - pose proof (fv_frame _ _ _ V) as Fr. rewrite Fr; cbn. auto 20.
Qed.

Lemma FKVA_paths mb m0 m1 m2 A0 : wf_mb mb -> rigid_mb mb -> mbc_ok mb m0 -> config_ok mb m0 ->
  forwardKinematics mb m0 = Ok m1 -> forwardVelocity mb m1 = Ok m2 ->
  exists m3, forwardAcceleration mb m2 A0 = Ok m3 /\
   m3 = with_bodyAccB (bodyAccB m3) m2 /\
   (forall i path, root_path mb i path ->
     forall (aj vj : nat -> SV),
       (forall k j ak adk, nth_error (mb_joints mb) k = Some j ->
          nth_error (alpha m0) k = Some ak -> nth_error (alphaD m0) k = Some adk ->
          vj k = smul (jS j) ak /\ aj k = smul (jS j) adk) ->
     exists X, nth_error (bodyPosW m2) i = Some X /\
     nth_error (bodyAccB m3) i =
       Some (svadd (ptm X A0)
          (path_sum (fun k => ptm (relX (bodyPosW m2) i k)
              (svadd (aj k) (scross (nth k (bodyVelB m2) sv0) (vj k)))) path))).
Proof.
  intros W RM K C E1 E2. pose proof (FK_run mb m0 m1 W K E1) as F.
  pose proof (FK_mbc_ok mb m0 m1 W K F) as K1.
  pose proof (FV_run mb m1 m2 W K1 E2) as V. pose proof (FV_mbc_ok mb m1 m2 K1 V) as K2.
  pose proof (sized_length _ _ _ (ok_q _ _ K)) as Lq.
  pose proof (fk_placed mb m0 m1 W RM C Lq F) as PL.
  assert (PL2 : placed mb m2) by (rewrite (fv_frame _ _ _ V); exact PL).
  destruct (FA_total mb m2 A0 W K2) as (m3 & E3 & A). exists m3. split; auto.
  split; [apply (fa_frame _ _ _ _ A)|].
  intros i l R aj vj H. destruct (root_path_lt mb i l W R) as [L LL].
  exists (nth i (bodyPosW m2) ptid). split.
  { apply nth_error_nth'. rewrite (ok_bodyPosW _ _ K2). auto. }
  apply (nth_error_of_nth _ _ sv0). { rewrite (fa_len _ _ _ _ A), (ok_bodyAccB _ _ K2). auto. }
  rewrite (fa_closed mb A0 m2 m3 i l W PL2 A R). f_equal. apply path_sum_ext.
  intros k Hk. apply LL in Hk. assert (Lk : (k < nrBodies mb)%nat) by lia.
  assert (Ea : alpha m1 = alpha m0) by (rewrite (fk_frame _ _ _ F); reflexivity).
  assert (Ead : alphaD m2 = alphaD m0) by (rewrite (fv_frame _ _ _ V), (fk_frame _ _ _ F); reflexivity).
  destruct (H k (nth k (mb_joints mb) jd) (nth k (alpha m0) []) (nth k (alphaD m0) [])) as [Hv Ha].
  { apply nth_error_nth'. rewrite (wf_joints mb W). lia. }
  { apply nth_error_nth'. rewrite (sized_length _ _ _ (ok_alpha _ _ K)), (wf_nrJoints mb W). lia. }
  { apply nth_error_nth'. rewrite (sized_length _ _ _ (ok_alphaD _ _ K)), (wf_nrJoints mb W). lia. }
  rewrite (fv_jv _ _ _ V) by auto. rewrite Ea, Ead, <- Hv, <- Ha. auto.
Qed.
