(** The safe versions of the functions about centres of mass, momenta, statics,
    identification and conversion: statements. *)
From Coq Require Import Reals String ZArith Bool Arith List Lia Lra.
From Verif Require Import Res ResP SMap Vec VecP Sva SvaP Mat JointM MultiBodyM KinM DynM JacM CoMM MomM ISM IDIMM Spec SpecDyn SpecJac SpecCoM SpecIDIM SpecConf SpecRel SpecSafe
  JointP KinP KinPathP MbP TreeP DynP DynCP ConvP KinFinP ConfFinP DerivTreeP JacP JacFinP JacFin2P JacBlkP RelP CoMP CoMLoopP CoMCtorP SafeP SafeTopP SafeCoMP IDIMP ISP.
Import ListNotations.
Open Scope nat_scope.

Lemma ck_jacc mb m : (checkMatchAlphaD mb m = Throw DomainError /\ ~ jacc_sized mb m) \/ (checkMatchAlphaD mb m = Ok tt /\ jacc_sized mb m).
Proof. unfold jacc_sized, checkMatchAlphaD. destruct (checkEach_spec mb (alphaD m) jdof). destruct (sized_dec mb jdof (alphaD m)); auto. Qed.
Lemma ck_torque mb m : (checkMatchJointTorque mb m = Throw DomainError /\ ~ torque_sized mb m) \/ (checkMatchJointTorque mb m = Ok tt /\ torque_sized mb m).
Proof. unfold torque_sized, checkMatchJointTorque. destruct (checkEach_spec mb (jointTorque m) jdof). destruct (sized_dec mb jdof (jointTorque m)); auto. Qed.
Lemma ck_force mb m : (checkMatchForce mb m = Throw DomainError /\ ~ force_sized mb m) \/ (checkMatchForce mb m = Ok tt /\ force_sized mb m).
Proof. unfold force_sized, checkMatchForce. destruct (checkB mb (force m)). destruct (Nat.eq_dec (length (force m)) (nrBodies mb)); auto. Qed.
Lemma ck_jvel mb m : (checkMatchJointVelocity mb m = Throw DomainError /\ ~ jvel_sized mb m) \/ (checkMatchJointVelocity mb m = Ok tt /\ jvel_sized mb m).
Proof. unfold jvel_sized, checkMatchJointVelocity. destruct (checkJ mb (jointVelocity m)). destruct (Nat.eq_dec (length (jointVelocity m)) (nrJoints mb)); auto. Qed.
Lemma bind_ext {A B} (r : res A) (f g : A -> res B) : (forall a, f a = g a) -> (x <- r ;; f x) = (x <- r ;; g x).
Proof. intro H. destruct r; cbn; auto. Qed.
(** A guard over a call that returns fitting objects. *)
Lemma guarded_keeps {A} (P : Prop) (Q : A -> Prop) (r u : res A) : guarded P r u -> (P \/ ~ P) ->
  (P -> exists a, u = Ok a /\ Q a) -> guarded P r u /\ returns Q r.
Proof.
  intros G D T. split; auto. intros a E. destruct D as [HP|HP].
  - destruct (T HP) as (b & Eb & Hb). destruct G as (G & _). destruct (G HP) as (-> & _). congruence.
  - destruct G as (_ & G). rewrite (G HP) in E. discriminate.
Qed.
Lemma dec_pos mb m : pos_sized mb m \/ ~ pos_sized mb m. Proof. destruct (ck_pos mb m); tauto. Qed.
Lemma dec_vel mb m : vel_sized mb m \/ ~ vel_sized mb m. Proof. destruct (ck_vel mb m); tauto. Qed.
Lemma dec_ms mb m : subspace_sized mb m \/ ~ subspace_sized mb m. Proof. destruct (ck_ms mb m); tauto. Qed.
Lemma dec_pm mb m : (pos_sized mb m /\ subspace_sized mb m) \/ ~ (pos_sized mb m /\ subspace_sized mb m).
Proof. destruct (dec_pos mb m), (dec_ms mb m); tauto. Qed.
Lemma dec_pvm mb m : (pos_sized mb m /\ vel_sized mb m /\ subspace_sized mb m) \/ ~ (pos_sized mb m /\ vel_sized mb m /\ subspace_sized mb m).
Proof. destruct (dec_pos mb m), (dec_vel mb m), (dec_ms mb m); tauto. Qed.
Lemma dec_nacc mb m : (pos_sized mb m /\ vel_sized mb m /\ jconf_sized mb m /\ tree_sized mb m) \/ ~ (pos_sized mb m /\ vel_sized mb m /\ jconf_sized mb m /\ tree_sized mb m).
Proof. destruct (dec_pos mb m), (dec_vel mb m), (ck_jconf mb m), (ck_tree mb m); tauto. Qed.

(** ** Guards of the free functions *)
Lemma guard1 {A} (P : Prop) c (u : res A) : (c = Throw DomainError /\ ~ P \/ c = Ok tt /\ P) -> (P -> exists a, u = Ok a) -> guarded P (c ;;; u) u.
Proof. intros C T. apply (guarded_iff (P /\ True)); [tauto|]. apply guarded_check; auto. intro H. apply guarded_base; auto. Qed.
Lemma guardS {A} (Q P : Prop) c (r u : res A) : (c = Throw DomainError /\ ~ Q \/ c = Ok tt /\ Q) -> (Q -> guarded P r u) -> guarded (Q /\ P) (c ;;; r) u.
Proof. intros C T. apply guarded_check; auto. Qed.

Lemma safe_com_guarded mb m : wf_mb mb -> (0 < total_mass_of mb)%R ->
  guarded (pos_sized mb m) (sComputeCoM mb m) (computeCoM mb m) /\
  guarded (pos_sized mb m /\ vel_sized mb m) (sComputeCoMVelocity mb m) (computeCoMVelocity mb m) /\
  guarded (pos_sized mb m /\ vel_sized mb m /\ acc_sized mb m) (sComputeCoMAcceleration mb m) (computeCoMAcceleration mb m).
Proof.
  intros W TM. split; [|split].
  - apply guard1; [apply ck_pos|]. intro P. now apply com_total.
  - apply guardS; [apply ck_pos|]. intro P. apply guard1; [apply ck_vel|]. intro V. now apply comv_total.
  - apply guardS; [apply ck_pos|]. intro P. apply guardS; [apply ck_vel|]. intro V. apply guard1; [apply ck_acc|]. intro A. now apply coma_total.
Qed.
Lemma safe_momentum_guarded mb m com cd : wf_mb mb ->
  guarded (pos_sized mb m /\ vel_sized mb m) (sComputeCentroidalMomentum mb m com) (computeCentroidalMomentum mb m com) /\
  guarded (pos_sized mb m /\ vel_sized mb m /\ acc_sized mb m) (sComputeCentroidalMomentumDot mb m com cd) (computeCentroidalMomentumDot mb m com cd).
Proof.
  intros W. split.
  - apply guardS; [apply ck_pos|]. intro P. apply guard1; [apply ck_vel|]. intro V. now apply cmom_total.
  - apply guardS; [apply ck_pos|]. intro P. apply guardS; [apply ck_vel|]. intro V. apply guard1; [apply ck_acc|]. intro A. now apply cmomd_total.
Qed.

(** ** Guards of the objects *)
Lemma safe_comd_guarded mb m c : wf_mb mb -> comd_fits mb c ->
  (guarded (pos_sized mb m /\ subspace_sized mb m) (comd_sJacobian mb m c) (comd_jacobian mb m c) /\ returns (comd_fits mb) (comd_sJacobian mb m c)) /\
  (guarded (pos_sized mb m /\ vel_sized mb m /\ subspace_sized mb m) (comd_sJacobianDot mb m c) (comd_jacobianDot mb m c) /\ returns (comd_fits mb) (comd_sJacobianDot mb m c)).
Proof.
  intros W F. split.
  - apply guarded_keeps; [|apply dec_pm|intros (P & M); now apply comd_jac_total].
    apply guardS; [apply ck_pos|]. intro P. apply guard1; [apply ck_ms|]. intro M. eapply drop_post. now apply comd_jac_total.
  - apply guarded_keeps; [|apply dec_pvm|intros (P & V & M); now apply comd_dot_total].
    apply guardS; [apply ck_pos|]. intro P. apply guardS; [apply ck_vel|]. intro V. apply guard1; [apply ck_ms|]. intro M. eapply drop_post. now apply comd_dot_total.
Qed.
Lemma safe_comj_guarded mb m c : wf_mb mb -> comj_fits mb c ->
  (guarded (pos_sized mb m /\ subspace_sized mb m) (comj_sJacobian mb m c) (comj_jacobian mb m c) /\ returns (comj_fits mb) (comj_sJacobian mb m c)) /\
  (guarded (pos_sized mb m /\ vel_sized mb m /\ subspace_sized mb m) (comj_sJacobianDot mb m c) (comj_jacobianDot mb m c) /\ returns (comj_fits mb) (comj_sJacobianDot mb m c)) /\
  guarded (pos_sized mb m /\ vel_sized mb m) (comj_sVelocity mb m c) (comj_velocity mb m c) /\
  (forall acc, guarded (pos_sized mb m /\ vel_sized mb m /\ length acc = nrBodies mb) (comj_sNormalAcceleration_pre mb m acc c) (comj_normalAcceleration_pre mb m acc c)).
Proof.
  intros W F. split; [|split; [|split]].
  - apply guarded_keeps; [|apply dec_pm|intros (P & M); now apply comj_jac_total].
    apply guardS; [apply ck_pos|]. intro P. apply guard1; [apply ck_ms|]. intro M. eapply drop_post. now apply comj_jac_total.
  - apply guarded_keeps; [|apply dec_pvm|intros (P & V & M); now apply comj_dot_total].
    apply guardS; [apply ck_pos|]. intro P. apply guardS; [apply ck_vel|]. intro V. apply guard1; [apply ck_ms|]. intro M. eapply drop_post. now apply comj_dot_total.
  - apply guardS; [apply ck_pos|]. intro P. apply guard1; [apply ck_vel|]. intro V. now apply comj_vel_total.
  - intro acc. apply guardS; [apply ck_pos|]. intro P. apply guardS; [apply ck_vel|]. intro V. apply guard1; [apply ck_vec|]. intro A. now apply comj_npre_total.
Qed.
Lemma safe_comj_nacc_guarded mb m c : wf_mb mb -> comj_fits mb c -> jvel_sized mb m ->
  guarded (pos_sized mb m /\ vel_sized mb m /\ jconf_sized mb m /\ tree_sized mb m) (comj_sNormalAcceleration mb m c) (comj_normalAcceleration mb m c) /\
  returns (fun r => comj_fits mb (snd r)) (comj_sNormalAcceleration mb m c).
Proof.
  intros W F JV. apply guarded_keeps; [|apply dec_nacc|intros (P & V & C & T); now apply comj_nacc_total].
  apply guardS; [apply ck_pos|]. intro P. apply guardS; [apply ck_vel|]. intro V. apply guardS; [apply ck_jconf|]. intro C. apply guard1; [apply ck_tree|]. intro T.
  eapply drop_post. now apply comj_nacc_total.
Qed.
Lemma safe_cmm_guarded mb m com cd c : wf_mb mb -> cmm_fits mb c ->
  (guarded (pos_sized mb m /\ subspace_sized mb m) (sComputeMatrix mb m com c) (computeMatrix mb m com c) /\ returns (cmm_fits mb) (sComputeMatrix mb m com c)) /\
  (guarded (pos_sized mb m /\ vel_sized mb m /\ subspace_sized mb m) (sComputeMatrixDot mb m com cd c) (computeMatrixDot mb m com cd c) /\ returns (cmm_fits mb) (sComputeMatrixDot mb m com cd c)) /\
  (guarded (pos_sized mb m /\ vel_sized mb m /\ subspace_sized mb m) (sComputeMatrixAndMatrixDot mb m com cd c) (computeMatrixAndMatrixDot mb m com cd c) /\
   returns (cmm_fits mb) (sComputeMatrixAndMatrixDot mb m com cd c)) /\
  guarded (pos_sized mb m /\ vel_sized mb m) (sMomentum mb m com c) (cmm_momentum mb m com c) /\
  (forall acc, guarded (pos_sized mb m /\ vel_sized mb m /\ length acc = nrBodies mb) (sNormalMomentumDot_pre mb m com cd acc c) (normalMomentumDot_pre mb m com cd acc c)).
Proof.
  intros W F. split; [|split; [|split; [|split]]].
  - apply guarded_keeps; [|apply dec_pm|intros (P & M); now apply cmm_mat_total].
    apply guardS; [apply ck_pos|]. intro P. apply guard1; [apply ck_ms|]. intro M. eapply drop_post. now apply cmm_mat_total.
  - apply guarded_keeps; [|apply dec_pvm|intros (P & V & M); now apply cmm_dot_total].
    apply guardS; [apply ck_pos|]. intro P. apply guardS; [apply ck_vel|]. intro V. apply guard1; [apply ck_ms|]. intro M. eapply drop_post. now apply cmm_dot_total.
  - apply guarded_keeps; [|apply dec_pvm|intros (P & V & M); now apply cmm_both_total].
    apply guardS; [apply ck_pos|]. intro P. apply guardS; [apply ck_vel|]. intro V. apply guard1; [apply ck_ms|]. intro M. eapply drop_post. now apply cmm_both_total.
  - apply guardS; [apply ck_pos|]. intro P. apply guard1; [apply ck_vel|]. intro V. now apply cmm_mom_total.
  - intro acc. apply guardS; [apply ck_pos|]. intro P. apply guardS; [apply ck_vel|]. intro V. apply guard1; [apply ck_vec|]. intro A. now apply cmm_npre_total.
Qed.
Lemma safe_cmm_nmd_guarded mb m com cd c : wf_mb mb -> cmm_fits mb c -> jvel_sized mb m ->
  guarded (pos_sized mb m /\ vel_sized mb m /\ jconf_sized mb m /\ tree_sized mb m) (sNormalMomentumDot mb m com cd c) (normalMomentumDot mb m com cd c) /\
  returns (fun r => cmm_fits mb (snd r)) (sNormalMomentumDot mb m com cd c).
Proof.
  intros W F JV. apply guarded_keeps; [|apply dec_nacc|intros (P & V & C & T); now apply cmm_nmd_total].
  apply guardS; [apply ck_pos|]. intro P. apply guardS; [apply ck_vel|]. intro V. apply guardS; [apply ck_jconf|]. intro C. apply guard1; [apply ck_tree|]. intro T.
  eapply drop_post. now apply cmm_nmd_total.
Qed.
Lemma safe_upd_guarded mb mb' c : wf_mb mb -> comj_fits mb c -> total_mass_of mb <> 0%R ->
  (exists c', sUpdateInertialParameters mb c = Ok c' /\ updateInertialParameters mb c = Ok c' /\ comj_fits mb c') /\
  (nrBodies mb' <> nrBodies mb -> sUpdateInertialParameters mb' c = Throw DomainError).
Proof.
  intros W F Z. unfold sUpdateInertialParameters. split.
  - rewrite (cf_coeff _ _ F), Nat.eqb_refl. cbn [negb]. destruct (comj_upd_total mb c F Z) as (c' & E & F'). eauto.
  - intro N. rewrite (cf_coeff _ _ F). destruct (Nat.eqb_spec (nrBodies mb) (nrBodies mb')); [congruence|reflexivity].
Qed.

(** ** The constructors give fitting objects *)
Lemma of_fits mb b p J : wf_mb mb -> jacobian_of mb b p J -> jac_fits mb J.
Proof.
  intros W JO. destruct JO. constructor; auto.
  - now apply (root_path_ne mb b).
  - now apply (root_path_in mb b).
  - rewrite jo_sign. apply map_length.
  - pose proof (root_path_ne mb b _ jo_path) as NE. pose proof (root_path_in mb b _ W jo_path) as IN. destruct (jc_path J) as [|k l]; [congruence|].
    specialize (IN k (or_introl eq_refl)). lia.
Qed.
Lemma comj_of_fits mb w c : wf_mb mb -> comj_of mb w c -> comj_fits mb c.
Proof.
  intros W C. constructor; try apply C.
  - rewrite (cjo_coeff _ _ _ C), map_length. apply seq_length.
  - rewrite (cjo_com _ _ _ C), map_length. apply seq_length.
  - intros l z Il Iz. apply In_nth_error in Il. destruct Il as (k & Ek).
    assert (Hk : k < nrBodies mb) by (rewrite <- (cjo_sub_len _ _ _ C); apply nth_error_Some; congruence).
    destruct (cjo_sub _ _ _ C k Hk) as (l' & E & _ & A). rewrite Ek in E. injection E as ->. apply in_map_iff in Iz. destruct Iz as (b & <- & Ib).
    exists b. split; auto. apply A in Ib. now apply (anc_lt mb k b W Hk).
  - rewrite (cjo_weight _ _ _ C). apply C.
Qed.
Lemma comd_of_fits mb w c : wf_mb mb -> (0 < total_mass_of mb)%R -> comd_of mb w c -> comd_fits mb c.
Proof.
  intros W TM C. constructor; try apply C.
  - intros J I. apply In_nth_error in I. destruct I as (k & Ek).
    assert (Hk : k < nrBodies mb) by (rewrite <- (cdo_len _ _ _ C); apply nth_error_Some; congruence).
    destruct (cdo_vec _ _ _ C k Hk) as (J' & E & JO). rewrite Ek in E. injection E as <-. now apply (of_fits mb k (own_com mb k)).
  - now rewrite (cdo_mass _ _ _ C).
  - rewrite (cdo_weight _ _ _ C). apply C.
Qed.
Lemma cmm_of_fits mb w c : wf_mb mb -> cmm_of mb w c -> cmm_fits mb c.
Proof.
  intros W C. constructor; try apply C.
  - intros i Hi. destruct (cmo_vec _ _ _ C i Hi) as (J & bs & E1 & JO & E2 & EC). exists J, bs.
    assert (F : jac_fits mb J) by (now apply (of_fits mb i v0)). do 3 (split; auto).
    destruct (jc_path J) as [|k0 l] eqn:EP; [exfalso; now apply (jf_ne _ _ F)|].
    destruct (compactPath_ok mb J k0 l W EP (jf_in _ _ F)) as (bs' & E' & FB & _). rewrite EC in E'. injection E' as <-.
    rewrite (jf_jac _ _ F). exact FB.
  - rewrite (cmo_weight _ _ _ C). apply C.
Qed.

(** ** Statics and identification *)
Lemma safe_is_guarded mb f m : wf_mb mb -> length f = nrBodies mb ->
  guarded (jacc_sized mb m /\ force_sized mb m /\ jconf_sized mb m /\ jvel_sized mb m /\ pos_sized mb m /\ tree_sized mb m /\
           vel_sized mb m /\ subspace_sized mb m /\ acc_sized mb m /\ torque_sized mb m)
    (sInverseStatics mb f m) (inverseStatics mb f m).
Proof.
  intros W Lf. unfold sInverseStatics, id_checks. rewrite ?bind_assoc.
  apply guardS; [apply ck_jacc|]. intro A. rewrite ?bind_assoc. apply guardS; [apply ck_force|]. intro B. rewrite ?bind_assoc.
  apply guardS; [apply ck_jconf|]. intro C. rewrite ?bind_assoc. apply guardS; [apply ck_jvel|]. intro JV. rewrite ?bind_assoc.
  apply guardS; [apply ck_pos|]. intro P. rewrite ?bind_assoc. apply guardS; [apply ck_tree|]. intro T. rewrite ?bind_assoc.
  apply guardS; [apply ck_vel|]. intro V. rewrite ?bind_assoc. apply guardS; [apply ck_ms|]. intro M. rewrite ?bind_assoc.
  apply guardS; [apply ck_acc|]. intro AC. apply guard1; [apply ck_torque|]. intro TQ.
  assert (K : mbc_ok mb (fill_qa mb m)).
  { destruct V as (V1 & V2). constructor; cbn; auto; try apply sized_zeros. unfold tree_sized in T. rewrite T. now rewrite (wf_nrJoints mb W). }
  destruct (is_forward_ok mb (fill_qa mb m) f (mkSV v0 (gravity m)) W K Lf) as (A' & f1 & E & LA & Lf1 & _).
  unfold inverseStatics.
  change (for_up (nrBodies mb) (is_body mb m (mkSV v0 (gravity m))) (bodyAccB m, f))
    with (for_up (nrBodies mb) (is_body mb (fill_qa mb m) (mkSV v0 (gravity m))) (bodyAccB (fill_qa mb m), f)).
  rewrite E. cbn [bind fst snd].
  destruct (is_torques_ok mb (with_bodyAccB A' m) f1 W Lf1) as (jt & f' & E' & _); auto.
  { cbn. rewrite T. now rewrite (wf_nrJoints mb W). }
  rewrite E'. cbn [bind]. eauto.
Qed.
Definition fill_y mb m := with_q (map (fun j => repeat 0%R (jparams j)) (mb_joints mb)) (with_alpha (map (fun j => repeat 0%R (jdof j)) (mb_joints mb))
  (with_alphaD (map (fun j => repeat 0%R (jdof j)) (mb_joints mb)) (with_jointTorque (map (fun j => repeat 0%R (jdof j)) (mb_joints mb))
  (with_force (repeat sv0 (nrBodies mb)) (with_jointConfig (repeat ptid (nrJoints mb)) (with_jointVelocity (repeat sv0 (nrJoints mb))
  (with_bodyPosW (repeat ptid (nrBodies mb)) m))))))).
Lemma idim_loop_eq mb m m' i : parentToSon m = parentToSon m' -> motionSubspace m = motionSubspace m' ->
  forall fuel j F Y, idim_loop mb m i fuel j F Y = idim_loop mb m' i fuel j F Y.
Proof.
  intros E1 E2. induction fuel as [|fuel IH]; intros j F Y; [reflexivity|]. cbn [idim_loop]. rewrite E1, E2.
  apply bind_ext; intros pr. destruct (negb (pr =? -1)%Z); [|reflexivity].
  apply bind_ext; intros X. apply bind_ext; intros F'. apply bind_ext; intros pj. apply bind_ext; intros jj. destruct (negb (jdof jj =? 0)); [|apply IH].
  apply bind_ext; intros ms. apply bind_ext; intros B. apply bind_ext; intros Y'. apply IH.
Qed.
Lemma computeY_fill mb m Y : computeY mb m Y = computeY mb (fill_y mb m) Y.
Proof.
  unfold computeY. revert Y. induction (nrBodies mb) as [|n IH]; intro Y; cbn [for_down]; [reflexivity|].
  assert (E : idim_step mb m n Y = idim_step mb (fill_y mb m) n Y).
  { unfold idim_step. change (bodyVelB (fill_y mb m)) with (bodyVelB m). change (bodyAccB (fill_y mb m)) with (bodyAccB m).
    change (motionSubspace (fill_y mb m)) with (motionSubspace m).
    apply bind_ext; intros V. apply bind_ext; intros A. apply bind_ext; intros F. apply bind_ext; intros pi. apply bind_ext; intros j. apply bind_ext; intros ms.
    apply bind_ext; intros B. apply bind_ext; intros Y'. now apply idim_loop_eq. }
  rewrite E. apply bind_ext; intros Y'. apply IH.
Qed.
Lemma safe_y_guarded mb m Y : wf_mb mb -> idim_of mb Y ->
  guarded (tree_sized mb m /\ vel_sized mb m /\ subspace_sized mb m /\ acc_sized mb m) (sComputeY mb m Y) (computeY mb m Y) /\
  returns (idim_of mb) (sComputeY mb m Y).
Proof.
  intros W IY.
  assert (TT : tree_sized mb m -> vel_sized mb m -> subspace_sized mb m -> acc_sized mb m -> exists Y', computeY mb m Y = Ok Y' /\ idim_of mb Y').
  { intros T V M A. rewrite (computeY_fill mb m).
    destruct (computeY_ok mb (fill_y mb m) Y W) as (Y' & E & H); auto.
    - destruct V as (V1 & V2). constructor; cbn; auto; try apply sized_zeros; try apply repeat_length. unfold tree_sized in T. rewrite T. now rewrite (wf_nrJoints mb W).
    - exists Y'. split; auto. now apply (idim_post_of mb (fill_y mb m)). }
  apply guarded_keeps.
  - apply guardS; [apply ck_tree|]. intro T. apply guardS; [apply ck_vel|]. intro V. apply guardS; [apply ck_ms|]. intro M. apply guard1; [apply ck_acc|]. intro A.
    eapply drop_post. now apply TT.
  - destruct (ck_tree mb m), (ck_vel mb m), (ck_ms mb m), (ck_acc mb m); tauto.
  - intros (T & V & M & A). now apply TT.
Qed.

(** ** Conversion *)
Lemma safe_convert_guarded from to_ cc mf mt : constructed from -> constructed to_ -> distinct_names from -> distinct_names to_ -> 0 < nrJoints from ->
  CC_sConstructor from to_ = Ok cc -> shaped from mf -> guarded (same_counts mf mt) (CC_sConvert cc mf mt) (CC_convert cc mf mt).
Proof.
  intros Cf Ct Df Dt NZ EC SF.
  destruct (sConstructor_ok from to_ Cf Ct) as (S1 & S2).
  assert (NN : nrBodies from = nrBodies to_ /\ nrJoints from = nrJoints to_ /\ (forall n, In n (joint_names from) -> In n (joint_names to_)) /\ (forall n, In n (body_names from) -> In n (body_names to_))).
  { unfold CC_sConstructor in EC. destruct (_ && _)%bool eqn:B in EC; [|discriminate].
    apply andb_prop in B. destruct B as (B & B4). apply andb_prop in B. destruct B as (B & B3). apply andb_prop in B. destruct B as (B1 & B2).
    apply Nat.eqb_eq in B1, B2. destruct (constructed_names _ Ct) as (_ & _ & _ & Bi & Ji & Bn & Jn). split; auto. split; auto. split.
    - intros n Hn. apply in_map_iff in Hn. destruct Hn as (j & <- & Hj). rewrite forallb_forall in B3. specialize (B3 j Hj).
      destruct (in_dec string_dec (jname j) (joint_names to_)) as [|NI]; auto. rewrite (Jn _ NI) in B3. discriminate.
    - intros n Hn. apply in_map_iff in Hn. destruct Hn as (j & <- & Hj). rewrite forallb_forall in B4. specialize (B4 j Hj).
      destruct (in_dec string_dec (bname j) (body_names to_)) as [|NI]; auto. rewrite (Bn _ NI) in B4. discriminate. }
  specialize (S1 NN). rewrite S1 in EC. destruct NN as (NB & NJ & IJ & IB).
  assert (GB : (length (q mf) =? length (q mt)) && (length (alpha mf) =? length (alpha mt)) && (length (alphaD mf) =? length (alphaD mt))
      && (length (force mf) =? length (force mt)) = true <-> same_counts mf mt).
  { unfold same_counts. rewrite !andb_true_iff, !Nat.eqb_eq. tauto. }
  unfold CC_sConvert. destruct (_ && _)%bool eqn:B.
  - assert (SC : same_counts mf mt) by (apply GB; reflexivity). split; [|tauto]. intros _. split; auto.
    destruct (converter_ok from to_ mf mt Cf Ct Df Dt NZ) as (cc' & m' & E1 & E2 & _); auto.
    + intros n H. apply IJ. destruct (joint_names from); [destruct H|]. now right.
    + destruct SF as (A1 & A2 & A3 & A4), SC as (C1 & C2 & C3 & C4). repeat split; congruence.
    + rewrite EC in E1. injection E1 as <-. eauto.
  - split; [|auto]. intro SC. apply GB in SC. discriminate.
Qed.
