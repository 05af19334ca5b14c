(** The safe versions of the Jacobian functions: statements. *)
From Coq Require Import Reals String ZArith Bool Arith List Lia Lra.
From Verif Require Import Res ResP SMap Vec VecP Sva SvaP Mat JointM MultiBodyM KinM DynM JacM Spec SpecDyn SpecJac SpecConf SpecRel SpecSafe
  JointP KinP KinPathP MbP TreeP DynP DynCP ConvP KinFinP ConfFinP DerivTreeP JacP JacFinP JacFin2P JacBlkP RelP SafeP.
Import ListNotations.
Open Scope nat_scope.

Lemma drop_post {A} (u : res A) (P : A -> Prop) : (exists a, u = Ok a /\ P a) -> exists a, u = Ok a.
Proof. intros (a & E & _). eauto. Qed.
Lemma jac_checks_guard {A} mb m J (u : res A) : wf_mb mb -> jac_fits mb J -> (pos_sized mb m -> subspace_sized mb m -> exists a, u = Ok a) ->
  guarded (pos_sized mb m /\ subspace_sized mb m) (jac_checks mb m J ;;; u) u.
Proof.
  intros W F T. unfold jac_checks. rewrite ?bind_assoc.
  apply (guarded_iff (pos_sized mb m /\ subspace_sized mb m /\ True)); [tauto|].
  apply guarded_check; [apply ck_pos|]. intro P. rewrite ?bind_assoc. apply guarded_check; [apply ck_ms|]. intro M.
  rewrite (checkPath_ok mb J W F). apply guarded_base. auto.
Qed.
Lemma jacdot_checks_guard {A} mb m J (u : res A) : wf_mb mb -> jac_fits mb J -> (pos_sized mb m -> vel_sized mb m -> subspace_sized mb m -> exists a, u = Ok a) ->
  guarded (pos_sized mb m /\ vel_sized mb m /\ subspace_sized mb m) (jacdot_checks mb m J ;;; u) u.
Proof.
  intros W F T. unfold jacdot_checks. rewrite ?bind_assoc.
  apply (guarded_iff (pos_sized mb m /\ vel_sized mb m /\ subspace_sized mb m /\ True)); [tauto|].
  apply guarded_check; [apply ck_pos|]. intro P. rewrite ?bind_assoc. apply guarded_check; [apply ck_vel|]. intro V.
  rewrite ?bind_assoc. apply guarded_check; [apply ck_ms|]. intro M.
  rewrite (checkPath_ok mb J W F). apply guarded_base. auto.
Qed.
Lemma last_body_dec m J : last (jc_path J) 0 <? length (bodyPosW m) = true <-> last_body_in m J.
Proof. unfold last_body_in. apply Nat.ltb_lt. Qed.

Lemma safe_jacobian_guarded mb m J : wf_mb mb -> jac_fits mb J ->
  guarded (pos_sized mb m /\ subspace_sized mb m) (sJacobian mb m J) (jacobian mb m J) /\
  (forall X, guarded (pos_sized mb m /\ subspace_sized mb m) (sJacobian_at mb m X J) (jacobian_at mb m X J)) /\
  guarded (pos_sized mb m /\ subspace_sized mb m) (sBodyJacobian mb m J) (bodyJacobian mb m J) /\
  (forall v, guarded (pos_sized mb m /\ subspace_sized mb m) (sVectorJacobian mb m v J) (vectorJacobian mb m v J)) /\
  (forall v, guarded (pos_sized mb m /\ subspace_sized mb m) (sVectorBodyJacobian mb m v J) (vectorBodyJacobian mb m v J)) /\
  guarded (pos_sized mb m /\ vel_sized mb m /\ subspace_sized mb m) (sJacobianDot mb m J) (jacobianDot mb m J) /\
  guarded (pos_sized mb m /\ vel_sized mb m /\ subspace_sized mb m) (sBodyJacobianDot mb m J) (bodyJacobianDot mb m J).
Proof.
  intros W F.
  split. { apply jac_checks_guard; auto. intros. eapply drop_post. now apply (jacobian_total mb m J W F). }
  split. { intro X. apply jac_checks_guard; auto. intros. eapply drop_post. now apply (jacobian_at_total mb m J W F X). }
  split. { apply jac_checks_guard; auto. intros. eapply drop_post. now apply (bodyJacobian_total mb m J W F). }
  split. { intro v. apply jac_checks_guard; auto. intros. eapply drop_post. now apply (vectorJacobian_total mb m J W F v). }
  split. { intro v. apply jac_checks_guard; auto. intros. eapply drop_post. now apply (vectorBodyJacobian_total mb m J W F v). }
  split. { apply jacdot_checks_guard; auto. intros. eapply drop_post. now apply (jacobianDot_total mb m J W F). }
  apply jacdot_checks_guard; auto. intros. eapply drop_post. now apply (bodyJacobianDot_total mb m J W F).
Qed.
Lemma safe_sizes_guarded mb m J : wf_mb mb -> jac_fits mb J ->
  guarded True (sSubMultiBody mb J) (subMultiBody mb J) /\
  (forall jac p r, guarded (last_body_in m J /\ length jac = jac_dof J /\ length r = jac_dof J)
     (sTranslateJacobian m jac p r J) (translateJacobian m jac p r J)) /\
  (forall jac r, guarded (mcols jac = jac_dof J /\ mrows jac = 6 /\ mcols r = mb_nrDof mb /\ mrows r = 6)
     (sFullJacobian mb J jac r) (fullJacobian mb J jac r)).
Proof.
  intros W F. split; [|split].
  - unfold sSubMultiBody. rewrite (checkPath_ok mb J W F). cbn [bind]. apply guarded_base. now apply subMultiBody_total.
  - intros jac p r. unfold sTranslateJacobian. rewrite (backN mb J F). cbn [bind].
    apply (guarded_iff (last_body_in m J /\ length jac = jac_dof J /\ length r = jac_dof J /\ True)); [tauto|].
    apply guarded_if; [apply last_body_dec|]. intro L. apply guarded_if; [apply Nat.eqb_eq|]. intro A. apply guarded_if; [apply Nat.eqb_eq|]. intro B.
    apply guarded_base. now apply (translate_total mb m J F).
  - intros jac r. unfold sFullJacobian. rewrite (checkPath_ok mb J W F). cbn [bind].
    apply (guarded_iff ((mcols jac = jac_dof J /\ mrows jac = 6) /\ (mcols r = mb_nrDof mb /\ mrows r = 6) /\ True)); [tauto|].
    apply guarded_if; [rewrite andb_true_iff, !Nat.eqb_eq; tauto|]. intros (A & B). apply guarded_if; [rewrite andb_true_iff, !Nat.eqb_eq; tauto|]. intros (C & D).
    apply guarded_base. now apply fullJacobian_total.
Qed.
Lemma safe_velocity_guarded mb m J : wf_mb mb -> jac_fits mb J ->
  (forall X, guarded (pos_sized mb m /\ vel_sized mb m) (sVelocity_at mb m X J) (velocity_at m X J)) /\
  guarded (pos_sized mb m /\ vel_sized mb m) (sVelocity mb m J) (velocity m J) /\
  guarded (vel_sized mb m) (sBodyVelocity mb m J) (bodyVelocity m J) /\
  (forall acc X V, guarded (pos_sized mb m /\ vel_sized mb m /\ length acc = nrBodies mb)
     (sNormalAcceleration_pre_at mb m acc X V J) (normalAcceleration_pre_at m acc X V J)) /\
  (forall acc, guarded (pos_sized mb m /\ vel_sized mb m /\ length acc = nrBodies mb)
     (sNormalAcceleration_pre mb m acc J) (normalAcceleration_pre m acc J)) /\
  (forall acc, guarded (length acc = nrBodies mb) (sBodyNormalAcceleration_pre mb m acc J) (bodyNormalAcceleration_pre acc J)).
Proof.
  intros W F.
  split. { intro X. apply (guarded_iff (pos_sized mb m /\ vel_sized mb m /\ True)); [tauto|]. apply guarded_check; [apply ck_pos|]. intro P.
    apply guarded_check; [apply ck_vel|]. intro V. apply guarded_base. now apply (velocity_at_total mb m J F). }
  split. { apply (guarded_iff (pos_sized mb m /\ vel_sized mb m /\ True)); [tauto|]. apply guarded_check; [apply ck_pos|]. intro P.
    apply guarded_check; [apply ck_vel|]. intro V. apply guarded_base. now apply (velocity_total mb m J F). }
  split. { apply (guarded_iff (vel_sized mb m /\ True)); [tauto|]. apply guarded_check; [apply ck_vel|]. intro V. apply guarded_base. now apply (bodyVelocity_total mb m J F). }
  assert (GA : forall acc : list SV, length acc = nrBodies mb -> get acc (last (jc_path J) 0) = Ok (nth (last (jc_path J) 0) acc sv0)).
  { intros acc L. apply get_nth. rewrite L. exact (N_in mb J F). }
  split. { intros acc X V. apply (guarded_iff (pos_sized mb m /\ vel_sized mb m /\ length acc = nrBodies mb /\ True)); [tauto|].
    apply guarded_check; [apply ck_pos|]. intro P. apply guarded_check; [apply ck_vel|]. intro HV. apply guarded_check; [apply ck_vec|]. intro L.
    apply guarded_base. unfold normalAcceleration_pre_at. rewrite (backN mb J F). cbn [bind]. rewrite GA by auto. cbn [bind]. now apply (nN_at_total mb m J F). }
  split. { intros acc. apply (guarded_iff (pos_sized mb m /\ vel_sized mb m /\ length acc = nrBodies mb /\ True)); [tauto|].
    apply guarded_check; [apply ck_pos|]. intro P. apply guarded_check; [apply ck_vel|]. intro HV. apply guarded_check; [apply ck_vec|]. intro L.
    apply guarded_base. unfold normalAcceleration_pre. rewrite (backN mb J F). cbn [bind]. rewrite GA by auto. cbn [bind]. now apply (nN_total mb m J F). }
  intros acc. apply (guarded_iff (length acc = nrBodies mb /\ True)); [tauto|]. apply guarded_check; [apply ck_vec|]. intro L. apply guarded_base.
  unfold bodyNormalAcceleration_pre. rewrite (backN mb J F). cbn [bind]. rewrite GA by auto. cbn [bind]. eauto.
Qed.
Lemma safe_nacc_guarded mb m J : wf_mb mb -> jac_fits mb J -> jvel_sized mb m ->
  (forall X V, guarded (pos_sized mb m /\ vel_sized mb m /\ jconf_sized mb m /\ tree_sized mb m)
     (sNormalAcceleration_at mb m X V J) (normalAcceleration_at m X V J)) /\
  guarded (pos_sized mb m /\ vel_sized mb m /\ jconf_sized mb m /\ tree_sized mb m)
     (sNormalAcceleration mb m J) (normalAcceleration m J) /\
  (length (bodyVelB m) = nrBodies mb ->
   guarded (jconf_sized mb m /\ tree_sized mb m) (sBodyNormalAcceleration mb m J) (bodyNormalAcceleration m J)).
Proof.
  intros W F VJ.
  split. { intros X V. apply (guarded_iff (pos_sized mb m /\ vel_sized mb m /\ jconf_sized mb m /\ tree_sized mb m /\ True)); [tauto|].
    unfold sNormalAcceleration_at, nacc_checks. rewrite ?bind_assoc. apply guarded_check; [apply ck_pos|]. intro P.
    rewrite ?bind_assoc. apply guarded_check; [apply ck_vel|]. intro HV. rewrite ?bind_assoc. apply guarded_check; [apply ck_jconf|]. intro C.
    apply guarded_check; [apply ck_tree|]. intro T. apply guarded_base. unfold normalAcceleration_at.
    destruct (naccB_total mb m J W F T VJ (proj2 HV)) as (A & ->). cbn [bind]. now apply (nN_at_total mb m J F). }
  split. { apply (guarded_iff (pos_sized mb m /\ vel_sized mb m /\ jconf_sized mb m /\ tree_sized mb m /\ True)); [tauto|].
    unfold sNormalAcceleration, nacc_checks. rewrite ?bind_assoc. apply guarded_check; [apply ck_pos|]. intro P.
    rewrite ?bind_assoc. apply guarded_check; [apply ck_vel|]. intro HV. rewrite ?bind_assoc. apply guarded_check; [apply ck_jconf|]. intro C.
    apply guarded_check; [apply ck_tree|]. intro T. apply guarded_base. unfold normalAcceleration.
    destruct (naccB_total mb m J W F T VJ (proj2 HV)) as (A & ->). cbn [bind]. now apply (nN_total mb m J F). }
  intro B. apply (guarded_iff (jconf_sized mb m /\ tree_sized mb m /\ True)); [tauto|].
  unfold sBodyNormalAcceleration. apply guarded_check; [apply ck_jconf|]. intro C. apply guarded_check; [apply ck_tree|]. intro T.
  apply guarded_base. unfold bodyNormalAcceleration. destruct (naccB_total mb m J W F T VJ B) as (A & ->). cbn [bind]. eauto.
Qed.
(** Objects whose path leaves the robot. *)
Lemma leaves_throws mb m J : leaves mb J ->
  sJacobian mb m J = Throw DomainError /\ (forall X, sJacobian_at mb m X J = Throw DomainError) /\
  sBodyJacobian mb m J = Throw DomainError /\ (forall v, sVectorJacobian mb m v J = Throw DomainError) /\
  (forall v, sVectorBodyJacobian mb m v J = Throw DomainError) /\ sJacobianDot mb m J = Throw DomainError /\
  sBodyJacobianDot mb m J = Throw DomainError /\ sSubMultiBody mb J = Throw DomainError /\
  (forall jac r, sFullJacobian mb J jac r = Throw DomainError).
Proof.
  intro L. assert (C1 : jac_checks mb m J = Throw DomainError).
  { unfold jac_checks. destruct (ck_pos mb m) as [(-> & _)|(-> & _)]; cbn [bind]; auto. destruct (ck_ms mb m) as [(-> & _)|(-> & _)]; cbn [bind]; auto.
    now apply checkPath_leaves. }
  assert (C2 : jacdot_checks mb m J = Throw DomainError).
  { unfold jacdot_checks. destruct (ck_pos mb m) as [(-> & _)|(-> & _)]; cbn [bind]; auto. destruct (ck_vel mb m) as [(-> & _)|(-> & _)]; cbn [bind]; auto.
    destruct (ck_ms mb m) as [(-> & _)|(-> & _)]; cbn [bind]; auto. now apply checkPath_leaves. }
  unfold sJacobian, sJacobian_at, sBodyJacobian, sVectorJacobian, sVectorBodyJacobian, sJacobianDot, sBodyJacobianDot, sSubMultiBody, sFullJacobian.
  rewrite C1, C2, (checkPath_leaves mb J L). cbn [bind]. auto 10.
Qed.

(** ** The objects *)
Lemma root_path_ne mb i l : root_path mb i l -> l <> [].
Proof. intros H E. subst. inversion H as [|? ? l0 ? ? E0]. destruct l0; discriminate. Qed.
Lemma ctor_fits g mb name p b J : wf_mb mb -> b < nrBodies mb -> sBodyIndexByName mb name = Ok (Z.of_nat b) ->
  Jacobian_ctor g mb name p = Ok J -> jac_fits mb J.
Proof.
  intros W Hb E H. destruct (ctor_ok g mb name p b W E Hb) as (J' & E' & JO). rewrite H in E'. injection E' as <-. destruct JO.
  constructor; auto.
  - now apply (root_path_ne mb b).
  - now apply (root_path_in mb b).
  - rewrite jo_sign. apply map_length.
  - lia.
Qed.
Lemma ref_ctor_fits g mb name ref p b r J : wf_mb mb -> one_root mb -> b < nrBodies mb -> r < nrBodies mb -> b <> r ->
  sBodyIndexByName mb name = Ok (Z.of_nat b) -> sBodyIndexByName mb ref = Ok (Z.of_nat r) ->
  Jacobian_ref_ctor g mb name ref p = Ok J -> jac_fits mb J.
Proof.
  intros W O1 Hb Hr NE Eb Er H. destruct (ref_ctor_ok g mb name ref p b r W O1 Hb Hr Eb Er) as (J' & dn & up & E' & SH & OB). rewrite H in E'. injection E' as <-.
  destruct OB as (P & S & _ & L1 & L2 & _ & RF).
  assert (IN : (forall k, In k (dn ++ up) -> k < nrBodies mb) /\ dn ++ up <> []).
  { destruct SH as [lr s R1 R2|c lc sb sr RC RB RR ND NC|sb sr RB RR ND NR].
    - split. { intros k Hk. apply (root_path_in mb b _ W R2). apply in_or_app. now right. }
      intro Z. cbn in Z. subst s. rewrite app_nil_r in R2. pose proof (root_path_back _ _ _ R1) as A. pose proof (root_path_back _ _ _ R2) as B. congruence.
    - split. { intros k Hk. apply in_app_or in Hk. destruct Hk as [Hk|Hk].
        - apply in_rev in Hk. apply (root_path_in mb r _ W RR). apply in_or_app. now right.
        - apply (root_path_in mb b _ W RB). apply in_or_app. now right. }
      intro Z. apply app_eq_nil in Z. destruct Z as (Z1 & Z2). apply (f_equal (@rev nat)) in Z1. rewrite rev_involutive in Z1. cbn in Z1. subst sb sr. rewrite app_nil_r in *.
      pose proof (root_path_back _ _ _ RR) as A. pose proof (root_path_back _ _ _ RB) as B. congruence.
    - split. { intros k Hk. apply in_app_or in Hk. destruct Hk as [Hk|Hk].
        - apply in_rev in Hk. apply (root_path_in mb r _ W RR). now right.
        - apply (root_path_in mb b _ W RB). exact Hk. }
      intro Z. apply app_eq_nil in Z. destruct Z as (_ & Z2). discriminate. }
  constructor; rewrite ?P; try apply IN; auto.
  - rewrite S, app_length, !map_length. now rewrite app_length.
  - rewrite RF. lia.
Qed.
Lemma same_body_path g mb name p b J : sBodyIndexByName mb name = Ok (Z.of_nat b) -> Jacobian_ref_ctor g mb name name p = Ok J -> jc_path J = [].
Proof.
  intros E H. unfold Jacobian_ref_ctor in H. rewrite E in H. cbn [bind ref_walk] in H.
  replace (Z.of_nat b =? -1)%Z with false in H by (symmetry; apply Z.eqb_neq; lia). rewrite Z.eqb_refl in H. cbn [bind] in H. rewrite Z.eqb_refl in H. cbn [bind] in H.
  injection H as <-. reflexivity.
Qed.
Lemma empty_path_UB mb m J : pos_sized mb m -> vel_sized mb m -> subspace_sized mb m -> jc_path J = [] ->
  sJacobian mb m J = UB /\ sBodyJacobian mb m J = UB /\ sJacobianDot mb m J = UB /\ sSubMultiBody mb J = UB /\ sVelocity mb m J = UB.
Proof.
  intros P V M E. assert (CP : checkPath mb J = UB) by (unfold checkPath; now rewrite E).
  unfold sJacobian, sBodyJacobian, sJacobianDot, sSubMultiBody, sVelocity, jac_checks, jacdot_checks, velocity, back. rewrite CP, E. cbn [rev bind].
  destruct (ck_pos mb m) as [(_ & X)|(-> & _)]; [tauto|]. destruct (ck_vel mb m) as [(_ & X)|(-> & _)]; [tauto|]. destruct (ck_ms mb m) as [(_ & X)|(-> & _)]; [tauto|].
  auto.
Qed.
