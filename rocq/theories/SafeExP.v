(** Inputs the checks of the safe functions do not reject, and examples. *)
From Coq Require Import Reals String ZArith Bool Arith List Lia Lra.
From Verif Require Import Res ResP SMap Vec VecP Sva SvaP Mat JointM MultiBodyM KinM DynM JacM CoMM MomM ISM IDIMM Spec SpecDyn SpecJac SpecCoM SpecIDIM SpecConf SpecRel SpecSafe
  JointP KinP KinPathP MbP TreeP DynP DynCP ConvP KinFinP ConfFinP DerivTreeP JacP JacFinP JacFin2P JacBlkP RelP CoMP CoMLoopP CoMCtorP SafeP SafeTopP SafeCoMP SafeComTopP IDIMP ISP
  Ex DynExP JacExP IkExP CoMExP.
Import ListNotations.
Open Scope nat_scope.

Lemma safe_jacobian_keeps mb m J : wf_mb mb -> jac_fits mb J ->
  returns (jac_fits mb) (sJacobian mb m J) /\ (forall X, returns (jac_fits mb) (sJacobian_at mb m X J)) /\
  returns (jac_fits mb) (sBodyJacobian mb m J) /\ (forall v, returns (jac_fits mb) (sVectorJacobian mb m v J)) /\
  (forall v, returns (jac_fits mb) (sVectorBodyJacobian mb m v J)) /\ returns (jac_fits mb) (sJacobianDot mb m J) /\
  returns (jac_fits mb) (sBodyJacobianDot mb m J).
Proof.
  intros W F. destruct (safe_jacobian_guarded mb m J W F) as (G1 & G2 & G3 & G4 & G5 & G6 & G7).
  split. { apply (guarded_keeps _ _ _ _ G1 (dec_pm mb m)). intros (P & M). now apply jacobian_total. }
  split. { intro X. apply (guarded_keeps _ _ _ _ (G2 X) (dec_pm mb m)). intros (P & M). now apply jacobian_at_total. }
  split. { apply (guarded_keeps _ _ _ _ G3 (dec_pm mb m)). intros (P & M). now apply bodyJacobian_total. }
  split. { intro v. apply (guarded_keeps _ _ _ _ (G4 v) (dec_pm mb m)). intros (P & M). now apply vectorJacobian_total. }
  split. { intro v. apply (guarded_keeps _ _ _ _ (G5 v) (dec_pm mb m)). intros (P & M). now apply vectorBodyJacobian_total. }
  split. { apply (guarded_keeps _ _ _ _ G6 (dec_pvm mb m)). intros (P & V & M). now apply jacobianDot_total. }
  apply (guarded_keeps _ _ _ _ G7 (dec_pvm mb m)). intros (P & V & M). now apply bodyJacobianDot_total.
Qed.

(** ** jointVelocity is read but not checked *)
Lemma naccB_UB mb m J : wf_mb mb -> jac_fits mb J -> tree_sized mb m -> jointVelocity m = [] \/ bodyVelB m = [] -> normalAccB_ m (jc_path J) = UB.
Proof.
  intros W F T E. unfold normalAccB_. pose proof (jf_ne _ _ F) as NE. pose proof (jf_in _ _ F) as IN. destruct (jc_path J) as [|k l]; [congruence|].
  cbn [for_each]. rewrite (get_nth (parentToSon m) k ptid) by (rewrite T, (wf_nrJoints mb W); apply IN; now left). cbn [bind].
  destruct E as [E|E].
  - rewrite E. now destruct k.
  - unfold get at 1. destruct (nth_error (jointVelocity m) k); [|reflexivity]. cbn [bind]. rewrite E. now destruct k.
Qed.
Lemma safe_nacc_UB mb m J : wf_mb mb -> jac_fits mb J -> jconf_sized mb m -> tree_sized mb m ->
  (pos_sized mb m -> vel_sized mb m -> jointVelocity m = [] ->
     sNormalAcceleration mb m J = UB /\ forall X V, sNormalAcceleration_at mb m X V J = UB) /\
  (jointVelocity m = [] \/ bodyVelB m = [] -> sBodyNormalAcceleration mb m J = UB).
Proof.
  intros W F C T. split.
  - intros P V E. unfold sNormalAcceleration, sNormalAcceleration_at, nacc_checks, normalAcceleration, normalAcceleration_at.
    destruct (ck_pos mb m) as [(_ & N)|(-> & _)]; [tauto|]. destruct (ck_vel mb m) as [(_ & N)|(-> & _)]; [tauto|].
    destruct (ck_jconf mb m) as [(_ & N)|(-> & _)]; [tauto|]. destruct (ck_tree mb m) as [(_ & N)|(-> & _)]; [tauto|]. cbn [bind].
    rewrite (naccB_UB mb m J W F T) by auto. auto.
  - intro E. unfold sBodyNormalAcceleration, bodyNormalAcceleration.
    destruct (ck_jconf mb m) as [(_ & N)|(-> & _)]; [tauto|]. destruct (ck_tree mb m) as [(_ & N)|(-> & _)]; [tauto|]. cbn [bind].
    now rewrite (naccB_UB mb m J W F T E).
Qed.
Lemma nacc_step_UB mb m acc : wf_mb mb -> 0 < nrBodies mb -> tree_sized mb m -> jointVelocity m = [] -> for_up (nrJoints mb) (nacc_step mb m) acc = UB.
Proof.
  intros W NZ T E. pose proof (wf_nrJoints mb W) as NJ. apply (for_up_stop (fun _ _ => True) _ _ 0 acc); auto; [lia|lia|].
  intros s _. unfold nacc_step. rewrite (get_nth (parentToSon m) 0 ptid) by (unfold tree_sized in T; lia). cbn [bind]. rewrite E. reflexivity.
Qed.
Lemma safe_comj_nacc_UB mb m c : wf_mb mb -> 0 < nrBodies mb -> pos_sized mb m -> vel_sized mb m -> jconf_sized mb m -> tree_sized mb m -> jointVelocity m = [] ->
  comj_sNormalAcceleration mb m c = UB.
Proof.
  intros W NZ P V C T E. unfold comj_sNormalAcceleration, comj_normalAcceleration.
  destruct (ck_pos mb m) as [(_ & N)|(-> & _)]; [tauto|]. destruct (ck_vel mb m) as [(_ & N)|(-> & _)]; [tauto|].
  destruct (ck_jconf mb m) as [(_ & N)|(-> & _)]; [tauto|]. destruct (ck_tree mb m) as [(_ & N)|(-> & _)]; [tauto|]. cbn [bind].
  now rewrite nacc_step_UB.
Qed.
Lemma safe_cmm_nmd_UB mb m com cd c : wf_mb mb -> 0 < nrBodies mb -> pos_sized mb m -> vel_sized mb m -> jconf_sized mb m -> tree_sized mb m -> jointVelocity m = [] ->
  sNormalMomentumDot mb m com cd c = UB.
Proof.
  intros W NZ P V C T E. unfold sNormalMomentumDot, normalMomentumDot.
  destruct (ck_pos mb m) as [(_ & N)|(-> & _)]; [tauto|]. destruct (ck_vel mb m) as [(_ & N)|(-> & _)]; [tauto|].
  destruct (ck_jconf mb m) as [(_ & N)|(-> & _)]; [tauto|]. destruct (ck_tree mb m) as [(_ & N)|(-> & _)]; [tauto|]. cbn [bind].
  now rewrite nacc_step_UB.
Qed.

(** ** Objects of another robot *)
Lemma other_robot_UB :
  wf_mb exs_mb /\ Jacobian_ctor (fun _ _ => sv0) exs_mb "hand"%string v0 = Ok exs_J /\ wf_mb ex_mb /\ mbc_ok ex_mb ex_m /\
  sJacobian ex_mb ex_m exs_J = UB /\ sJacobianDot ex_mb ex_m exs_J = UB /\
  (forall jac r, mrows jac = 6 -> mcols jac = 1 -> mrows r = 6 -> mcols r = mb_nrDof ex_mb -> sFullJacobian ex_mb exs_J jac r = UB) /\
  mbc_ok exs_mb exs_m /\ Jacobian_ctor (fun _ _ => sv0) ex_mb "hand"%string (mkV3 1 2 3) = Ok ex_J /\
  sVelocity exs_mb exs_m ex_J = UB /\ sBodyVelocity exs_mb exs_m ex_J = UB.
Proof.
  split; [exact exs_wf|]. split; [reflexivity|]. split; [exact ex_wf|]. split; [exact ex_mbc_ok|].
  split; [reflexivity|]. split; [reflexivity|]. split.
  - intros jac r R C R' C'. unfold sFullJacobian. change (checkPath ex_mb exs_J) with (Ok tt). cbn [bind]. change (jac_dof exs_J) with 1.
    rewrite R, C, R', C', Nat.eqb_refl. cbn [Nat.eqb andb negb]. unfold fullJacobian, set_block. rewrite R, R', C'.
    replace (0 + 6 <=? 6) with true by reflexivity. replace (0 + mb_nrDof ex_mb <=? mb_nrDof ex_mb) with true by reflexivity. cbn [andb bind].
    unfold addFullJacobian. change (jc_path exs_J) with [0]. cbn [for_each]. change (get (mb_joints ex_mb) 0) with (Ok (nth 0 (mb_joints ex_mb) jd)). cbn [bind].
    change (get (mb_posDof ex_mb) 0) with (Ok 0). cbn [bind fst snd]. unfold get_block. rewrite C.
    replace (0 + jdof (nth 0 (mb_joints ex_mb) jd) <=? 1) with false by reflexivity. rewrite andb_false_r. reflexivity.
  - split; [exact exs_mbc_ok|]. split; [exact ex_J_ctor|]. split; reflexivity.
Qed.
(** ** Converters and configurations that are both too short *)
Lemma convert_short_UB : exists cc, CC_sConstructor ex_mb ex_mb = Ok cc /\
  CC_sConvert cc (with_q [] ex_m) (with_q [] ex_m) = UB.
Proof. eexists. split; [reflexivity|]. reflexivity. Qed.

Lemma ex_J_fits : jac_fits ex_mb ex_J.
Proof. exact (of_fits ex_mb 2 _ ex_J ex_wf ex_J_of). Qed.
Lemma ex_pos : pos_sized ex_mb ex_m. Proof. reflexivity. Qed.
Lemma ex_vel : vel_sized ex_mb ex_m. Proof. split; reflexivity. Qed.
Lemma ex_sub : subspace_sized ex_mb ex_m. Proof. apply ex_mbc_ok. Qed.
