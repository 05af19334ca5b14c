(** Concrete robots for the derivatives of the torques of inverse statics. *)
From Coq Require Import Reals String ZArith Bool Arith Lia Lra List.
From Verif Require Import Res ResP SMap Vec VecP Sva SvaP Mat JointM MultiBodyM KinM DynM JacM CoMM MomM ISM Spec SpecDeriv SpecDyn SpecJac SpecIS
  JointP KinP KinPathP KinFinP MbP Ex TreeP DynP JacP DerivP DerivTreeP DerivExP MomP MomTopP ISP IsDerivP IsLoopP IsTopP.
Import ListNotations.
Open Scope R_scope.

Lemma kin_exists mb (M : R -> MBC) : wf_mb mb -> (forall s, mbc_ok mb (M s)) -> exists K, forall s, after_kinematics mb (M s) (K s).
Proof.
  intros W OK.
  pose (K1 := fun s => match forwardKinematics mb (M s) with Ok m => m | _ => M s end).
  pose (K := fun s => match forwardVelocity mb (K1 s) with Ok m => m | _ => M s end).
  exists K. intros s. destruct (FK_total mb (M s) W (OK s)) as (m1 & E1 & F).
  pose proof (FK_mbc_ok _ _ _ W (OK s) F) as O1.
  destruct (FV_total mb m1 W O1) as (m2 & E2 & V).
  exists (K1 s). unfold K, K1. rewrite E1, E2. auto.
Qed.
Lemma kin_keeps mb m0 m : wf_mb mb -> mbc_ok mb m0 -> after_kinematics mb m0 m -> force m = force m0 /\ gravity m = gravity m0 /\ jointTorque m = jointTorque m0.
Proof.
  intros W K0 AK. destruct (after_kin_posts mb m0 m W K0 AK) as (m1 & F & _ & V & _). rewrite (fv_frame _ _ _ V). cbn. rewrite (fk_frame _ _ _ F). auto.
Qed.
Lemma statics_exists mb (K : R -> MBC) fb : wf_mb mb -> (forall s, mbc_ok mb (K s)) -> length fb = nrBodies mb ->
  exists f1 m1, forall s, inverseStatics mb fb (K s) = Ok (f1 s, m1 s).
Proof.
  intros W OK L. exists (fun s => match inverseStatics mb fb (K s) with Ok p => fst p | _ => [] end), (fun s => match inverseStatics mb fb (K s) with Ok p => snd p | _ => K s end).
  intro s. destruct (IS_total mb (K s) fb W (OK s) L) as (f & m & E & _). now rewrite E.
Qed.

(** A body that does not turn. *)
Lemma MN_straight X I g F v : is_MN X I (mkSV v0 g) F (mkSV v0 v) = mkSV (vopp (mapp (rotE X) (vcross (slin F) v))) v0.
Proof.
  unfold is_MN. cbv zeta.
  assert (E1 : m6app (mmul (rotE X) (mcross (sang (mkSV v0 g)))) mzero (mmul (rotE X) (madd (mscale (-1) (mcross (mapp (mcross (trR X)) (sang (mkSV v0 g))))) (mcross (slin (mkSV v0 g)))))
      (mmul (rotE X) (mcross (sang (mkSV v0 g)))) (mkSV v0 v) = sv0).
  { unfold m6app. cbn [sang slin]. rewrite !mapp_mmul, !mapp_v0, mcross_app. replace (vcross v0 v) with v0 by v3ring. rewrite !mapp_v0. unfold sv0. f_equal; v3ring. }
  rewrite E1. replace (rbim I sv0) with sv0 by (destruct I as [? [? ? ?] [? ? ? ? ? ?]]; svring).
  unfold m6app. cbn [sang slin]. rewrite !mapp_mmul, !mapp_v0, mcross_app. generalize (mapp (rotE X) (vcross (slin F) v)). intro w. svring.
Qed.

(** ** A sliding mass on a turning beam *)
Definition exq_bodies : list Body := [mkBody (mkRBI 0 v0 (mkSym 0 0 0 0 0 0)) "beam"%string; mkBody (mkRBI 1 v0 (mkSym 0 0 0 0 0 0)) "mass"%string].
Definition unitY : V3 := mkV3 0 1 0.
Definition exq_joints : list Joint := [mkJ Rev unitY true "hinge"%string; mkJ Prism unitX true "slide"%string].
Definition exq_mb : MultiBody :=
  match MultiBody_ctor exq_bodies exq_joints [-1; 0]%Z [0; 1]%Z [-1; 0]%Z [ptid; ptid] with
  | Ok mb => mb
  | _ => mkMB [] [] [] [] [] [] [] [] [] [] 0 0
  end.
Lemma exq_joint_unit j : In j exq_joints -> joint_unit j.
Proof.
  intros [<-|[<-|[]]].
  - exists unitY; split; [unfold vdot, unitY; cbn; ring|constructor].
  - exists unitX; split; [apply unitX_unit|constructor].
Qed.
Lemma exq_wf : wf_mb exq_mb.
Proof.
  apply (MultiBody_ctor_wf exq_bodies exq_joints [-1; 0]%Z [0; 1]%Z [ptid; ptid]); [|reflexivity].
  constructor; try reflexivity.
  - intros i z H. do 2 (destruct i as [|i]; [simpl in H; injection H as <-; lia|]). destruct i; discriminate.
  - intros j H. apply joint_unit_ok. now apply exq_joint_unit.
Qed.
Lemma exq_rigid : rigid_mb exq_mb.
Proof. split; [exact exq_joint_unit|]. intros X [<-|[<-|[]]]; simpl; apply SO3_id. Qed.
Lemma exq_names : names_found exq_mb.
Proof. intros i b E. do 2 (destruct i as [|i]; [cbn in E; injection E as <-; reflexivity|]). destruct i; discriminate. Qed.
Definition exq_M (s : R) : MBC :=
  with_gravity (mkV3 0 0 10) (with_force [sv0; sv0] (with_alpha [[0]; [1]] (with_q [[0]; [s]] (MBC_ctor ex_garbage exq_mb)))).
Lemma exq_ok s : mbc_ok exq_mb (exq_M s).
Proof.
  pose proof (MBC_ctor_ok ex_garbage exq_mb eq_refl) as H. destruct H.
  constructor; unfold exq_M; cbn [q alpha alphaD force jointConfig jointVelocity jointTorque
    motionSubspace bodyPosW parentToSon bodyVelW bodyVelB bodyAccB with_q with_alpha with_force with_gravity]; auto; reflexivity.
Qed.
Lemma exq_config s : config_ok exq_mb (exq_M s).
Proof.
  intros i j qi Hj Hq. simpl in Hj. unfold exq_M in Hq; cbn [q with_q with_alpha with_force with_gravity] in Hq.
  do 2 (destruct i as [|i]; [simpl in Hj, Hq; injection Hj as <-; injection Hq as <-; split; [reflexivity|exact Logic.I]|]).
  destruct i; discriminate.
Qed.
Lemma exq_regular j : In j (mb_joints exq_mb) -> regular j.
Proof. unfold regular. intros [<-|[<-|[]]]; simpl; auto. Qed.
Lemma exq_follows t i : (i < nrBodies exq_mb)%nat ->
  follows (nth i (mb_joints exq_mb) jd) (fun s => nth i (q (exq_M s)) []) t (nth i (alpha (exq_M t)) []).
Proof.
  intros L k Hk. change (nrBodies exq_mb) with 2%nat in L. pose proof (D_id t) as DI.
  unfold exq_M; cbn [q with_q with_alpha with_force with_gravity alpha].
  destruct i as [|[|]]; [| |lia]; cbn in Hk |- *; unfold co;
  repeat (destruct k as [|k]; [cbn; dsolve; try field; try ring|try lia]).
Qed.
Definition nojacs : list Mat := [mat_zero 0 0; mat_zero 0 0].
Lemma exq_jacs : force_jacobians exq_mb 2 nojacs.
Proof.
  split; [reflexivity|]. split; [apply Nat.leb_le; reflexivity|]. split; [|left; reflexivity]. intros JF [<-|[<-|[]]]; left; reflexivity.
Qed.
Section Q.
Variables (K : R -> MBC) (f1 : R -> list SV) (m1 : R -> MBC).
Hypothesis AK : forall s, after_kinematics exq_mb (exq_M s) (K s).
Hypothesis IS : forall s, inverseStatics exq_mb [sv0; sv0] (K s) = Ok (f1 s, m1 s).
Let RU : forall s, run exq_mb (exq_M s) (K s) := fun s => kin_run exq_mb (exq_M s) (K s) exq_wf exq_rigid (exq_ok s) (exq_config s) (AK s).
Let L0 : (0 < nrBodies exq_mb)%nat. Proof. apply Nat.ltb_lt; reflexivity. Qed.
Let L1 : (1 < nrBodies exq_mb)%nat. Proof. apply Nat.ltb_lt; reflexivity. Qed.
Lemma q_jc0 s : nth 0 (jointConfig (K s)) ptid = ptid.
Proof.
  pose proof (r_pose _ _ _ (RU s) 0%nat L0) as P. cbn in P. injection P as <-. unfold ptrot, ptid. f_equal. unfold angleAxis. rewrite Ropp_0, cos_0, sin_0. v3ring.
Qed.
Lemma q_jc1 s : nth 1 (jointConfig (K s)) ptid = pttr (mkV3 s 0 0).
Proof. pose proof (r_pose _ _ _ (RU s) 1%nat L1) as P. cbn in P. injection P as <-. f_equal. v3ring. Qed.
Lemma q_p0 s : nth 0 (parentToSon (K s)) ptid = ptid.
Proof. rewrite (r_pts _ _ _ (RU s) 0%nat L0), q_jc0. unfold ptid, ptmul. cbn. f_equal; v3ring. Qed.
Lemma q_p1 s : nth 1 (parentToSon (K s)) ptid = pttr (mkV3 s 0 0).
Proof. rewrite (r_pts _ _ _ (RU s) 1%nat L1), q_jc1. unfold ptid, pttr, ptmul. cbn. f_equal; v3ring. Qed.
Lemma q_w0 s : nth 0 (bodyPosW (K s)) ptid = ptid.
Proof. rewrite (r_bp _ _ _ (RU s) 0%nat L0). change (par exq_mb 0) with (@None nat). apply q_p0. Qed.
Lemma q_w1 s : nth 1 (bodyPosW (K s)) ptid = pttr (mkV3 s 0 0).
Proof. rewrite (r_bp _ _ _ (RU s) 1%nat L1). change (par exq_mb 1) with (Some 0%nat). rewrite q_p1, q_w0. unfold ptid, pttr, ptmul. cbn. f_equal; v3ring. Qed.
Lemma q_force s i : nth i (force (K s)) sv0 = sv0.
Proof. rewrite (proj1 (kin_keeps _ _ _ exq_wf (exq_ok s) (AK s))). destruct i as [|[|[|]]]; reflexivity. Qed.
Lemma q_grav s : gravity (K s) = mkV3 0 0 10.
Proof. now rewrite (proj1 (proj2 (kin_keeps _ _ _ exq_wf (exq_ok s) (AK s)))). Qed.
Lemma own0 X : svsub (rbim (mkRBI 0 v0 (mkSym 0 0 0 0 0 0)) (ptm X (mkSV v0 (mkV3 0 0 10)))) sv0 = sv0.
Proof. generalize (ptm X (mkSV v0 (mkV3 0 0 10))). intro v. svring. Qed.
Lemma q_own0 s : own_f exq_mb (K s) 0 = sv0.
Proof. unfold own_f, fext. rewrite q_grav, q_force, ptdual_sv0. apply own0. Qed.
Lemma q_own1 s : own_f exq_mb (K s) 1 = mkSV v0 (mkV3 0 0 10).
Proof. unfold own_f, fext. rewrite q_grav, q_force, ptdual_sv0, q_w1. unfold Ib. cbn [nth exq_mb mb_bodies]. cbn. svring. Qed.
Lemma q_f1 s : nth 1 (f1 s) sv0 = mkSV v0 (mkV3 0 0 10).
Proof.
  rewrite (f_sum exq_mb exq_M K (fun _ => [sv0; sv0]) f1 m1 exq_wf exq_rigid exq_ok exq_config AK (fun _ => eq_refl) IS s 1 L1).
  rewrite q_own1. change (nrBodies exq_mb) with 2%nat. cbn [vsum]. change (is_par (par exq_mb) 0 1) with false. change (is_par (par exq_mb) 1 1) with false. cbv iota. svring.
Qed.
Lemma q_f0 s : nth 0 (f1 s) sv0 = mkSV (mkV3 0 (- 10 * s) 0) (mkV3 0 0 10).
Proof.
  rewrite (f_sum exq_mb exq_M K (fun _ => [sv0; sv0]) f1 m1 exq_wf exq_rigid exq_ok exq_config AK (fun _ => eq_refl) IS s 0 L0).
  rewrite q_own0. change (nrBodies exq_mb) with 2%nat. cbn [vsum]. change (is_par (par exq_mb) 0 0) with false. change (is_par (par exq_mb) 1 0) with true. cbv iota.
  rewrite q_f1, q_p1. svring.
Qed.

Lemma q_torque s : nth 0 (jointTorque (m1 s)) [] = [- 10 * s].
Proof.
  rewrite (sp_t _ _ _ _ (is_post_at exq_mb exq_M K (fun _ => [sv0; sv0]) f1 m1 exq_wf exq_rigid exq_ok exq_config AK (fun _ => eq_refl) IS s) 0%nat L0).
  rewrite q_f0, (r_ms _ _ _ (RU s) 0%nat L0). cbn. f_equal. unfold svdot, vdot. cbn. ring.
Qed.
Variables (s0 s1 : ISd) (m' : MBC).
Hypothesis OB : is_object exq_mb 2 s0.
Hypothesis CT : computeTorqueJacobianJoint exq_mb (K 0) nojacs s0 = Ok (s1, m').
Lemma q_diff : exists D, nth_error (id_diff s1) 0 = Some D /\ mat_vec D [0; 1] 0 = 10.
Proof.
  destruct (call_ok exq_mb (exq_M 0) (K 0) 2 nojacs s0 exq_wf exq_rigid (exq_ok 0) (exq_config 0) (AK 0) exq_jacs (object_ready _ _ _ exq_wf exq_rigid exq_names OB))
    as (s' & A & E & H & _ & _ & _ & P). rewrite CT in E. injection E as <- _.
  destruct (P [0; 1]) as (AF & AD & HD).
  { intros j Hj. rewrite (r_a _ _ _ (RU 0)). change (mb_nrDof exq_mb) with 2%nat in Hj. destruct j as [|[|]]; [reflexivity|reflexivity|lia]. }
  destruct (HD 0%nat L0) as (_ & _ & HM). exists (nth 0 (id_diff s1) md). split; [apply nth_error_len; rewrite (io_tl _ _ _ H); exact L0|].
  rewrite HM, (AD 0%nat L0). rewrite (r_ms _ _ _ (RU 0) 0%nat L0).
  assert (J0 : forall i, mv6 (nth i nojacs md) [0; 1] = sv0) by (intro i; destruct i as [|[|[|]]]; reflexivity).
  assert (V1 : nth 1 (jointVelocity (K 0)) sv0 = mkSV v0 (mkV3 1 0 0)).
  { rewrite (r_vj _ _ _ (RU 0) 1%nat L1). cbn. svring. }
  assert (V0 : nth 0 (jointVelocity (K 0)) sv0 = sv0).
  { rewrite (r_vj _ _ _ (RU 0) 0%nat L0). cbn. svring. }
  assert (B0 : vb (K 0) 0 = sv0).
  { unfold vb. rewrite (r_vb _ _ _ (RU 0) 0%nat L0). change (par exq_mb 0) with (@None nat). cbv iota. exact V0. }
  assert (B1 : vb (K 0) 1 = mkSV v0 (mkV3 1 0 0)).
  { unfold vb. rewrite (r_vb _ _ _ (RU 0) 1%nat L1). change (par exq_mb 1) with (Some 0%nat). cbv iota. fold (vb (K 0) 0). rewrite B0, V1, q_p1. svring. }
  assert (O0 : own_d exq_mb (K 0) nojacs [0; 1] 0 = sv0).
  { unfold own_d. rewrite J0, ptdual_sv0, q_grav, q_force, B0, q_w0.
    replace (point_velocity ptid v0 sv0) with (mkSV v0 v0) by (unfold point_velocity, ptid; cbn; f_equal; v3ring). rewrite MN_straight. svring. }
  assert (O1 : own_d exq_mb (K 0) nojacs [0; 1] 1 = sv0).
  { unfold own_d. rewrite J0, ptdual_sv0, q_grav, q_force, B1, q_w1.
    replace (point_velocity (pttr (mkV3 0 0 0)) v0 (mkSV v0 (mkV3 1 0 0))) with (mkSV v0 (mkV3 1 0 0)) by (unfold point_velocity; cbn; f_equal; v3ring). rewrite MN_straight. svring. }
  assert (D1 : mv6 (nth 1 (id_df s1) md) [0; 1] = sv0).
  { rewrite (AD 1%nat L1), O1. change (nrBodies exq_mb) with 2%nat. cbn [vsum Nat.leb andb]. change (is_par (par exq_mb) 0 1) with false. change (is_par (par exq_mb) 1 1) with false. cbv iota. svring. }
  assert (F1 : nth 1 (id_f s1) sv0 = mkSV v0 (mkV3 0 0 10)).
  { rewrite (AF 1%nat L1), q_own1. change (nrBodies exq_mb) with 2%nat. cbn [vsum Nat.leb andb]. change (is_par (par exq_mb) 0 1) with false. change (is_par (par exq_mb) 1 1) with false. cbv iota. svring. }
  rewrite O0. change (nrBodies exq_mb) with 2%nat. cbn [vsum Nat.leb andb]. change (is_par (par exq_mb) 0 0) with false. change (is_par (par exq_mb) 1 0) with true. cbv iota.
  unfold conD. rewrite D1, F1, q_jc1, q_p1, (r_ms _ _ _ (RU 0) 1%nat L1), (r_a _ _ _ (RU 0)).
  change (nth 1 (mb_Xt exq_mb) ptid) with ptid. 
  replace (smul (jS (nth 1 (mb_joints exq_mb) jd)) (nth 1 (alpha (exq_M 0)) [])) with (mkSV v0 (mkV3 1 0 0)) by (cbn; svring).
  change (nth 0 (jS (nth 0 (mb_joints exq_mb) jd)) sv0) with (svscale 1 (mkSV unitY v0)).
  unfold is_MJ, m6app, pttr, mouter. cbn. unfold svdot, vdot. cbn. ring.
Qed.
End Q.
Lemma slide_wrong : exists mb (M K : R -> MBC) t N jacs x g f f1 m1 s0 s1 m' i D d,
  wf_mb mb /\ rigid_mb mb /\ names_found mb /\ (forall j, In j (mb_joints mb) -> regular j) /\
  (forall s, mbc_ok mb (M s)) /\ (forall s, config_ok mb (M s)) /\ (forall s, after_kinematics mb (M s) (K s)) /\
  (forall i, (i < nrBodies mb)%nat -> follows (nth i (mb_joints mb) jd) (fun s => nth i (q (M s)) []) t (nth i (alpha (M t)) [])) /\
  (forall s, gravity (K s) = g) /\ (forall s, force (K s) = map (fun _ => sv0) (mb_bodies mb)) /\ force_jacobians mb N jacs /\ jacs = map (fun _ => mat_zero 0 0) (mb_bodies mb) /\
  firstn (mb_nrDof mb) x = concat (alpha (M t)) /\ length f = nrBodies mb /\ (forall s, inverseStatics mb f (K s) = Ok (f1 s, m1 s)) /\
  is_object mb N s0 /\ computeTorqueJacobianJoint mb (K t) jacs s0 = Ok (s1, m') /\
  nth_error (id_diff s1) i = Some D /\ derivable_pt_lim (fun s => co (nth i (jointTorque (m1 s)) []) 0) t d /\ mat_vec D x 0 = - d /\ d <> 0.
Proof.
  destruct (kin_exists exq_mb exq_M exq_wf exq_ok) as (K & AK).
  destruct (statics_exists exq_mb K [sv0; sv0] exq_wf (fun s => r_ok _ _ _ (kin_run _ _ _ exq_wf exq_rigid (exq_ok s) (exq_config s) (AK s))) eq_refl) as (f1 & m1 & IS).
  destruct (ctor_runs (fun _ _ _ => sv0) (fun _ => sv0) exq_mb exq_wf exq_names) as (s0 & E0).
  assert (OB : is_object exq_mb 2 s0) by (eapply iso_new; exact E0).
  destruct (call_ok exq_mb (exq_M 0) (K 0) 2 nojacs s0 exq_wf exq_rigid (exq_ok 0) (exq_config 0) (AK 0) exq_jacs (object_ready _ _ _ exq_wf exq_rigid exq_names OB))
    as (s1 & A & E & _).
  destruct (q_diff K AK s0 s1 _ OB E) as (D & ED & HD).
  exists exq_mb, exq_M, K, 0, 2%nat, nojacs, [0; 1], (mkV3 0 0 10), [sv0; sv0], f1, m1, s0, s1, (with_bodyAccB A (K 0)), 0%nat, D, (- 10).
  split; [exact exq_wf|]. split; [exact exq_rigid|]. split; [exact exq_names|]. split; [exact exq_regular|]. split; [exact exq_ok|]. split; [exact exq_config|]. split; [exact AK|].
  split; [apply exq_follows|]. split; [intro; now apply q_grav|]. split; [intro s; now rewrite (proj1 (kin_keeps _ _ _ exq_wf (exq_ok s) (AK s)))|].
  split; [exact exq_jacs|]. split; [reflexivity|]. split; [reflexivity|]. split; [reflexivity|]. split; [exact IS|]. split; [exact OB|]. split; [exact E|]. split; [exact ED|].
  split; [|split; [rewrite HD; ring|lra]].
  eapply D_ext; [intro s; rewrite (q_torque K f1 m1 AK IS); reflexivity|]. unfold co. cbn [nth].
  eapply D_eq; [apply (D_mult (fun _ => - 10) (fun s => s)); [apply D_const|apply D_id]|]. ring.
Qed.

(** ** A lift pulled by a varying force *)
Definition exf_bodies : list Body := [mkBody (mkRBI 1 v0 (mkSym 0 0 0 0 0 0)) "lift"%string].
Definition exf_joints : list Joint := [mkJ Prism unitZ true "rail"%string].
Definition exf_mb : MultiBody :=
  match MultiBody_ctor exf_bodies exf_joints [-1]%Z [0]%Z [-1]%Z [ptid] with
  | Ok mb => mb
  | _ => mkMB [] [] [] [] [] [] [] [] [] [] 0 0
  end.
Lemma exf_joint_unit j : In j exf_joints -> joint_unit j.
Proof. intros [<-|[]]. exists unitZ; split; [apply unitZ_unit|constructor]. Qed.
Lemma exf_wf : wf_mb exf_mb.
Proof.
  apply (MultiBody_ctor_wf exf_bodies exf_joints [-1]%Z [0]%Z [ptid]); [|reflexivity].
  constructor; try reflexivity.
  - intros i z H. destruct i as [|i]; [simpl in H; injection H as <-; lia|]. destruct i; discriminate.
  - intros j H. apply joint_unit_ok. now apply exf_joint_unit.
Qed.
Lemma exf_rigid : rigid_mb exf_mb.
Proof. split; [exact exf_joint_unit|]. intros X [<-|[]]; simpl; apply SO3_id. Qed.
Lemma exf_names : names_found exf_mb.
Proof. intros i b E. destruct i as [|i]; [cbn in E; injection E as <-; reflexivity|]. destruct i; discriminate. Qed.
Lemma exf_inner : inner_revolute exf_mb.
Proof. intros i j p Hj Hp NP. destruct i as [|i]; [cbn in Hp; injection Hp as <-; now contradict NP|]. destruct i; discriminate. Qed.
Definition exf_M (s : R) : MBC :=
  with_gravity (mkV3 0 0 10) (with_force [mkSV v0 (mkV3 0 0 s)] (with_alpha [[1]] (with_q [[s]] (MBC_ctor ex_garbage exf_mb)))).
Lemma exf_ok s : mbc_ok exf_mb (exf_M s).
Proof.
  pose proof (MBC_ctor_ok ex_garbage exf_mb eq_refl) as H. destruct H.
  constructor; unfold exf_M; cbn [q alpha alphaD force jointConfig jointVelocity jointTorque
    motionSubspace bodyPosW parentToSon bodyVelW bodyVelB bodyAccB with_q with_alpha with_force with_gravity]; auto; reflexivity.
Qed.
Lemma exf_config s : config_ok exf_mb (exf_M s).
Proof.
  intros i j qi Hj Hq. simpl in Hj. unfold exf_M in Hq; cbn [q with_q with_alpha with_force with_gravity] in Hq.
  destruct i as [|i]; [simpl in Hj, Hq; injection Hj as <-; injection Hq as <-; split; [reflexivity|exact Logic.I]|].
  destruct i; discriminate.
Qed.
Lemma exf_regular j : In j (mb_joints exf_mb) -> regular j.
Proof. unfold regular. intros [<-|[]]; simpl; auto. Qed.
Lemma exf_follows t i : (i < nrBodies exf_mb)%nat ->
  follows (nth i (mb_joints exf_mb) jd) (fun s => nth i (q (exf_M s)) []) t (nth i (alpha (exf_M t)) []).
Proof.
  intros L k Hk. change (nrBodies exf_mb) with 1%nat in L. pose proof (D_id t) as DI.
  unfold exf_M; cbn [q with_q with_alpha with_force with_gravity alpha].
  destruct i as [|]; [|lia]; cbn in Hk |- *; unfold co;
  repeat (destruct k as [|k]; [cbn; dsolve; try field; try ring|try lia]).
Qed.
(** The vertical component of the force grows with the position. *)
Definition exf_jacs : list Mat := [mkMat 6 1 (fun r _ => if (r =? 5)%nat then 1 else 0)].
Lemma exf_fj : force_jacobians exf_mb 1 exf_jacs.
Proof.
  split; [reflexivity|]. split; [apply Nat.leb_le; reflexivity|]. split; [|left; reflexivity]. intros JF [<-|[]]; right; split; reflexivity.
Qed.
Section L.
Variables (K : R -> MBC) (f1 : R -> list SV) (m1 : R -> MBC).
Hypothesis AK : forall s, after_kinematics exf_mb (exf_M s) (K s).
Hypothesis IS : forall s, inverseStatics exf_mb [sv0] (K s) = Ok (f1 s, m1 s).
Let RU : forall s, run exf_mb (exf_M s) (K s) := fun s => kin_run exf_mb (exf_M s) (K s) exf_wf exf_rigid (exf_ok s) (exf_config s) (AK s).
Let L0 : (0 < nrBodies exf_mb)%nat. Proof. apply Nat.ltb_lt; reflexivity. Qed.
Lemma l_jc s : nth 0 (jointConfig (K s)) ptid = pttr (mkV3 0 0 s).
Proof. pose proof (r_pose _ _ _ (RU s) 0%nat L0) as P. cbn in P. injection P as <-. f_equal. v3ring. Qed.
Lemma l_p s : nth 0 (parentToSon (K s)) ptid = pttr (mkV3 0 0 s).
Proof. rewrite (r_pts _ _ _ (RU s) 0%nat L0), l_jc. unfold ptid, pttr, ptmul. cbn. f_equal; v3ring. Qed.
Lemma l_w s : nth 0 (bodyPosW (K s)) ptid = pttr (mkV3 0 0 s).
Proof. rewrite (r_bp _ _ _ (RU s) 0%nat L0). change (par exf_mb 0) with (@None nat). apply l_p. Qed.
Lemma l_force s : nth 0 (force (K s)) sv0 = mkSV v0 (mkV3 0 0 s).
Proof. now rewrite (proj1 (kin_keeps _ _ _ exf_wf (exf_ok s) (AK s))). Qed.
Lemma l_grav s : gravity (K s) = mkV3 0 0 10.
Proof. now rewrite (proj1 (proj2 (kin_keeps _ _ _ exf_wf (exf_ok s) (AK s)))). Qed.
Lemma l_own s : own_f exf_mb (K s) 0 = mkSV v0 (mkV3 0 0 (10 - s)).
Proof. unfold own_f, fext. rewrite l_grav, l_force, l_w. unfold Ib. cbn. svring. Qed.
Lemma l_f s : nth 0 (f1 s) sv0 = mkSV v0 (mkV3 0 0 (10 - s)).
Proof.
  rewrite (f_sum exf_mb exf_M K (fun _ => [sv0]) f1 m1 exf_wf exf_rigid exf_ok exf_config AK (fun _ => eq_refl) IS s 0 L0).
  rewrite l_own. change (nrBodies exf_mb) with 1%nat. cbn [vsum]. change (is_par (par exf_mb) 0 0) with false. cbv iota. svring.
Qed.
Lemma l_torque s : nth 0 (jointTorque (m1 s)) [] = [10 - s].
Proof.
  rewrite (sp_t _ _ _ _ (is_post_at exf_mb exf_M K (fun _ => [sv0]) f1 m1 exf_wf exf_rigid exf_ok exf_config AK (fun _ => eq_refl) IS s) 0%nat L0).
  rewrite l_f, (r_ms _ _ _ (RU s) 0%nat L0). cbn. f_equal. unfold svdot, vdot. cbn. ring.
Qed.
Variables (s0 s1 : ISd) (m' : MBC).
Hypothesis OB : is_object exf_mb 1 s0.
Hypothesis CT : computeTorqueJacobianJoint exf_mb (K 0) exf_jacs s0 = Ok (s1, m').
Lemma l_diff : exists D, nth_error (id_diff s1) 0 = Some D /\ mat_vec D [1] 0 = 1.
Proof.
  destruct (call_ok exf_mb (exf_M 0) (K 0) 1 exf_jacs s0 exf_wf exf_rigid (exf_ok 0) (exf_config 0) (AK 0) exf_fj (object_ready _ _ _ exf_wf exf_rigid exf_names OB))
    as (s' & A & E & H & _ & _ & _ & P). rewrite CT in E. injection E as <- _.
  destruct (P [1]) as (AF & AD & HD).
  { intros j Hj. rewrite (r_a _ _ _ (RU 0)). change (mb_nrDof exf_mb) with 1%nat in Hj. destruct j as [|]; [reflexivity|lia]. }
  destruct (HD 0%nat L0) as (_ & _ & HM). exists (nth 0 (id_diff s1) md). split; [apply nth_error_len; rewrite (io_tl _ _ _ H); exact L0|].
  rewrite HM, (AD 0%nat L0). rewrite (r_ms _ _ _ (RU 0) 0%nat L0).
  assert (J0 : mv6 (nth 0 exf_jacs md) [1] = mkSV v0 (mkV3 0 0 1)) by (unfold mv6, svcol; cbn; svring).
  assert (V0 : nth 0 (jointVelocity (K 0)) sv0 = mkSV v0 (mkV3 0 0 1)).
  { rewrite (r_vj _ _ _ (RU 0) 0%nat L0). cbn. svring. }
  assert (B0 : vb (K 0) 0 = mkSV v0 (mkV3 0 0 1)).
  { unfold vb. rewrite (r_vb _ _ _ (RU 0) 0%nat L0). change (par exf_mb 0) with (@None nat). cbv iota. exact V0. }
  assert (O0 : own_d exf_mb (K 0) exf_jacs [1] 0 = mkSV v0 (mkV3 0 0 1)).
  { unfold own_d. rewrite J0, l_grav, l_force, B0, l_w.
    replace (point_velocity (pttr (mkV3 0 0 0)) v0 (mkSV v0 (mkV3 0 0 1))) with (mkSV v0 (mkV3 0 0 1)) by (unfold point_velocity; cbn; f_equal; v3ring). rewrite MN_straight. cbn. svring. }
  rewrite O0. change (nrBodies exf_mb) with 1%nat. cbn [vsum Nat.leb andb]. change (is_par (par exf_mb) 0 0) with false. cbv iota.
  change (nth 0 (jS (nth 0 (mb_joints exf_mb) jd)) sv0) with (svscale 1 (mkSV v0 unitZ)).
  unfold svdot, vdot. cbn. ring.
Qed.
End L.
Lemma force_wrong : exists mb (M K : R -> MBC) t N jacs x g f f1 m1 s0 s1 m' i D d,
  wf_mb mb /\ rigid_mb mb /\ names_found mb /\ inner_revolute mb /\ (forall j, In j (mb_joints mb) -> regular j) /\
  (forall s, mbc_ok mb (M s)) /\ (forall s, config_ok mb (M s)) /\ (forall s, after_kinematics mb (M s) (K s)) /\
  (forall i, (i < nrBodies mb)%nat -> follows (nth i (mb_joints mb) jd) (fun s => nth i (q (M s)) []) t (nth i (alpha (M t)) [])) /\
  (forall s, gravity (K s) = g) /\ force_jacobians mb N jacs /\
  (forall i JF, nth_error jacs i = Some JF -> exists F', (forall r, (r < 6)%nat -> svcoef r F' = mat_vec JF x r) /\
     derivS (fun s => nth i (force (K s)) sv0) t F') /\
  firstn (mb_nrDof mb) x = concat (alpha (M t)) /\ length f = nrBodies mb /\ (forall s, inverseStatics mb f (K s) = Ok (f1 s, m1 s)) /\
  is_object mb N s0 /\ computeTorqueJacobianJoint mb (K t) jacs s0 = Ok (s1, m') /\
  nth_error (id_diff s1) i = Some D /\ derivable_pt_lim (fun s => co (nth i (jointTorque (m1 s)) []) 0) t d /\ mat_vec D x 0 = - d /\ d <> 0.
Proof.
  destruct (kin_exists exf_mb exf_M exf_wf exf_ok) as (K & AK).
  destruct (statics_exists exf_mb K [sv0] exf_wf (fun s => r_ok _ _ _ (kin_run _ _ _ exf_wf exf_rigid (exf_ok s) (exf_config s) (AK s))) eq_refl) as (f1 & m1 & IS).
  destruct (ctor_runs (fun _ _ _ => sv0) (fun _ => sv0) exf_mb exf_wf exf_names) as (s0 & E0).
  assert (OB : is_object exf_mb 1 s0) by (eapply iso_new; exact E0).
  destruct (call_ok exf_mb (exf_M 0) (K 0) 1 exf_jacs s0 exf_wf exf_rigid (exf_ok 0) (exf_config 0) (AK 0) exf_fj (object_ready _ _ _ exf_wf exf_rigid exf_names OB))
    as (s1 & A & E & _).
  destruct (l_diff K AK s0 s1 _ OB E) as (D & ED & HD).
  exists exf_mb, exf_M, K, 0, 1%nat, exf_jacs, [1], (mkV3 0 0 10), [sv0], f1, m1, s0, s1, (with_bodyAccB A (K 0)), 0%nat, D, (- 1).
  split; [exact exf_wf|]. split; [exact exf_rigid|]. split; [exact exf_names|]. split; [exact exf_inner|]. split; [exact exf_regular|]. split; [exact exf_ok|]. split; [exact exf_config|]. split; [exact AK|].
  split; [apply exf_follows|]. split; [intro; now apply l_grav|]. split; [exact exf_fj|]. split.
  { intros i JF H. destruct i as [|i]; [|destruct i; discriminate]. cbn in H. injection H as <-. exists (mkSV v0 (mkV3 0 0 1)). split.
    - intros r Hr. do 6 (destruct r as [|r]; [unfold mat_vec; cbn; ring|]). lia.
    - eapply derivS_ext; [intro s; apply (l_force K AK)|]. split; cbn [sang slin]; [apply derivV_const|]. split; [|split]; cbn; [apply D_const|apply D_const|apply D_id]. }
  split; [reflexivity|]. split; [reflexivity|]. split; [exact IS|]. split; [exact OB|]. split; [exact E|]. split; [exact ED|].
  split; [|split; [rewrite HD; ring|lra]].
  eapply D_ext; [intro s; rewrite (l_torque K f1 m1 AK IS); reflexivity|]. unfold co. cbn [nth].
  eapply D_eq; [apply (D_minus (fun _ => 10) (fun s => s)); [apply D_const|apply D_id]|]. ring.
Qed.

(** ** A floating base with a two-joint arm; one force depends on a variable of its own *)
Definition exr_joints : list Joint :=
  [ mkJz Free true "Root"%string; mkJ Rev unitZ false "shoulder"%string; mkJ Rev unitX true "elbow"%string; mkJfixed "neck"%string ].
Definition exr_mb : MultiBody :=
  match MultiBody_ctor ex_bodies exr_joints ex_pred ex_succ ex_pred ex_Xt with
  | Ok mb => mb
  | _ => mkMB [] [] [] [] [] [] [] [] [] [] 0 0
  end.
Lemma exr_joint_unit j : In j exr_joints -> joint_unit j.
Proof.
  intros [<-|[<-|[<-|[<-|[]]]]].
  - exists unitZ; split; [apply unitZ_unit|constructor].
  - exists unitZ; split; [apply unitZ_unit|constructor].
  - exists unitX; split; [apply unitX_unit|constructor].
  - exists unitZ; split; [apply unitZ_unit|apply (built_ctor unitZ Fixed true "neck"%string)].
Qed.
Lemma exr_wf : wf_mb exr_mb.
Proof.
  apply (MultiBody_ctor_wf ex_bodies exr_joints ex_pred ex_succ ex_Xt); [|reflexivity].
  constructor; try reflexivity.
  - intros i z. unfold ex_pred. intros H.
    do 4 (destruct i as [|i]; [simpl in H; injection H as <-; lia|]). destruct i; discriminate.
  - intros j H. apply joint_unit_ok. now apply exr_joint_unit.
Qed.
Lemma exr_rigid : rigid_mb exr_mb.
Proof.
  split.
  - exact exr_joint_unit.
  - intros X [<-|[<-|[<-|[<-|[]]]]]; simpl; auto using SO3_id, SO3_RotX, SO3_RotZ.
Qed.
Lemma exr_names : names_found exr_mb.
Proof. intros i b E. do 4 (destruct i as [|i]; [cbn in E; injection E as <-; reflexivity|]). destruct i; discriminate. Qed.
Lemma exr_inner : inner_revolute exr_mb.
Proof.
  intros i j p Hj Hp NP. destruct i as [|i]; [cbn in Hp; injection Hp as <-; now contradict NP|].
  do 3 (destruct i as [|i]; [cbn in Hj; injection Hj as <-; cbn; auto|]). destruct i; discriminate.
Qed.
Definition exr_M (s : R) : MBC :=
  with_gravity (mkV3 0 0 10) (with_force [sv0; sv0; mkSV (mkV3 0 0 1) (mkV3 1 2 (- s)); sv0]
    (with_alpha [[0; 0; 0; 1; 0; 0]; [1]; [2 * s]; []]
      (with_q [[3/5; 4/5; 0; 0; s; 2; 3]; [s]; [s * s]; []] (MBC_ctor ex_garbage exr_mb)))).
Lemma exr_ok s : mbc_ok exr_mb (exr_M s).
Proof.
  pose proof (MBC_ctor_ok ex_garbage exr_mb eq_refl) as H. destruct H.
  constructor; unfold exr_M; cbn [q alpha alphaD force jointConfig jointVelocity jointTorque
    motionSubspace bodyPosW parentToSon bodyVelW bodyVelB bodyAccB with_q with_alpha with_force with_gravity]; auto; reflexivity.
Qed.
Lemma exr_config s : config_ok exr_mb (exr_M s).
Proof.
  intros i j qi Hj Hq. simpl in Hj. unfold exr_M in Hq; cbn [q with_q with_alpha with_force with_gravity] in Hq.
  do 4 (destruct i as [|i]; [simpl in Hj, Hq; injection Hj as <-; injection Hq as <-; split;
      [reflexivity| try exact Logic.I; unfold quat_unit; simpl; field]|]).
  destruct i; discriminate.
Qed.
Lemma exr_regular j : In j (mb_joints exr_mb) -> regular j.
Proof. unfold regular. intros [<-|[<-|[<-|[<-|[]]]]]; simpl; auto. Qed.
Lemma exr_follows t i : (i < nrBodies exr_mb)%nat ->
  follows (nth i (mb_joints exr_mb) jd) (fun s => nth i (q (exr_M s)) []) t (nth i (alpha (exr_M t)) []).
Proof.
  intros L k Hk. change (nrBodies exr_mb) with 4%nat in L. pose proof (D_id t) as DI.
  unfold exr_M; cbn [q with_q with_alpha with_force with_gravity alpha].
  destruct i as [|[|[|[|]]]]; [| | | |lia]; cbn in Hk |- *; unfold co;
  repeat (destruct k as [|k]; [cbn; dsolve; try field; try ring|try lia]).
Qed.
Definition exr_jacs : list Mat := [mat_zero 0 0; mat_zero 0 0; mkMat 6 9 (fun r c => if ((r =? 5) && (c =? 8))%nat then 1 else 0); mat_zero 0 0].
Definition exr_x : list R := [0; 0; 0; 1; 0; 0; 1; 2 * 3; 1].
Lemma exr_fj : force_jacobians exr_mb 9 exr_jacs.
Proof.
  split; [reflexivity|]. split; [apply Nat.leb_le; reflexivity|]. split.
  - intros JF [<-|[<-|[<-|[<-|[]]]]]; [left|left|right; split|left]; reflexivity.
  - right. eexists. split; [right; right; left; reflexivity|reflexivity].
Qed.
Lemma exr_forces (K : R -> MBC) : (forall s, after_kinematics exr_mb (exr_M s) (K s)) -> forall i JF, nth_error exr_jacs i = Some JF ->
  exists F', (forall r, (r < 6)%nat -> svcoef r F' = - mat_vec JF exr_x r) /\ derivS (fun s => nth i (force (K s)) sv0) 3 F'.
Proof.
  intros AK i JF H. assert (EF : forall s, nth i (force (K s)) sv0 = nth i (force (exr_M s)) sv0).
  { intro s. now rewrite (proj1 (kin_keeps _ _ _ exr_wf (exr_ok s) (AK s))). }
  destruct i as [|[|[|[|i]]]]; [| | | |destruct i; discriminate]; cbn in H; injection H as <-.
  1,2,4: exists sv0; (split; [intros r Hr; do 6 (destruct r as [|r]; [unfold mat_vec; cbn; ring|]); lia|]); (eapply derivS_ext; [exact EF|]); exact (derivS_const sv0 3).
  exists (mkSV v0 (mkV3 0 0 (- 1))). split.
  - intros r Hr. do 6 (destruct r as [|r]; [unfold mat_vec; cbn; ring|]). lia.
  - eapply derivS_ext; [exact EF|]. split; cbn; [apply derivV_const|]. split; [|split]; cbn; [apply D_const|apply D_const|apply D_opp, D_id].
Qed.
Lemma exr_setting : exists (K : R -> MBC) f1 m1 s0,
  (forall s, after_kinematics exr_mb (exr_M s) (K s)) /\ (forall s, gravity (K s) = mkV3 0 0 10) /\
  (forall s, inverseStatics exr_mb [sv0; sv0; sv0; sv0] (K s) = Ok (f1 s, m1 s)) /\ is_object exr_mb 9 s0.
Proof.
  destruct (kin_exists exr_mb exr_M exr_wf exr_ok) as (K & AK).
  destruct (statics_exists exr_mb K [sv0; sv0; sv0; sv0] exr_wf (fun s => r_ok _ _ _ (kin_run _ _ _ exr_wf exr_rigid (exr_ok s) (exr_config s) (AK s))) eq_refl) as (f1 & m1 & IS).
  destruct (ctor_runs (fun _ _ _ => sv0) (fun _ => sv0) exr_mb exr_wf exr_names) as (s0 & E0).
  exists K, f1, m1, s0. split; [exact AK|]. split; [intro s; now rewrite (proj1 (proj2 (kin_keeps _ _ _ exr_wf (exr_ok s) (AK s))))|]. split; [exact IS|].
  eapply iso_new; exact E0.
Qed.
(** The same movement with constant forces. *)
Definition exrc_M (s : R) : MBC := with_force [sv0; sv0; mkSV (mkV3 0 0 1) (mkV3 1 2 3); sv0] (exr_M s).
Lemma exrc_ok s : mbc_ok exr_mb (exrc_M s).
Proof.
  pose proof (exr_ok s) as H. destruct H.
  constructor; unfold exrc_M; cbn [q alpha alphaD force jointConfig jointVelocity jointTorque
    motionSubspace bodyPosW parentToSon bodyVelW bodyVelB bodyAccB with_force]; auto; reflexivity.
Qed.
Lemma exrc_setting : exists (K : R -> MBC) f1 m1 s0,
  (forall s, after_kinematics exr_mb (exrc_M s) (K s)) /\ (forall s, gravity (K s) = mkV3 0 0 10) /\ (forall s, force (K s) = [sv0; sv0; mkSV (mkV3 0 0 1) (mkV3 1 2 3); sv0]) /\
  (forall s, inverseStatics exr_mb [sv0; sv0; sv0; sv0] (K s) = Ok (f1 s, m1 s)) /\ is_object exr_mb (mb_nrDof exr_mb) s0.
Proof.
  destruct (kin_exists exr_mb exrc_M exr_wf exrc_ok) as (K & AK).
  destruct (statics_exists exr_mb K [sv0; sv0; sv0; sv0] exr_wf (fun s => r_ok _ _ _ (kin_run _ _ _ exr_wf exr_rigid (exrc_ok s) (exr_config s) (AK s))) eq_refl) as (f1 & m1 & IS).
  destruct (ctor_runs (fun _ _ _ => sv0) (fun _ => sv0) exr_mb exr_wf exr_names) as (s0 & E0).
  exists K, f1, m1, s0. split; [exact AK|]. split; [intro s; now rewrite (proj1 (proj2 (kin_keeps _ _ _ exr_wf (exrc_ok s) (AK s))))|].
  split; [intro s; now rewrite (proj1 (kin_keeps _ _ _ exr_wf (exrc_ok s) (AK s)))|]. split; [exact IS|].
  eapply iso_new; exact E0.
Qed.
