(** Time derivatives of what forward kinematics and velocity compute. *)
From Coq Require Import Reals String ZArith Bool Arith Lia Lra List.
From Verif Require Import Res ResP SMap Vec VecP Sva SvaP Mat JointM MultiBodyM KinM Spec SpecDeriv SpecDyn
  JointP KinP KinPathP KinFinP MbP Ex DerivP.
Import ListNotations.
Open Scope R_scope.

(** What one run of kinematics gives. *)
Lemma after_kin_posts mb m0 m : wf_mb mb -> mbc_ok mb m0 -> after_kinematics mb m0 m ->
  exists m1, fk_post mb m0 m1 /\ mbc_ok mb m1 /\ fv_post mb m1 m /\ mbc_ok mb m.
Proof.
  intros W K (m1 & E1 & E2). pose proof (FK_run mb m0 m1 W K E1) as F.
  pose proof (FK_mbc_ok mb m0 m1 W K F) as K1. pose proof (FV_run mb m1 m W K1 E2) as V.
  exists m1. split; [|split; [|split]]; auto. apply (FV_mbc_ok mb m1 m K1 V).
Qed.
Lemma q_ok_nth mb m i : wf_mb mb -> mbc_ok mb m -> config_ok mb m -> (i < nrBodies mb)%nat ->
  q_ok (nth i (mb_joints mb) jd) (nth i (q m) []).
Proof.
  intros W K C L. pose proof (wf_nrJoints mb W) as NJ. unfold nrJoints in NJ.
  pose proof (sized_length _ _ _ (ok_q _ _ K)) as Lq. unfold nrJoints in Lq.
  apply (C i); apply nth_error_nth'; lia.
Qed.

Record run (mb : MultiBody) (m0 m : MBC) : Prop := {
  r_ok : mbc_ok mb m;
  r_q : q m = q m0; r_a : alpha m = alpha m0;
  r_pose : forall i, (i < nrBodies mb)%nat -> pose (nth i (mb_joints mb) jd) (nth i (q m0) []) = Ok (nth i (jointConfig m) ptid);
  r_rj : forall i, (i < nrBodies mb)%nat -> rigid (nth i (jointConfig m) ptid);
  r_rx : forall i, (i < nrBodies mb)%nat -> rigid (nth i (parentToSon m) ptid);
  r_rw : forall i, (i < nrBodies mb)%nat -> rigid (nth i (bodyPosW m) ptid);
  r_pts : forall i, (i < nrBodies mb)%nat -> nth i (parentToSon m) ptid = ptmul (nth i (jointConfig m) ptid) (nth i (mb_Xt mb) ptid);
  r_ms : forall i, (i < nrBodies mb)%nat -> nth i (motionSubspace m) [] = jS (nth i (mb_joints mb) jd);
  r_bp : forall i, (i < nrBodies mb)%nat -> nth i (bodyPosW m) ptid =
      match par mb i with
      | Some p => ptmul (nth i (parentToSon m) ptid) (nth p (bodyPosW m) ptid)
      | None => nth i (parentToSon m) ptid
      end;
  r_vj : forall i, (i < nrBodies mb)%nat -> nth i (jointVelocity m) sv0 = smul (jS (nth i (mb_joints mb) jd)) (nth i (alpha m0) []);
  r_vb : forall i, (i < nrBodies mb)%nat -> nth i (bodyVelB m) sv0 =
      match par mb i with
      | Some p => svadd (ptm (nth i (parentToSon m) ptid) (nth p (bodyVelB m) sv0)) (nth i (jointVelocity m) sv0)
      | None => nth i (jointVelocity m) sv0
      end;
  r_vw : forall i, (i < nrBodies mb)%nat -> nth i (bodyVelW m) sv0 =
      ptinvm (ptrot (rotE (nth i (bodyPosW m) ptid))) (nth i (bodyVelB m) sv0)
}.
Lemma kin_run mb m0 m : wf_mb mb -> rigid_mb mb -> mbc_ok mb m0 -> config_ok mb m0 ->
  after_kinematics mb m0 m -> run mb m0 m.
Proof.
  intros W RM K C A. destruct (after_kin_posts _ _ _ W K A) as (m1 & F & K1 & V & K2).
  pose proof (sized_length _ _ _ (ok_q _ _ K)) as Lq.
  assert (Ep : parentToSon m = parentToSon m1) by (rewrite (fv_frame _ _ _ V); reflexivity).
  assert (Ej : jointConfig m = jointConfig m1) by (rewrite (fv_frame _ _ _ V); reflexivity).
  assert (Em : motionSubspace m = motionSubspace m1) by (rewrite (fv_frame _ _ _ V); reflexivity).
  assert (Eb : bodyPosW m = bodyPosW m1) by (rewrite (fv_frame _ _ _ V); reflexivity).
  assert (Eq1 : q m1 = q m0) by (rewrite (fk_frame _ _ _ F); reflexivity).
  assert (Ea1 : alpha m1 = alpha m0) by (rewrite (fk_frame _ _ _ F); reflexivity).
  constructor; auto.
  - rewrite <- Eq1, (fv_frame _ _ _ V). reflexivity.
  - rewrite <- Ea1, (fv_frame _ _ _ V). reflexivity.
  - intros. rewrite Ej. now apply (fk_jc _ _ _ F).
  - intros. rewrite Ej. apply (pose_rigid (nth i (mb_joints mb) jd) (nth i (q m0) [])); [|apply (q_ok_nth mb m0); auto|apply (fk_jc _ _ _ F); auto].
    apply RM. apply nth_In. rewrite (wf_joints mb W); auto.
  - intros. rewrite Ep. apply (fk_rigid_pts mb m0 m1); auto.
  - intros. rewrite Eb. apply (fk_rigid mb m0 m1); auto.
  - intros. rewrite Ep, Ej. now apply (fk_pts _ _ _ F).
  - intros. rewrite Em. now apply (fk_ms _ _ _ F).
  - intros. rewrite Eb, Ep. now apply (fk_bp _ _ _ F).
  - intros. rewrite (fv_jv _ _ _ V), Ea1; auto.
  - intros. rewrite Ep. now apply (fv_vb _ _ _ V).
  - intros. rewrite Eb. now apply (fv_vw _ _ _ V).
Qed.

Section Traj.
Variables (mb : MultiBody) (M K : R -> MBC) (t : R).
Hypothesis W : wf_mb mb.
Hypothesis RM : rigid_mb mb.
Hypothesis OK : forall s, mbc_ok mb (M s).
Hypothesis CO : forall s, config_ok mb (M s).
Hypothesis AK : forall s, after_kinematics mb (M s) (K s).
Hypothesis JM : forall i X, (i < nrBodies mb)%nat ->
  (forall s, pose (nth i (mb_joints mb) jd) (nth i (q (M s)) []) = Ok (X s)) ->
  moves X t (smul (jS (nth i (mb_joints mb) jd)) (nth i (alpha (M t)) [])).

Let RU : forall s, run mb (M s) (K s) := fun s => kin_run mb (M s) (K s) W RM (OK s) (CO s) (AK s).

Lemma pts_moves i : (i < nrBodies mb)%nat ->
  moves (fun s => nth i (parentToSon (K s)) ptid) t (nth i (jointVelocity (K t)) sv0).
Proof.
  intros L. rewrite (r_vj _ _ _ (RU t)) by auto.
  apply (moves_ext _ (fun s => ptmul (nth i (jointConfig (K s)) ptid) (nth i (mb_Xt mb) ptid))).
  { intros s. apply (r_pts _ _ _ (RU s)); auto. }
  apply moves_mul_const; [apply (r_rj _ _ _ (RU t)); auto|].
  apply JM; auto. intros s. apply (r_pose _ _ _ (RU s)); auto.
Qed.
Lemma body_moves i : (i < nrBodies mb)%nat ->
  moves (fun s => nth i (bodyPosW (K s)) ptid) t (nth i (bodyVelB (K t)) sv0).
Proof.
  induction i as [i IH] using lt_wf_ind. intros L. rewrite (r_vb _ _ _ (RU t)) by auto.
  destruct (par mb i) as [p|] eqn:P.
  - pose proof (par_lt _ _ _ W L P) as Lp.
    apply (moves_ext _ (fun s => ptmul (nth i (parentToSon (K s)) ptid) (nth p (bodyPosW (K s)) ptid))).
    { intros s. rewrite (r_bp _ _ _ (RU s)) by auto. now rewrite P. }
    rewrite svadd_comm. apply (moves_mul (fun s => nth i (parentToSon (K s)) ptid) (fun s => nth p (bodyPosW (K s)) ptid)).
    + apply (r_rx _ _ _ (RU t)); auto.
    + now apply pts_moves.
    + apply IH; lia.
  - apply (moves_ext _ (fun s => nth i (parentToSon (K s)) ptid)).
    { intros s. rewrite (r_bp _ _ _ (RU s)) by auto. now rewrite P. }
    now apply pts_moves.
Qed.
Lemma body_world i : (i < nrBodies mb)%nat ->
  derivV (fun s => trR (nth i (bodyPosW (K s)) ptid)) t (slin (nth i (bodyVelW (K t)) sv0)) /\
  derivM (fun s => mtr (rotE (nth i (bodyPosW (K s)) ptid))) t
    (mmul (mcross (sang (nth i (bodyVelW (K t)) sv0))) (mtr (rotE (nth i (bodyPosW (K t)) ptid)))).
Proof.
  intros L. pose proof (moves_world _ _ _ (r_rw _ _ _ (RU t) i L) (body_moves i L)) as (A & B).
  rewrite (r_vw _ _ _ (RU t)) by auto.
  assert (E : forall E V, ptinvm (ptrot E) V = mkSV (mapp (mtr E) (sang V)) (mapp (mtr E) (slin V))).
  { intros. svring. }
  rewrite E. cbn [sang slin]. auto.
Qed.
End Traj.

(** Derivative of transported velocities. *)
Lemma deriv_ptm X u t V u' : moves X t V -> SO3 (rotE (X t)) -> derivS u t u' ->
  derivS (fun s => ptm (X s) (u s)) t (svsub (ptm (X t) u') (scross V (ptm (X t) (u t)))).
Proof.
  intros (MX & VX) SX (A & B). split; cbn [ptm sang slin svsub scross].
  - eapply derivV_eq; [apply derivV_app; eassumption|]. rewrite mapp_mmul.
    generalize (mapp (rotE (X t)) (sang (u t))), (mapp (rotE (X t)) (sang u')). intros a b.
    destruct (sang V). svring.
  - eapply derivV_eq; [apply derivV_app; [eassumption|apply derivV_sub; [eassumption|apply derivV_cross; eassumption]]|].
    cbv beta. rewrite mapp_mmul.
    set (p := mapp (rotE (X t)) (sang (u t))). set (w := mapp (rotE (X t)) (vsub (slin (u t)) (vcross (trR (X t)) (sang (u t))))).
    rewrite !mapp_sub, mapp_add.
    rewrite <- (SO3_cross (rotE (X t)) (mapp (mtr (rotE (X t))) (slin V)) (sang (u t)) SX).
    rewrite SO3_cancel_r by auto. fold p.
    generalize (mapp (rotE (X t)) (slin u')), (mapp (rotE (X t)) (vcross (trR (X t)) (sang u'))). intros a b.
    clearbody p w. destruct V. svring.
Qed.
Lemma derivS_add u v t u' v' : derivS u t u' -> derivS v t v' -> derivS (fun s => svadd (u s) (v s)) t (svadd u' v').
Proof. intros (a & b) (c & d). split; cbn [svadd sang slin]; now apply derivV_add. Qed.
Lemma derivS_sub u v t u' v' : derivS u t u' -> derivS v t v' -> derivS (fun s => svsub (u s) (v s)) t (svsub u' v').
Proof. intros (a & b) (c & d). split; cbn [svsub sang slin]; now apply derivV_sub. Qed.
Lemma derivS_ext f g t a : (forall s, f s = g s) -> derivS g t a -> derivS f t a.
Proof. intros E (A & B). split; (eapply derivV_ext; [intros s; now rewrite E|]); auto. Qed.
Lemma derivS_const c t : derivS (fun _ => c) t sv0.
Proof. split; apply derivV_const. Qed.
Lemma derivS_eq f t a b : derivS f t a -> a = b -> derivS f t b. Proof. intros H <-. auto. Qed.
Lemma derivS_scale k v t k' v' : D k t k' -> derivS v t v' ->
  derivS (fun s => svscale (k s) (v s)) t (svadd (svscale k' (v t)) (svscale (k t) v')).
Proof. intros HK (a & b). split; cbn [svscale svadd sang slin]; now apply derivV_scale. Qed.

Lemma deriv_smul S : forall (x : R -> list R) t x', (forall s, length (x s) = length S) -> length x' = length S ->
  (forall i, (i < length S)%nat -> D (fun s => co (x s) i) t (co x' i)) ->
  derivS (fun s => smul S (x s)) t (smul S x').
Proof.
  induction S as [|c S IH]; intros x t x' L L' H.
  - apply (derivS_ext _ (fun _ => sv0)); [intros; reflexivity|]. destruct x'; apply derivS_const.
  - destruct x' as [|x0 x']; [discriminate L'|].
    apply (derivS_ext _ (fun s => svadd (svscale (co (x s) 0) c) (smul S (tl (x s))))).
    { intros s. specialize (L s). destruct (x s); [discriminate L|reflexivity]. }
    eapply derivS_eq; [apply derivS_add; [apply derivS_scale; [apply (H 0%nat); simpl; lia|apply derivS_const]|apply (IH (fun s => tl (x s)) t x')]|].
    + intros s. specialize (L s). destruct (x s); simpl in *; lia.
    + simpl in L'; lia.
    + intros i Hi. specialize (H (Datatypes.S i) ltac:(simpl; lia)). apply (D_ext _ (fun s => co (x s) (Datatypes.S i))); [|apply H].
      intros s. specialize (L s). destruct (x s); [discriminate L|reflexivity].
    + cbn [smul]. unfold co; simpl. rewrite svscale_sv0, svadd_0_r. reflexivity.
Qed.

Section Acc.
Variables (mb : MultiBody) (M K : R -> MBC) (t : R) (A0 : SV) (m3 : MBC).
Hypothesis W : wf_mb mb.
Hypothesis RM : rigid_mb mb.
Hypothesis OK : forall s, mbc_ok mb (M s).
Hypothesis CO : forall s, config_ok mb (M s).
Hypothesis AK : forall s, after_kinematics mb (M s) (K s).
Hypothesis JM : forall i X, (i < nrBodies mb)%nat ->
  (forall s, pose (nth i (mb_joints mb) jd) (nth i (q (M s)) []) = Ok (X s)) ->
  moves X t (smul (jS (nth i (mb_joints mb) jd)) (nth i (alpha (M t)) [])).
Hypothesis DA : forall i k, (i < nrBodies mb)%nat -> (k < jdof (nth i (mb_joints mb) jd))%nat ->
  D (fun s => co (nth i (alpha (M s)) []) k) t (co (nth i (alphaD (M t)) []) k).
Hypothesis FA : forwardAcceleration mb (K t) A0 = Ok m3.

Let RU : forall s, run mb (M s) (K s) := fun s => kin_run mb (M s) (K s) W RM (OK s) (CO s) (AK s).

Lemma jv_deriv i : (i < nrBodies mb)%nat ->
  derivS (fun s => nth i (jointVelocity (K s)) sv0) t (smul (jS (nth i (mb_joints mb) jd)) (nth i (alphaD (M t)) [])).
Proof.
  intros L. pose proof (wf_joint_nth mb i W L) as JO. pose proof (wf_nrJoints mb W) as NJ.
  eapply derivS_ext; [intros s; apply (r_vj _ _ _ (RU s)); auto|].
  apply (deriv_smul _ (fun s => nth i (alpha (M s)) [])).
  - intros s. rewrite (sized_nth mb jdof) by (try apply (ok_alpha _ _ (OK s)); lia). now rewrite joint_ok_S_length.
  - rewrite (sized_nth mb jdof) by (try apply (ok_alphaD _ _ (OK t)); lia). now rewrite joint_ok_S_length.
  - intros k Hk. rewrite joint_ok_S_length in Hk by auto. now apply DA.
Qed.
Lemma acc_deriv i : (i < nrBodies mb)%nat ->
  derivS (fun s => nth i (bodyVelB (K s)) sv0) t
    (svsub (nth i (bodyAccB m3) sv0) (ptm (nth i (bodyPosW (K t)) ptid) A0)).
Proof.
  pose proof (FA_run mb (K t) A0 m3 W (r_ok _ _ _ (RU t)) FA) as FP.
  assert (EaD : alphaD (K t) = alphaD (M t)).
  { destruct (after_kin_posts _ _ _ W (OK t) (AK t)) as (m1 & F & K1 & V & K2).
    rewrite (fv_frame _ _ _ V), (fk_frame _ _ _ F). reflexivity. }
  induction i as [i IH] using lt_wf_ind. intros L.
  pose proof (pts_moves mb M K t W RM OK CO AK JM i L) as PM.
  pose proof (r_rx _ _ _ (RU t) i L) as RX.
  rewrite (fa_acc _ _ _ _ FP) by auto. rewrite EaD, (r_bp _ _ _ (RU t)) by auto.
  pose proof (jv_deriv i L) as JD.
  set (aj := smul (jS (nth i (mb_joints mb) jd)) (nth i (alphaD (M t)) [])) in *.
  set (vj := nth i (jointVelocity (K t)) sv0) in *. set (X := nth i (parentToSon (K t)) ptid) in *.
  pose proof (r_vb _ _ _ (RU t) i L) as VB. fold X vj in VB.
  destruct (par mb i) as [p|] eqn:P.
  - pose proof (par_lt _ _ _ W L P) as Lp. specialize (IH p Lp ltac:(lia)).
    eapply derivS_ext.
    { intros s. rewrite (r_vb _ _ _ (RU s)) by auto. now rewrite P. }
    eapply derivS_eq; [apply derivS_add; [apply deriv_ptm; eassumption|eassumption]|].
    cbv beta. fold X. rewrite ptm_mul by (apply (r_rw _ _ _ (RU t)); lia).
    rewrite VB. set (vp := ptm X (nth p (bodyVelB (K t)) sv0)) in *.
    rewrite !svsub_def, ptm_add, ptm_scale.
    generalize (ptm X (nth p (bodyAccB m3) sv0)), (ptm X (ptm (nth p (bodyPosW (K t)) ptid) A0)). intros a b.
    clearbody vp vj aj X. clear. svring.
  - eapply derivS_ext.
    { intros s. rewrite (r_vb _ _ _ (RU s)) by auto. now rewrite P. }
    eapply derivS_eq; [exact JD|]. rewrite VB, scross_self. generalize (ptm X A0). intros b. clearbody aj. clear. svring.
Qed.
End Acc.

(** With the kinematic laws. *)
Lemma follow_moves mb (M : R -> MBC) t : wf_mb mb -> rigid_mb mb -> (forall s, mbc_ok mb (M s)) ->
  (forall s, config_ok mb (M s)) -> (forall j, In j (mb_joints mb) -> regular j) ->
  (forall i, (i < nrBodies mb)%nat -> follows (nth i (mb_joints mb) jd) (fun s => nth i (q (M s)) []) t (nth i (alpha (M t)) [])) ->
  forall i X, (i < nrBodies mb)%nat ->
  (forall s, pose (nth i (mb_joints mb) jd) (nth i (q (M s)) []) = Ok (X s)) ->
  moves X t (smul (jS (nth i (mb_joints mb) jd)) (nth i (alpha (M t)) [])).
Proof.
  intros W RM OK CO RG F i X L HP. pose proof (wf_nrJoints mb W) as NJ.
  assert (IJ : In (nth i (mb_joints mb) jd) (mb_joints mb)) by (apply nth_In; rewrite (wf_joints mb W); auto).
  apply (pose_moves _ (fun s => nth i (q (M s)) [])); auto.
  - now apply RM.
  - intros s. apply (q_ok_nth mb (M s)); auto.
  - rewrite (sized_nth mb jdof) by (try apply (ok_alpha _ _ (OK t)); lia). reflexivity.
Qed.
