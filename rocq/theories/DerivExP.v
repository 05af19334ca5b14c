(** A moving robot, and joints whose velocity is not that of their pose. *)
From Coq Require Import Reals String ZArith Bool Arith Lia Lra List.
From Verif Require Import Res ResP SMap Vec VecP Sva SvaP Mat JointM MultiBodyM KinM Spec SpecDeriv SpecDyn
  JointP KinP KinPathP KinFinP MbP Ex DerivP DerivTreeP.
Import ListNotations.
Open Scope R_scope.

Definition exd_joints : list Joint :=
  [ mkJz Free true "Root"%string; mkJ Rev unitZ false "shoulder"%string;
    mkJ Prism unitX false "slide"%string; mkJz Planar true "table"%string ].
Definition exd_mb : MultiBody :=
  match MultiBody_ctor ex_bodies exd_joints ex_pred ex_succ ex_pred ex_Xt with
  | Ok mb => mb
  | _ => mkMB [] [] [] [] [] [] [] [] [] [] 0 0
  end.
Lemma exd_joint_unit j : In j exd_joints -> joint_unit j.
Proof.
  intros [<-|[<-|[<-|[<-|[]]]]].
  - exists unitZ; split; [apply unitZ_unit|constructor].
  - exists unitZ; split; [apply unitZ_unit|constructor].
  - exists unitX; split; [apply unitX_unit|constructor].
  - exists unitZ; split; [apply unitZ_unit|constructor].
Qed.
Lemma exd_wf : wf_mb exd_mb.
Proof.
  apply (MultiBody_ctor_wf ex_bodies exd_joints ex_pred ex_succ ex_Xt); [|reflexivity].
  constructor; try reflexivity.
  - intros i z. unfold ex_pred. intros H.
    do 4 (destruct i as [|i]; [simpl in H; injection H as <-; lia|]). destruct i; discriminate.
  - intros j H. apply joint_unit_ok. now apply exd_joint_unit.
Qed.
Lemma exd_rigid : rigid_mb exd_mb.
Proof.
  split.
  - exact exd_joint_unit.
  - intros X [<-|[<-|[<-|[<-|[]]]]]; simpl; auto using SO3_id, SO3_RotX, SO3_RotZ.
Qed.
(** The base drifts along its x axis, the shoulder turns, the slide accelerates, the table spins. *)
Definition exd_M (s : R) : MBC :=
  with_alphaD [[0; 0; 0; 0; 0; 0]; [0]; [2]; [0; 0; 0]]
    (with_alpha [[0; 0; 0; 1; 0; 0]; [1]; [2 * s]; [1; 0; 0]]
      (with_q [[3/5; 4/5; 0; 0; s; 2; 3]; [s]; [s * s]; [s; 0; 0]]
        (MBC_ctor ex_garbage exd_mb))).
Lemma exd_ok s : mbc_ok exd_mb (exd_M s).
Proof.
  pose proof (MBC_ctor_ok ex_garbage exd_mb eq_refl) as H. destruct H.
  constructor; unfold exd_M; cbn [q alpha alphaD force jointConfig jointVelocity jointTorque
    motionSubspace bodyPosW parentToSon bodyVelW bodyVelB bodyAccB with_q with_alpha with_alphaD]; auto; reflexivity.
Qed.
Lemma exd_config s : config_ok exd_mb (exd_M s).
Proof.
  intros i j qi Hj Hq. simpl in Hj. unfold exd_M in Hq; cbn [q with_q with_alpha with_alphaD] in Hq.
  do 4 (destruct i as [|i]; [simpl in Hj, Hq; injection Hj as <-; injection Hq as <-; split;
      [reflexivity| try exact Logic.I; unfold quat_unit; simpl; field]|]).
  destruct i; discriminate.
Qed.
Lemma exd_regular j : In j (mb_joints exd_mb) -> regular j.
Proof. unfold regular. intros [<-|[<-|[<-|[<-|[]]]]]; simpl; auto. Qed.
Lemma exd_follows t i : (i < nrBodies exd_mb)%nat ->
  follows (nth i (mb_joints exd_mb) jd) (fun s => nth i (q (exd_M s)) []) t (nth i (alpha (exd_M t)) []).
Proof.
  intros L k Hk. change (nrBodies exd_mb) with 4%nat in L. pose proof (D_id t) as DI.
  unfold exd_M; cbn [q with_q with_alpha with_alphaD alpha].
  destruct i as [|[|[|[|]]]]; [| | | |lia]; cbn in Hk |- *; unfold co;
  repeat (destruct k as [|k]; [cbn; dsolve; try field; try ring|try lia]).
Qed.
Lemma exd_alphaD t i k : (i < nrBodies exd_mb)%nat -> (k < jdof (nth i (mb_joints exd_mb) jd))%nat ->
  D (fun s => co (nth i (alpha (exd_M s)) []) k) t (co (nth i (alphaD (exd_M t)) []) k).
Proof.
  intros L Hk. change (nrBodies exd_mb) with 4%nat in L. pose proof (D_id t) as DI.
  unfold exd_M; cbn [q with_q with_alpha with_alphaD alpha alphaD].
  destruct i as [|[|[|[|]]]]; [| | | |lia]; cbn in Hk |- *; unfold co;
  repeat (destruct k as [|k]; [cbn; dsolve; try field; try ring|try lia]).
Qed.
Lemma exd_kin : exists K, forall s, after_kinematics exd_mb (exd_M s) (K s).
Proof.
  pose (K1 := fun s => match forwardKinematics exd_mb (exd_M s) with Ok m => m | _ => exd_M s end).
  pose (K := fun s => match forwardVelocity exd_mb (K1 s) with Ok m => m | _ => exd_M s end).
  exists K. intros s. destruct (FK_total exd_mb (exd_M s) exd_wf (exd_ok s)) as (m1 & E1 & F).
  pose proof (FK_mbc_ok _ _ _ exd_wf (exd_ok s) F) as O1.
  destruct (FV_total exd_mb m1 exd_wf O1) as (m2 & E2 & V).
  exists (K1 s). unfold K, K1. rewrite E1, E2. auto.
Qed.

(** Reversed spherical joint. *)
Definition exs (s : R) : list R := [3/5 * cos (s/2); 4/5 * cos (s/2); -(4/5) * sin (s/2); 3/5 * sin (s/2)].
Lemma reversed_spherical : exists j (q : R -> list R) (a : list R) X V,
  joint_unit j /\ jtyp j = Spherical /\ jfwd j = false /\ (forall s, q_ok j (q s)) /\
  follows j q 0 a /\ (forall s, pose j (q s) = Ok (X s)) /\ motion j a = Ok V /\ ~ moves X 0 V.
Proof.
  pose (j := mkJz Spherical false EmptyString).
  pose (X := fun s => match pose j (exs s) with Ok X => X | _ => ptid end).
  assert (HU : forall s, quat_unit (exs s)).
  { intros s. unfold quat_unit, exs; cbn. pose proof (sin2_cos2 (s/2)) as K. unfold Rsqr in K. nra. }
  assert (DH : D (fun s => s / 2) 0 (/ 2)).
  { apply (D_eq _ _ (1 * / 2 + 0 * 0)); [|lra]. apply (D_mult (fun s => s) (fun _ => / 2)); [apply D_id|apply D_const]. }
  exists j, exs, [0; 0; 1], X, (mkSV (mkV3 0 0 (-1)) v0).
  split; [exists unitZ; split; [apply unitZ_unit|constructor]|].
  split; [reflexivity|]. split; [reflexivity|]. split; [intros s; split; [reflexivity|apply HU]|].
  split.
  { intros k Hk. cbn in Hk. unfold co, exs. repeat (destruct k as [|k]; [cbn; dsolve; try field|try lia]). }
  split; [intros s; reflexivity|]. split; [cbn; f_equal; svring|].
  intros (MX & _).
  assert (EX : forall s, rotE (X s) = mtr (QuatToE (co (exs s) 0) (co (exs s) 1) (co (exs s) 2) (co (exs s) 3))).
  { intros s. specialize (HU s). unfold X. cbn -[exs qmat qinv]. unfold get, exs; cbn -[qmat qinv]. fold (exs s).
    rewrite QuatToE_qmat by (exact HU). rewrite qinv_unit.
    - unfold exs, co; cbn. unfold qmat, qconj, mtr; cbn. f_equal; ring.
    - unfold quat_unit, exs in HU; cbn in HU. unfold qnorm2; cbn. lra. }
  pose proof (derivM_ext _ _ 0 _ (fun s => eq_sym (EX s)) MX) as M1.
  assert (M2 : derivM (fun s => QuatToE (co (exs s) 0) (co (exs s) 1) (co (exs s) 2) (co (exs s) 3)) 0
     (mmul (mscale (-1) (mcross (mkV3 0 0 1))) (QuatToE (co (exs 0) 0) (co (exs 0) 1) (co (exs 0) 2) (co (exs 0) 3)))).
  { apply (deriv_QuatToE (fun s => co (exs s) 0) (fun s => co (exs s) 1) (fun s => co (exs s) 2) (fun s => co (exs s) 3)).
    - apply (HU 0).
    - unfold exs, co; cbn; dsolve; field.
    - unfold exs, co; cbn; dsolve; field.
    - unfold exs, co; cbn; dsolve; field.
    - unfold exs, co; cbn; dsolve; field. }
  apply derivM_tr in M2.
  rewrite EX in M1.
  destruct M1 as (_ & (a & b & c) & _). destruct M2 as (_ & (a' & b' & c') & _).
  pose proof (uniqueness_limite _ _ _ _ a a') as U.
  unfold exs, co in U; cbn in U. replace (0 / 2) with 0 in U by field. rewrite sin_0, cos_0 in U. lra.
Qed.
(** Planar joint with q' = alpha. *)
Lemma planar_qdot_alpha : exists j (q : R -> list R) (a : list R) X V,
  joint_unit j /\ jtyp j = Planar /\ jfwd j = true /\ (forall s, q_ok j (q s)) /\
  (forall k, (k < 3)%nat -> derivable_pt_lim (fun s => co (q s) k) 0 (co a k)) /\
  (forall s, pose j (q s) = Ok (X s)) /\ motion j a = Ok V /\ ~ moves X 0 V.
Proof.
  exists (mkJz Planar true EmptyString), (fun s => [s; 1; 0]), [1; 0; 0],
    (fun s => mkPT (RotZ s) (mapp (mtr (RotZ s)) (mkV3 1 0 0))), (mkSV unitZ v0).
  split; [exists unitZ; split; [apply unitZ_unit|constructor]|].
  split; [reflexivity|]. split; [reflexivity|]. split; [intros s; split; [reflexivity|exact I]|].
  split.
  { intros k Hk. unfold co. destruct k as [|[|[|]]]; cbn; try lia; [apply D_id|apply D_const|apply D_const]. }
  split; [intros s; reflexivity|]. split; [cbn; f_equal; svring|].
  intros (_ & (_ & H & _)). cbn in H.
  assert (H2 : D (fun s => sin s * 1 + cos s * 0 + 0 * 0) 0 1).
  { clear H. apply (D_eq _ _ (cos 0 * 1 + (- sin 0 * 0) + 0)); [|rewrite cos_0, sin_0; ring]. apply D_plus; [apply D_plus|apply D_const]. { apply (D_eq _ _ (cos 0 * 1 * 1 + sin 0 * 0)); [|ring]. apply (D_mult sin (fun _ => 1)); [|apply D_const]. apply (D_sin (fun s => s)), D_id. } apply (D_eq _ _ (- sin 0 * 1 * 0 + cos 0 * 0)); [|ring]. apply (D_mult cos (fun _ => 0)); [|apply D_const]. apply (D_cos (fun s => s)), D_id. }
  pose proof (uniqueness_limite _ _ _ _ H H2) as U. rewrite cos_0, sin_0 in U. lra.
Qed.
