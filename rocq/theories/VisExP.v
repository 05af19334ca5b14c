(** Concrete cameras. *)
From Coq Require Import Reals String ZArith Bool Arith Lia Lra List.
From Verif Require Import Res Vec VecP Sva SvaP JointM Spec SpecDeriv SpecVis IntegM VisM JointP DerivP VisP EulerP.
Import ListNotations.
Open Scope R_scope.

(** A camera turned by pi/2 about an axis that turns in the horizontal plane. *)
Definition exv_n (s : R) : V3 := mkV3 (cos s) (sin s) 0.
Definition exv_X (s : R) : PT := mkPT (mtr (angleAxis (PI / 2) (exv_n s))) v0.
Definition exv_V : SV := mkSV (mkV3 0 1 (-1)) v0.
Lemma exv_unit s : vdot (exv_n s) (exv_n s) = 1.
Proof. unfold vdot, exv_n; cbn. pose proof (sin2_cos2 s) as H. unfold Rsqr in H. lra. Qed.
Lemma exv_turned s : turned (exv_X s) (PI / 2) (exv_n s).
Proof. split; [apply mtr_mtr|apply exv_unit]. Qed.
Lemma exv_n' : derivV exv_n 0 (mkV3 0 1 0).
Proof.
  split; [|split]; cbn [exv_n vx vy vz].
  - eapply D_eq; [apply derivable_pt_lim_cos|]. rewrite sin_0. ring.
  - eapply D_eq; [apply derivable_pt_lim_sin|]. apply cos_0.
  - apply D_const.
Qed.
Lemma exv_n0 : exv_n 0 = unitX. Proof. unfold exv_n. now rewrite cos_0, sin_0. Qed.
Lemma exv_SO3 : SO3 (rotE (exv_X 0)).
Proof. cbn [exv_X rotE]. apply SO3_tr. rewrite exv_n0. apply SO3_angleAxis. unfold vdot, unitX; cbn; ring. Qed.
Lemma exv_moves : moves exv_X 0 exv_V.
Proof.
  split; cbn [exv_X exv_V rotE trR sang slin].
  - eapply derivM_eq.
    + apply derivM_tr. apply (angleAxis_deriv (fun _ => PI / 2) exv_n 0 0 (mkV3 0 1 0) (D_const _ _) exv_n' (exv_unit 0)). rewrite exv_n0. unfold vdot, unitX; cbn; ring.
    + rewrite mtr_mmul. f_equal. unfold axis_velocity. rewrite exv_n0, sin_PI2, cos_PI2. unfold mtr, mcross, mscale, vadd, vscale, vcross, unitX; cbn; f_equal; ring.
  - eapply derivV_eq; [apply derivV_const|]. destruct (mtr (mtr (angleAxis (PI / 2) (exv_n 0)))). unfold mapp, v0; cbn; f_equal; ring.
Qed.
Lemma exv_L : vz (sang (block_times (poseJacobian (rotE (exv_X 0))) exv_V)) = 3 - PI / 2.
Proof.
  unfold poseJacobian. cbn [exv_X rotE]. rewrite mtr_mtr. pose proof PI_RGT_0. rewrite getAngleAxis_spec by (try apply exv_unit; lra). cbn [fst snd]. destruct (sinc_ratio (PI / 2)) as (E & _); [lra|]. rewrite E. rewrite exv_n0, sin_PI2, cos_PI2.
  assert (A : getSkewSym (vscale (-2 * 1) unitX) = mkM3 0 0 0 0 0 2 0 (-2) 0) by (unfold getSkewSym, vscale, unitX; cbn [vx vy vz]; f_equal; ring). rewrite A.
  set (k := 1 - _). assert (B : mmul (mscale k (mkM3 0 0 0 0 0 2 0 (-2) 0)) (mkM3 0 0 0 0 0 2 0 (-2) 0) = mkM3 0 0 0 0 (-4 * k) 0 0 0 (-4 * k)) by (unfold mmul, mscale; cbn [m00 m01 m02 m10 m11 m12 m20 m21 m22]; f_equal; ring).
  rewrite B. unfold block_times, exv_V, k. cbn [b00 b01 b10 b11 sang slin]. unfold madd, mscale, mid; cbn [m00 m01 m02 m10 m11 m12 m20 m21 m22]. unfold mapp, mzero, vadd, v0; cbn [m00 m01 m02 m10 m11 m12 m20 m21 m22 vx vy vz]. field.
Qed.
Lemma exv_wrong : ~ derivS (fun s => mkSV (vscale (PI / 2) (exv_n s)) (trR (exv_X s))) 0 (block_times (poseJacobian (rotE (exv_X 0))) exv_V).
Proof.
  intros ((_ & _ & H) & _). rewrite exv_L in H. cbn [sang vscale vz exv_n] in H. pose proof (D_unique _ _ _ _ H (D_const (PI / 2 * 0) 0)). pose proof PI_4. lra.
Qed.
Lemma pose_refuted : exists X a n t V a' n', SO3 (rotE (X t)) /\ moves X t V /\ (forall s, turned (X s) (a s) (n s)) /\ D a t a' /\ derivV n t n' /\ 0 < a t <= PI /\
  ~ derivS (fun s => mkSV (vscale (a s) (n s)) (trR (X s))) t (block_times (poseJacobian (rotE (X t))) V).
Proof.
  exists exv_X, (fun _ => PI / 2), exv_n, 0, exv_V, 0, (mkV3 0 1 0). split; [apply exv_SO3|]. split; [apply exv_moves|]. split; [apply exv_turned|]. split; [apply D_const|]. split; [apply exv_n'|]. pose proof PI_RGT_0. split; [lra|apply exv_wrong].
Qed.
Lemma axis_refuted : exists E, SO3 E /\ vdot (snd (getAngleAxis E)) (snd (getAngleAxis E)) = 4.
Proof.
  exists (angleAxis (PI / 2) unitX). assert (U : vdot unitX unitX = 1) by (unfold vdot, unitX; cbn; ring). split; [now apply SO3_angleAxis|]. pose proof PI_RGT_0. rewrite getAngleAxis_spec by (auto; lra). cbn [snd]. rewrite sin_PI2. unfold vdot, vscale, unitX; cbn; ring.
Qed.
(** A camera translating along its optical axis while the point is off the axis. *)
Definition exv_Y (s : R) : PT := mkPT mid (mkV3 s 0 0).
Definition exv_U : SV := mkSV v0 (mkV3 1 0 0).
Lemma exv_Y_moves t : moves exv_Y t exv_U.
Proof.
  split; cbn [exv_Y exv_U rotE trR sang slin].
  - eapply derivM_eq; [apply derivM_const|]. unfold mzero, mmul, mscale, mcross, mid, v0; cbn; f_equal; ring.
  - split; [|split]; cbn [vx vy vz mapp mtr mid m00 m01 m02 m10 m11 m12 m20 m21 m22].
    + eapply D_eq; [apply D_id|]. ring.
    + eapply D_eq; [apply D_const|]. ring.
    + eapply D_eq; [apply D_const|]. ring.
Qed.
Definition exv_P : V3 := mkV3 0 1 1.
Lemma exv_Y_seen s : seen (exv_Y s) exv_P = mkV3 (- s) 1 1.
Proof. unfold seen, exv_Y, exv_P, mapp, vsub, mid; cbn. f_equal; ring. Qed.
Lemma depth_refuted : exists X t V P, SO3 (rotE (X t)) /\ moves X t V /\ depth (X t) P <> 0 /\
  ~ D (fun s => depth (X s) P) t (times (depthDotJacobian (image_x (X t) P) (image_y (X t) P) (depth (X t) P)) V).
Proof.
  exists exv_Y, 0, exv_U, exv_P. split; [apply SO3_id|]. split; [apply exv_Y_moves|]. unfold image_x, image_y, depth. rewrite exv_Y_seen. cbn [vx vy vz]. split; [lra|]. intro H.
  assert (C : D (fun s => vz (seen (exv_Y s) exv_P)) 0 0). { apply D_ext with (fun _ => 1); [intro s; now rewrite exv_Y_seen|apply D_const]. }
  pose proof (D_unique _ _ _ _ C H) as E. unfold times, depthDotJacobian, row, exv_U, v0 in E. cbn [sang slin vx vy vz] in E. lra.
Qed.
Lemma angleAxis_tr a n : mtr (angleAxis a n) = angleAxis a (vscale (-1) n).
Proof. destruct n as [x y z]. unfold angleAxis, mtr, vscale. cbn [m00 m01 m02 m10 m11 m12 m20 m21 m22 vx vy vz]. f_equal; ring. Qed.
Lemma angle_axis E : SO3 E -> exists a n, 0 <= a <= PI /\ vdot n n = 1 /\ mtr E = angleAxis a n /\ getAngleAxis E = (a, vscale (2 * sin a) n).
Proof.
  intro S. destruct (euler (mtr E)) as (a & n & A & N & H); [now apply SO3_tr|]. exists a, n. do 3 (split; [auto|]). rewrite <- (mtr_mtr E), H, angleAxis_tr.
  rewrite getAngleAxis_spec; auto. - f_equal. destruct n as [x y z]. unfold vscale. cbn. f_equal; ring. - destruct n as [x y z]. unfold vdot, vscale in *. cbn in *. lra.
Qed.
Lemma exv_dot_example : exists x y z : R -> R, derivable_pt_lim x 1 1 /\ derivable_pt_lim y 1 2 /\ derivable_pt_lim z 1 3 /\ z 1 <> 0.
Proof.
  exists (fun s => s), (fun s => 2 * s), (fun s => 3 * s). split; [apply D_id|]. split; [eapply D_eq; [apply (D_scal 2 _ _ _ (D_id 1))|ring]|]. split; [eapply D_eq; [apply (D_scal 3 _ _ _ (D_id 1))|ring]|lra].
Qed.
(** A camera turned about a fixed axis by pi / 6, where the axis returned is a unit vector. *)
Definition exv_Z (s : R) : PT := mkPT (mtr (angleAxis (PI / 6 + s) unitX)) (mkV3 s 0 0).
Definition exv_VZ : SV := mkSV unitX (mapp (rotE (exv_Z 0)) unitX).
Lemma exv_Z_applies : SO3 (rotE (exv_Z 0)) /\ moves exv_Z 0 exv_VZ /\ (forall s, turned (exv_Z s) (PI / 6 + s) unitX) /\ derivable_pt_lim (fun s => PI / 6 + s) 0 1 /\ derivV (fun _ => unitX) 0 v0 /\ 0 < PI / 6 + 0 <= PI /\
  (let axis := snd (getAngleAxis (mtr (rotE (exv_Z 0)))) in vdot axis axis = 1).
Proof.
  assert (U : vdot unitX unitX = 1) by (unfold vdot, unitX; cbn; ring). pose proof PI_RGT_0 as PP. assert (Da : D (fun s => PI / 6 + s) 0 1) by (eapply D_eq; [apply D_plus; [apply D_const|apply D_id]|ring]).
  assert (S : SO3 (rotE (exv_Z 0))) by (cbn [exv_Z rotE]; apply SO3_tr; now apply SO3_angleAxis). split; [exact S|]. split.
  - split; unfold exv_Z at 1; cbn [rotE trR].
    + eapply derivM_eq. * apply derivM_tr. apply (angleAxis_deriv (fun s => PI / 6 + s) (fun _ => unitX) 0 1 v0 Da (derivV_const _ _) U). unfold vdot, v0; cbn; ring.
      * rewrite mtr_mmul. unfold exv_VZ, exv_Z. cbn [sang rotE]. f_equal. unfold axis_velocity, mtr, mcross, mscale, vadd, vscale, vcross, unitX, v0; cbn [m00 m01 m02 m10 m11 m12 m20 m21 m22 vx vy vz]; f_equal; ring.
    + cbn [exv_VZ slin]. rewrite SO3_cancel_l by exact S. split; [|split]; cbn [vx vy vz unitX]; [apply D_id|apply D_const|apply D_const].
  - split; [intro s; split; [apply mtr_mtr|exact U]|]. split; [exact Da|]. split; [apply derivV_const|]. split; [lra|]. cbn [exv_Z rotE]. rewrite mtr_mtr. rewrite getAngleAxis_spec by (auto; lra). cbn [snd]. rewrite Rplus_0_r, sin_PI6. unfold vdot, vscale, unitX; cbn. field.
Qed.
