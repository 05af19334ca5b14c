(** Visual servoing. *)
From Coq Require Import Reals String ZArith Bool Arith Lia Lra List.
From Verif Require Import Res Vec VecP Sva SvaP JointM Spec SpecDeriv SpecVis IntegM VisM JointP DerivP.
Import ListNotations.
Open Scope R_scope.

Lemma D_div f g t a b : D f t a -> D g t b -> g t <> 0 -> D (fun s => f s / g s) t ((a * g t - b * f t) / (g t * g t)).
Proof. intros A B N. eapply D_eq; [apply (derivable_pt_lim_div f g t a b A B N)|]. unfold Rsqr. reflexivity. Qed.
(** *** Image points. *)
Lemma seen_deriv X t V P : SO3 (rotE (X t)) -> moves X t V -> derivV (fun s => seen (X s) P) t (vsub (vscale (-1) (slin V)) (vcross (sang V) (seen (X t) P))).
Proof.
  intros S (ME & MR). unfold seen. eapply derivV_eq. { apply derivV_app; [exact ME|]. apply (derivV_sub (fun _ => P)); [apply derivV_const|exact MR]. }
  assert (E1 : mapp (rotE (X t)) (vsub v0 (mapp (mtr (rotE (X t))) (slin V))) = vscale (-1) (slin V)).
  { rewrite mapp_sub. rewrite SO3_cancel_r by auto. destruct (slin V), (rotE (X t)). v3; f_equal; ring. }
  cbv beta. rewrite E1. rewrite mapp_mmul. generalize (mapp (rotE (X t)) (vsub P (trR (X t)))). intro p. destruct p, (sang V), (slin V). v3; f_equal; ring.
Qed.
Lemma image_jacobian X t V P : SO3 (rotE (X t)) -> moves X t V -> depth (X t) P <> 0 ->
  let J := imagePointJacobian (image_x (X t) P) (image_y (X t) P) (depth (X t) P) in
  D (fun s => image_x (X s) P) t (times (row0 J) V) /\ D (fun s => image_y (X s) P) t (times (row1 J) V).
Proof.
  intros S M Z J. destruct (seen_deriv X t V P S M) as (Dx & Dy & Dz). unfold J, image_x, image_y, depth in *. set (p := seen (X t) P) in *.
  split.
  - eapply D_eq; [apply (D_div _ _ _ _ _ Dx Dz Z)|]. fold p. destruct p as [px py pz], V as [[wx wy wz] [lx ly lz]]. unfold times, imagePointJacobian, row, vsub, vscale, vcross. cbn [row0 sang slin vx vy vz] in *. field. exact Z.
  - eapply D_eq; [apply (D_div _ _ _ _ _ Dy Dz Z)|]. fold p. destruct p as [px py pz], V as [[wx wy wz] [lx ly lz]]. unfold times, imagePointJacobian, row, vsub, vscale, vcross. cbn [row1 sang slin vx vy vz] in *. field. exact Z.
Qed.
Lemma image_3d X P : imagePointJacobian3 (seen X P) = imagePointJacobian (image_x X P) (image_y X P) (depth X P).
Proof. reflexivity. Qed.
Lemma image_dot (x y z : R -> R) t xD yD zD : D x t xD -> D y t yD -> D z t zD -> z t <> 0 ->
  let J := imagePointJacobianDot (x t) (y t) xD yD (z t) zD in
  deriv_row (fun s => row0 (imagePointJacobian (x s) (y s) (z s))) t (row0 J) /\ deriv_row (fun s => row1 (imagePointJacobian (x s) (y s) (z s))) t (row1 J).
Proof.
  intros Dx Dy Dz Z J. unfold J, imagePointJacobian, imagePointJacobianDot, row, deriv_row, derivV. cbn [row0 row1 sang slin vx vy vz].
  repeat split; try (dsolve; ring);
  match goal with
  | |- D (fun s => -1 / _) _ _ => eapply D_eq; [apply (D_div (fun _ => -1) z t 0 zD (D_const _ _) Dz Z)|field; exact Z]
  | |- D (fun s => x s / _) _ _ => eapply D_eq; [apply (D_div x z t xD zD Dx Dz Z)|field; exact Z]
  | |- D (fun s => y s / _) _ _ => eapply D_eq; [apply (D_div y z t yD zD Dy Dz Z)|field; exact Z]
  end.
Qed.
(** *** Depth. *)
Lemma depth_jacobian X t V P : SO3 (rotE (X t)) -> moves X t V -> depth (X t) P <> 0 ->
  D (fun s => depth (X s) P) t (times (depthDotJacobian (image_x (X t) P) (image_y (X t) P) (depth (X t) P)) (swap V)).
Proof.
  intros S M Z. destruct (seen_deriv X t V P S M) as (Dx & Dy & Dz). unfold image_x, image_y, depth in *. set (p := seen (X t) P) in *.
  eapply D_eq; [exact Dz|]. destruct p as [px py pz], V as [[wx wy wz] [lx ly lz]]. unfold times, depthDotJacobian, swap, row, vsub, vscale, vcross. cbn [sang slin vx vy vz] in *. field. exact Z.
Qed.
(** *** Angle and axis. *)
Lemma getAngleAxis_spec a n : 0 <= a <= PI -> vdot n n = 1 -> getAngleAxis (angleAxis a n) = (a, vscale (-2 * sin a) n).
Proof.
  intros A N. unfold getAngleAxis. f_equal.
  - assert (T : (m00 (angleAxis a n) + m11 (angleAxis a n) + m22 (angleAxis a n) - 1) * (1 / 2) = cos a).
    { destruct n as [x y z]. unfold vdot in N. unfold angleAxis, vscale. cbn [vx vy vz m00 m11 m22] in *. transitivity (((1 - cos a) * (x * x + y * y + z * z) + 3 * cos a - 1) * (1 / 2)); [field|]. rewrite N. field. }
    rewrite T. pose proof (COS_bound a) as (B1 & B2). rewrite Rmax_left by lra. rewrite Rmin_left by lra. now apply acos_cos.
  - destruct n as [x y z]. unfold angleAxis, vscale. cbn [vx vy vz m00 m01 m02 m10 m11 m12 m20 m21 m22]. f_equal; ring.
Qed.
(** The velocity of a turning axis and angle. *)
Definition axis_velocity (a : R) (n : V3) (a' : R) (n' : V3) : V3 :=
  vadd (vadd (vscale a' n) (vscale (sin a) n')) (vscale (- (1 - cos a)) (vcross n n')).
Lemma axis_rate n n' : vdot n n = 1 -> vdot n n' = 0 -> n' = vcross (vcross n n') n.
Proof.
  intros N O. destruct n as [x y z], n' as [x' y' z']. unfold vdot in *. unfold vcross. cbn [vx vy vz] in *. f_equal.
  - transitivity (x' * (x * x + y * y + z * z) - x * (x * x' + y * y' + z * z')); [rewrite N, O|]; ring.
  - transitivity (y' * (x * x + y * y + z * z) - y * (x * x' + y * y' + z * z')); [rewrite N, O|]; ring.
  - transitivity (z' * (x * x + y * y + z * z) - z * (x * x' + y * y' + z * z')); [rewrite N, O|]; ring.
Qed.
Lemma axis_algebra (s c x y z a' k1 k2 k3 : R) : s * s = 1 - c * c -> x * x = 1 - y * y - z * z ->
  let n := mkV3 x y z in let n' := vcross (mkV3 k1 k2 k3) n in
  let w := vadd (vadd (vscale a' n) (vscale s n')) (vscale (- (1 - c)) (vcross n n')) in
  let B := mkM3 ((1 - c) * x * x + c) ((1 - c) * x * y - s * z) ((1 - c) * x * z + s * y) ((1 - c) * x * y + s * z) ((1 - c) * y * y + c) ((1 - c) * y * z - s * x)
                ((1 - c) * x * z - s * y) ((1 - c) * y * z + s * x) ((1 - c) * z * z + c) in
  let d u v u' v' := s * a' * u * v + (1 - c) * (u' * v + u * v') in let e u u' := c * a' * u + s * u' in
  mmul B (mcross w) = mkM3 (d x x (vx n') (vx n') - s * a') (d x y (vx n') (vy n') - e z (vz n')) (d x z (vx n') (vz n') + e y (vy n'))
    (d x y (vx n') (vy n') + e z (vz n')) (d y y (vy n') (vy n') - s * a') (d y z (vy n') (vz n') - e x (vx n'))
    (d x z (vx n') (vz n') - e y (vy n')) (d y z (vy n') (vz n') + e x (vx n')) (d z z (vz n') (vz n') - s * a').
Proof.
  intros S N n n' w B d e. unfold d, e, B, w, n', n, mmul, mcross, vadd, vscale, vcross. cbn [m00 m01 m02 m10 m11 m12 m20 m21 m22 vx vy vz].
  f_equal; ring [S N].
Qed.
Lemma angleAxis_deriv a n t a' n' : D a t a' -> derivV n t n' -> vdot (n t) (n t) = 1 -> vdot (n t) n' = 0 ->
  derivM (fun s => angleAxis (a s) (n s)) t (mmul (angleAxis (a t) (n t)) (mcross (axis_velocity (a t) (n t) a' n'))).
Proof.
  intros Da (Dx & Dy & Dz) N O. pose proof (sin2_cos2 (a t)) as SC. unfold Rsqr in SC.
  pose proof (axis_rate _ _ N O) as RT. set (k := vcross (n t) n') in *.
  assert (S' : sin (a t) * sin (a t) = 1 - cos (a t) * cos (a t)) by lra.
  assert (N' : vx (n t) * vx (n t) = 1 - vy (n t) * vy (n t) - vz (n t) * vz (n t)) by (unfold vdot in N; lra).
  pose proof (axis_algebra (sin (a t)) (cos (a t)) (vx (n t)) (vy (n t)) (vz (n t)) a' (vx k) (vy k) (vz k) S' N') as AL. cbv zeta in AL.
  replace (mkV3 (vx k) (vy k) (vz k)) with k in AL by now destruct k. replace (mkV3 (vx (n t)) (vy (n t)) (vz (n t))) with (n t) in AL by now destruct (n t). rewrite <- RT in AL.
  assert (EB : angleAxis (a t) (n t) = mkM3 ((1 - cos (a t)) * vx (n t) * vx (n t) + cos (a t)) ((1 - cos (a t)) * vx (n t) * vy (n t) - sin (a t) * vz (n t)) ((1 - cos (a t)) * vx (n t) * vz (n t) + sin (a t) * vy (n t))
     ((1 - cos (a t)) * vx (n t) * vy (n t) + sin (a t) * vz (n t)) ((1 - cos (a t)) * vy (n t) * vy (n t) + cos (a t)) ((1 - cos (a t)) * vy (n t) * vz (n t) - sin (a t) * vx (n t))
     ((1 - cos (a t)) * vx (n t) * vz (n t) - sin (a t) * vy (n t)) ((1 - cos (a t)) * vy (n t) * vz (n t) + sin (a t) * vx (n t)) ((1 - cos (a t)) * vz (n t) * vz (n t) + cos (a t))) by reflexivity.
  rewrite EB. unfold axis_velocity. rewrite AL. unfold angleAxis, vscale. clear AL EB.
  repeat split; cbn [m00 m01 m02 m10 m11 m12 m20 m21 m22 vx vy vz]; dsolve; ring.
Qed.
(** The matrix of the paper, for a unit axis n (the code's axis points the other way). *)
Definition Lmat (a : R) (n : V3) : M3 := madd (madd mid (mscale (a * (1 / 2)) (getSkewSym n))) (mmul (mscale (1 - sinc a / (sinc (a / 2) ^ 2)) (getSkewSym n)) (getSkewSym n)).
Lemma sinc_ratio a : 0 < a <= PI -> sinc a / (sinc (a / 2) ^ 2) = a * sin a / (2 * (1 - cos a)) /\ 1 - cos a <> 0.
Proof.
  intros (A0 & A1). assert (SH : 0 < sin (a / 2)) by (apply sin_gt_0; lra). assert (E : 1 - cos a = 2 * (sin (a / 2) * sin (a / 2))).
  { replace a with (2 * (a / 2)) at 1 by field. rewrite cos_2a_sin. ring. }
  assert (NZ : 1 - cos a <> 0). { rewrite E. intro H. assert (0 < 2 * (sin (a / 2) * sin (a / 2))); [|lra]. apply Rmult_lt_0_compat; [lra|]. now apply Rmult_lt_0_compat. }
  split; auto. unfold sinc. destruct (Req_EM_T a 0); [lra|]. destruct (Req_EM_T (a / 2) 0); [lra|]. rewrite E. field. repeat split; lra.
Qed.
Lemma L_algebra (b s c h x y z a' k1 k2 k3 : R) : s * s = 1 - c * c -> x * x = 1 - y * y - z * z -> h * (1 - c) = b * s -> 1 - c <> 0 ->
  let n := mkV3 x y z in let n' := vcross (mkV3 k1 k2 k3) n in
  mapp (madd (madd mid (mscale b (getSkewSym n))) (mmul (mscale (1 - h) (getSkewSym n)) (getSkewSym n)))
       (vadd (vadd (vscale a' n) (vscale s n')) (vscale (- (1 - c)) (vcross n n'))) = vadd (vscale a' n) (vscale (2 * b) n').
Proof.
  intros S N H NZ n n'. assert (Hs : h * s = b * (1 + c)).
  { apply (Rmult_eq_reg_r (1 - c)); auto. transitivity (h * (1 - c) * s); [ring|]. rewrite H. transitivity (b * (s * s)); [ring|]. rewrite S. ring. }
  assert (Hc : h * c = h - b * s) by lra.
  unfold n', n, getSkewSym, mapp, madd, mmul, mscale, mid, vadd, vscale, vcross. cbn [m00 m01 m02 m10 m11 m12 m20 m21 m22 vx vy vz]. f_equal; ring [S N Hs Hc].
Qed.
Lemma Lmat_ok a n a' n' : 0 < a <= PI -> vdot n n = 1 -> vdot n n' = 0 -> mapp (Lmat a n) (axis_velocity a n a' n') = vadd (vscale a' n) (vscale a n').
Proof.
  intros A N O. destruct (sinc_ratio a A) as (E & NZ). unfold Lmat. rewrite E. pose proof (sin2_cos2 a) as SC. unfold Rsqr in SC. pose proof (axis_rate _ _ N O) as RT. set (k := vcross n n') in *.
  assert (S' : sin a * sin a = 1 - cos a * cos a) by lra.
  assert (N' : vx n * vx n = 1 - vy n * vy n - vz n * vz n) by (unfold vdot in N; lra).
  assert (H' : a * sin a / (2 * (1 - cos a)) * (1 - cos a) = a * (1 / 2) * sin a) by (field; auto).
  pose proof (L_algebra (a * (1 / 2)) (sin a) (cos a) (a * sin a / (2 * (1 - cos a))) (vx n) (vy n) (vz n) a' (vx k) (vy k) (vz k) S' N' H' NZ) as AL. cbv zeta in AL.
  replace (mkV3 (vx k) (vy k) (vz k)) with k in AL by now destruct k. replace (mkV3 (vx n) (vy n) (vz n)) with n in AL by now destruct n. rewrite <- RT in AL.
  unfold axis_velocity. rewrite AL. do 2 f_equal. field.
Qed.
(** *** The pose Jacobian. *)
Definition block_times (M : M66) (V : SV) : SV :=
  mkSV (vadd (mapp (b00 M) (sang V)) (mapp (b01 M) (slin V))) (vadd (mapp (b10 M) (sang V)) (mapp (b11 M) (slin V))).
Lemma skew_opp n : getSkewSym (vscale (-1) n) = mscale (-1) (getSkewSym n).
Proof. destruct n. unfold getSkewSym, vscale, mscale. cbn. f_equal; ring. Qed.
Lemma D_unique f t a b : D f t a -> D f t b -> a = b.
Proof. apply uniqueness_limite. Qed.
Lemma derivM_unique f t a b : derivM f t a -> derivM f t b -> a = b.
Proof.
  intros ((a00 & a01 & a02) & (a10 & a11 & a12) & (a20 & a21 & a22)) ((c00 & c01 & c02) & (c10 & c11 & c12) & (c20 & c21 & c22)).
  apply M3_ext; eapply D_unique; eassumption.
Qed.
Lemma mcross_inj a b : mcross a = mcross b -> a = b.
Proof. destruct a, b. unfold mcross. cbn. intro H. injection H. intros. f_equal; lra. Qed.
(** The angular velocity is that of the axis and angle. *)
Lemma turning X a n t V a' n' : SO3 (rotE (X t)) -> moves X t V -> (forall s, turned (X s) (a s) (n s)) -> D a t a' -> derivV n t n' ->
  vdot (n t) n' = 0 /\ sang V = axis_velocity (a t) (n t) a' n'.
Proof.
  intros S (ME & _) T Da Dn. destruct (T t) as (Tt & N). assert (O : vdot (n t) n' = 0).
  { destruct Dn as (Dx & Dy & Dz). assert (C : D (fun s => vdot (n s) (n s)) t 0). { apply D_ext with (fun _ => 1); [intro s; apply T|apply D_const]. }
    assert (E : D (fun s => vdot (n s) (n s)) t (2 * vdot (n t) n')). { clear C. unfold vdot. dsolve. ring. } pose proof (D_unique _ _ _ _ C E). lra. }
  split; auto. assert (A1 : derivM (fun s => mtr (rotE (X s))) t (mmul (mtr (rotE (X t))) (mcross (axis_velocity (a t) (n t) a' n')))).
  { rewrite Tt. apply derivM_ext with (fun s => angleAxis (a s) (n s)); [intro s; apply T|]. now apply angleAxis_deriv. }
  pose proof (derivM_tr _ _ _ ME) as A2. pose proof (derivM_unique _ _ _ _ A2 A1) as EQ. clear A1 A2.
  rewrite mtr_mmul in EQ. apply mcross_inj. assert (CT : mtr (mscale (-1) (mcross (sang V))) = mcross (sang V)). { destruct (sang V). unfold mtr, mscale, mcross. cbn. f_equal; ring. }
  rewrite CT in EQ. apply (f_equal (mmul (rotE (X t)))) in EQ. rewrite !mmul_assoc in EQ. rewrite (SO3_r _ S) in EQ. now rewrite !mmul_id_l in EQ.
Qed.
Lemma pose_unit E a n : mtr E = angleAxis a n -> 0 <= a <= PI -> vdot n n = 1 -> vdot (snd (getAngleAxis (mtr E))) (snd (getAngleAxis (mtr E))) = 1 -> poseJacobian E = mkM66 (Lmat a n) mzero mzero (mtr E).
Proof.
  intros T A N U. unfold poseJacobian. rewrite T in *. rewrite getAngleAxis_spec in * by auto. cbn [fst snd] in *. f_equal.
  assert (S2 : sin a = 1 / 2). { assert (Q : 4 * (sin a * sin a) * vdot n n = 1) by (rewrite <- U; destruct n; unfold vdot, vscale; cbn; ring). rewrite N in Q. assert (0 <= sin a) by (apply sin_ge_0; lra). nra. }
  replace (vscale (-2 * sin a) n) with (vscale (-1) n) by (rewrite S2; f_equal; field). rewrite skew_opp. unfold Lmat. f_equal; [f_equal|]; destruct (getSkewSym n); unfold mscale, mmul; cbn; f_equal; ring.
Qed.
Theorem pose_jacobian X a n t V a' n' : SO3 (rotE (X t)) -> moves X t V -> (forall s, turned (X s) (a s) (n s)) -> D a t a' -> derivV n t n' -> 0 < a t <= PI ->
  (let axis := snd (getAngleAxis (mtr (rotE (X t)))) in vdot axis axis = 1) ->
  derivS (fun s => mkSV (vscale (a s) (n s)) (trR (X s))) t (block_times (poseJacobian (rotE (X t))) V).
Proof.
  intros S M T Da Dn A U. destruct (turning X a n t V a' n' S M T Da Dn) as (O & W). destruct (T t) as (Tt & N). rewrite (pose_unit _ _ _ Tt) by (auto; lra). unfold block_times. cbn [b00 b01 b10 b11]. rewrite W.
  rewrite (Lmat_ok _ _ _ _ A N O). split; cbn [sang slin].
  - eapply derivV_eq; [apply derivV_scale; eassumption|]. destruct (n t), n', (slin V). unfold vadd, vscale, mapp, mzero. cbn. f_equal; ring.
  - destruct M as (_ & MR). eapply derivV_eq; [exact MR|]. destruct (sang V) as [p1 p2 p3], (rotE (X t)), (slin V), (axis_velocity (a t) (n t) a' n'). unfold vadd, vscale, mapp, mzero, mtr. cbn. f_equal; ring.
Qed.
