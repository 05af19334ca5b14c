(** Calculus for poses. *)
From Coq Require Import Reals String ZArith Bool Arith Lia Lra List.
From Verif Require Import Res ResP Vec VecP Sva SvaP Mat JointM MultiBodyM Spec SpecDeriv JointP.
Import ListNotations.
Open Scope R_scope.

Notation D := derivable_pt_lim.
Lemma D_eq f t a b : D f t a -> a = b -> D f t b.
Proof. intros H <-. auto. Qed.
Lemma D_ext f g t a : (forall s, f s = g s) -> D g t a -> D f t a.
Proof.
  intros E H eps He. destruct (H eps He) as [d Hd]. exists d. intros h Hh0 Hh. rewrite !E. auto.
Qed.
Lemma D_const c t : D (fun _ => c) t 0.
Proof. apply (derivable_pt_lim_const c t). Qed.
Lemma D_id t : D (fun s => s) t 1.
Proof. apply (derivable_pt_lim_id t). Qed.
Lemma D_plus f g t a b : D f t a -> D g t b -> D (fun s => f s + g s) t (a + b).
Proof. apply derivable_pt_lim_plus. Qed.
Lemma D_minus f g t a b : D f t a -> D g t b -> D (fun s => f s - g s) t (a - b).
Proof. apply derivable_pt_lim_minus. Qed.
Lemma D_opp f t a : D f t a -> D (fun s => - f s) t (- a).
Proof. apply derivable_pt_lim_opp. Qed.
Lemma D_mult f g t a b : D f t a -> D g t b -> D (fun s => f s * g s) t (a * g t + f t * b).
Proof. apply derivable_pt_lim_mult. Qed.
Lemma D_scal k f t a : D f t a -> D (fun s => k * f s) t (k * a).
Proof. apply derivable_pt_lim_scal. Qed.
Lemma D_sin f t a : D f t a -> D (fun s => sin (f s)) t (cos (f t) * a).
Proof. intros H. apply (derivable_pt_lim_comp f sin t a (cos (f t)) H). apply derivable_pt_lim_sin. Qed.
Lemma D_cos f t a : D f t a -> D (fun s => cos (f s)) t (- sin (f t) * a).
Proof. intros H. apply (derivable_pt_lim_comp f cos t a (- sin (f t)) H). apply derivable_pt_lim_cos. Qed.

(** Decompose a derivative goal; atoms are closed by hypotheses. *)
Ltac dstep :=
  match goal with
  | |- D (fun _ => ?c) _ _ => apply D_const
  | H : D ?f ?t _ |- D ?f ?t _ => exact H
  | |- D (fun s => _ + _) _ _ => eapply D_plus
  | |- D (fun s => _ - _) _ _ => eapply D_minus
  | |- D (fun s => - _) _ _ => eapply D_opp
  | |- D (fun s => _ * _) _ _ => eapply D_mult
  | |- D (fun s => sin _) _ _ => eapply D_sin
  | |- D (fun s => cos _) _ _ => eapply D_cos
  end.
Ltac dsolve := eapply D_eq; [repeat dstep|cbv beta].

Lemma derivM_eq f t a b : derivM f t a -> a = b -> derivM f t b. Proof. intros H <-. auto. Qed.
Lemma derivV_eq f t a b : derivV f t a -> a = b -> derivV f t b. Proof. intros H <-. auto. Qed.
Lemma derivM_const A t : derivM (fun _ => A) t mzero.
Proof. repeat split; apply D_const. Qed.
Lemma derivV_const a t : derivV (fun _ => a) t v0.
Proof. repeat split; apply D_const. Qed.
Lemma derivM_mul A B t A' B' : derivM A t A' -> derivM B t B' ->
  derivM (fun s => mmul (A s) (B s)) t (madd (mmul A' (B t)) (mmul (A t) B')).
Proof.
  intros ((a00 & a01 & a02) & (a10 & a11 & a12) & (a20 & a21 & a22)) ((b00 & b01 & b02) & (b10 & b11 & b12) & (b20 & b21 & b22)).
  repeat split; cbn [mmul madd m00 m01 m02 m10 m11 m12 m20 m21 m22]; dsolve; ring.
Qed.
Lemma derivM_tr A t A' : derivM A t A' -> derivM (fun s => mtr (A s)) t (mtr A').
Proof. intros ((a00 & a01 & a02) & (a10 & a11 & a12) & (a20 & a21 & a22)). repeat split; auto. Qed.
Lemma derivV_app A v t A' v' : derivM A t A' -> derivV v t v' ->
  derivV (fun s => mapp (A s) (v s)) t (vadd (mapp A' (v t)) (mapp (A t) v')).
Proof.
  intros ((a00 & a01 & a02) & (a10 & a11 & a12) & (a20 & a21 & a22)) (b0 & b1 & b2).
  repeat split; cbn [mapp vadd vx vy vz]; dsolve; ring.
Qed.
Lemma derivV_add u v t u' v' : derivV u t u' -> derivV v t v' -> derivV (fun s => vadd (u s) (v s)) t (vadd u' v').
Proof. intros (a0 & a1 & a2) (b0 & b1 & b2). repeat split; cbn [vadd vx vy vz]; dsolve; ring. Qed.
Lemma derivV_sub u v t u' v' : derivV u t u' -> derivV v t v' -> derivV (fun s => vsub (u s) (v s)) t (vsub u' v').
Proof. intros (a0 & a1 & a2) (b0 & b1 & b2). repeat split; cbn [vsub vx vy vz]; dsolve; ring. Qed.
Lemma derivV_scale k v t k' v' : D k t k' -> derivV v t v' ->
  derivV (fun s => vscale (k s) (v s)) t (vadd (vscale k' (v t)) (vscale (k t) v')).
Proof. intros HK (b0 & b1 & b2). repeat split; cbn [vscale vadd vx vy vz]; dsolve; ring. Qed.
Lemma derivV_cross u v t u' v' : derivV u t u' -> derivV v t v' ->
  derivV (fun s => vcross (u s) (v s)) t (vadd (vcross u' (v t)) (vcross (u t) v')).
Proof. intros (a0 & a1 & a2) (b0 & b1 & b2). repeat split; cbn [vcross vadd vx vy vz]; dsolve; ring. Qed.
Lemma derivV_ext f g t a : (forall s, f s = g s) -> derivV g t a -> derivV f t a.
Proof. intros E (a0 & a1 & a2). repeat split; (eapply D_ext; [intros s; now rewrite E|]); auto. Qed.
Lemma derivM_ext f g t a : (forall s, f s = g s) -> derivM g t a -> derivM f t a.
Proof.
  intros E ((a00 & a01 & a02) & (a10 & a11 & a12) & (a20 & a21 & a22)).
  repeat split; (eapply D_ext; [intros s; now rewrite E|]); auto.
Qed.
(** Derivatives depend on the values near t only; equality everywhere is enough here. *)
Lemma moves_ext X Y t V : (forall s, X s = Y s) -> moves Y t V -> moves X t V.
Proof.
  intros E (HM & HV). unfold moves. rewrite E. split; [eapply derivM_ext|eapply derivV_ext]; eauto; intros s; now rewrite E.
Qed.
Lemma moves_const X t : moves (fun _ => X) t sv0.
Proof.
  split; [eapply derivM_eq; [apply derivM_const|]|eapply derivV_eq; [apply derivV_const|]].
  - svring.
  - svring.
Qed.

(** Composition of motions. *)
Lemma skew_conj E w : SO3 E -> mmul (mcross (mapp E w)) E = mmul E (mcross w).
Proof.
  intros H. assert (G : forall u, mapp (mmul (mcross (mapp E w)) E) u = mapp (mmul E (mcross w)) u).
  { intros u. rewrite !mapp_mmul, !mapp_mcross. now apply SO3_cross. }
  pose proof (G unitX) as G1. pose proof (G unitY) as G2. pose proof (G unitZ) as G3.
  set (A := mmul (mcross (mapp E w)) E) in *. set (B := mmul E (mcross w)) in *. clearbody A B.
  destruct A, B. unfold mapp, unitX, unitY, unitZ in *; simpl in *.
  injection G1 as ? ? ?. injection G2 as ? ? ?. injection G3 as ? ? ?. f_equal; lra.
Qed.
Lemma moves_mul X Y t V U : SO3 (rotE (X t)) -> moves X t V -> moves Y t U ->
  moves (fun s => ptmul (X s) (Y s)) t (svadd V (ptm (X t) U)).
Proof.
  intros SX (MX & VX) (MY & VY). split; cbn [ptmul rotE trR].
  - eapply derivM_eq; [apply derivM_mul; eassumption|].
    cbn [svadd sang ptm].
    assert (E1 : mcross (vadd (sang V) (mapp (rotE (X t)) (sang U))) = madd (mcross (sang V)) (mcross (mapp (rotE (X t)) (sang U)))).
    { destruct (sang V), (mapp (rotE (X t)) (sang U)). sv; v3; svf; ring. }
    rewrite E1.
    transitivity (madd (mmul (mscale (-1) (mcross (sang V))) (mmul (rotE (X t)) (rotE (Y t))))
       (mscale (-1) (mmul (mmul (mcross (mapp (rotE (X t)) (sang U))) (rotE (X t))) (rotE (Y t))))).
    + rewrite skew_conj by auto. rewrite !mmul_assoc. f_equal.
      destruct (rotE (X t)), (mcross (sang U)), (rotE (Y t)). sv; v3; svf; ring.
    + rewrite <- mmul_assoc. generalize (mmul (rotE (X t)) (rotE (Y t))), (mcross (sang V)), (mcross (mapp (rotE (X t)) (sang U))).
      intros [] [] []. sv; v3; svf; ring.
  - eapply derivV_eq; [apply derivV_add; [eassumption|apply derivV_app; [apply derivM_tr; eassumption|eassumption]]|].
    cbn [svadd slin ptm]. rewrite mtr_mmul, mapp_mmul. rewrite mtr_mmul, mapp_mmul.
    rewrite (mapp_add (mtr (rotE (X t)))). rewrite SO3_cancel_l by auto.
    rewrite !mapp_add.
    generalize (mapp (mtr (rotE (X t))) (slin V)). intros a.
    assert (E2 : mapp (mtr (mscale (-1) (mcross (sang U)))) (trR (X t)) = vcross (sang U) (trR (X t))).
    { destruct (sang U), (trR (X t)). sv; v3; svf; ring. }
    rewrite E2, mapp_sub.
    destruct (rotE (Y t)), (sang U), (slin U), (trR (X t)), a. sv; v3; svf; ring.
Qed.
Lemma moves_mul_const X C t V : SO3 (rotE (X t)) -> moves X t V -> moves (fun s => ptmul (X s) C) t V.
Proof.
  intros SX MX. rewrite <- (svadd_0_r V). rewrite <- (ptm_sv0 (X t)).
  apply (moves_mul X (fun _ => C)); auto. apply moves_const.
Qed.

(** World form. *)
Lemma moves_world X t V : SO3 (rotE (X t)) -> moves X t V ->
  derivV (fun s => trR (X s)) t (mapp (mtr (rotE (X t))) (slin V)) /\
  derivM (fun s => mtr (rotE (X s))) t (mmul (mcross (mapp (mtr (rotE (X t))) (sang V))) (mtr (rotE (X t)))).
Proof.
  intros SX (MX & VX). split; auto. eapply derivM_eq; [apply derivM_tr; eassumption|].
  rewrite skew_conj by (now apply SO3_tr). rewrite mtr_mmul. f_equal. destruct (sang V). sv; v3; svf; ring.
Qed.

(** ** Joints *)
Lemma D_follow j q t a i : follows j q t a -> (i < jparams j)%nat ->
  D (fun s => co (q s) i) t (co (qrate (jtyp j) (q t) a) i).
Proof. auto. Qed.

Lemma moves_angleAxis th ax t w : vdot ax ax = 1 -> D th t w ->
  derivM (fun s => angleAxis (- th s) ax) t (mmul (mscale (-1) (mcross (vscale w ax))) (angleAxis (- th t) ax)).
Proof.
  intros U H. destruct ax as [x y z]. unfold vdot in U; simpl in U.
  pose proof (D_opp _ _ _ H) as Ho.
  assert (E : x * x = 1 - y * y - z * z) by lra.
  pose proof (sin_neg (th t)) as SN. pose proof (cos_neg (th t)) as CN.
  repeat split; unfold angleAxis, mcross, mscale, mmul, vscale;
    cbn [vx vy vz m00 m01 m02 m10 m11 m12 m20 m21 m22]; dsolve;
    rewrite SN, CN; set (s := sin (th t)); set (c := cos (th t)); try ring [E].
Qed.

Lemma co_get (x : list R) i : (i < length x)%nat -> get x i = Ok (co x i).
Proof. intros H. unfold get, co. rewrite (nth_error_nth' x 0 H). reflexivity. Qed.
Ltac dq F i := let H := fresh "Dq" in pose proof (F i ltac:(simpl; lia)) as H; cbn in H.

Lemma deriv_QuatToE p0 p1 p2 p3 t w1 w2 w3 :
  p0 t * p0 t + p1 t * p1 t + p2 t * p2 t + p3 t * p3 t = 1 ->
  D p0 t (- (p1 t * w1 + p2 t * w2 + p3 t * w3) / 2) ->
  D p1 t ((p0 t * w1 + p2 t * w3 - p3 t * w2) / 2) ->
  D p2 t ((p0 t * w2 + p3 t * w1 - p1 t * w3) / 2) ->
  D p3 t ((p0 t * w3 + p1 t * w2 - p2 t * w1) / 2) ->
  derivM (fun s => QuatToE (p0 s) (p1 s) (p2 s) (p3 s)) t
    (mmul (mscale (-1) (mcross (mkV3 w1 w2 w3))) (QuatToE (p0 t) (p1 t) (p2 t) (p3 t))).
Proof.
  intros N H0 H1 H2 H3.
  assert (E : p0 t * p0 t = 1 - p1 t * p1 t - p2 t * p2 t - p3 t * p3 t) by lra.
  repeat split; unfold QuatToE, mcross, mscale, mmul;
    cbn [vx vy vz m00 m01 m02 m10 m11 m12 m20 m21 m22]; dsolve;
    generalize dependent (p0 t); generalize (p1 t), (p2 t), (p3 t); intros; field [E].
Qed.
Lemma angleAxis_axis th ax : vdot ax ax = 1 -> mapp (mtr (angleAxis th ax)) ax = ax.
Proof.
  intros U. destruct ax as [x y z]. unfold vdot in U; simpl in U.
  assert (E : x * x = 1 - y * y - z * z) by lra.
  unfold angleAxis, mtr, mapp, vscale. cbn [vx vy vz m00 m01 m02 m10 m11 m12 m20 m21 m22].
  f_equal; ring [E].
Qed.

Lemma pose_moves j q t a X : joint_unit j -> regular j -> (forall s, q_ok j (q s)) ->
  length a = jdof j -> follows j q t a -> (forall s, pose j (q s) = Ok (X s)) ->
  moves X t (smul (jS j) a).
Proof.
  intros (ax & U & B) RG QO La F HP. apply built_shape in B. destruct B as (E & P & Dd).
  assert (QL : forall s, length (q s) = tparams (jtyp j)) by (intros s; destruct (QO s); congruence).
  assert (HQ : forall s, match jtyp j with Spherical | Free => quat_unit (q s) | _ => True end) by (intros s; apply QO).
  unfold follows in F. rewrite P in F. rewrite Dd in La. unfold pose in HP. rewrite E in *. unfold regular in RG. clear E P Dd QO.
  pose proof (vdot_dir ax (jfwd j) U) as UD.
  destruct (jtyp j) eqn:T; simpl in QL, La.
  - (* Rev *)
    destruct a as [|a0 [|]]; try discriminate La.
    apply (moves_ext _ (fun s => ptrot (angleAxis (- co (q s) 0) (vscale (dirR (jfwd j)) ax)))).
    { intros s. specialize (HP s). rewrite co_get in HP by (rewrite QL; lia). simpl in HP. now injection HP as <-. }
    dq F 0%nat. split; cbn [ptrot rotE trR].
    + eapply derivM_eq; [apply moves_angleAxis; eassumption|]. do 3 f_equal. cbn. svring.
    + eapply derivV_eq; [apply derivV_const|]. cbn. svring.
  - (* Prism *)
    destruct a as [|a0 [|]]; try discriminate La.
    apply (moves_ext _ (fun s => pttr (vscale (co (q s) 0) (vscale (dirR (jfwd j)) ax)))).
    { intros s. specialize (HP s). rewrite co_get in HP by (rewrite QL; lia). simpl in HP. now injection HP as <-. }
    dq F 0%nat. split; cbn [pttr rotE trR].
    + eapply derivM_eq; [apply derivM_const|]. cbn. svring.
    + eapply derivV_eq; [apply derivV_scale; [eassumption|apply derivV_const]|]. cbn. svring.
  - (* Spherical *)
    destruct RG as [RG|[RG|[RG|[RG|RG]]]]; try discriminate RG. rewrite RG in *.
    destruct a as [|a0 [|a1 [|a2 [|]]]]; try discriminate La.
    apply (moves_ext _ (fun s => ptrot (QuatToE (co (q s) 0) (co (q s) 1) (co (q s) 2) (co (q s) 3)))).
    { intros s. specialize (HP s). rewrite !co_get in HP by (rewrite QL; lia). cbn [bind] in HP. injection HP as <-.
      f_equal. pose proof (HQ s) as K. unfold quat_unit in K. fold (co (q s)) in K. rewrite QuatToE_qmat by (exact K).
      rewrite qinv_unit by (unfold qnorm2; simpl; unfold co in *; lra). unfold dirR. now rewrite !Rmult_1_l. }
    dq F 0%nat. dq F 1%nat. dq F 2%nat. dq F 3%nat.
    split; cbn [ptrot rotE trR].
    + eapply derivM_eq; [apply (deriv_QuatToE (fun s => co (q s) 0) (fun s => co (q s) 1) (fun s => co (q s) 2) (fun s => co (q s) 3) t a0 a1 a2); try eassumption; apply (HQ t)|].
      do 3 f_equal. cbn. svring.
    + eapply derivV_eq; [apply derivV_const|]. cbn. svring.
  - (* Planar *)
    destruct RG as [RG|[RG|[RG|[RG|RG]]]]; try discriminate RG. rewrite RG in *.
    destruct a as [|a0 [|a1 [|a2 [|]]]]; try discriminate La.
    apply (moves_ext _ (fun s => mkPT (RotZ (co (q s) 0)) (mapp (mtr (RotZ (co (q s) 0))) (mkV3 (co (q s) 1) (co (q s) 2) 0)))).
    { intros s. specialize (HP s). rewrite !co_get in HP by (rewrite QL; lia). cbn [bind] in HP. now injection HP as <-. }
    dq F 0%nat. dq F 1%nat. dq F 2%nat.
    assert (DR : derivM (fun s => RotZ (co (q s) 0)) t (mmul (mscale (-1) (mcross (mkV3 0 0 a0))) (RotZ (co (q t) 0)))).
    { repeat split; cbn [RotZ mmul mscale mcross m00 m01 m02 m10 m11 m12 m20 m21 m22 vx vy vz]; dsolve; ring. }
    split; cbn [rotE trR].
    + eapply derivM_eq; [exact DR|]. do 3 f_equal. cbn. svring.
    + eapply derivV_eq; [apply derivV_app with (v' := mkV3 (a1 + a0 * co (q t) 2) (a2 - a0 * co (q t) 1) 0); [apply derivM_tr; exact DR|]|].
      * repeat split; cbn [vx vy vz]; [eassumption|eassumption|apply (D_const 0)].
      * cbn. unfold RotZ. svring.
  - (* Cylindrical *)
    destruct a as [|a0 [|a1 [|]]]; try discriminate La.
    apply (moves_ext _ (fun s => mkPT (angleAxis (- co (q s) 0) (vscale (dirR (jfwd j)) ax)) (vscale (co (q s) 1) (vscale (dirR (jfwd j)) ax)))).
    { intros s. specialize (HP s). rewrite !co_get in HP by (rewrite QL; lia). simpl in HP. now injection HP as <-. }
    dq F 0%nat. dq F 1%nat. split; cbn [rotE trR].
    + eapply derivM_eq; [apply moves_angleAxis; eassumption|]. do 3 f_equal. cbn. svring.
    + eapply derivV_eq; [apply derivV_scale; [eassumption|apply derivV_const]|].
      replace (slin (smul _ _)) with (vscale a1 (vscale (dirR (jfwd j)) ax)) by (cbn; svring).
      rewrite mapp_scale, angleAxis_axis by auto. svring.
  - (* Free *)
    destruct RG as [RG|[RG|[RG|[RG|RG]]]]; try discriminate RG. rewrite RG in *.
    destruct a as [|a0 [|a1 [|a2 [|a3 [|a4 [|a5 [|]]]]]]]; try discriminate La.
    apply (moves_ext _ (fun s => mkPT (QuatToE (co (q s) 0) (co (q s) 1) (co (q s) 2) (co (q s) 3)) (mkV3 (co (q s) 4) (co (q s) 5) (co (q s) 6)))).
    { intros s. specialize (HP s). rewrite !co_get in HP by (rewrite QL; lia). cbn [bind] in HP. now injection HP as <-. }
    pose proof (F 4%nat ltac:(simpl; lia)) as D4. pose proof (F 5%nat ltac:(simpl; lia)) as D5. pose proof (F 6%nat ltac:(simpl; lia)) as D6.
    dq F 0%nat. dq F 1%nat. dq F 2%nat. dq F 3%nat.
    split; cbn [rotE trR].
    + eapply derivM_eq; [apply (deriv_QuatToE (fun s => co (q s) 0) (fun s => co (q s) 1) (fun s => co (q s) 2) (fun s => co (q s) 3) t a0 a1 a2); try eassumption; apply (HQ t)|].
      do 3 f_equal. cbn. svring.
    + replace (slin (smul _ _)) with (mkV3 a3 a4 a5) by (cbn; svring).
      repeat split; cbn [vx vy vz]; [exact D4|exact D5|exact D6].
  - (* Fixed *)
    destruct a; [|discriminate La]. apply (moves_ext _ (fun _ => ptid)).
    { intros s. specialize (HP s). now injection HP as <-. }
    apply moves_const.
Qed.
