(** Joints: reversal, zero configuration, safe functions. *)
From Coq Require Import Reals String ZArith Bool Arith Lia Lra List.
From Verif Require Import Res ResP Vec VecP Sva SvaP Mat JointM MultiBodyM Spec JointP SpecDeriv DerivP.
Import ListNotations.
Open Scope R_scope.

(** ** Reversal *)
Lemma angleAxis_opp t a : angleAxis t (vscale (-1) a) = mtr (angleAxis t a).
Proof. unfold angleAxis. v3. f_equal; ring. Qed.
Lemma dirR_negb b : dirR (negb b) = - dirR b.
Proof. destruct b; simpl; ring. Qed.

Lemma angleAxis_axis' th ax : vdot ax ax = 1 -> mapp (angleAxis th ax) ax = ax.
Proof.
  intros U. destruct ax as [x y z]. unfold vdot in U; simpl in U.
  assert (E : x * x = 1 - y * y - z * z) by lra.
  unfold angleAxis, mtr, mapp, vscale. cbn [vx vy vz m00 m01 m02 m10 m11 m12 m20 m21 m22].
  f_equal; ring [E].
Qed.
Lemma reverse_S ax j : built ax j ->
  jS (set_forward j (negb (jfwd j))) = map (svscale (dirR (negb (jfwd j)))) (baseS (jtyp j) ax).
Proof.
  intros B. pose proof (built_forward ax j (negb (jfwd j)) B) as B2. apply built_shape in B2. apply B2.
Qed.

Lemma pose_reverse j x X : joint_unit j -> q_ok j x -> pose j x = Ok X ->
  pose (set_forward j (negb (jfwd j))) x = Ok (ptinv X).
Proof.
  intros (ax & U & B) [L Q] H. pose proof (reverse_S ax j B) as ER. apply built_shape in B. destruct B as (E & P & _). rewrite P in L.
  unfold pose in *. cbn [jtyp jfwd set_forward] in ER |- *. 
  change (jS (mkJoint (jtyp j) (if Bool.eqb (negb (jfwd j)) (jfwd j) then jS j else map (svscale (-1)) (jS j))
       (negb (jfwd j)) (jparams j) (jdof j) (jname j) (jmimic j) (jmimicName j) (jmimicMul j) (jmimicOff j)))
    with (jS (set_forward j (negb (jfwd j)))) in *.
  unfold set_forward in *. cbn [jS] in *. rewrite ER, E in *. clear ER E P.
  pose proof (angleAxis_axis) as AA. pose proof (vdot_dir ax (jfwd j) U) as UD.
  assert (EA : forall k, vscale (dirR (negb k)) ax = vscale (-1) (vscale (dirR k) ax)).
  { intros k. rewrite dirR_negb. svring. }
  destruct (jtyp j); simpl in L;
    repeat (destruct x as [|? x]; simpl in L; try discriminate L; try lia);
    unfold get in *; simpl in H |- *; injection H as <-; f_equal; cbn [sang slin svscale].
  - rewrite EA, angleAxis_opp. unfold ptinv, ptrot; cbn [rotE trR]. f_equal. svring.
  - rewrite EA. unfold ptinv, pttr; cbn [rotE trR]. f_equal. rewrite mapp_id. svring.
  - unfold quat_unit in Q; simpl in Q.
    assert (D2 : dirR (jfwd j) * dirR (jfwd j) = 1) by apply dirR_sq.
    assert (D3 : dirR (negb (jfwd j)) * dirR (negb (jfwd j)) = 1) by apply dirR_sq.
    rewrite !qinv_unit; [|unfold qnorm2; simpl; nra|unfold qnorm2; simpl; nra].
    rewrite dirR_negb. unfold ptinv, ptrot; cbn [rotE trR]. f_equal; [|svring].
    unfold qmat, qconj, mtr; cbn. f_equal; ring.
  - destruct (jfwd j); cbn [negb]; auto. rewrite ptinv_inv; auto. apply SO3_RotZ.
  - rewrite EA, angleAxis_opp. unfold ptinv; cbn [rotE trR]. f_equal.
    set (b := vscale (dirR (jfwd j)) ax) in *.
    rewrite mapp_scale, angleAxis_axis' by auto. svring.
  - unfold quat_unit in Q; simpl in Q.
    destruct (jfwd j); cbn [negb]; auto. rewrite ptinv_inv; auto. now apply SO3_QuatToE.
  - unfold ptinv, ptid; cbn [rotE trR]. f_equal. rewrite mapp_id. svring.
Qed.
Lemma reverse_twice j : set_forward (set_forward j (negb (jfwd j))) (jfwd j) = j.
Proof.
  destruct j as [t S f p d nm mi mn mm mo]. unfold set_forward; cbn. f_equal.
  destruct f; cbn; rewrite map_map; rewrite (map_ext _ (fun s => s)); try apply map_id; intros; svring.
Qed.

Definition axial (t : jtype) : Prop := t = Rev \/ t = Prism \/ t = Cylindrical \/ t = Fixed.
Lemma motion_reverse j x a X V : joint_unit j -> axial (jtyp j) -> q_ok j x -> pose j x = Ok X -> motion j a = Ok V ->
  length a = jdof j ->
  motion (set_forward j (negb (jfwd j))) a = Ok (svscale (-1) (ptinvm X V)).
Proof.
  intros (ax & U & B) AT [L Q] HP HM LA. pose proof (reverse_S ax j B) as ER.
  assert (JO : joint_ok j) by (exists ax; auto).
  assert (JR : joint_ok (set_forward j (negb (jfwd j)))) by (exists ax; now constructor).
  rewrite motion_spec by (auto; exact LA). rewrite motion_spec in HM by auto. injection HM as <-.
  f_equal. rewrite ER. apply built_shape in B. destruct B as (E & P & Dd). rewrite E. rewrite P in L. rewrite Dd in LA.
  unfold pose in HP. rewrite E in HP. clear ER E P JO JR Dd.
  pose proof (vdot_dir ax (jfwd j) U) as UD. rewrite dirR_negb.
  destruct AT as [T|[T|[T|T]]]; rewrite T in *; simpl in L, LA;
    repeat (destruct x as [|? x]; simpl in L; try discriminate L; try lia);
    repeat (destruct a as [|? a]; simpl in LA; try discriminate LA; try lia);
    unfold get in HP; simpl in HP; injection HP as <-; cbn [map baseS smul sang slin svscale].
  - set (b := vscale (dirR (jfwd j)) ax) in *.
    assert (K : mapp (mtr (angleAxis (- r) b)) b = b) by now apply angleAxis_axis.
    assert (EA : vscale (- dirR (jfwd j)) ax = vscale (-1) b) by (unfold b; svring).
    unfold ptinvm, ptrot, svscale, svadd; cbn [rotE trR sang slin sv0].
    fold b. rewrite EA, !mapp_add, !mapp_scale, K. clearbody b. svring.
  - unfold ptinvm, pttr, svscale, svadd; cbn [rotE trR sang slin sv0]. svring.
  - set (b := vscale (dirR (jfwd j)) ax) in *.
    assert (K : mapp (mtr (angleAxis (- r) b)) b = b) by now apply angleAxis_axis.
    assert (EA : vscale (- dirR (jfwd j)) ax = vscale (-1) b) by (unfold b; svring).
    transitivity (svscale (-1) (mkSV (vscale r1 b) (vscale r2 b))); [unfold b; clear; svring|]. f_equal.
    replace (svadd _ _) with (mkSV (vscale r1 b) (vscale r2 b)) by (unfold b; clear; svring).
    unfold ptinvm; cbn [rotE trR sang slin]. rewrite !mapp_scale, K. clear K. clearbody b. svring.
  - svring.
Qed.
Lemma reversal_refuted t : t = Spherical \/ t = Planar \/ t = Free ->
  exists j x a X V V', joint_unit j /\ jtyp j = t /\ jfwd j = true /\ q_ok j x /\ length a = jdof j /\
    pose j x = Ok X /\ motion j a = Ok V /\ motion (set_forward j false) a = Ok V' /\
    V' <> svscale (-1) (ptinvm X V).
Proof.
  assert (JU : forall t, joint_unit (mkJz t true EmptyString)) by (intros; exists unitZ; split; [v3; ring|constructor]).
  intros [E|[E|E]]; subst t.
  - exists (mkJz Spherical true EmptyString), [3/5; 4/5; 0; 0], [0; 0; 1].
    eexists _, _, _. split; [apply JU|]. do 2 (split; [reflexivity|]).
    split; [split; [reflexivity|unfold quat_unit; cbn; field]|]. do 4 (split; [reflexivity|]).
    rewrite qinv_unit by (unfold qnorm2; cbn; field). clear.
    intros H. apply (f_equal (fun v => vz (sang v))) in H.
    unfold jS, mkJz, mkJ, set_forward, baseS in H. cbn in H. lra.
  - exists (mkJz Planar true EmptyString), [0; 1; 0], [1; 0; 0].
    eexists _, _, _. split; [apply JU|]. do 2 (split; [reflexivity|]).
    split; [split; [reflexivity|exact I]|]. do 4 (split; [reflexivity|]). clear.
    intros H. apply (f_equal (fun v => vy (slin v))) in H. cbn in H. rewrite cos_0, sin_0 in H. lra.
  - exists (mkJz Free true EmptyString), [1; 0; 0; 0; 1; 0; 0], [0; 0; 1; 0; 0; 0].
    eexists _, _, _. split; [apply JU|]. do 2 (split; [reflexivity|]).
    split; [split; [reflexivity|unfold quat_unit; cbn; field]|]. do 4 (split; [reflexivity|]). clear.
    intros H. apply (f_equal (fun v => vy (slin v))) in H. cbn in H. lra.
Qed.

(** ** Zero configuration *)
Lemma sizes j : joint_ok j ->
  length (zeroParam j) = jparams j /\ length (zeroDof j) = jdof j /\ length (jS j) = jdof j.
Proof.
  intros J. rewrite (joint_ok_params j J), (joint_ok_dof j J). rewrite <- (joint_ok_dof j J), (joint_ok_S_length j J), (joint_ok_dof j J).
  unfold zeroParam, zeroDof. repeat split.
  - destruct (jmimic j); rewrite ?map_length; destruct (jtyp j); reflexivity.
  - destruct (jtyp j); reflexivity.
Qed.
Lemma angleAxis_0 a : angleAxis (- 0) a = mid.
Proof. unfold angleAxis. rewrite Ropp_0, sin_0, cos_0. v3. f_equal; ring. Qed.
Lemma pose_zero j : joint_ok j -> jmimic j = false ->
  zeroParam j = ZeroParam (jtyp j) /\ pose j (zeroParam j) = Ok ptid.
Proof.
  intros (ax & B) M. unfold zeroParam. rewrite M. split; auto.
  apply built_shape in B. destruct B as (E & _). unfold pose. rewrite E.
  destruct (jtyp j); cbn -[angleAxis RotZ qinv QuatToE]; f_equal.
  - rewrite angleAxis_0. reflexivity.
  - unfold pttr, ptid. f_equal. svring.
  - rewrite qinv_unit by (unfold qnorm2; cbn; ring). unfold ptrot, ptid. f_equal. unfold qmat, qconj; cbn. v3. f_equal; ring.
  - replace (RotZ 0) with mid by (unfold RotZ, mid; rewrite sin_0, cos_0; f_equal; ring).
    destruct (jfwd j); unfold ptid; svring.
  - rewrite angleAxis_0. unfold ptid. f_equal. svring.
  - destruct (jfwd j); unfold QuatToE, ptid; sv; v3; f_equal; f_equal; field.
Qed.
Lemma motion_zero j : joint_ok j -> motion j (zeroDof j) = Ok sv0 /\ tanAccel j (zeroDof j) = Ok sv0.
Proof.
  intros J. assert (H : smul (jS j) (zeroDof j) = sv0); [|rewrite motion_spec, tanAccel_spec, H by (auto; apply sizes; auto); auto].
  destruct J as (ax & B). apply built_shape in B. destruct B as (E & _). rewrite E. unfold zeroDof.
  destruct (jtyp j); cbn; svring.
Qed.
Lemma mimic_zero j : joint_ok j -> jmimic j = true ->
  (q_ok j (zeroParam j) <->
   match jtyp j with Spherical | Free => jmimicOff j = 0 \/ jmimicOff j = - (1/2) | _ => True end).
Proof.
  intros J M. assert (L : length (zeroParam j) = jparams j) by (apply sizes; auto).
  unfold q_ok. unfold zeroParam in *. rewrite M in *.
  assert (A : forall o, (1 + o) * (1 + o) + (0 + o) * (0 + o) + (0 + o) * (0 + o) + (0 + o) * (0 + o) = 1 <-> o = 0 \/ o = - (1/2)).
  { intros o. split.
    - intros H. assert (K : o * (o + 1/2) = 0) by lra. apply Rmult_integral in K. lra.
    - intros [E|E]; subst o; field. }
  destruct (jtyp j); try tauto; rewrite <- A; unfold quat_unit; cbn in *; tauto.
Qed.

(** ** Safe functions *)
Lemma safe_joint j x a : joint_ok j ->
  (length x = jparams j -> sPose j x = pose j x /\ exists X, pose j x = Ok X) /\
  (length x <> jparams j -> sPose j x = Throw DomainError) /\
  (length a = jdof j -> sMotion j a = motion j a /\ sTanAccel j a = tanAccel j a /\
     (exists V, motion j a = Ok V) /\ exists A, tanAccel j a = Ok A) /\
  (length a <> jdof j -> sMotion j a = Throw DomainError /\ sTanAccel j a = Throw DomainError).
Proof.
  intros J. unfold sPose, sMotion, sTanAccel. split; [|split; [|split]]; intros H.
  - rewrite (proj2 (Nat.eqb_eq _ _) H). split; auto. now apply pose_total.
  - now rewrite (proj2 (Nat.eqb_neq _ _) H).
  - rewrite (proj2 (Nat.eqb_eq _ _) H). split; [auto|split; [auto|]].
    rewrite tanAccel_spec, motion_spec by auto. split; eauto.
  - now rewrite (proj2 (Nat.eqb_neq _ _) H).
Qed.
