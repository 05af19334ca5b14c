(** Lemmas about joints. *)
From Coq Require Import Reals String Bool Arith Lia Lra Psatz List.
From Verif Require Import Res ResP Vec VecP Sva SvaP Mat JointM MultiBodyM Spec.
Import ListNotations.
Open Scope R_scope.

Lemma dirR_sq b : dirR b * dirR b = 1.
Proof. destruct b; simpl; ring. Qed.

Lemma baseS_length t a : length (baseS t a) = tdof t.
Proof. destruct t; reflexivity. Qed.

Lemma built_shape a j : built a j ->
  jS j = map (svscale (dirR (jfwd j))) (baseS (jtyp j) a) /\
  jparams j = tparams (jtyp j) /\ jdof j = tdof (jtyp j).
Proof.
  induction 1; simpl; auto.
  destruct IHbuilt as (E & P & D). split; auto.
  destruct (Bool.eqb fwd (jfwd j)) eqn:B.
  - apply Bool.eqb_prop in B. now subst.
  - rewrite E, map_map. apply map_ext. intros s. rewrite svscale_svscale. f_equal.
    destruct fwd, (jfwd j); simpl in *; try discriminate; ring.
Qed.

Lemma joint_ok_S_length j : joint_ok j -> length (jS j) = jdof j.
Proof.
  intros [a B]. apply built_shape in B. destruct B as (E & _ & D).
  rewrite E, D, map_length. apply baseS_length.
Qed.
Lemma joint_ok_params j : joint_ok j -> jparams j = tparams (jtyp j).
Proof. intros [a B]. now apply built_shape in B. Qed.
Lemma joint_ok_dof j : joint_ok j -> jdof j = tdof (jtyp j).
Proof. intros [a B]. now apply built_shape in B. Qed.
Lemma joint_unit_ok j : joint_unit j -> joint_ok j.
Proof. intros (a & _ & B). now exists a. Qed.

(** The joint velocity is the motion subspace times the dof vector. *)
Lemma motion_spec j a : joint_ok j -> length a = jdof j -> motion j a = Ok (smul (jS j) a).
Proof.
  intros [ax B] L. apply built_shape in B. destruct B as (E & _ & D). rewrite D in L.
  unfold motion. rewrite E. clear E D.
  destruct (jtyp j); simpl in L;
    repeat (destruct a as [|? a]; simpl in L; try discriminate L; try lia);
    unfold get, smul_chk; simpl; try reflexivity.
  - f_equal. svring.
  - f_equal. svring.
Qed.
Lemma tanAccel_motion j a : tanAccel j a = motion j a.
Proof. reflexivity. Qed.
Lemma tanAccel_spec j a : joint_ok j -> length a = jdof j -> tanAccel j a = Ok (smul (jS j) a).
Proof. exact (motion_spec j a). Qed.

(** pose never has undefined behaviour on a parameter vector of the right size. *)
Lemma pose_total j x : joint_ok j -> length x = jparams j -> exists X, pose j x = Ok X.
Proof.
  intros [ax B] L. apply built_shape in B. destruct B as (E & P & _). rewrite P in L.
  unfold pose. rewrite E. clear E P.
  destruct (jtyp j); simpl in L;
    repeat (destruct x as [|? x]; simpl in L; try discriminate L; try lia);
    unfold get; simpl; eauto.
Qed.

(** Rotation matrices. *)
Lemma SO3_angleAxis t a : vdot a a = 1 -> SO3 (angleAxis t a).
Proof.
  intros H. pose proof (sin2_cos2 t) as T; unfold Rsqr in T.
  destruct a as [x y z]. unfold vdot in H; simpl in H.
  unfold SO3, angleAxis, mtr, mmul, mid, mdet, vscale; simpl.
  set (s := sin t) in *. set (c := cos t) in *. clearbody s c.
  set (N := x * x + y * y + z * z) in *.
  assert (K1 : c * c + s * s * N = 1) by (rewrite H; lra).
  assert (K2 : 2 * c * (1 - c) + (1 - c) * (1 - c) * N - s * s = 0).
  { rewrite H. replace (s * s) with (1 - c * c) by lra. ring. }
  assert (K3 : c + (1 - c) * N = 1) by (rewrite H; ring).
  split.
  - f_equal.
    all: match goal with |- _ = ?r => idtac end.
    + transitivity ((c * c + s * s * N) + x * x * (2 * c * (1 - c) + (1 - c) * (1 - c) * N - s * s)); [unfold N; ring | rewrite K1, K2; ring].
    + transitivity (x * y * (2 * c * (1 - c) + (1 - c) * (1 - c) * N - s * s)); [unfold N; ring | rewrite K2; ring].
    + transitivity (x * z * (2 * c * (1 - c) + (1 - c) * (1 - c) * N - s * s)); [unfold N; ring | rewrite K2; ring].
    + transitivity (x * y * (2 * c * (1 - c) + (1 - c) * (1 - c) * N - s * s)); [unfold N; ring | rewrite K2; ring].
    + transitivity ((c * c + s * s * N) + y * y * (2 * c * (1 - c) + (1 - c) * (1 - c) * N - s * s)); [unfold N; ring | rewrite K1, K2; ring].
    + transitivity (y * z * (2 * c * (1 - c) + (1 - c) * (1 - c) * N - s * s)); [unfold N; ring | rewrite K2; ring].
    + transitivity (x * z * (2 * c * (1 - c) + (1 - c) * (1 - c) * N - s * s)); [unfold N; ring | rewrite K2; ring].
    + transitivity (y * z * (2 * c * (1 - c) + (1 - c) * (1 - c) * N - s * s)); [unfold N; ring | rewrite K2; ring].
    + transitivity ((c * c + s * s * N) + z * z * (2 * c * (1 - c) + (1 - c) * (1 - c) * N - s * s)); [unfold N; ring | rewrite K1, K2; ring].
  - transitivity ((c * c + s * s * N) * (c + (1 - c) * N)); [unfold N; ring | rewrite K1, K3; ring].
Qed.

(** R(q)^T R(q) - 1 is a multiple of |q|^2 - 1. *)
Lemma SO3_qmat q : qnorm2 q = 1 -> SO3 (qmat q).
Proof.
  destruct q as [w x y z]. unfold qnorm2; simpl. intros H.
  unfold SO3, qmat, mtr, mmul, mid, mdet; simpl.
  set (N := w * w + x * x + y * y + z * z) in *.
  assert (K : 4 * (N - 1) = 0) by (rewrite H; ring).
  split.
  - f_equal.
    + transitivity (1 + (y * y + z * z) * (4 * (N - 1))); [unfold N; ring | rewrite K; ring].
    + transitivity ((- x * y) * (4 * (N - 1))); [unfold N; ring | rewrite K; ring].
    + transitivity ((- x * z) * (4 * (N - 1))); [unfold N; ring | rewrite K; ring].
    + transitivity ((- x * y) * (4 * (N - 1))); [unfold N; ring | rewrite K; ring].
    + transitivity (1 + (x * x + z * z) * (4 * (N - 1))); [unfold N; ring | rewrite K; ring].
    + transitivity ((- y * z) * (4 * (N - 1))); [unfold N; ring | rewrite K; ring].
    + transitivity ((- x * z) * (4 * (N - 1))); [unfold N; ring | rewrite K; ring].
    + transitivity ((- y * z) * (4 * (N - 1))); [unfold N; ring | rewrite K; ring].
    + transitivity (1 + (x * x + y * y) * (4 * (N - 1))); [unfold N; ring | rewrite K; ring].
  - transitivity (1 + (x * x + y * y + z * z) * (4 * (N - 1))); [unfold N; ring | rewrite K; ring].
Qed.

Lemma qinv_unit q : qnorm2 q = 1 -> qinv q = qconj q.
Proof.
  intros H. unfold qinv. destruct (Rlt_dec 0 (qnorm2 q)); [|lra].
  rewrite H. unfold qconj. f_equal; field.
Qed.

Lemma QuatToE_qmat p0 p1 p2 p3 : p0 * p0 + p1 * p1 + p2 * p2 + p3 * p3 = 1 ->
  QuatToE p0 p1 p2 p3 = qmat (qconj (mkQ p0 p1 p2 p3)).
Proof.
  intros H. unfold QuatToE, qmat, qconj, mscale; simpl.
  replace (p0 * p0) with (1 - p1 * p1 - p2 * p2 - p3 * p3) by lra. f_equal; field.
Qed.

Lemma SO3_QuatToE p0 p1 p2 p3 : p0 * p0 + p1 * p1 + p2 * p2 + p3 * p3 = 1 ->
  SO3 (QuatToE p0 p1 p2 p3).
Proof.
  intros H. rewrite QuatToE_qmat by auto. apply SO3_qmat. unfold qnorm2, qconj; simpl. lra.
Qed.

Lemma vdot_dir a b : vdot a a = 1 -> vdot (vscale (dirR b) a) (vscale (dirR b) a) = 1.
Proof. intros. rewrite vdot_scale_l, vdot_scale_r, H. destruct b; simpl; ring. Qed.

Lemma pose_rigid j x X : joint_unit j -> q_ok j x -> pose j x = Ok X -> rigid X.
Proof.
  intros (ax & U & B) [L Q] H. apply built_shape in B. destruct B as (E & P & _). rewrite P in L.
  unfold pose in H. rewrite E in H. clear E P. unfold rigid.
  destruct (jtyp j); simpl in L;
    repeat (destruct x as [|? x]; simpl in L; try discriminate L; try lia);
    unfold get in H; simpl in H; injection H as <-; simpl; auto using SO3_id.
  - apply SO3_angleAxis. now apply vdot_dir.
  - unfold quat_unit in Q; simpl in Q.
    rewrite qinv_unit.
    + apply SO3_qmat. unfold qnorm2, qconj; simpl. pose proof (dirR_sq (jfwd j)). nra.
    + unfold qnorm2; simpl. pose proof (dirR_sq (jfwd j)). nra.
  - destruct (jfwd j); simpl; [|apply SO3_tr]; apply SO3_RotZ.
  - apply SO3_angleAxis. now apply vdot_dir.
  - unfold quat_unit in Q; simpl in Q.
    destruct (jfwd j); simpl; [|apply SO3_tr]; now apply SO3_QuatToE.
Qed.
