(** Concrete cases for the statements about readers and writers. *)
From Coq Require Import Reals String Ascii ZArith Bool Arith List Lra Lia.
From Verif Require Import Res ResP SMap Vec VecP Sva SvaP JointM JointP MultiBodyM GraphM ParserM YamlM Spec SpecParser EulerP ParserP ParserRotP ParserRtP ParserBodyP ParserJointP.
Import ListNotations.
Open Scope R_scope.

Definition exw : Writer := mkW (fun x => x) eul.
Lemma exw_ok : exact_text exw /\ euler_ok (w_euler exw).
Proof. split; [now intro|exact eul_ok]. Qed.
(** A writer of integers only. *)
Definition exw6 : Writer := mkW (fun x => if (Z.abs (up x) <? 1000000)%Z then IZR (up x) else 0) eul.
Lemma exw6_ok x : six_digits (w_num exw6 x).
Proof.
  cbn. destruct (Z.abs (up x) <? 1000000)%Z eqn:E.
  - apply Z.ltb_lt in E. exists (up x), 0%Z. split; auto. cbn. ring.
  - exists 0%Z, 0%Z. split; [lia|]. ring.
Qed.
Lemma big_vis x y z : 1 / 1000000000000 < Rabs x -> visible (mkV3 x y z).
Proof. intro H. right. left. exact H. Qed.
Lemma eul_rotX t : - (PI / 2) < t < 0 -> eul (angleAxis t unitX) = mkV3 t 0 0.
Proof.
  intros (A & B). unfold angleAxis, eul, vscale. cbn [m00 m01 m02 m10 m11 m12 m20 m21 m22 vx vy vz unitX].
  replace ((1 - cos t) * 1 * 0 + sin t * 0) with 0 by ring.
  replace (1 - 0 * 0) with 1 by ring. rewrite sqrt_1, asin_0. destruct (Req_EM_T 1 0); [lra|].
  replace (((1 - cos t) * 0 * 0 + cos t) / 1) with (cos t) by field.
  replace (- ((1 - cos t) * 0 * 0 - sin t * 1) / 1) with (sin t) by field.
  replace (((1 - cos t) * 1 * 1 + cos t) / 1) with 1 by field.
  replace (- ((1 - cos t) * 1 * 0 - sin t * 0) / 1) with 0 by field.
  unfold ang. pose proof (sin_lt_0_var t) as S. destruct (Rle_dec 0 (sin t)); [pose proof PI_RGT_0; assert (sin t < 0) by (apply S; lra); lra|].
  destruct (Rle_dec 0 0); [|lra]. rewrite acos_1. f_equal. rewrite <- (cos_neg t), acos_cos by lra. ring.
Qed.
Definition exp_Y : PT := mkPT (angleAxis 1 unitX) (mkV3 1 2 3).
Lemma exp_Y_ok : SO3 (rotE exp_Y) /\ visible (trR exp_Y) /\ visible (eul (mtr (rotE exp_Y))).
Proof.
  assert (V : visible (trR exp_Y)) by (apply big_vis; rewrite Rabs_R1; lra).
  cbn [exp_Y rotE]. split; [apply SO3_angleAxis, uX|]. split; [exact V|]. rewrite angleAxis_tr, eul_rotX by (pose proof PI2_1; lra).
  apply big_vis. rewrite Rabs_Ropp, Rabs_R1. lra.
Qed.
(** A body of mass 2 at (1, 0, 0). *)
Definition exp_I : RBI := mkRBI 2 (mkV3 2 0 0) (mkSym 1 0 0 3 0 3).
Lemma exp_I_ok : 0 < imass exp_I /\ visible_sym (iine exp_I) /\ visible (com_of exp_I).
Proof.
  split; [cbn; lra|]. split.
  - exists 1. split; [cbn; auto|]. rewrite Rabs_R1. lra.
  - unfold com_of. rewrite positive_true by (cbn; lra). unfold vscale. cbn [exp_I imass imom vx vy vz]. apply big_vis. rewrite Rabs_right; lra.
Qed.
Definition exp_j : Joint := makeMimic (mkJ Rev unitX true "knee") "hip" 2 (1 / 2).
Lemma exp_j_ok : joint_unit exp_j /\ urdf_joint "_spherical" exp_j.
Proof. split; [|exact I]. exists unitX. split; [apply uX|]. apply built_mimic, built_ctor. Qed.
