(** Proofs about the readers and writers: rotations. *)
From Coq Require Import Reals Bool List Lra Lia.
From Verif Require Import Res ResP SMap Vec VecP Sva SvaP JointM JointP MultiBodyM GraphM ParserM YamlM SpecParser EulerP.
Import ListNotations.
Open Scope R_scope.

Lemma half_cos t : cos t = 1 - 2 * (sin (t / 2) * sin (t / 2)).
Proof. replace t with (2 * (t / 2)) at 1 by field. rewrite cos_2a_sin. ring. Qed.
Lemma half_sin t : sin t = 2 * (sin (t / 2) * cos (t / 2)).
Proof. replace t with (2 * (t / 2)) at 1 by field. rewrite sin_2a. ring. Qed.
Lemma aa_qmat t a : vdot a a = 1 -> qmat (aa_quat t a) = angleAxis t a.
Proof.
  destruct a as [x y z]. unfold vdot. cbn [vx vy vz]. intro U. unfold qmat, aa_quat, angleAxis, vscale. cbn [qw qx qy qz vx vy vz].
  rewrite (half_cos t), (half_sin t). assert (U' : x * x = 1 - y * y - z * z) by lra. generalize (sin (t / 2)) (cos (t / 2)). intros s c.
  f_equal; ring [U'].
Qed.
Lemma aa_unit t a : vdot a a = 1 -> qnorm2 (aa_quat t a) = 1.
Proof.
  destruct a as [x y z]. unfold vdot, qnorm2, aa_quat. cbn [vx vy vz qw qx qy qz]. intro U. pose proof (sin2_cos2 (t / 2)) as S. unfold Rsqr in S.
  assert (U' : x * x = 1 - y * y - z * z) by lra. assert (S' : cos (t / 2) * cos (t / 2) = 1 - sin (t / 2) * sin (t / 2)) by lra.
  revert S'. generalize (sin (t / 2)) (cos (t / 2)). intros s c S'. ring [U' S'].
Qed.
Lemma qmul_unit a b : qnorm2 a = 1 -> qnorm2 b = 1 -> qnorm2 (qmul a b) = 1.
Proof.
  intros A B. transitivity (qnorm2 a * qnorm2 b); [|rewrite A, B; ring]. unfold qnorm2, qmul. cbn [qw qx qy qz]. ring.
Qed.
(** The rotation matrix of a quaternion of norm 1, as a homogeneous expression. *)
Definition qmath (q : Quat) : M3 :=
  let w := qw q in let x := qx q in let y := qy q in let z := qz q in
  mkM3 (w*w + x*x - y*y - z*z) (2*x*y - 2*w*z) (2*x*z + 2*w*y)
       (2*x*y + 2*w*z) (w*w - x*x + y*y - z*z) (2*y*z - 2*w*x)
       (2*x*z - 2*w*y) (2*y*z + 2*w*x) (w*w - x*x - y*y + z*z).
Lemma qmath_eq q : qnorm2 q = 1 -> qmat q = qmath q.
Proof. destruct q as [w x y z]. unfold qnorm2, qmat, qmath. cbn [qw qx qy qz]. intro H. f_equal; lra. Qed.
Lemma qmath_mul a b : qmath (qmul a b) = mmul (qmath a) (qmath b).
Proof.
  destruct a as [w x y z], b as [w' x' y' z']. unfold qmath, qmul, mmul. cbn [qw qx qy qz m00 m01 m02 m10 m11 m12 m20 m21 m22]. f_equal; ring.
Qed.
Lemma qmat_qmul a b : qnorm2 a = 1 -> qnorm2 b = 1 -> qmat (qmul a b) = mmul (qmat a) (qmat b).
Proof. intros A B. rewrite !qmath_eq by auto using qmul_unit. apply qmath_mul. Qed.
Lemma uX : vdot unitX unitX = 1. Proof. unfold vdot, unitX; cbn; ring. Qed.
Lemma uY : vdot unitY unitY = 1. Proof. unfold vdot, unitY; cbn; ring. Qed.
Lemma uZ : vdot unitZ unitZ = 1. Proof. unfold vdot, unitZ; cbn; ring. Qed.
(** The rotation a YAML rpy is read as. *)
Lemma MatrixFromRPY_eq r p y : MatrixFromRPY r p y = mtr (euler_xyz r p y).
Proof.
  unfold MatrixFromRPY, euler_xyz. pose proof (aa_unit r _ uX). pose proof (aa_unit p _ uY). pose proof (aa_unit y _ uZ).
  rewrite !qmat_qmul; auto using qmul_unit. now rewrite !aa_qmat by auto using uX, uY, uZ.
Qed.
Lemma SO3_euler_xyz r p y : SO3 (euler_xyz r p y).
Proof. unfold euler_xyz. auto using SO3_mul, SO3_angleAxis, uX, uY, uZ. Qed.
(** The entries of both matrices. *)
Lemma euler_xyz_eq r p y : euler_xyz r p y =
  mkM3 (cos p * cos y) (- (cos p * sin y)) (sin p)
       (cos r * sin y + sin r * sin p * cos y) (cos r * cos y - sin r * sin p * sin y) (- (sin r * cos p))
       (sin r * sin y - cos r * sin p * cos y) (sin r * cos y + cos r * sin p * sin y) (cos r * cos p).
Proof.
  unfold euler_xyz, angleAxis, vscale, mmul, unitX, unitY, unitZ. cbn [vx vy vz m00 m01 m02 m10 m11 m12 m20 m21 m22]. f_equal; ring.
Qed.
Lemma euler_zyx_eq r p y : euler_zyx r p y =
  mkM3 (cos y * cos p) (cos y * sin p * sin r - sin y * cos r) (cos y * sin p * cos r + sin y * sin r)
       (sin y * cos p) (sin y * sin p * sin r + cos y * cos r) (sin y * sin p * cos r - cos y * sin r)
       (- sin p) (cos p * sin r) (cos p * cos r).
Proof.
  unfold euler_zyx, angleAxis, vscale, mmul, unitX, unitY, unitZ. cbn [vx vy vz m00 m01 m02 m10 m11 m12 m20 m21 m22]. f_equal; ring.
Qed.
(** The rotation a URDF rpy is read as. *)
Lemma RPY_eq r p y : RPY r p y = mtr (euler_zyx r p y).
Proof. rewrite euler_zyx_eq. reflexivity. Qed.

(** ** Eigen's eulerAngles(0, 1, 2) exists. *)
Definition ang (c s : R) : R := if Rle_dec 0 s then acos c else - acos c.
Lemma ang_ok c s : c * c + s * s = 1 -> cos (ang c s) = c /\ sin (ang c s) = s.
Proof.
  intro H. assert (B : -1 <= c <= 1) by nra. assert (Q : 1 - c² = s²) by (unfold Rsqr; lra).
  unfold ang. destruct (Rle_dec 0 s) as [P|P].
  - rewrite cos_acos, sin_acos, Q by auto. split; auto. now apply sqrt_Rsqr.
  - rewrite cos_neg, sin_neg, cos_acos, sin_acos, Q by auto. split; auto. rewrite Rsqr_neg, sqrt_Rsqr by lra. ring.
Qed.
Definition eul (M : M3) : V3 :=
  let p := asin (m02 M) in
  let cp := sqrt (1 - m02 M * m02 M) in
  if Req_EM_T cp 0 then mkV3 0 p (ang (m11 M) (m10 M))
  else mkV3 (ang (m22 M / cp) (- m12 M / cp)) p (ang (m00 M / cp) (- m01 M / cp)).
Lemma eul_ok : euler_ok eul.
Proof.
  intros M S. rewrite euler_xyz_eq. pose proof (SO3_r M S) as K. destruct (SO3_adj M S) as (A1 & A2 & A3 & A4 & A5 & A6 & A7 & A8 & A9). destruct S as (H & _).
  destruct M as [a b c d e f g h i]. unfold mmul, mtr, mid in H, K. unfold eul. cbn [m00 m01 m02 m10 m11 m12 m20 m21 m22] in *. injection H as H1 H2 H3 H4 H5 H6 H7 H8 H9. injection K as K1 K2 K3 K4 K5 K6 K7 K8 K9.
  assert (B : -1 <= c <= 1) by nra. assert (P0 : 0 <= 1 - c * c) by nra.
  pose proof (sin_asin c B) as SP. pose proof (cos_asin c B) as CP. unfold Rsqr in CP. pose proof (sqrt_sqrt (1 - c * c) P0) as SS.
  destruct (Req_EM_T (sqrt (1 - c * c)) 0) as [Z|N]; cbn [vx vy vz]; rewrite SP, CP.
  - rewrite Z in SS |- *. assert (CC : c * c = 1) by lra. assert (a = 0 /\ b = 0 /\ f = 0 /\ i = 0) as (-> & -> & -> & ->).
    { assert (a * a + b * b = 0) by lra. assert (f * f + i * i = 0) by lra. repeat split; nra. }
    assert (U : e * e + d * d = 1) by lra. destruct (ang_ok e d U) as (-> & ->). rewrite cos_0, sin_0. f_equal; lra.
  - set (k := sqrt (1 - c * c)) in *. assert (U1 : i / k * (i / k) + - f / k * (- f / k) = 1).
    { replace (i / k * (i / k) + - f / k * (- f / k)) with ((i * i + f * f) / (k * k)) by (field; auto). rewrite SS. replace (i * i + f * f) with (1 - c * c) by lra. field. rewrite <- SS. now apply Rmult_integral_contrapositive. }
    assert (U2 : a / k * (a / k) + - b / k * (- b / k) = 1).
    { replace (a / k * (a / k) + - b / k * (- b / k)) with ((a * a + b * b) / (k * k)) by (field; auto). rewrite SS. replace (a * a + b * b) with (1 - c * c) by lra. field. rewrite <- SS. now apply Rmult_integral_contrapositive. }
    destruct (ang_ok _ _ U1) as (-> & ->). destruct (ang_ok _ _ U2) as (-> & ->).
    assert (G : forall x u v, x * (k * k) = u * v -> x = u / k * (v / k)) by (intros x u v E; replace (u / k * (v / k)) with (u * v / (k * k)) by (field; auto); rewrite <- E; field; auto).
    assert (D1 : d * (k * k) = - (i * b) - f * c * a) by (rewrite SS; assert (X : d = c * (c * d - a * f) - b * i) by (rewrite <- A6; exact A2); lra).
    assert (D2 : g * (k * k) = f * b - i * c * a) by (rewrite SS; assert (X : g = b * f - c * (a * i - c * g)) by (rewrite <- A5; exact A3); lra).
    assert (D3 : e * (k * k) = i * a - f * c * b) by (rewrite SS; assert (X : e = a * i - c * (b * f - c * e)) by (rewrite <- A3; exact A5); lra).
    assert (D4 : h * (k * k) = - (f * a) - i * c * b) by (rewrite SS; assert (X : h = c * (c * h - b * i) - a * f) by (rewrite <- A2; exact A6); lra).
    apply M3_ext; cbn [m00 m01 m02 m10 m11 m12 m20 m21 m22].
    + field; auto. + field; auto. + reflexivity.
    + replace d with ((- (i * b) - f * c * a) / (k * k)) by (rewrite <- D1; field; auto). field; auto.
    + replace e with ((i * a - f * c * b) / (k * k)) by (rewrite <- D3; field; auto). field; auto.
    + field; auto.
    + replace g with ((f * b - i * c * a) / (k * k)) by (rewrite <- D2; field; auto). field; auto.
    + replace h with ((- (f * a) - i * c * b) / (k * k)) by (rewrite <- D4; field; auto). field; auto.
    + field; auto.
Qed.
