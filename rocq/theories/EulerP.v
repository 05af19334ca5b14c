(** Every rotation matrix is a rotation about an axis (Euler). *)
From Coq Require Import Reals Lra.
From Verif Require Import Vec VecP Sva SvaP JointP.
Open Scope R_scope.

(** Transpose = adjugate, entry by entry, and the rows are unit vectors. *)
Lemma SO3_adj E : SO3 E ->
  m00 E = m11 E * m22 E - m12 E * m21 E /\ m10 E = m02 E * m21 E - m01 E * m22 E /\ m20 E = m01 E * m12 E - m02 E * m11 E /\
  m01 E = m12 E * m20 E - m10 E * m22 E /\ m11 E = m00 E * m22 E - m02 E * m20 E /\ m21 E = m02 E * m10 E - m00 E * m12 E /\
  m02 E = m10 E * m21 E - m11 E * m20 E /\ m12 E = m01 E * m20 E - m00 E * m21 E /\ m22 E = m00 E * m11 E - m01 E * m10 E.
Proof.
  intros (H & DT). destruct E as [a b c d e f g h i]. unfold mdet in DT. cbn [m00 m01 m02 m10 m11 m12 m20 m21 m22] in *.
  set (Adj := mkM3 (e * i - f * h) (c * h - b * i) (b * f - c * e) (f * g - d * i) (a * i - c * g) (c * d - a * f) (d * h - e * g) (b * g - a * h) (a * e - b * d)).
  assert (EQ : mtr (mkM3 a b c d e f g h i) = Adj).
  { assert (P : mmul (mkM3 a b c d e f g h i) Adj = mid).
    { unfold mmul, Adj, mid. cbn [m00 m01 m02 m10 m11 m12 m20 m21 m22]. f_equal; try ring; rewrite <- DT; ring. }
    rewrite <- (mmul_id_r (mtr _)), <- P, mmul_assoc, H. apply mmul_id_l. }
  unfold Adj, mtr in EQ. cbn [m00 m01 m02 m10 m11 m12 m20 m21 m22] in EQ. injection EQ. intros. repeat split; assumption.
Qed.
(** w w^T = (T + 1) (E + E^T + (1 - T) I) with w the antisymmetric part and T the trace. *)
Lemma SO3_sym E : SO3 E -> let T := m00 E + m11 E + m22 E in
  (m21 E - m12 E) * (m21 E - m12 E) = (T + 1) * (2 * m00 E + (1 - T)) /\
  (m02 E - m20 E) * (m02 E - m20 E) = (T + 1) * (2 * m11 E + (1 - T)) /\
  (m10 E - m01 E) * (m10 E - m01 E) = (T + 1) * (2 * m22 E + (1 - T)) /\
  (m21 E - m12 E) * (m02 E - m20 E) = (T + 1) * (m01 E + m10 E) /\
  (m21 E - m12 E) * (m10 E - m01 E) = (T + 1) * (m02 E + m20 E) /\
  (m02 E - m20 E) * (m10 E - m01 E) = (T + 1) * (m12 E + m21 E).
Proof.
  intros S T. pose proof (SO3_r E S) as K. destruct (SO3_adj E S) as (A1 & A2 & A3 & A4 & A5 & A6 & A7 & A8 & A9). destruct S as (H & _).
  destruct E as [a b c d e f g h i]. unfold mmul, mtr, mid in H, K. unfold T; clear T. cbn [m00 m01 m02 m10 m11 m12 m20 m21 m22] in *. injection H. injection K. clear H K. intros.
  repeat split; lra.
Qed.
Lemma angleAxis_of E a n : vdot n n = 1 -> 2 * cos a = m00 E + m11 E + m22 E - 1 ->
  m21 E - m12 E = 2 * (sin a * vx n) -> m02 E - m20 E = 2 * (sin a * vy n) -> m10 E - m01 E = 2 * (sin a * vz n) ->
  m00 E = (1 - cos a) * (vx n * vx n) + cos a -> m11 E = (1 - cos a) * (vy n * vy n) + cos a -> m22 E = (1 - cos a) * (vz n * vz n) + cos a ->
  m01 E + m10 E = 2 * ((1 - cos a) * (vx n * vy n)) -> m02 E + m20 E = 2 * ((1 - cos a) * (vx n * vz n)) -> m12 E + m21 E = 2 * ((1 - cos a) * (vy n * vz n)) -> E = angleAxis a n.
Proof. intros. unfold angleAxis, vscale. apply M3_ext; cbn [m00 m01 m02 m10 m11 m12 m20 m21 m22 vx vy vz]; lra. Qed.
(** M = n n^T for a symmetric M with trace 1 whose 2x2 minors vanish. *)
Lemma rank_one (a b c e f i : R) : a + e + i = 1 -> 0 <= a -> 0 <= e -> 0 <= i -> a * e = b * b -> a * i = c * c -> e * i = f * f -> a * f = b * c -> e * c = b * f -> i * b = c * f ->
  exists x y z, x * x = a /\ y * y = e /\ z * z = i /\ x * y = b /\ x * z = c /\ y * z = f.
Proof.
  intros T A E I' H1 H2 H3 H4 H5 H6.
  assert (G : forall p q r p1 p2 q1 : R, 0 < p -> p * q = p1 * p1 -> p * r = p2 * p2 -> p * q1 = p1 * p2 -> exists x y z, x * x = p /\ y * y = q /\ z * z = r /\ x * y = p1 /\ x * z = p2 /\ y * z = q1).
  { intros p q r p1 p2 q1 P K1 K2 K3. pose proof (sqrt_lt_R0 p P) as SP. pose proof (sqrt_sqrt p (Rlt_le _ _ P)) as SS. exists (sqrt p), (p1 / sqrt p), (p2 / sqrt p).
    assert (Z : forall u v w, p * w = u * v -> u / sqrt p * (v / sqrt p) = w). { intros u v w K. transitivity (u * v / (sqrt p * sqrt p)); [field; lra|]. rewrite SS, <- K. field. lra. }
    split; auto. split; [now apply Z|]. split; [now apply Z|]. split; [field; lra|]. split; [field; lra|]. now apply Z. }
  destruct (Rlt_dec 0 a) as [PA|PA]; [|destruct (Rlt_dec 0 e) as [PE|PE]].
  - destruct (G a e i b c f PA H1 H2 H4) as (x & y & z & K). exists x, y, z. tauto.
  - assert (H1' : e * a = b * b) by lra. destruct (G e a i b f c PE H1' H3 H5) as (y & x & z & K1 & K2 & K3 & K4 & K5 & K6). exists x, y, z. repeat split; auto; lra.
  - assert (PI' : 0 < i) by lra. assert (H2' : i * a = c * c) by lra. assert (H3' : i * e = f * f) by lra. destruct (G i a e c f b PI' H2' H3' H6) as (z & x & y & K1 & K2 & K3 & K4 & K5 & K6). exists x, y, z. repeat split; auto; lra.
Qed.
Theorem euler E : SO3 E -> exists a n, 0 <= a <= PI /\ vdot n n = 1 /\ E = angleAxis a n.
Proof.
  intro S. pose proof (SO3_sym E S) as Q. cbv zeta in Q. set (T := m00 E + m11 E + m22 E) in *. destruct Q as (Q1 & Q2 & Q3 & Q4 & Q5 & Q6).
  set (w1 := m21 E - m12 E) in *. set (w2 := m02 E - m20 E) in *. set (w3 := m10 E - m01 E) in *. set (N := w1 * w1 + w2 * w2 + w3 * w3).
  assert (EN : N = (T + 1) * (3 - T)). { unfold N. rewrite Q1, Q2, Q3. unfold T. ring. }
  assert (N0 : 0 <= N) by (unfold N; pose proof (Rle_0_sqr w1); pose proof (Rle_0_sqr w2); pose proof (Rle_0_sqr w3); unfold Rsqr in *; lra).
  assert (TB : -1 <= T <= 3) by nra.
  pose proof (acos_bound ((T - 1) / 2)) as AB. assert (CA : cos (acos ((T - 1) / 2)) = (T - 1) / 2) by (apply cos_acos; lra).
  destruct (Req_dec T 3) as [T3|T3]; [|destruct (Req_dec T (-1)) as [T1|T1]].
  - exists 0, unitX. split; [pose proof PI_RGT_0; lra|]. split; [unfold vdot, unitX; cbn; ring|].
    assert (Z : N = 0) by (rewrite EN, T3; ring). assert (W : w1 = 0 /\ w2 = 0 /\ w3 = 0) by (unfold N in Z; repeat split; nra). destruct W as (W1 & W2 & W3). rewrite W1, W2, W3, T3 in *.
    apply angleAxis_of; rewrite ?sin_0, ?cos_0; unfold unitX; cbn [vx vy vz]; fold T; try (fold w1); try (fold w2); try (fold w3); try (unfold vdot; cbn [vx vy vz]); lra.
  - assert (Z : N = 0) by (rewrite EN, T1; ring). assert (W : w1 = 0 /\ w2 = 0 /\ w3 = 0) by (unfold N in Z; repeat split; nra). destruct W as (W1 & W2 & W3).
    destruct (SO3_adj E S) as (A1 & A2 & A3 & A4 & A5 & A6 & A7 & A8 & A9). pose proof (SO3_r E S) as K.
    assert (Y1 : m21 E = m12 E) by (unfold w1 in W1; lra). assert (Y2 : m20 E = m02 E) by (unfold w2 in W2; lra). assert (Y3 : m10 E = m01 E) by (unfold w3 in W3; lra).
    assert (TT : m00 E + m11 E + m22 E = -1) by exact T1. rewrite Y1, Y2, Y3 in *. clear Q1 Q2 Q3 Q4 Q5 Q6 W1 W2 W3.
    assert (D0 : m00 E * m00 E + m01 E * m01 E + m02 E * m02 E = 1) by exact (f_equal m00 K). assert (D1 : m10 E * m10 E + m11 E * m11 E + m12 E * m12 E = 1) by exact (f_equal m11 K). assert (D2 : m20 E * m20 E + m21 E * m21 E + m22 E * m22 E = 1) by exact (f_equal m22 K).
    assert (LO : forall u v x : R, u * u + v * v + x * x = 1 -> -1 <= u) by (intros; nra).
    destruct (rank_one ((m00 E + 1) / 2) (m01 E / 2) (m02 E / 2) ((m11 E + 1) / 2) (m12 E / 2) ((m22 E + 1) / 2)) as (x & y & z & X1 & X2 & X3 & X4 & X5 & X6); try lra.
    + assert (-1 <= m00 E) by (apply (LO _ _ _ D0)). lra.
    + assert (-1 <= m11 E) by (apply (LO _ (m10 E) (m12 E)); lra). lra.
    + assert (-1 <= m22 E) by (apply (LO _ (m20 E) (m21 E)); lra). lra.
    + exists PI, (mkV3 x y z). pose proof PI_RGT_0. split; [lra|]. assert (U : vdot (mkV3 x y z) (mkV3 x y z) = 1) by (unfold vdot; cbn [vx vy vz]; lra). split; auto.
      apply angleAxis_of; auto; rewrite ?sin_PI, ?cos_PI; cbn [vx vy vz]; lra.
  - assert (NP : 0 < N) by (rewrite EN; apply Rmult_lt_0_compat; lra). set (s := sqrt N). assert (SP : 0 < s) by (apply sqrt_lt_R0; auto). assert (SS : s * s = N) by (apply sqrt_sqrt; lra).
    assert (SA : sin (acos ((T - 1) / 2)) = s / 2).
    { rewrite sin_acos by lra. apply sqrt_lem_1; [|lra|]. - unfold Rsqr. nra. - unfold Rsqr. transitivity (s * s / 4); [field|]. rewrite SS, EN. field. }
    exists (acos ((T - 1) / 2)), (mkV3 (w1 / s) (w2 / s) (w3 / s)). split; [lra|].
    assert (SQ : forall u v, u / s * (v / s) = u * v / N) by (intros u v; rewrite <- SS; field; lra).
    assert (U : vdot (mkV3 (w1 / s) (w2 / s) (w3 / s)) (mkV3 (w1 / s) (w2 / s) (w3 / s)) = 1) by (unfold vdot; cbn [vx vy vz]; rewrite !SQ; transitivity (N / N); [unfold N at 4; field; lra|field; lra]).
    split; auto. assert (T1' : T + 1 <> 0) by lra. assert (T3' : 3 - T <> 0) by lra.
    apply angleAxis_of; auto; rewrite ?CA, ?SA; cbn [vx vy vz]; fold T; try (fold w1); try (fold w2); try (fold w3); rewrite ?SQ, ?Q1, ?Q2, ?Q3, ?Q4, ?Q5, ?Q6, ?EN; field; repeat split; lra.
Qed.
