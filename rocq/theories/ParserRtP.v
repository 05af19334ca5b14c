(** Proofs about the readers and writers: what is written is read back. *)
From Coq Require Import Reals String ZArith Bool Arith List Lra Lia.
From Verif Require Import Res ResP SMap Vec VecP Sva SvaP JointM JointP MultiBodyM GraphM ParserM YamlM SpecParser EulerP ParserRotP.
Import ListNotations.
Open Scope R_scope.

(** ** isZero. *)
Lemma small_0 : small 0 = true.
Proof. unfold small, prec. destruct (Rle_dec _ _) as [|n]; auto. rewrite Rabs_R0 in n. lra. Qed.
Lemma small_big x : 1 / 1000000000000 < Rabs x -> small x = false.
Proof. intro H. unfold small, prec. destruct (Rle_dec _ _); auto. lra. Qed.
Lemma isZero_v0 : isZero3 v0 = true.
Proof. unfold isZero3, v0. cbn [vx vy vz]. now rewrite small_0. Qed.
Lemma visible_dec v : visible v -> if isZero3 v then v = v0 else True.
Proof.
  intros [->|H]; [now rewrite isZero_v0|]. destruct (isZero3 v) eqn:E; auto. exfalso. unfold isZero3 in E. apply andb_true_iff in E. destruct E as (E & E3). apply andb_true_iff in E. destruct E as (E1 & E2).
  destruct H as [H|[H|H]]; apply small_big in H; congruence.
Qed.
Lemma v3_eta v : mkV3 (vx v) (vy v) (vz v) = v. Proof. now destruct v. Qed.

(** ** Frames. *)
Lemma euler_0 : euler_xyz 0 0 0 = mid.
Proof. rewrite euler_xyz_eq. rewrite sin_0, cos_0. unfold mid. f_equal; ring. Qed.
Lemma euler_zyx_0 : euler_zyx 0 0 0 = mid.
Proof. rewrite euler_zyx_eq. rewrite sin_0, cos_0. unfold mid. f_equal; ring. Qed.
Lemma yaml_frame euler X : visible (trR X) -> visible (euler (mtr (rotE X))) ->
  let v := euler (mtr (rotE X)) in
  yaml_pt false (yw_frame euler X) = Ok (mkPT (mtr (euler_xyz (vx v) (vy v) (vz v))) (trR X)).
Proof.
  intros V1 V2 v. apply visible_dec in V1, V2. fold v in V2. unfold yaml_pt, yw_frame. fold v.
  destruct (isZero3 (trR X)) eqn:E1; destruct (isZero3 v) eqn:E2; cbn [andb parseFrame bind yf_xyz yf_rpy yf_deg as_or as_vec yw_vec3d elems three fst snd vx vy vz];
    rewrite MatrixFromRPY_eq; rewrite ?V1, ?V2, ?v3_eta; reflexivity.
Qed.
Lemma yaml_frame_rt euler X : euler_ok euler -> SO3 (rotE X) -> visible (trR X) -> visible (euler (mtr (rotE X))) ->
  yaml_pt false (yw_frame euler X) = Ok X.
Proof.
  intros EO S V1 V2. rewrite yaml_frame by auto. rewrite <- (EO (mtr (rotE X))) by now apply SO3_tr. rewrite mtr_mtr. now destruct X.
Qed.
Lemma urdf_frame W X : exact_text W -> visible (trR X) -> visible (w_euler W (mtr (rotE X))) ->
  let v := w_euler W (mtr (rotE X)) in
  read_origin (wr_origin W X) = Ok (mkPT (mtr (euler_zyx (vx v) (vy v) (vz v))) (trR X)).
Proof.
  intros ET V1 V2 v. apply visible_dec in V1, V2. fold v in V2. unfold wr_origin. fold v.
  assert (M : mtr mid = mid) by reflexivity.
  destruct (isZero3 (trR X)) eqn:E1; destruct (isZero3 v) eqn:E2;
    cbn [andb read_origin bind uo_xyz uo_rpy attrToList attrToVector wr_vec3d nums RPY_list]; unfold attrToVector; cbn [attrToList nums vx vy vz v0]; rewrite ?ET, ?RPY_eq, ?V1, ?V2, ?v3_eta; cbn [vx vy vz v0]; rewrite ?euler_zyx_0, ?M; reflexivity.
Qed.
Lemma mtr_inj A B : mtr A = mtr B -> A = B.
Proof. intro H. rewrite <- (mtr_mtr A), H. apply mtr_mtr. Qed.
Lemma urdf_frame_iff W X : exact_text W -> euler_ok (w_euler W) -> SO3 (rotE X) -> visible (trR X) -> visible (w_euler W (mtr (rotE X))) ->
  let v := w_euler W (mtr (rotE X)) in
  read_origin (wr_origin W X) = Ok X <-> euler_zyx (vx v) (vy v) (vz v) = euler_xyz (vx v) (vy v) (vz v).
Proof.
  intros ET EO S V1 V2 v. pose proof (urdf_frame W X ET V1 V2) as H. cbv zeta in H. fold v in H. rewrite H.
  pose proof (EO (mtr (rotE X)) (SO3_tr _ S)) as EX. fold v in EX. rewrite <- EX. clear H EX. split.
  - intro E. injection E as E. apply (f_equal rotE) in E. cbn [rotE] in E. apply mtr_inj. now rewrite mtr_mtr.
  - intros ->. rewrite mtr_mtr. now destruct X.
Qed.
(** The two conventions agree when at most one angle is not zero. *)
Lemma rpy_one r p y : (p = 0 /\ y = 0) \/ (r = 0 /\ y = 0) \/ (r = 0 /\ p = 0) -> euler_zyx r p y = euler_xyz r p y.
Proof.
  rewrite euler_zyx_eq, euler_xyz_eq. intros [(-> & ->)|[(-> & ->)|(-> & ->)]]; rewrite ?sin_0, ?cos_0; f_equal; ring.
Qed.
Lemma rpy_disagree : euler_zyx (PI / 2) 0 (PI / 2) <> euler_xyz (PI / 2) 0 (PI / 2).
Proof.
  rewrite euler_zyx_eq, euler_xyz_eq. rewrite sin_PI2, cos_PI2, sin_0, cos_0. intro H. injection H. intros. lra.
Qed.
(** Rotations about X, Z, and about Y by less or more than a right angle. *)
Lemma sc t : sin t * sin t + cos t * cos t = 1.
Proof. pose proof (sin2_cos2 t) as H. unfold Rsqr in H. exact H. Qed.
Lemma cp_cy a b : a * b = 1 -> a * a <= 1 -> b * b <= 1 -> a = b.
Proof. intros. assert ((a - b) * (a - b) <= 0) by lra. assert (a - b = 0) by nra. lra. Qed.
Lemma sin_z t : cos t * cos t = 1 -> sin t = 0.
Proof. intro H. pose proof (sc t). nra. Qed.
Lemma axis_agree t u r p y : u = unitX \/ u = unitZ \/ (u = unitY /\ cos t <> 0) -> angleAxis t u = euler_xyz r p y -> euler_zyx r p y = euler_xyz r p y.
Proof.
  intros U H. rewrite euler_xyz_eq in *. rewrite euler_zyx_eq. unfold angleAxis, vscale in H. cbn [vx vy vz] in H. injection H as H1 H2 H3 H4 H5 H6 H7 H8 H9.
  pose proof (sc r) as R1. pose proof (sc p) as R2. pose proof (sc y) as R3. pose proof (sc t) as R4.
  destruct U as [->|[->|(-> & N)]]; cbn [vx vy vz unitX unitY unitZ] in *.
  - assert (Q : cos p = cos y) by (apply cp_cy; nra). assert (S1 : sin p = 0) by lra. rewrite S1 in *. assert (S2 : sin y = 0). { apply sin_z. rewrite <- Q at 1. lra. }
    rewrite S2, Q. f_equal; ring.
  - assert (Q : cos r = cos p) by (apply cp_cy; nra). assert (S1 : sin p = 0) by lra. rewrite S1 in *. assert (S2 : sin r = 0). { apply sin_z. rewrite Q at 2. lra. }
    rewrite S2, Q. f_equal; ring.
  - assert (CP : cos p <> 0). { intro Z. rewrite Z in *. lra. }
    assert (S1 : sin y = 0). { assert (E : cos p * sin y = 0) by lra. apply Rmult_integral in E. tauto. }
    assert (S2 : sin r = 0). { assert (E : sin r * cos p = 0) by lra. apply Rmult_integral in E. tauto. }
    rewrite S1, S2 in *. assert (Q : cos r = cos y) by (apply cp_cy; lra). assert (cos y * cos y = 1) by lra.
    rewrite Q. f_equal; try ring; try (ring [H]).
Qed.
Lemma angleAxis_tr t u : mtr (angleAxis t u) = angleAxis (- t) u.
Proof. unfold angleAxis, mtr, vscale. cbn [m00 m01 m02 m10 m11 m12 m20 m21 m22 vx vy vz]. rewrite cos_neg, sin_neg. f_equal; ring. Qed.
Lemma urdf_axis W X t u : exact_text W -> euler_ok (w_euler W) -> rotE X = angleAxis t u -> u = unitX \/ u = unitZ \/ (u = unitY /\ cos t <> 0) ->
  visible (trR X) -> visible (w_euler W (mtr (rotE X))) -> read_origin (wr_origin W X) = Ok X.
Proof.
  intros ET EO RX U V1 V2. assert (UU : vdot u u = 1) by (destruct U as [->|[->|(-> & _)]]; auto using uX, uY, uZ).
  assert (S : SO3 (rotE X)) by (rewrite RX; now apply SO3_angleAxis).
  apply urdf_frame_iff; auto. apply (axis_agree (- t) u).
  - destruct U as [->|[->|(-> & N)]]; auto. right. right. now rewrite cos_neg.
  - rewrite <- angleAxis_tr, <- RX. apply EO. now apply SO3_tr.
Qed.
(** A rotation that no to_urdf / from_urdf pair gives back. *)
Definition bad_rot : M3 := euler_xyz (PI / 2) 0 (PI / 2).
Lemma bad_eq : bad_rot = mkM3 0 (-1) 0 0 0 (-1) 1 0 0.
Proof. unfold bad_rot. rewrite euler_xyz_eq, sin_PI2, cos_PI2, sin_0, cos_0. f_equal; ring. Qed.
Lemma urdf_bad W : exact_text W -> euler_ok (w_euler W) -> read_origin (wr_origin W (mkPT (mtr bad_rot) v0)) <> Ok (mkPT (mtr bad_rot) v0).
Proof.
  intros ET EO. unfold wr_origin. cbn [rotE trR]. rewrite mtr_mtr, isZero_v0. pose proof (EO bad_rot (SO3_euler_xyz _ _ _)) as H.
  set (v := w_euler W bad_rot) in *.
  assert (B : mid <> mtr bad_rot). { rewrite bad_eq. intro E. injection E. intros. lra. }
  destruct (isZero3 v); cbn [andb read_origin bind uo_rpy uo_xyz attrToList wr_vec3d nums RPY_list].
  - intro E. apply B. exact (f_equal (fun r => match r with Ok x => rotE x | _ => mid end) E).
  - rewrite !ET. intro E. apply (f_equal (fun r => match r with Ok x => rotE x | _ => mid end)) in E. cbn [rotE] in E. rewrite RPY_eq in E. apply mtr_inj in E.
    rewrite bad_eq, euler_xyz_eq in H. rewrite bad_eq, euler_zyx_eq in E. injection H as _ _ h02 _ _ _ _ _ h22. injection E as _ e01 _ _ _ _ _ _ _.
    pose proof (sc (vy v)) as Q. rewrite <- h02 in Q, e01. assert (C : cos (vx v) = 0).
    { symmetry in h22. apply Rmult_integral in h22. destruct h22 as [|K]; auto. rewrite K in Q. lra. }
    rewrite C in e01. lra.
Qed.
(** ** Six digits. *)
Lemma six_no : ~ six_digits (10000001 / 10000000).
Proof.
  intros (m & e & B & H).
  assert (G : forall k : nat, IZR (10 ^ Z.of_nat k) = powerRZ 10 (Z.of_nat k)). { intro k. rewrite <- pow_powerRZ. rewrite <- pow_IZR. reflexivity. }
  destruct (Z_lt_le_dec e (-7)) as [L|L].
  - set (k := Z.to_nat (-7 - e)). assert (K : (e = -7 - Z.of_nat k)%Z) by lia. assert (M : IZR m = IZR (10000001 * 10 ^ Z.of_nat k)).
    { rewrite mult_IZR, G. assert (E : powerRZ 10 e * powerRZ 10 (Z.of_nat k) = 1 / 10000000).
      { rewrite <- powerRZ_add by lra. replace (e + Z.of_nat k)%Z with (-7)%Z by lia. change (powerRZ 10 (-7)) with (/ 10 ^ 7). cbn [pow]. field. }
      replace (IZR m) with (IZR m * (powerRZ 10 e * powerRZ 10 (Z.of_nat k)) * 10000000) by (rewrite E; field). rewrite <- Rmult_assoc, <- H. field. }
    apply eq_IZR in M. assert (1 <= 10 ^ Z.of_nat k)%Z by (pose proof (Z.pow_pos_nonneg 10 (Z.of_nat k) ltac:(lia) ltac:(lia)); lia). lia.
  - set (k := Z.to_nat (e + 7)). assert (K : (e = Z.of_nat k - 7)%Z) by lia. assert (M : IZR 10000001 = IZR (m * 10 ^ Z.of_nat k)).
    { rewrite mult_IZR, G. assert (E : powerRZ 10 (Z.of_nat k) = powerRZ 10 e * 10000000).
      { replace (Z.of_nat k) with (e + 7)%Z by lia. rewrite powerRZ_add by lra. change (powerRZ 10 7) with (10 ^ 7). cbn [pow]. ring. }
      rewrite E, <- Rmult_assoc, <- H. field. }
    apply eq_IZR in M. destruct k as [|k]; [change (10 ^ Z.of_nat 0)%Z with 1%Z in M; lia|].
    rewrite Nat2Z.inj_succ, Z.pow_succ_r in M by lia. assert ((10000001 mod 10)%Z = 0%Z); [|discriminate].
    rewrite M. replace (m * (10 * 10 ^ Z.of_nat k))%Z with ((m * 10 ^ Z.of_nat k) * 10)%Z by ring. apply Z.mod_mul. lia.
Qed.
Lemma urdf_digits W : (forall x, six_digits (w_num W x)) ->
  let X := mkPT mid (mkV3 (10000001 / 10000000) 0 0) in read_origin (wr_origin W X) <> Ok X.
Proof.
  intros D X. unfold wr_origin, X. cbn [rotE trR]. assert (Z : isZero3 (mkV3 (10000001 / 10000000) 0 0) = false).
  { unfold isZero3. cbn [vx vy vz]. rewrite small_big; auto. rewrite Rabs_right; lra. }
  rewrite Z. cbn [andb read_origin uo_rpy uo_xyz wr_vec3d]. match goal with |- context [RPY_list ?l] => destruct (RPY_list l) end; cbn [bind]; try discriminate.
  unfold attrToVector. cbn [attrToList nums]. intro E. injection E as _ E _ _. apply six_no. rewrite <- E. apply D.
Qed.
