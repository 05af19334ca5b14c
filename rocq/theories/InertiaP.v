(** Lemmas: the inertia that the readers of descriptions make. *)
From Coq Require Import Reals String ZArith Bool Arith List Lia Lra.
From Verif Require Import Res ResP SMap Vec VecP Sva JointM MultiBodyM ParserM YamlM GeomM Spec SpecParser SpecGeom SpecIne ParserP ParserRotP ParserRtP GeomP GeomYamlP.
Import ListNotations.
Open Scope R_scope.

Lemma mtr_mtr A : mtr (mtr A) = A. Proof. now destruct A. Qed.
Lemma cong_sym xx yy zz xy xz yz A : exists a b c d e f, mmul (mmul A (sym_of xx yy zz xy xz yz)) (mtr A) = sym_of a b c d e f.
Proof.
  set (M := mmul (mmul A (sym_of xx yy zz xy xz yz)) (mtr A)). exists (m00 M), (m11 M), (m22 M), (m01 M), (m02 M), (m12 M).
  unfold M, sym_of, mmul, mtr; cbn [m00 m01 m02 m10 m11 m12 m20 m21 m22]. f_equal; ring.
Qed.
Lemma cong_energy A I w : vdot w (mapp (mmul (mmul A I) (mtr A)) w) = vdot (mapp (mtr A) w) (mapp I (mapp (mtr A) w)).
Proof. unfold vdot, mapp, mmul, mtr; cbn [m00 m01 m02 m10 m11 m12 m20 m21 m22 vx vy vz]. ring. Qed.
Lemma point_energy m c w : vdot w (mapp (mmul (mcross (vscale m c)) (mtr (mcross c))) w) = m * vdot (vcross w c) (vcross w c).
Proof. unfold vdot, mapp, mmul, mtr, mcross, vscale, vcross; cbn [m00 m01 m02 m10 m11 m12 m20 m21 m22 vx vy vz]. ring. Qed.
Lemma mapp_madd A B w : vdot w (mapp (madd A B) w) = vdot w (mapp A w) + vdot w (mapp B w).
Proof. unfold vdot, mapp, madd; cbn [m00 m01 m02 m10 m11 m12 m20 m21 m22 vx vy vz]. ring. Qed.
Lemma sym_back A : m01 A = m10 A -> m02 A = m20 A -> m12 A = m21 A -> sym_mat (sym_lower A) = A.
Proof. destruct A; cbn. intros -> -> ->. reflexivity. Qed.
Lemma origin_has n m c rot xx yy zz xy xz yz : has_inertia (body_mci m c (inertiaToOrigin (sym_of xx yy zz xy xz yz) m c rot) n) m c rot (sym_of xx yy zz xy xz yz).
Proof.
  split; [reflexivity|]. split; [reflexivity|]. intro w. cbn [body_mci binertia iine]. rewrite sym_back.
  - unfold inertiaToOrigin, turn_energy. now rewrite mapp_madd, cong_energy, point_energy.
  - unfold inertiaToOrigin. destruct (cong_sym xx yy zz xy xz yz rot) as (a & b & d & e & f & g & ->). destruct c. cbn. ring.
  - unfold inertiaToOrigin. destruct (cong_sym xx yy zz xy xz yz rot) as (a & b & d & e & f & g & ->). destruct c. cbn. ring.
  - unfold inertiaToOrigin. destruct (cong_sym xx yy zz xy xz yz rot) as (a & b & d & e & f & g & ->). destruct c. cbn. ring.
Qed.
Lemma plain_sym n m c xx yy zz xy xz yz : sym_mat (iine (binertia (body_mci m c (sym_of xx yy zz xy xz yz) n))) = sym_of xx yy zz xy xz yz.
Proof. reflexivity. Qed.
Lemma RPY_000 : RPY 0 0 0 = mid.
Proof. unfold RPY. rewrite cos_0, sin_0. unfold mtr, mid; cbn [m00 m01 m02 m10 m11 m12 m20 m21 m22]. f_equal; ring. Qed.
Lemma urdf_read u m c F I n tf : urdf_inertial u m c F I -> read_body tf n (Some u) = Ok (body_mci m c (if tf then inertiaToOrigin I m c (mtr F) else I) n).
Proof.
  intros [X a m' i xx yy zz xy xz yz HX Ha Hm Hi H1 H2 H3 H4 H5 H6]. apply origin_iff in HX. apply double_iff in Hm, H1, H2, H3, H4, H5, H6. rewrite mtr_mtr.
  unfold read_body. rewrite Ha, Hi. cbn [deref bind].
  assert (EX : RPY_list (match ui_origin u with Some o => attrToList (uo_rpy o) [0; 0; 0] | None => [0; 0; 0] end) = Ok (rotE X) /\
               match ui_origin u with Some o => attrToVector (uo_xyz o) v0 | None => v0 end = trR X).
  { destruct (ui_origin u) as [o|]; cbn [read_origin] in HX.
    - destruct (RPY_list _) as [E| | |] eqn:ER; cbn [bind] in HX; try discriminate. injection HX as <-. auto.
    - injection HX as <-. cbn [RPY_list]. now rewrite RPY_000. }
  destruct EX as (-> & ->). cbn [bind]. unfold readInertia. rewrite Hm, H1, H2, H3, H4, H5, H6. reflexivity.
Qed.
Lemma ynum_iff o d x : ynum_or o d x <-> as_num o d = x.
Proof.
  unfold ynum_or, given_num. destruct o as [[a|l|]|]; cbn [as_num].
  - split; [intros [H|(H & _)]; [congruence|exfalso; now apply (H a)]|intros ->; now left].
  - split; [intros [H|(_ & ->)]; [discriminate|reflexivity]|]. intros ->. right. split; [discriminate|reflexivity].
  - split; [intros [H|(_ & ->)]; [discriminate|reflexivity]|]. intros ->. right. split; [discriminate|reflexivity].
  - split; [intros [H|(_ & ->)]; [discriminate|reflexivity]|]. intros ->. right. split; [discriminate|reflexivity].
Qed.
Lemma yaml_ine_is i I : yaml_inertia i I -> parseInertia i = I.
Proof. intros [|i' xx yy zz xy xz yz H1 H2 H3 H4 H5 H6]; [reflexivity|]. apply ynum_iff in H1, H2, H3, H4, H5, H6. unfold parseInertia, makeInertia. now rewrite H1, H2, H3, H4, H5, H6. Qed.
Lemma yaml_read deg i m c F I n tf : yaml_inertial deg i m c F I -> parseInertial deg tf n (Some i) = Ok (body_mci m c (if tf then inertiaToOrigin I m c (mtr F) else I) n).
Proof.
  intros [X m' I' HX Hm HI]. apply frame_at_iff in HX. destruct HX as (xyz & rpy & EF & ->). apply ynum_iff in Hm. cbn [rotE trR]. rewrite mtr_mtr.
  unfold parseInertial. rewrite Hm, EF, (yaml_ine_is _ _ HI). cbn [bind]. reflexivity.
Qed.
Lemma urdf_shape_I u m c F I : urdf_inertial u m c F I -> exists xx yy zz xy xz yz, I = sym_of xx yy zz xy xz yz.
Proof. intros []. eauto 10. Qed.
Lemma yaml_shape_I deg i m c F I : yaml_inertial deg i m c F I -> exists xx yy zz xy xz yz, I = sym_of xx yy zz xy xz yz.
Proof. intros [X m' I' _ _ []]; eauto 10. Qed.
Lemma urdf_turned u m c F I n : urdf_inertial u m c F I -> exists b, read_body true n (Some u) = Ok b /\ bname b = n /\ has_inertia b m c (mtr F) I.
Proof. intro H. rewrite (urdf_read _ _ _ _ _ n true H). destruct (urdf_shape_I _ _ _ _ _ H) as (xx & yy & zz & xy & xz & yz & ->). eexists. split; [reflexivity|]. split; [reflexivity|]. apply origin_has. Qed.
Lemma yaml_turned deg i m c F I n : yaml_inertial deg i m c F I -> exists b, parseInertial deg true n (Some i) = Ok b /\ bname b = n /\ has_inertia b m c (mtr F) I.
Proof. intro H. rewrite (yaml_read _ _ _ _ _ _ n true H). destruct (yaml_shape_I _ _ _ _ _ _ H) as (xx & yy & zz & xy & xz & yz & ->). eexists. split; [reflexivity|]. split; [reflexivity|]. apply origin_has. Qed.
Lemma urdf_as_is u m c F I n : urdf_inertial u m c F I -> exists b, read_body false n (Some u) = Ok b /\ bname b = n /\ imass (binertia b) = m /\ imom (binertia b) = vscale m c /\ sym_mat (iine (binertia b)) = I.
Proof. intro H. rewrite (urdf_read _ _ _ _ _ n false H). destruct (urdf_shape_I _ _ _ _ _ H) as (xx & yy & zz & xy & xz & yz & ->). eexists. repeat (split; [reflexivity|]). reflexivity. Qed.
Lemma yaml_as_is deg i m c F I n : yaml_inertial deg i m c F I -> exists b, parseInertial deg false n (Some i) = Ok b /\ bname b = n /\ imass (binertia b) = m /\ imom (binertia b) = vscale m c /\ sym_mat (iine (binertia b)) = I.
Proof. intro H. rewrite (yaml_read _ _ _ _ _ _ n false H). destruct (yaml_shape_I _ _ _ _ _ _ H) as (xx & yy & zz & xy & xz & yz & ->). eexists. repeat (split; [reflexivity|]). reflexivity. Qed.

(** A quarter turn about Z and an inertia with a product of inertia of x and z. *)
Definition quarter_u : UInertial :=
  mkUIn (Some (mkUO None (Some [TNum 0; TNum 0; TNum (PI / 2)]))) (Some (Some [TNum 2]))
    (Some (mkUI (Some [TNum 1]) None (Some [TNum (1/10)]) (Some [TNum 1]) None (Some [TNum 1]))).
Definition quarter_y : YInertial :=
  mkYIn (Some (YNum 2)) (Some (mkYF None (Some (YSeq [YNum 0; YNum 0; YNum 90])) None))
    (Some (mkYI None None None None (Some (YNum (1/10))) None)).
Definition quarter : M3 := mkM3 0 (-1) 0 1 0 0 0 0 1.
Lemma zyx_quarter : euler_zyx 0 0 (PI / 2) = quarter.
Proof. apply mtr_inj. rewrite <- RPY_eq. unfold RPY. rewrite cos_PI2, sin_PI2, cos_0, sin_0. unfold quarter, mtr; cbn [m00 m01 m02 m10 m11 m12 m20 m21 m22]. f_equal; ring. Qed.
Lemma xyz_quarter : euler_xyz 0 0 (PI / 2) = quarter.
Proof. rewrite <- zyx_quarter. symmetry. apply rpy_one. auto. Qed.
Lemma quarter_u_says : urdf_inertial quarter_u 2 v0 quarter (sym_of 1 1 1 0 (1/10) 0).
Proof.
  rewrite <- zyx_quarter. rewrite <- (mtr_mtr (euler_zyx 0 0 (PI / 2))). change v0 with (trR (mkPT (mtr (euler_zyx 0 0 (PI / 2))) v0)). change (mtr (euler_zyx 0 0 (PI / 2))) with (rotE (mkPT (mtr (euler_zyx 0 0 (PI / 2))) v0)) at 2.
  eapply uin; try reflexivity; try (left; eexists; reflexivity); try (right; split; [discriminate|reflexivity]).
  apply uo_some; [right; split; [intros x y z [H|(t & H)]; discriminate|reflexivity]|]. left. left. reflexivity.
Qed.
Lemma quarter_y_says : yaml_inertial true quarter_y 2 v0 quarter (sym_of 1 1 1 0 (1/10) 0).
Proof.
  rewrite <- xyz_quarter. rewrite <- (mtr_mtr (euler_xyz 0 0 (PI / 2))). change v0 with (trR (mkPT (mtr (euler_xyz 0 0 (PI / 2))) v0)). change (mtr (euler_xyz 0 0 (PI / 2))) with (rotE (mkPT (mtr (euler_xyz 0 0 (PI / 2))) v0)) at 2.
  apply yin; [|now left|].
  - apply frame_at_iff. exists v0, (vscale (PI / 180) (mkV3 0 0 90)). split; [reflexivity|]. rewrite MatrixFromRPY_eq. do 3 f_equal; cbn; field.
  - apply yin_some; try (left; reflexivity); right; (split; [discriminate|reflexivity]).
Qed.
Lemma quarter_not b : has_inertia b 2 v0 (mtr quarter) (sym_of 1 1 1 0 (1/10) 0) -> ~ has_inertia b 2 v0 quarter (sym_of 1 1 1 0 (1/10) 0).
Proof.
  intros (_ & _ & H) (_ & _ & H'). specialize (H (mkV3 0 1 1)). rewrite (H' (mkV3 0 1 1)) in H.
  unfold turn_energy, quarter, sym_of, vdot, mapp, mtr, vcross, v0 in H; cbn [m00 m01 m02 m10 m11 m12 m20 m21 m22 vx vy vz] in H. lra.
Qed.
(** No rotation. *)
Definition straight_u : UInertial :=
  mkUIn (Some (mkUO (Some [TNum 1; TNum 2; TNum 3]) None)) (Some (Some [TNum 2]))
    (Some (mkUI (Some [TNum 1]) None (Some [TNum (1/10)]) (Some [TNum 1]) None (Some [TNum 1]))).
Definition straight_y : YInertial :=
  mkYIn (Some (YNum 2)) (Some (mkYF (Some (YSeq [YNum 1; YNum 2; YNum 3])) None None))
    (Some (mkYI None None None None (Some (YNum (1/10))) None)).
Lemma straight_u_says : urdf_inertial straight_u 2 (mkV3 1 2 3) mid (sym_of 1 1 1 0 (1/10) 0).
Proof.
  change mid with (mtr (rotE (mkPT mid (mkV3 1 2 3)))). change (mkV3 1 2 3) with (trR (mkPT mid (mkV3 1 2 3))) at 1.
  eapply uin; try reflexivity; try (left; eexists; reflexivity); try (right; split; [discriminate|reflexivity]).
  apply origin_iff. cbn [straight_u ui_origin read_origin uo_rpy uo_xyz attrToList RPY_list bind]. now rewrite RPY_000.
Qed.
Lemma straight_y_says : yaml_inertial true straight_y 2 (mkV3 1 2 3) mid (sym_of 1 1 1 0 (1/10) 0).
Proof.
  change mid with (mtr (rotE (mkPT mid (mkV3 1 2 3)))). change (mkV3 1 2 3) with (trR (mkPT mid (mkV3 1 2 3))) at 1.
  apply yin; [|now left|].
  - apply frame_at_iff. exists (mkV3 1 2 3), v0. split; [reflexivity|]. rewrite MatrixFromRPY_eq. cbn [vx vy vz v0]. now rewrite euler_0.
  - apply yin_some; try (left; reflexivity); right; (split; [discriminate|reflexivity]).
Qed.

Lemma conventions_agree : forall I m c rot, c = v0 \/ rot = mid ->
  inertiaToOrigin I m c rot = inertiaToOrigin_all_turned I m c rot.
Proof.
  intros I m c rot [E|E]; rewrite E; unfold inertiaToOrigin, inertiaToOrigin_all_turned.
  - assert (Z : mmul (mcross (vscale m v0)) (mtr (mcross v0)) = mzero).
    { unfold vscale, mcross, mtr, mmul, v0, mzero; cbn [m00 m01 m02 m10 m11 m12 m20 m21 m22 vx vy vz]. f_equal; ring. }
    rewrite Z. assert (A : forall M, madd M mzero = M).
    { intros [a1 a2 a3 a4 a5 a6 a7 a8 a9]. unfold madd, mzero; cbn [m00 m01 m02 m10 m11 m12 m20 m21 m22]. f_equal; ring. }
    now rewrite !A.
  - assert (L : forall M, mmul mid M = M).
    { intros [a1 a2 a3 a4 a5 a6 a7 a8 a9]. unfold mmul, mid; cbn [m00 m01 m02 m10 m11 m12 m20 m21 m22]. f_equal; ring. }
    assert (R' : forall M, mmul M (mtr mid) = M).
    { intros [a1 a2 a3 a4 a5 a6 a7 a8 a9]. unfold mmul, mtr, mid; cbn [m00 m01 m02 m10 m11 m12 m20 m21 m22]. f_equal; ring. }
    now rewrite !L, !R'.
Qed.
