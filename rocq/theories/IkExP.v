(** Inverse kinematics of concrete robots. *)
From Coq Require Import Reals String ZArith Bool Arith List Lia Lra.
From Verif Require Import Res ResP Vec VecP Sva SvaP Mat JointM MultiBodyM KinM JacM IkM Spec SpecDeriv SpecJac SpecIk JointP KinP KinFinP MbP JacP JacFinP IkP Ex.
Import ListNotations.
Open Scope R_scope.

(** A solver exact for one column, and some rotation error. *)
Definition exk_svd (A : list SV) (v : SV) : list R := map (fun c => svdot c v / svdot c c) A.
Definition exk_err (E F : M3) : V3 := vsub (mapp F unitX) (mapp E unitX).
Lemma exk_svd_len A v : length (exk_svd A v) = length A. Proof. apply map_length. Qed.
Lemma exk_svd_0 A d : co (exk_svd A sv0) d = 0.
Proof.
  unfold co, exk_svd. revert d. induction A as [|c A IH]; intros [|d]; cbn [map nth]; auto. unfold svdot, vdot, sv0, v0; cbn [sang slin vx vy vz]. unfold Rdiv. ring.
Qed.
Lemma exk_err_0 E : exk_err E E = v0.
Proof. unfold exk_err, vsub, v0. f_equal; ring. Qed.

(** A revolute joint then a prismatic one. *)
Definition exk_bodies : list Body := [mkBody (mkRBI 1 v0 (mkSym 1 0 0 1 0 1)) "arm"%string; mkBody (mkRBI 1 v0 (mkSym 1 0 0 1 0 1)) "hand"%string].
Definition exk_joints : list Joint := [mkJ Rev unitZ true "shoulder"%string; mkJ Prism unitX true "slide"%string].
Definition exk_mb : MultiBody := match MultiBody_ctor exk_bodies exk_joints [-1; 0]%Z [0; 1]%Z [-1; 0]%Z [ptid; pttr (mkV3 0 1 0)] with Ok mb => mb | _ => mkMB [] [] [] [] [] [] [] [] [] [] 0 0 end.
Lemma exk_wf : wf_mb exk_mb.
Proof.
  apply (MultiBody_ctor_wf exk_bodies exk_joints [-1; 0]%Z [0; 1]%Z [ptid; pttr (mkV3 0 1 0)]); [|reflexivity]. constructor; try reflexivity.
  - intros i z H. do 2 (destruct i as [|i]; [simpl in H; injection H as <-; lia|]). destruct i; discriminate.
  - intros j [<-|[<-|[]]]; apply joint_unit_ok; [exists unitZ; split; [apply unitZ_unit|constructor]|exists unitX; split; [apply unitX_unit|constructor]].
Qed.
Definition exk_m : MBC := MBC_ctor ex_garbage exk_mb.
Lemma exk_mbc_ok : mbc_ok exk_mb exk_m. Proof. exact (MBC_ctor_ok ex_garbage exk_mb eq_refl). Qed.
Definition exk_J : Jac := mkJac [0; 1]%nat [1; 1] (pttr v0) [sv0; sv0] [sv0; sv0] 1 0.
Definition exk_I : IK := mkIK 50 (9 / 10) (/ 10 ^ 8) (/ 10 ^ 8) 1 exk_J.
Lemma exk_ctor : IK_ctor (fun _ _ => sv0) exk_mb 1 = Ok exk_I. Proof. reflexivity. Qed.
Lemma exk_J_of : jacobian_of exk_mb 1 v0 exk_J.
Proof. constructor; try reflexivity. change (jc_path exk_J) with ([0] ++ [1])%nat. apply rp_step with 0%nat; [reflexivity|]. now apply rp_root. Qed.
Lemma exk_plain k : In k (jc_path exk_J) -> plain (jtyp (nth k (mb_joints exk_mb) jd)).
Proof. intros [<-|[<-|[]]]; split; discriminate. Qed.

(** One prismatic joint; the step factor is 3. *)
Definition exs_bodies : list Body := [mkBody (mkRBI 1 v0 (mkSym 1 0 0 1 0 1)) "hand"%string].
Definition exs_joints : list Joint := [mkJ Prism unitX true "slide"%string].
Definition exs_mb : MultiBody := match MultiBody_ctor exs_bodies exs_joints [-1]%Z [0]%Z [-1]%Z [ptid] with Ok mb => mb | _ => mkMB [] [] [] [] [] [] [] [] [] [] 0 0 end.
Lemma exs_wf : wf_mb exs_mb.
Proof.
  apply (MultiBody_ctor_wf exs_bodies exs_joints [-1]%Z [0]%Z [ptid]); [|reflexivity]. constructor; try reflexivity.
  - intros i z H. destruct i as [|i]; [simpl in H; injection H as <-; lia|]. destruct i; discriminate.
  - intros j [<-|[]]; apply joint_unit_ok; exists unitX; split; [apply unitX_unit|constructor].
Qed.
Definition exs_m : MBC := MBC_ctor ex_garbage exs_mb.
Lemma exs_mbc_ok : mbc_ok exs_mb exs_m. Proof. exact (MBC_ctor_ok ex_garbage exs_mb eq_refl). Qed.
Definition exs_J : Jac := mkJac [0]%nat [1] (pttr v0) [sv0] [sv0] 0 0.
Definition exs_I : IK := mkIK 50 3 1 (/ 10 ^ 8) 0 exs_J.
Definition exs_target : PT := pttr (mkV3 (1 / 2) 0 0).
Lemma exs_J_of : jacobian_of exs_mb 0 v0 exs_J. Proof. constructor; try reflexivity. now apply rp_root. Qed.
Lemma exs_plain k : In k (jc_path exs_J) -> plain (jtyp (nth k (mb_joints exs_mb) jd)).
Proof. intros [<-|[]]; split; discriminate. Qed.
Lemma exs_pos m m' x : mbc_ok exs_mb m -> forwardKinematics exs_mb m = Ok m' -> nth 0 (q m) [] = [x] -> nth 0 (bodyPosW m') ptid = pttr (mkV3 x 0 0) /\ nth 0 (motionSubspace m') [] = jS (mkJ Prism unitX true "slide"%string).
Proof.
  intros K E Q. pose proof (FK_run _ _ _ exs_wf K E) as F. assert (L0 : (0 < nrBodies exs_mb)%nat) by (apply Nat.ltb_lt; reflexivity). split; [|exact (fk_ms _ _ _ F 0%nat L0)].
  rewrite (fk_bp _ _ _ F 0%nat L0). change (par exs_mb 0) with (@None nat). cbv beta iota. rewrite (fk_pts _ _ _ F 0%nat L0). pose proof (fk_jc _ _ _ F 0%nat L0) as P. rewrite Q in P. cbn in P. injection P as <-.
  change (nth 0 (mb_Xt exs_mb) ptid) with ptid. unfold ptmul, pttr, ptid; cbn [rotE trR]. f_equal; [apply M3_ext|apply V3_ext]; unfold mid, mtr, mmul, mapp, vadd, vscale, unitX, v0; cbn; ring.
Qed.
Lemma flush_1 : flush (/ 10 ^ 8) 1 = 1.
Proof. unfold flush. destruct (Rlt_dec (Rabs 1) (/ 10 ^ 8)) as [H|H]; auto. rewrite Rabs_R1 in H. lra. Qed.
Lemma flush_0 : flush (/ 10 ^ 8) 0 = 0.
Proof. unfold flush. now destruct (Rlt_dec _ _). Qed.
Lemma exs_jmat m x : nth 0 (bodyPosW m) ptid = pttr (mkV3 x 0 0) -> nth 0 (motionSubspace m) [] = jS (mkJ Prism unitX true "slide"%string) -> jmat 0 exs_J m = [mkSV v0 unitX].
Proof.
  intros HX HS. unfold jmat. cbn [length jc_path exs_J seq map concat]. rewrite app_nil_r. unfold jcols. cbn [jc_path jc_sign exs_J]. change (nth 0 [0%nat] 0%nat) with 0%nat. change (nth 0 [1] 0) with 1. rewrite HS. cbn [jS mkJ baseS map]. try rewrite HX. f_equal.
  assert (TI : mtr mid = mid) by reflexivity. unfold ptm, ptmul, ptinv, pttr, svscale, dirR. cbn [rotE trR sang slin]. rewrite !TI, !mmul_id_l, !mapp_id. apply SV_ext; cbn [sang slin].
  - now rewrite !vscale_1.
  - rewrite !vscale_1. apply V3_ext; unfold vsub, vcross, vopp, vadd, unitX, v0; cbn [vx vy vz]; ring.
Qed.
Lemma exs_gap x : gap exk_err exs_target (pttr (mkV3 x 0 0)) = mkSV v0 (mkV3 (1 / 2 - x) 0 0).
Proof. unfold gap, exs_target, pttr; cbn [rotE trR]. rewrite exk_err_0. f_equal. unfold vsub; cbn [vx vy vz]. f_equal; ring. Qed.
Lemma exs_far m x : nth 0 (bodyPosW m) ptid = pttr (mkV3 x 0 0) -> far exk_err 0 exs_target m = Rabs (1 / 2 - x).
Proof.
  intro H. unfold far, gap_norm. rewrite H, exs_gap. cbv zeta. cbn [sang slin vx vy vz v0]. rewrite <- sqrt_Rsqr_abs. f_equal. unfold Rsqr. ring.
Qed.
Lemma exs_newton m m' x : mbc_ok exs_mb m -> nth 0 (bodyPosW m) ptid = pttr (mkV3 x 0 0) -> nth 0 (motionSubspace m) [] = jS (mkJ Prism unitX true "slide"%string) -> nth 0 (q m) [] = [x] ->
  newton exk_svd exk_err exs_mb 0 exs_J 3 (/ 10 ^ 8) exs_target m m' -> nth 0 (bodyPosW m') ptid = pttr (mkV3 (x + 3 * (1 / 2 - x)) 0 0).
Proof.
  intros K HX HS HQ (J1 & X & EJ & EX & LL & V & U & mk & A1 & A2). rewrite (jac_J0 exs_mb 0 exs_J exs_wf exs_J_of m K) in EJ. injection EJ as <-.
  apply (nth_error_nth _ _ ptid) in EX. rewrite HX in EX. subst X. specialize (V 0%nat ltac:(apply Nat.ltb_lt; reflexivity)). cbn [with_jac jc_jac] in V. rewrite (exs_jmat m x HX HS), exs_gap in V.
  unfold on_path in V. cbn [jc_path exs_J map concat] in V. rewrite HQ in V. pose proof (lens_nth _ _ 0%nat LL) as L1. rewrite HQ in L1.
  destruct (nth 0 (q m') []) as [|y [|z l]] eqn:QY; try discriminate. unfold co in V. cbn [app nth exk_svd map] in V.
  assert (R1 : svdot (flush_col (/ 10 ^ 8) (mkSV v0 unitX)) (mkSV v0 (mkV3 (1 / 2 - x) 0 0)) / svdot (flush_col (/ 10 ^ 8) (mkSV v0 unitX)) (flush_col (/ 10 ^ 8) (mkSV v0 unitX)) = 1 / 2 - x).
  { unfold flush_col, unitX, v0. cbn [sang slin vx vy vz]. rewrite flush_0, flush_1. unfold svdot, vdot. cbn [sang slin vx vy vz]. field. }
  rewrite R1 in V. subst y. assert (K1 : mbc_ok exs_mb (with_q (q m') m)) by now apply with_q_ok.
  destruct (exs_pos _ _ _ K1 A1 QY) as (P & _). pose proof (FK_mbc_ok _ _ _ exs_wf K1 (FK_run _ _ _ exs_wf K1 A1)) as Kk. destruct (FV_total exs_mb mk exs_wf Kk) as (m2 & E2 & F2). rewrite E2 in A2. injection A2 as ->. rewrite (fv_frame _ _ _ F2). exact P.
Qed.
Lemma exs_flag fuel : (50 <= fuel)%nat -> exists I' m', inverseKinematics exk_svd exk_err fuel exs_mb exs_target exs_I exs_m = Ok (I', m', true) /\ ik_threshold exs_I <= far exk_err 0 exs_target m'.
Proof.
  intro FU. destruct (ik_bounded exk_svd exk_err exs_mb 0 exs_I exs_target exs_m fuel exk_svd_len exs_wf exs_mbc_ok exs_J_of eq_refl exs_plain FU) as (I' & m' & b & ms & k & E & K' & _ & _ & B & FB & EM & EK & NW & ER & FL).
  destruct (exs_pos exs_m (ms 0%nat) 0 exs_mbc_ok EM eq_refl) as (P0 & S0). pose proof (exs_far _ _ P0) as F0. replace (1 / 2 - 0) with (1 / 2) in F0 by ring. rewrite Rabs_pos_eq in F0 by lra.
  pose proof (FK_run _ _ _ exs_wf exs_mbc_ok EM) as FK0. pose proof (FK_mbc_ok _ _ _ exs_wf exs_mbc_ok FK0) as K0. cbn [exs_I ik_max ik_threshold ik_lambda ik_zero ik_jac] in *.
  assert (K1 : k = 1%nat). { destruct k as [|[|k]]; auto. - destruct b; [destruct (proj1 FL eq_refl) as (t & X & _); discriminate|]. specialize (FB eq_refl). discriminate FB. - specialize (ER 0%nat ltac:(lia)). lra. }
  subst k. assert (Bt : b = true) by (apply FL; exists 0%nat; split; auto; lra). subst b. exists I', m'. split; auto. specialize (NW 0%nat ltac:(lia)). rewrite EK in NW.
  assert (Q0 : nth 0 (q (ms 0%nat)) [] = [0]) by (rewrite (fk_frame _ _ _ FK0); reflexivity).
  rewrite (exs_far m' _ (exs_newton _ _ 0 K0 P0 S0 Q0 NW)). replace (1 / 2 - (0 + 3 * (1 / 2 - 0))) with (- (1)) by field. rewrite Rabs_Ropp, Rabs_R1. lra.
Qed.
(** *** sInverseKinematics does not look at alpha. *)
Definition exs_bad : MBC := with_alpha [] exs_m.
Lemma exs_unsafe fuel : sInverseKinematics exk_svd exk_err (S fuel) exs_mb exs_target exs_I exs_bad = UB.
Proof. reflexivity. Qed.
Lemma ex_hand_curved : exists J, wf_mb ex_mb /\ mbc_ok ex_mb ex_m /\ Jacobian_ctor (fun _ _ => sv0) ex_mb "hand"%string v0 = Ok J /\ jacobian_of ex_mb 2 v0 J /\
  In 0%nat (jc_path J) /\ ~ plain (jtyp (nth 0 (mb_joints ex_mb) jd)).
Proof.
  assert (L : (2 < nrBodies ex_mb)%nat) by (apply Nat.ltb_lt; reflexivity). destruct (ctor_ok (fun _ _ => sv0) ex_mb "hand"%string v0 2 ex_wf eq_refl L) as (J & E & HJ). exists J.
  do 4 (split; [solve [auto using ex_wf, ex_mbc_ok]|]). split; [|intros (_ & H); now apply H].
  pose proof (jo_path _ _ _ _ HJ) as P. inversion P as [? H1|? p l H1 P1]; subst; [discriminate H1|]. injection H1 as H1. apply (Nat2Z.inj 1 p) in H1. subst p. inversion P1 as [? H2|? p l2 H2 P2]; subst; [discriminate H2|].
  injection H2 as H2. apply (Nat2Z.inj 0 p) in H2. subst p. inversion P2 as [? H3|? p l3 H3 P3]; subst; [cbn; auto|]. injection H3 as H3. lia.
Qed.
Lemma exk_on_target : exists m0, forwardKinematics exk_mb exk_m = Ok m0 /\ (forall A d, co (exk_svd A sv0) d = 0) /\ exk_err (rotE (nth 1 (bodyPosW m0) ptid)) (rotE (nth 1 (bodyPosW m0) ptid)) = v0 /\
  (0 < ik_max exk_I)%Z /\ 0 < ik_threshold exk_I.
Proof.
  destruct (FK_total exk_mb exk_m exk_wf exk_mbc_ok) as (m0 & E & _). exists m0. split; auto. split; [apply exk_svd_0|]. split; [apply exk_err_0|]. cbn [exk_I ik_max ik_threshold]. split; [lia|]. apply Rinv_0_lt_compat. apply pow_lt. lra.
Qed.
