(** Another unit of length: the statements. *)
From Coq Require Import Reals String ZArith Bool Arith List Lia Lra.
From Verif Require Import Res ResP SMap Vec VecP Sva SvaP Mat JointM MultiBodyM KinM DynM CoMM MomM Spec SpecDyn SpecFrame SpecUnits SpecLength
  JointP JointFinP KinP MbP TreeP DynP DynHP DynCP DynFinP DynFin2P KinFinP BaseP Newton2P FrameP LengthP LengthTreeP.
Import ListNotations.
Open Scope R_scope.

Lemma vdiv_len L v mass : vdiv_mass (vscale L v) mass = SpecFrame.rmap (vscale L) (vdiv_mass v mass).
Proof. unfold vdiv_mass. destruct (Rlt_dec 0 mass); cbn [SpecFrame.rmap]; auto. f_equal. v3ring. Qed.
Ltac step := rewrite rmap_bind; apply bind_ext; intros ? ?.
Section Loops.
Variables (L : R) (mb mb' : MultiBody) (m m' : MBC).
Hypothesis EB : mb_bodies mb' = map (body_len L) (mb_bodies mb).
Hypothesis EP : bodyPosW m' = map (pose_len L) (bodyPosW m).
Hypothesis EV : bodyVelB m' = map (motion_len L) (bodyVelB m).
Hypothesis EW : bodyVelW m' = map (motion_len L) (bodyVelW m).
Lemma n_len : nrBodies mb' = nrBodies mb. Proof. unfold nrBodies. rewrite EB. apply map_length. Qed.
Lemma start_len : (0, v0) = (fun s : R * V3 => (fst s, vscale L (snd s))) (0, v0).
Proof. cbn [fst snd]. f_equal. v3ring. Qed.
Lemma com_len : computeCoM mb' m' = SpecFrame.rmap (vscale L) (computeCoM mb m).
Proof.
  unfold computeCoM. rewrite n_len. rewrite start_len at 1.
  rewrite (for_up_rmap (fun s : R * V3 => (fst s, vscale L (snd s))) (nrBodies mb) (com_step mb m) (com_step mb' m')).
  - rewrite bind_rmap. step. cbn [fst snd]. apply vdiv_len.
  - intros i s. unfold com_step. rewrite EB, EP, get_map, bind_rmap. step. rewrite get_map, bind_rmap. step. cbn [SpecFrame.rmap fst snd]. f_equal.
    unfold body_len, pose_len, ptmul, pttr. cbn [binertia imass imom rotE trR].
    generalize (imom (binertia a)) (imass (binertia a)) (snd s) (fst s) (trR a0) (rotE a0). intros h ma p f r E. f_equal. v3ring.
Qed.
Lemma comv_len : computeCoMVelocity mb' m' = SpecFrame.rmap (vscale L) (computeCoMVelocity mb m).
Proof.
  unfold computeCoMVelocity. rewrite n_len. rewrite start_len at 1.
  rewrite (for_up_rmap (fun s : R * V3 => (fst s, vscale L (snd s))) (nrBodies mb) (comv_step mb m) (comv_step mb' m')).
  - rewrite bind_rmap. step. cbn [fst snd]. apply vdiv_len.
  - intros i s. unfold comv_step. rewrite EB, EP, EV, get_map, bind_rmap. step. rewrite get_map, bind_rmap. step. rewrite get_map, bind_rmap. step.
    cbn [SpecFrame.rmap fst snd]. f_equal. unfold body_len, motion_len, pose_len, ptm. cbn [binertia imass imom rotE trR sang slin].
    generalize (imom (binertia a)) (imass (binertia a)) (snd s) (fst s) (trR a0) (rotE a0) (sang a1) (slin a1). intros h ma p f r E u v. f_equal. v3ring.
Qed.
Lemma com_frame_len X com : ptmul (pose_len L X) (pttr (vopp (vscale L com))) = pose_len L (ptmul X (pttr (vopp com))).
Proof. rewrite <- len_mul. f_equal. unfold pttr, pose_len. cbn [rotE trR]. f_equal. v3ring. Qed.
Lemma trans_len X f : pttrans (pose_len L X) (wrench_len L f) = wrench_len L (pttrans X f).
Proof. unfold wrench_len, pose_len. svring. Qed.
Lemma momentum_len com : computeCentroidalMomentum mb' m' (vscale L com) = SpecFrame.rmap (wrench_len L) (computeCentroidalMomentum mb m com).
Proof.
  unfold computeCentroidalMomentum. rewrite n_len. replace sv0 with (wrench_len L sv0) at 1 by (unfold wrench_len; svring).
  apply for_up_rmap. intros i s. rewrite EB, EP, EV, get_map, bind_rmap. step. rewrite get_map, bind_rmap. step. rewrite get_map, bind_rmap. step.
  cbn [SpecFrame.rmap]. f_equal. now rewrite len_rbim, com_frame_len, trans_len, wl_add.
Qed.
Hypothesis EA : bodyAccB m' = map (motion_len L) (bodyAccB m).
Lemma coma_len : computeCoMAcceleration mb' m' = SpecFrame.rmap (vscale L) (computeCoMAcceleration mb m).
Proof.
  unfold computeCoMAcceleration. rewrite n_len. rewrite start_len at 1.
  rewrite (for_up_rmap (fun s : R * V3 => (fst s, vscale L (snd s))) (nrBodies mb) (coma_step mb m) (coma_step mb' m')).
  - rewrite bind_rmap. step. cbn [fst snd]. apply vdiv_len.
  - intros i s. unfold coma_step. rewrite EB, EP, EV, EW, EA, get_map, bind_rmap. step. rewrite get_map, bind_rmap. step. rewrite get_map, bind_rmap. step.
    rewrite get_map, bind_rmap. step. rewrite get_map, bind_rmap. step.
    cbn [SpecFrame.rmap fst snd]. f_equal. unfold body_len, motion_len, pose_len, ptm, scross. cbn [binertia imass imom rotE trR sang slin].
    generalize (imom (binertia a)) (imass (binertia a)) (snd s) (fst s) (rotE a0) (sang a1) (sang a2) (slin a2) (sang a3) (slin a3).
    intros h ma p f E w ua la uv lv. f_equal. v3ring.
Qed.
Lemma momentum_dot_len com v :
  computeCentroidalMomentumDot mb' m' (vscale L com) (vscale L v) = SpecFrame.rmap (wrench_len L) (computeCentroidalMomentumDot mb m com v).
Proof.
  unfold computeCentroidalMomentumDot. rewrite n_len. replace sv0 with (wrench_len L sv0) at 1 by (unfold wrench_len; svring).
  apply for_up_rmap. intros i s. rewrite EB, EP, EV, EA, get_map, bind_rmap. step. rewrite get_map, bind_rmap. step. rewrite get_map, bind_rmap. step.
  rewrite get_map, bind_rmap. step. cbn [SpecFrame.rmap]. f_equal. rewrite wl_add. f_equal. unfold body_momentum_dot.
  replace (mkSV v0 (vscale L v)) with (motion_len L (mkSV v0 v)) by reflexivity.
  now rewrite !len_rbim, com_frame_len, len_inv, !len_crossDual, !len_dual, !len_crossDual, trans_len, wl_add, wl_sub.
Qed.
End Loops.

Lemma kin_runs mb m0 : wf_mb mb -> mbc_ok mb m0 -> exists m, after_kinematics mb m0 m /\ mbc_ok mb m.
Proof.
  intros W K. destruct (FK_total mb m0 W K) as (m1 & E1 & F). pose proof (FK_mbc_ok _ _ _ W K F) as K1.
  destruct (FV_total mb m1 W K1) as (m2 & E2 & V). exists m2. split; [exists m1; auto|exact (FV_mbc_ok _ _ _ K1 V)].
Qed.
Lemma length_kinematics L mb mb' m0 m0' : wf_mb mb -> wf_mb mb' -> mbc_ok mb m0 -> mbc_ok mb' m0' -> other_length L mb m0 mb' m0' ->
  exists m m', after_kinematics mb m0 m /\ after_kinematics mb' m0' m' /\
    bodyPosW m' = map (pose_len L) (bodyPosW m) /\ bodyVelB m' = map (motion_len L) (bodyVelB m) /\ bodyVelW m' = map (motion_len L) (bodyVelW m) /\
    computeCoM mb' m' = SpecFrame.rmap (vscale L) (computeCoM mb m) /\ computeCoMVelocity mb' m' = SpecFrame.rmap (vscale L) (computeCoMVelocity mb m) /\
    (forall com, computeCentroidalMomentum mb' m' (vscale L com) = SpecFrame.rmap (wrench_len L) (computeCentroidalMomentum mb m com)) /\
    forall A0, exists n n', forwardAcceleration mb m A0 = Ok n /\ forwardAcceleration mb' m' (motion_len L A0) = Ok n' /\
      bodyAccB n' = map (motion_len L) (bodyAccB n) /\
      computeCoMAcceleration mb' n' = SpecFrame.rmap (vscale L) (computeCoMAcceleration mb n) /\
      forall com v, computeCentroidalMomentumDot mb' n' (vscale L com) (vscale L v) =
        SpecFrame.rmap (wrench_len L) (computeCentroidalMomentumDot mb n com v).
Proof.
  intros W W' K K' U. destruct (kin_runs mb m0 W K) as (m & A & Km). destruct (kin_runs mb' m0' W' K') as (m' & A' & Km').
  pose proof (ln_posW L mb mb' m0 m m0' m' W W' K K' A A' U) as EP. pose proof (ln_velB L mb mb' m0 m m0' m' W W' K K' A A' U) as EV.
  pose proof (ln_velW L mb mb' m0 m m0' m' W W' K K' A A' U) as EW. pose proof (ol_bodies _ _ _ _ _ U) as EB.
  exists m, m'. do 5 (split; [assumption|]).
  split; [now apply com_len|]. split; [now apply comv_len|]. split; [intro com; now apply momentum_len|].
  intro A0. destruct (FA_total mb m A0 W Km) as (n & E & P). destruct (FA_total mb' m' (motion_len L A0) W' Km') as (n' & E' & P').
  pose proof (ln_FA L mb mb' m0 m m0' m' W W' K K' A A' U A0 n n' E E') as EA.
  assert (Q : bodyPosW n' = map (pose_len L) (bodyPosW n) /\ bodyVelB n' = map (motion_len L) (bodyVelB n) /\ bodyVelW n' = map (motion_len L) (bodyVelW n)).
  { rewrite (fa_frame _ _ _ _ P), (fa_frame _ _ _ _ P'). auto. }
  destruct Q as (Q1 & Q2 & Q3).
  exists n, n'. split; [exact E|]. split; [exact E'|]. split; [exact EA|].
  split; [now apply coma_len|]. intros com v. now apply momentum_dot_len.
Qed.
Lemma length_dynamics L mb mb' m0 m m0' m' f f' s s' : L <> 0 -> wf_mb mb -> wf_mb mb' -> rigid_mb mb -> mbc_ok mb m0 -> config_ok mb m0 -> mbc_ok mb' m0' ->
  other_length L mb m0 mb' m0' -> after_kinematics mb m0 m -> after_kinematics mb' m0' m' ->
  length f = nrBodies mb -> length f' = nrBodies mb' -> fd_ok mb s -> fd_ok mb' s' ->
  exists g n g' n' h h' d d', inverseDynamics mb f m = Ok (g, n) /\ inverseDynamics mb' f' m' = Ok (g', n') /\
    computeH mb m s = Ok h /\ computeH mb' m' s' = Ok h' /\ computeC mb m s = Ok d /\ computeC mb' m' s' = Ok d' /\
    forall i, (i < nrBodies mb)%nat -> let li := dof_lengths (jtyp (nth i (mb_joints mb) jd)) in
      nth i (jointTorque n') [] = torques_times L li (nth i (jointTorque n) []) /\
      forall a, (a < dofi mb i)%nat ->
        nth (pos mb i + a) (fd_C d') 0 = as_torque L (nth a li false) * nth (pos mb i + a) (fd_C d) 0 /\
        forall j b, (j < nrBodies mb)%nat -> (b < dofi mb j)%nat -> let lj := dof_lengths (jtyp (nth j (mb_joints mb) jd)) in
          as_length L (nth a li false) * as_length L (nth b lj false) * ment (fd_H h') (pos mb i + a) (pos mb j + b) =
          L * L * ment (fd_H h) (pos mb i + a) (pos mb j + b).
Proof.
  intros Lp W W' RM K C K' U A A' LF LF' O O'.
  pose proof (ln_rigid L mb mb' m0 m0' U RM) as RM'. pose proof (ln_config L mb mb' m0 m0' W K K' U C) as C'.
  pose proof (after_kin_state _ _ _ W RM K C A) as D. pose proof (after_kin_state _ _ _ W' RM' K' C' A') as D'.
  pose proof (ds_ok _ _ D) as Km. pose proof (ds_ok _ _ D') as Km'.
  destruct (ID_total mb m f W Km LF) as (g & n & E1 & _). destruct (ID_total mb' m' f' W' Km' LF') as (g' & n' & E1' & _).
  destruct (H_ok mb m s W Km (ds_rigid _ _ D) O) as (h & E2 & _). destruct (H_ok mb' m' s' W' Km' (ds_rigid _ _ D') O') as (h' & E2' & _).
  destruct (C_ok mb m s W Km O) as (d & E3 & _). destruct (C_ok mb' m' s' W' Km' O') as (d' & E3' & _).
  exists g, n, g', n', h, h', d, d'. do 6 (split; [assumption|]).
  rewrite (ln_n L mb mb' m0 m0' U) in LF'. intros i Hi. cbv zeta.
  split; [exact (ln_ID L mb mb' m0 m m0' m' Lp W W' K K' A A' U f f' g g' n n' LF LF' E1 E1' i Hi)|]. intros a Ha.
  split; [exact (ln_C L mb mb' m0 m m0' m' Lp W W' K K' A A' U s s' d d' O O' E3 E3' i a Hi Ha)|]. intros j b Hj Hb.
  exact (ln_H L mb mb' m0 m m0' m' W W' K K' A A' U RM C s s' h h' O O' E2 E2' i j a b Hi Hj Ha Hb).
Qed.

(** ** Forward dynamics *)
Lemma pure_length d S : Forall2 pure d S -> length d = length S.
Proof. induction 1; cbn [length]; auto. Qed.
Lemma sized_lengths L mb x : wf_mb mb -> sized mb jdof x ->
  exists x', sized mb jdof x' /\ forall i j, nth_error (mb_joints mb) i = Some j -> nth i x' [] = lengths_times L (dof_lengths (jtyp j)) (nth i x []).
Proof.
  intros W S. exists (map (fun e => lengths_times L (dof_lengths (jtyp (fst e))) (snd e)) (combine (mb_joints mb) x)).
  assert (G : forall js y, map (@length R) y = map jdof js -> (forall j, In j js -> joint_ok j) ->
    map (@length R) (map (fun e => lengths_times L (dof_lengths (jtyp (fst e))) (snd e)) (combine js y)) = map jdof js /\
    forall i j, nth_error js i = Some j ->
      nth i (map (fun e => lengths_times L (dof_lengths (jtyp (fst e))) (snd e)) (combine js y)) [] = lengths_times L (dof_lengths (jtyp j)) (nth i y [])).
  { induction js as [|j js IH]; intros [|y l] E O; try discriminate E; cbn [combine map].
    - split; [reflexivity|]. intros [|i] j H; discriminate H.
    - cbn [map] in E. injection E as E1 E2. destruct (IH l E2 (fun j H => O j (or_intror H))) as [I1 I2]. split.
      + cbn [fst snd]. f_equal; [|exact I1]. unfold lengths_times. rewrite map_length, combine_length.
        pose proof (O j (or_introl eq_refl)) as OJ. pose proof (pure_length _ _ (joint_pure j OJ)) as FL. rewrite (joint_ok_S_length j OJ) in FL. lia.
      + intros [|i] k H; cbn [nth_error nth] in *; [injection H as <-; reflexivity|]. now apply I2. }
  apply G; [exact S|]. apply (wf_joint_ok mb W).
Qed.
Lemma len_pd L mb mb' : L <> 0 -> mb_bodies mb' = map (body_len L) (mb_bodies mb) ->
  (forall b, In b (mb_bodies mb) -> inertia_pd (binertia b)) -> forall b, In b (mb_bodies mb') -> inertia_pd (binertia b).
Proof.
  intros Lp E PD b. rewrite E. intro Hb. apply in_map_iff in Hb as (b0 & <- & Hb). intro u. destruct (len_onto L u Lp) as (w & ->).
  rewrite len_rbim, len_dot. destruct (PD b0 Hb w) as [Q1 Q2]. assert (0 < L * L) by (apply Rsqr_pos_lt in Lp; exact Lp).
  split; [apply Rmult_le_pos; lra|]. intro Z. apply Rmult_integral in Z. rewrite Q2 by (destruct Z; lra). apply len_0.
Qed.
Lemma length_forward L mb mb' m0 m m0' m' solve s s' : L <> 0 -> wf_mb mb -> wf_mb mb' -> rigid_mb mb -> mbc_ok mb m0 -> config_ok mb m0 -> mbc_ok mb' m0' ->
  other_length L mb m0 mb' m0' ->
  (forall i j, nth_error (mb_joints mb) i = Some j -> nth i (jointTorque m0') [] = torques_times L (dof_lengths (jtyp j)) (nth i (jointTorque m0) [])) ->
  after_kinematics mb m0 m -> after_kinematics mb' m0' m' -> fd_ok mb s -> fd_ok mb' s' ->
  (forall b, In b (mb_bodies mb) -> inertia_pd (binertia b)) -> solver_ok solve ->
  exists h n h' n', forwardDynamics solve mb m s = Ok (h, n) /\ forwardDynamics solve mb' m' s' = Ok (h', n') /\
    forall i j, nth_error (mb_joints mb) i = Some j -> nth i (alphaD n') [] = lengths_times L (dof_lengths (jtyp j)) (nth i (alphaD n) []).
Proof.
  intros Lp W W' RM K C K' U ST A A' O O' PD SO.
  pose proof (ln_rigid L mb mb' m0 m0' U RM) as RM'. pose proof (ln_config L mb mb' m0 m0' W K K' U C) as C'.
  pose proof (after_kin_state _ _ _ W RM K C A) as D. pose proof (after_kin_state _ _ _ W' RM' K' C' A') as D'.
  pose proof (len_pd L mb mb' Lp (ol_bodies _ _ _ _ _ U) PD) as PD'.
  destruct (FD_then_ID mb m0 m s (repeat sv0 (nrBodies mb)) solve W RM K C A O ltac:(apply repeat_length) PD SO)
    as (h & n & g & n2 & E & Fr & _ & EI & ET).
  destruct (FD_run mb m s solve W RM D O PD SO) as (x1 & x2 & x3 & x4 & _ & _ & _ & _ & E0 & _ & _ & Sd & _).
  rewrite E in E0. injection E0 as <- <-.
  destruct (FD_run mb' m' s' solve W' RM' D' O' PD' SO) as (t1 & t2 & h' & n' & E1' & E2' & P1' & P2' & E' & _ & _ & Sd' & _ & _ & Hx').
  destruct (sized_lengths L mb (alphaD n) W Sd) as (y & Sy & Hy).
  assert (Sy' : sized mb' jdof y) by (unfold sized; now rewrite (ol_joints _ _ _ _ _ U)).
  exists h, n, h', n'. split; [exact E|]. split; [exact E'|].
  assert (Z : alphaD n' = y); [|now rewrite Z].
  (* the torques of the accelerations y *)
  assert (KA : forall mb m x, mbc_ok mb m -> sized mb jdof x -> mbc_ok mb (with_alphaD x m)).
  { intros b z x Kb Sx. destruct Kb. constructor; auto. }
  assert (UA : other_length L mb (with_alphaD (alphaD n) m0) mb' (with_alphaD y m0')).
  { destruct U. constructor; auto. }
  pose proof (after_kin_alphaD mb m0 m (alphaD n) A) as AA. pose proof (after_kin_alphaD mb' m0' m' y A') as AA'.
  pose proof (KA _ _ _ K Sd) as KK. pose proof (KA _ _ _ K' Sy') as KK'.
  rewrite Fr in EI.
  pose proof (dyn_state_with_alphaD mb' m' y D' Sy') as Dy.
  destruct (ID_total mb' (with_alphaD y m') (repeat sv0 (nrBodies mb')) W' (ds_ok _ _ Dy) ltac:(apply repeat_length)) as (g' & n2' & EI' & PI').
  pose proof (ln_ID L mb mb' _ _ _ _ Lp W W' KK KK' AA AA' UA _ _ g g' n2 n2' ltac:(apply repeat_length)
    ltac:(rewrite repeat_length; exact (ln_n L mb mb' m0 m0' U)) EI EI') as ET'.
  assert (EQ : jointTorque n2' = jointTorque m').
  { destruct (kin_keeps mb m0 m W K A) as (_ & _ & _ & _ & _ & Et). destruct (kin_keeps mb' m0' m' W' K' A') as (_ & _ & _ & _ & _ & Et').
    pose proof (sized_length _ _ _ (ok_jointTorque _ _ (ip_ok _ _ _ _ PI'))) as L1. pose proof (sized_length _ _ _ (ok_jointTorque _ _ (ds_ok _ _ D'))) as L2.
    pose proof (wf_nrJoints mb' W') as NJ. rewrite (ln_n L mb mb' m0 m0' U) in NJ.
    apply (nth_ext _ _ [] []); [congruence|]. intros i Hi. rewrite L1, NJ in Hi. rewrite ET', ET, Et, Et' by auto. symmetry. apply ST.
    apply nth_error_nth'. rewrite (wf_joints mb W). exact Hi. }
  apply (flat_inj mb'); auto.
  apply (spd_inj (mb_nrDof mb') (ment (fd_H t1)) _ _ (H_pd mb' m' s' t1 W' RM' D' P1' PD')).
  intros r Hr. rewrite Hx' by auto.
  pose proof (hp_H _ _ _ _ P1') as HH. pose proof (cp_C _ _ _ _ P2') as HC.
  pose proof (id_H_C mb' (with_alphaD y m') (fd_H t1) (fd_C t2) g' n2' W' Dy HH HC PI' r Hr) as EF.
  rewrite EQ in EF. cbn [alphaD with_alphaD] in EF. rewrite EF. ring.
Qed.
