(** The recursions over the tree in another unit of length. *)
From Coq Require Import Reals String ZArith Bool Arith List Lia Lra.
From Verif Require Import Res ResP SMap Vec VecP Sva SvaP Mat JointM MultiBodyM KinM DynM Spec SpecDyn SpecFrame SpecUnits SpecLength
  JointP JointFinP KinP MbP TreeP DynP DynHP DynCP DynFinP DynFin2P KinFinP BaseP LengthP.
Import ListNotations.
Open Scope R_scope.

Lemma map_list {A} (f : A -> A) (l l' : list A) n d : length l = n -> length l' = n -> (forall i, (i < n)%nat -> nth i l' d = f (nth i l d)) -> l' = map f l.
Proof.
  intros L L' H. apply (nth_ext _ _ d d); [now rewrite map_length; congruence|]. intros i Hi. rewrite H by congruence.
  now rewrite (nth_map_lt f l i d d) by congruence.
Qed.
Section Length.
Variables (L : R) (mb mb' : MultiBody) (m0 m m0' m' : MBC).
Hypothesis Lp : L <> 0.
Hypothesis W : wf_mb mb. Hypothesis W' : wf_mb mb'.
Hypothesis K : mbc_ok mb m0. Hypothesis K' : mbc_ok mb' m0'.
Hypothesis A : after_kinematics mb m0 m. Hypothesis A' : after_kinematics mb' m0' m'.
Hypothesis U : other_length L mb m0 mb' m0'.

Lemma ln_n : nrBodies mb' = nrBodies mb.
Proof. unfold nrBodies. rewrite (ol_bodies _ _ _ _ _ U). apply map_length. Qed.
Lemma ln_par : par mb' = par mb.
Proof. unfold par. now rewrite (ol_pred _ _ _ _ _ U). Qed.
Lemma ln_I i u : (i < nrBodies mb)%nat -> rbim (Ib mb' i) (motion_len L u) = wrench_len L (rbim (Ib mb i) u).
Proof.
  intro Hi. unfold Ib. rewrite (ol_bodies _ _ _ _ _ U).
  rewrite (nth_map_lt (body_len L) (mb_bodies mb) i bd bd) by exact Hi. apply len_rbim.
Qed.
Lemma ln_joint i : (i < nrBodies mb)%nat -> nth_error (mb_joints mb) i = Some (nth i (mb_joints mb) jd) /\ joint_ok (nth i (mb_joints mb) jd).
Proof.
  intro Hi. pose proof (wf_joints mb W) as LJ. split; [apply nth_error_nth'; lia|]. apply (wf_joint_ok mb W). apply nth_In. lia.
Qed.
Lemma ln_kin : exists m1 m1', fk_post mb m0 m1 /\ fk_post mb' m0' m1' /\ mbc_ok mb m1 /\ mbc_ok mb' m1' /\ fv_post mb m1 m /\ fv_post mb' m1' m' /\
  bodyPosW m = bodyPosW m1 /\ bodyPosW m' = bodyPosW m1' /\ parentToSon m = parentToSon m1 /\ parentToSon m' = parentToSon m1' /\
  motionSubspace m = motionSubspace m1 /\ motionSubspace m' = motionSubspace m1' /\ alpha m1 = alpha m0 /\ alpha m1' = alpha m0'.
Proof.
  destruct A as (m1 & E1 & E2). destruct A' as (m1' & E1' & E2').
  pose proof (FK_run mb m0 m1 W K E1) as F. pose proof (FK_run mb' m0' m1' W' K' E1') as F'.
  pose proof (FK_mbc_ok _ _ _ W K F) as K1. pose proof (FK_mbc_ok _ _ _ W' K' F') as K1'.
  pose proof (FV_run mb m1 m W K1 E2) as V. pose proof (FV_run mb' m1' m' W' K1' E2') as V'.
  exists m1, m1'. do 6 (split; [assumption|]).
  rewrite (fv_frame _ _ _ V), (fv_frame _ _ _ V').
  split; [reflexivity|]. split; [reflexivity|]. split; [reflexivity|]. split; [reflexivity|]. split; [reflexivity|]. split; [reflexivity|].
  rewrite (fk_frame _ _ _ F), (fk_frame _ _ _ F'). split; reflexivity.
Qed.
Lemma ln_ok : mbc_ok mb m /\ mbc_ok mb' m'.
Proof.
  destruct ln_kin as (m1 & m1' & _ & _ & K1 & K1' & V & V' & _).
  split; [exact (FV_mbc_ok _ _ _ K1 V)|exact (FV_mbc_ok _ _ _ K1' V')].
Qed.
Lemma ln_pts i : (i < nrBodies mb)%nat -> ptsn m' i = pose_len L (ptsn m i).
Proof.
  intro Hi. destruct ln_kin as (m1 & m1' & F & F' & _ & _ & _ & _ & _ & _ & Ep & Ep' & _). cbv beta. rewrite Ep, Ep'.
  rewrite (fk_pts _ _ _ F i), (fk_pts _ _ _ F' i) by (rewrite ?ln_n; auto). rewrite <- len_mul. rewrite (ol_Xt _ _ _ _ _ U).
  rewrite (nth_map_lt (pose_len L) (mb_Xt mb) i ptid ptid) by (rewrite (wf_Xt_len mb W); auto). f_equal.
  pose proof (fk_jc _ _ _ F i Hi) as J. pose proof (fk_jc _ _ _ F' i ltac:(rewrite ln_n; auto)) as J'.
  destruct (ln_joint i Hi) as [N O]. rewrite (ol_joints _ _ _ _ _ U), (ol_q _ _ _ _ _ U i _ N) in J'.
  assert (LQ : length (nth i (q m0) []) = jparams (nth i (mb_joints mb) jd)) by (apply (sized_nth mb jparams); [apply K|now rewrite (wf_nrJoints mb W)]).
  rewrite (pose_len_spec L _ _ O LQ), J in J'. cbn [rmap] in J'. congruence.
Qed.
Lemma ln_pos i : (i < nrBodies mb)%nat -> nth i (bodyPosW m') ptid = pose_len L (nth i (bodyPosW m) ptid).
Proof.
  destruct ln_kin as (m1 & m1' & F & F' & _ & _ & _ & _ & Eb & Eb' & Ep & Ep' & _). rewrite Eb, Eb'.
  induction i as [i IH] using lt_wf_ind. intro Hi.
  rewrite (fk_bp _ _ _ F i), (fk_bp _ _ _ F' i) by (rewrite ?ln_n; auto). rewrite ln_par.
  pose proof (ln_pts i Hi) as HP. cbv beta in HP. rewrite Ep, Ep' in HP. rewrite HP.
  destruct (par mb i) eqn:P; auto. pose proof (par_lt mb i n W Hi P). rewrite IH by lia. apply len_mul.
Qed.
Lemma ln_posW : bodyPosW m' = map (pose_len L) (bodyPosW m).
Proof.
  destruct ln_ok as [Km Km']. apply (map_list _ _ _ (nrBodies mb) ptid); [apply Km|rewrite <- ln_n; apply Km'|]. apply ln_pos.
Qed.
Lemma ln_vj i : (i < nrBodies mb)%nat -> vj m' i = motion_len L (vj m i).
Proof.
  intro Hi. destruct ln_kin as (m1 & m1' & F & F' & _ & _ & V & V' & _ & _ & _ & _ & _ & _ & Ea & Ea'). unfold vj.
  rewrite (fv_jv _ _ _ V i), (fv_jv _ _ _ V' i) by (rewrite ?ln_n; auto). rewrite Ea, Ea'. destruct (ln_joint i Hi) as [N O].
  rewrite (ol_joints _ _ _ _ _ U), (ol_alpha _ _ _ _ _ U i _ N). apply smul_len. now apply joint_pure.
Qed.
Lemma ln_vb i : (i < nrBodies mb)%nat -> vb m' i = motion_len L (vb m i).
Proof.
  destruct ln_kin as (m1 & m1' & F & F' & _ & _ & V & V' & _ & _ & Ep & Ep' & _). unfold vb.
  induction i as [i IH] using lt_wf_ind. intro Hi.
  rewrite (fv_vb _ _ _ V i), (fv_vb _ _ _ V' i) by (rewrite ?ln_n; auto). rewrite ln_par.
  pose proof (ln_vj i Hi) as HV. unfold vj in HV. rewrite HV.
  pose proof (ln_pts i Hi) as HP. cbv beta in HP. rewrite Ep, Ep' in HP. rewrite HP.
  destruct (par mb i) eqn:P; auto. pose proof (par_lt mb i n W Hi P). rewrite IH by lia. now rewrite len_ptm, len_add.
Qed.
Lemma ln_velB : bodyVelB m' = map (motion_len L) (bodyVelB m).
Proof.
  destruct ln_ok as [Km Km']. apply (map_list _ _ _ (nrBodies mb) sv0); [apply Km|rewrite <- ln_n; apply Km'|]. intros i Hi. now apply ln_vb.
Qed.
Lemma ln_velW : bodyVelW m' = map (motion_len L) (bodyVelW m).
Proof.
  destruct ln_ok as [Km Km']. apply (map_list _ _ _ (nrBodies mb) sv0); [apply Km|rewrite <- ln_n; apply Km'|]. intros i Hi.
  destruct ln_kin as (m1 & m1' & F & F' & _ & _ & V & V' & Eb & Eb' & _).
  rewrite (fv_vw _ _ _ V i), (fv_vw _ _ _ V' i) by (rewrite ?ln_n; auto). rewrite <- Eb, <- Eb', ln_pos by auto.
  pose proof (ln_vb i Hi) as HV. unfold vb in HV. rewrite HV. generalize (nth i (bodyVelB m) sv0) (nth i (bodyPosW m) ptid). intros v X.
  unfold motion_len, pose_len. svring.
Qed.
Lemma ln_tan i : (i < nrBodies mb)%nat ->
  smul (jS (nth i (mb_joints mb') jd)) (nth i (alphaD m') []) = motion_len L (smul (jS (nth i (mb_joints mb) jd)) (nth i (alphaD m) [])).
Proof.
  intro Hi. destruct (kin_keeps mb m0 m W K A) as (_ & _ & Ed & _). destruct (kin_keeps mb' m0' m' W' K' A') as (_ & _ & Ed' & _).
  destruct (ln_joint i Hi) as [N O]. rewrite Ed, Ed', (ol_joints _ _ _ _ _ U), (ol_alphaD _ _ _ _ _ U i _ N). apply smul_len. now apply joint_pure.
Qed.
Lemma ln_cross i : (i < nrBodies mb)%nat -> scross (vb m' i) (vj m' i) = motion_len L (scross (vb m i) (vj m i)).
Proof. intro Hi. rewrite ln_vb, ln_vj by auto. apply len_cross. Qed.
Lemma ln_fwd A0 s s' B B' : fwd (nrBodies mb) (par mb) (ptsn m) A0 s B -> fwd (nrBodies mb) (par mb) (ptsn m') (motion_len L A0) s' B' ->
  (forall i, (i < nrBodies mb)%nat -> s' i = motion_len L (s i)) -> forall i, (i < nrBodies mb)%nat -> B' i = motion_len L (B i).
Proof.
  intros F F' E i. induction i as [i IH] using lt_wf_ind. intro Hi. rewrite (F i Hi), (F' i Hi), E, len_add, <- len_ptm by auto.
  pose proof (ln_pts i Hi) as HP. cbv beta in *. rewrite HP.
  destruct (par mb i) eqn:P; auto. pose proof (par_lt mb i n W Hi P). now rewrite IH by lia.
Qed.
Lemma ln_acc f f' F F' : acc (nrBodies mb) (par mb) (ptsn m) f F -> acc (nrBodies mb) (par mb) (ptsn m') f' F' ->
  (forall i, (i < nrBodies mb)%nat -> f' i = wrench_len L (f i)) -> forall i, (i < nrBodies mb)%nat -> F' i = wrench_len L (F i).
Proof.
  intros HF HF' E. apply (acc_unique (nrBodies mb) (par mb) (parlt mb W) (ptsn m') f'); [exact HF'|].
  intros i Hi u. destruct (len_onto L u Lp) as (w & ->). rewrite E, !len_dot, (HF i Hi w) by auto. rewrite Rmult_plus_distr_l. f_equal.
  rewrite <- rsum_scal. apply rsum_ext. intros d Hd. destruct (is_par (par mb) d i); [|ring].
  pose proof (ln_pts d Hd) as HP. cbv beta in *. rewrite HP, len_ptm, len_dot. reflexivity.
Qed.
Lemma ln_FA A0 n n' : forwardAcceleration mb m A0 = Ok n -> forwardAcceleration mb' m' (motion_len L A0) = Ok n' ->
  bodyAccB n' = map (motion_len L) (bodyAccB n).
Proof.
  intros E E'. destruct ln_ok as [K1 K1'].
  destruct (FA_total mb m A0 W K1) as (x & Ex & P). rewrite E in Ex. injection Ex as <-.
  destruct (FA_total mb' m' (motion_len L A0) W' K1') as (x & Ex & P'). rewrite E' in Ex. injection Ex as <-.
  pose proof (fa_len _ _ _ _ P) as L1. pose proof (fa_len _ _ _ _ P') as L1'. rewrite (ok_bodyAccB _ _ K1) in L1. rewrite (ok_bodyAccB _ _ K1'), ln_n in L1'.
  apply (map_list _ _ _ (nrBodies mb) sv0); auto. intro i. induction i as [i IH] using lt_wf_ind. intro Hi.
  rewrite (fa_acc _ _ _ _ P i), (fa_acc _ _ _ _ P' i) by (rewrite ?ln_n; auto). rewrite ln_par.
  pose proof (ln_cross i Hi) as HC. unfold vj, vb in HC. rewrite HC, ln_tan by auto.
  pose proof (ln_pts i Hi) as HP. cbv beta in HP. rewrite HP. rewrite !len_add, <- len_ptm.
  destruct (par mb i) eqn:Q; auto. pose proof (par_lt mb i n0 W Hi Q). now rewrite IH by lia.
Qed.
Lemma ln_grav : mkSV v0 (gravity m') = motion_len L (mkSV v0 (gravity m)).
Proof.
  destruct (kin_keeps mb m0 m W K A) as (_ & _ & _ & _ & Eg & _). destruct (kin_keeps mb' m0' m' W' K' A') as (_ & _ & _ & _ & Eg' & _).
  rewrite Eg, Eg', (ol_gravity _ _ _ _ _ U). reflexivity.
Qed.
Lemma ln_fext i : (i < nrBodies mb)%nat -> fext m' i = wrench_len L (fext m i).
Proof.
  intro Hi. unfold fext. destruct (kin_keeps mb m0 m W K A) as (_ & _ & _ & Ef & _). destruct (kin_keeps mb' m0' m' W' K' A') as (_ & _ & _ & Ef' & _).
  rewrite Ef, Ef', (ol_force _ _ _ _ _ U), ln_pos by auto.
  rewrite (nth_map_lt (wrench_len L) (force m0) i sv0 sv0) by (rewrite (ok_force _ _ K); auto). apply len_dual.
Qed.
Lemma ln_force B B' : (forall i, (i < nrBodies mb)%nat -> B' i = motion_len L (B i)) ->
  forall i, (i < nrBodies mb)%nat -> local_force mb' m' B' i = wrench_len L (local_force mb m B i).
Proof.
  intros E i Hi. unfold local_force. rewrite ln_vb, E, ln_fext, !ln_I, len_crossDual by auto. now rewrite wl_sub, wl_add.
Qed.
Lemma ln_ms i : (i < nrBodies mb)%nat -> nth i (motionSubspace m') [] = nth i (motionSubspace m) [] /\ nth i (motionSubspace m) [] = jS (nth i (mb_joints mb) jd).
Proof.
  intro Hi. destruct ln_kin as (m1 & m1' & F & F' & _ & _ & _ & _ & _ & _ & _ & _ & Em & Em' & _). rewrite Em, Em'.
  rewrite (fk_ms _ _ _ F i Hi), (fk_ms _ _ _ F' i) by (now rewrite ln_n). now rewrite (ol_joints _ _ _ _ _ U).
Qed.
Lemma ln_ID f f' g g' n n' : length f = nrBodies mb -> length f' = nrBodies mb ->
  inverseDynamics mb f m = Ok (g, n) -> inverseDynamics mb' f' m' = Ok (g', n') ->
  forall i, (i < nrBodies mb)%nat -> nth i (jointTorque n') [] = torques_times L (dof_lengths (jtyp (nth i (mb_joints mb) jd))) (nth i (jointTorque n) []).
Proof.
  intros L1 L2 E E'. destruct ln_ok as [K1 K1'].
  pose proof (ID_run mb m f g n W K1 L1 E) as P. pose proof (ID_run mb' m' f' g' n' W' K1' ltac:(rewrite ln_n; auto) E') as P'.
  pose proof (ip_acc _ _ _ _ P) as HB. pose proof (ip_acc _ _ _ _ P') as HB'. pose proof (ip_F _ _ _ _ P') as HF'.
  rewrite ln_par, ln_n, ln_grav in HB'. rewrite ln_par, ln_n in HF'.
  assert (EB : forall i, (i < nrBodies mb)%nat -> nth i (bodyAccB n') sv0 = motion_len L (nth i (bodyAccB n) sv0)).
  { apply (ln_fwd _ _ _ (fun i => nth i (bodyAccB n) sv0) (fun i => nth i (bodyAccB n') sv0) HB HB'). intros d Hd. cbv beta.
    now rewrite len_add, (ln_cross d Hd), (ln_tan d Hd). }
  assert (EF : forall i, (i < nrBodies mb)%nat -> nth i g' sv0 = wrench_len L (nth i g sv0)).
  { apply (ln_acc _ _ (fun i => nth i g sv0) (fun i => nth i g' sv0) (ip_F _ _ _ _ P) HF'). intros d Hd. cbv beta. apply ln_force; auto. }
  intros i Hi. rewrite (ip_t _ _ _ _ P), (ip_t _ _ _ _ P') by (rewrite ?ln_n; auto). destruct (ln_ms i Hi) as [M1 M2]. rewrite M1, M2.
  rewrite EF by auto. apply dots_len. apply joint_pure. apply ln_joint. exact Hi.
Qed.
Lemma ln_posf i : SpecDyn.pos mb' i = SpecDyn.pos mb i.
Proof. unfold SpecDyn.pos. now rewrite (ol_joints _ _ _ _ _ U). Qed.
Lemma ln_dof i : dofi mb' i = dofi mb i.
Proof. unfold dofi. now rewrite (ol_joints _ _ _ _ _ U). Qed.
Lemma ln_nrDof : mb_nrDof mb' = mb_nrDof mb.
Proof. now rewrite (wf_nrDof mb W), (wf_nrDof mb' W'), (ol_joints _ _ _ _ _ U). Qed.
Lemma ln_axis i a : (i < nrBodies mb)%nat -> (a < dofi mb i)%nat ->
  axis m' i a = axis m i a /\ pure (nth a (dof_lengths (jtyp (nth i (mb_joints mb) jd))) false) (axis m i a).
Proof.
  intros Hi Ha. unfold axis. destruct (ln_ms i Hi) as [M1 M2]. rewrite M1. split; [reflexivity|]. rewrite M2. destruct (ln_joint i Hi) as [N O].
  apply pure_nth; [now apply joint_pure|]. rewrite (joint_ok_S_length _ O). exact Ha.
Qed.
Lemma ln_C s s' d d' : fd_ok mb s -> fd_ok mb' s' -> computeC mb m s = Ok d -> computeC mb' m' s' = Ok d' ->
  forall i a, (i < nrBodies mb)%nat -> (a < dofi mb i)%nat ->
  nth (pos mb i + a) (fd_C d') 0 = as_torque L (nth a (dof_lengths (jtyp (nth i (mb_joints mb) jd))) false) * nth (pos mb i + a) (fd_C d) 0.
Proof.
  intros O1 O2 E E'. destruct ln_ok as [K1 K1'].
  destruct (C_ok mb m s W K1 O1) as (c1 & E1 & P1). rewrite E in E1. injection E1 as <-.
  destruct (C_ok mb' m' s' W' K1' O2) as (c2 & E2 & P2). rewrite E' in E2. injection E2 as <-.
  destruct (cp_C _ _ _ _ P1) as (B & f & F & HB & Hf & HF & HC). destruct (cp_C _ _ _ _ P2) as (B' & f' & F' & HB' & Hf' & HF' & HC').
  rewrite ln_par, ln_n, ln_grav in HB'. rewrite ln_par, ln_n in HF'.
  pose proof (ln_fwd _ _ _ B B' HB HB' (fun d Hd => ln_cross d Hd)) as EB.
  assert (EF : forall i, (i < nrBodies mb)%nat -> F' i = wrench_len L (F i)).
  { apply (ln_acc _ _ F F' HF HF'). intros x Hx. rewrite Hf by auto. rewrite Hf' by (rewrite ln_n; auto). now apply ln_force. }
  intros i a Hi Ha. rewrite HC by auto. rewrite <- ln_posf at 1. rewrite HC' by (rewrite ?ln_n, ?ln_dof; auto).
  rewrite EF by auto. destruct (ln_axis i a Hi Ha) as [X1 X2]. unfold axis in X1, X2. rewrite X1. now apply pure_dot.
Qed.
Hypothesis RM : rigid_mb mb. Hypothesis C : config_ok mb m0.
Lemma ln_rigid : rigid_mb mb'.
Proof.
  destruct RM as [R1 R2]. split; [rewrite (ol_joints _ _ _ _ _ U); exact R1|]. rewrite (ol_Xt _ _ _ _ _ U). intros X HX.
  apply in_map_iff in HX as (Y & <- & HY). exact (R2 Y HY).
Qed.
Lemma ln_config : config_ok mb' m0'.
Proof.
  intros i j x. rewrite (ol_joints _ _ _ _ _ U). intros Hj Hx.
  assert (Hi : (i < length (mb_joints mb))%nat) by (apply nth_error_Some; congruence).
  pose proof (sized_length _ _ _ (ok_q _ _ K)) as LQ. unfold nrJoints in LQ.
  assert (N : nth_error (q m0) i = Some (nth i (q m0) [])) by (apply nth_error_nth'; lia). pose proof (C i j _ Hj N) as [Q1 Q2].
  pose proof (ol_q _ _ _ _ _ U i j Hj) as E. rewrite (nth_error_nth _ _ [] Hx) in E.
  assert (S : length x = jparams j).
  { pose proof (sized_nth mb' jparams (q m0') i (ok_q _ _ K')) as Z. unfold nrJoints in Z.
    rewrite (ol_joints _ _ _ _ _ U), (nth_error_nth _ _ jd Hj), (nth_error_nth _ _ [] Hx) in Z. exact (Z Hi). }
  split; [exact S|]. rewrite E. pose proof (joint_ok_params j (wf_joint_ok mb W j (nth_error_In _ _ Hj))) as EP. rewrite EP in Q1.
  destruct (jtyp j); try exact Logic.I; unfold quat_unit in *; cbn [tparams] in Q1;
    (destruct (nth i (q m0) []) as [|a0 [|a1 [|a2 [|a3 l]]]]; try discriminate Q1);
    unfold lengths_times; cbn [param_lengths combine map fst snd as_length nth] in *; rewrite !Rmult_1_l; exact Q2.
Qed.
Lemma ln_H s s' h h' : fd_ok mb s -> fd_ok mb' s' -> computeH mb m s = Ok h -> computeH mb' m' s' = Ok h' ->
  forall i j a b, (i < nrBodies mb)%nat -> (j < nrBodies mb)%nat -> (a < dofi mb i)%nat -> (b < dofi mb j)%nat ->
  as_length L (nth a (dof_lengths (jtyp (nth i (mb_joints mb) jd))) false) * as_length L (nth b (dof_lengths (jtyp (nth j (mb_joints mb) jd))) false) *
    ment (fd_H h') (pos mb i + a) (pos mb j + b) = L * L * ment (fd_H h) (pos mb i + a) (pos mb j + b).
Proof.
  intros FO FO' E E' i j a b Hi Hj Ha Hb.
  destruct (H_run mb m0 m s h W RM K C A FO E) as [D P]. destruct (H_run mb' m0' m' s' h' W' ln_rigid K' ln_config A' FO' E') as [D' P'].
  rewrite (hp_H _ _ _ _ P) by auto. rewrite <- !ln_posf. rewrite (hp_H _ _ _ _ P') by (rewrite ?ln_n, ?ln_dof; auto).
  destruct (ln_axis i a Hi Ha) as [X1 X2]. destruct (ln_axis j b Hj Hb) as [Y1 Y2].
  unfold Msp, Fu. rewrite ln_n, ln_par, X1, Y1. revert X2 Y2. clear X1 Y1.
  generalize (axis m i a) (axis m j b) (nth a (dof_lengths (jtyp (nth i (mb_joints mb) jd))) false) (nth b (dof_lengths (jtyp (nth j (mb_joints mb) jd))) false).
  intros u v bu bv Pu Pv.
  rewrite !(unit_bilin (nrBodies mb) (par mb) (parlt mb W)) by lia. rewrite <- !rsum_scal. apply rsum_ext. intros y Hy.
  assert (EA : forall i' w bw, pure bw w -> svscale (as_length L bw) (unitA (par mb) (ptsn m') i' w y) = motion_len L (unitA (par mb) (ptsn m) i' w y)).
  { intros i' w bw Pw.
    apply (ln_fwd sv0 (at_ i' w) (fun x => svscale (as_length L bw) (at_ i' w x)) (unitA (par mb) (ptsn m) i' w)
             (fun x => svscale (as_length L bw) (unitA (par mb) (ptsn m') i' w x))); auto.
    - apply unitA_fwd. apply (parlt mb W).
    - rewrite len_0. rewrite <- (svscale_sv0 (as_length L bw)) at 1. apply fwd_scale. apply unitA_fwd. apply (parlt mb W).
    - intros x Hx. unfold at_. destruct (Nat.eqb x i'); [symmetry; now apply pure_len|]. now rewrite svscale_sv0, len_0. }
  rewrite <- len_dot, <- ln_I by auto. rewrite <- (EA i u bu Pu), <- (EA j v bv Pv), rbim_scale, svdot_scale_l, svdot_scale_r. ring.
Qed.
End Length.
