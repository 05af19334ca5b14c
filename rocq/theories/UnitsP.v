(** The kinematics and the dynamics in other units of time and mass. *)
From Coq Require Import Reals String ZArith Bool Arith List Lia Lra.
From Verif Require Import Res ResP SMap Vec VecP Sva SvaP Mat JointM MultiBodyM KinM DynM Spec SpecDyn SpecUnits
  JointP JointFinP KinP MbP TreeP DynP DynHP DynCP DynFinP DynFin2P KinFinP BaseP.
Import ListNotations.
Open Scope R_scope.

Lemma rbim_times c b u : rbim (binertia (body_times c b)) u = svscale c (rbim (binertia b) u).
Proof. destruct b as [I nm]. destruct I as [ma h J]. destruct J as [j1 j2 j3 j4 j5 j6]. unfold body_times, sym_times. cbn [binertia imass imom iine sxx sxy sxz syy syz szz]. svring. Qed.
Lemma smul_times k : forall S x, smul S (map (Rmult k) x) = svscale k (smul S x).
Proof.
  induction S as [|a S IH]; intros [|x l]; cbn [smul map]; try (now rewrite svscale_sv0).
  rewrite IH, svscale_add, svscale_svscale. reflexivity.
Qed.
Lemma nth_times k v i : nth i (numbers_times k v) [] = map (Rmult k) (nth i v []).
Proof. unfold numbers_times. change (@nil R) with (map (Rmult k) []) at 1. apply map_nth. Qed.
Lemma numbers_sized k mb f v : sized mb f v -> sized mb f (numbers_times k v).
Proof. unfold sized, numbers_times. intro H. rewrite map_map. rewrite <- H. apply map_ext. intro l. apply map_length. Qed.
Lemma flat_times k v r : flat (numbers_times k v) r = k * flat v r.
Proof.
  unfold flat, numbers_times. rewrite <- concat_map. rewrite <- (Rmult_0_r k) at 1. apply map_nth.
Qed.

Section Units.
Variables (k c : R) (mb mb' : MultiBody) (m0 m m0' m' : MBC).
Hypothesis W : wf_mb mb. Hypothesis W' : wf_mb mb'.
Hypothesis K : mbc_ok mb m0. Hypothesis K' : mbc_ok mb' m0'.
Hypothesis A : after_kinematics mb m0 m. Hypothesis A' : after_kinematics mb' m0' m'.
Hypothesis U : other_units k c mb m0 mb' m0'.

Lemma un_n : nrBodies mb' = nrBodies mb.
Proof. unfold nrBodies. rewrite (ou_bodies _ _ _ _ _ _ U). apply map_length. Qed.
Lemma un_par : par mb' = par mb.
Proof. unfold par. now rewrite (ou_pred _ _ _ _ _ _ U). Qed.
Lemma un_I i u : (i < nrBodies mb)%nat -> rbim (Ib mb' i) u = svscale c (rbim (Ib mb i) u).
Proof.
  intro Hi. unfold Ib. rewrite (ou_bodies _ _ _ _ _ _ U).
  rewrite (nth_map_lt (body_times c) (mb_bodies mb) i bd bd) by exact Hi. apply rbim_times.
Qed.
Lemma un_kin : exists m1 m1', fk_post mb m0 m1 /\ fk_post mb' m0' m1' /\ mbc_ok mb m1 /\ mbc_ok mb' m1' /\ fv_post mb m1 m /\ fv_post mb' m1' m' /\
  bodyPosW m = bodyPosW m1 /\ bodyPosW m' = bodyPosW m1' /\ parentToSon m = parentToSon m1 /\ parentToSon m' = parentToSon m1' /\
  motionSubspace m = motionSubspace m1 /\ motionSubspace m' = motionSubspace m1' /\ alpha m1 = alpha m0 /\ alpha m1' = alpha m0'.
Proof.
  destruct A as (m1 & E1 & E2). destruct A' as (m1' & E1' & E2').
  pose proof (FK_run mb m0 m1 W K E1) as F. pose proof (FK_run mb' m0' m1' W' K' E1') as F'.
  pose proof (FK_mbc_ok _ _ _ W K F) as K1. pose proof (FK_mbc_ok _ _ _ W' K' F') as K1'.
  pose proof (FV_run mb m1 m W K1 E2) as V. pose proof (FV_run mb' m1' m' W' K1' E2') as V'.
  exists m1, m1'. do 6 (split; [assumption|]).
  rewrite (fv_frame _ _ _ V), (fv_frame _ _ _ V').
  split; [reflexivity|]. split; [reflexivity|]. split; [reflexivity|]. split; [reflexivity|]. split; [reflexivity|]. split; [reflexivity|].
  rewrite (fk_frame _ _ _ F), (fk_frame _ _ _ F'). split; reflexivity.
Qed.
Lemma un_ok : mbc_ok mb m /\ mbc_ok mb' m'.
Proof.
  destruct un_kin as (m1 & m1' & _ & _ & K1 & K1' & V & V' & _).
  split; [exact (FV_mbc_ok _ _ _ K1 V)|exact (FV_mbc_ok _ _ _ K1' V')].
Qed.
Lemma un_pts i : (i < nrBodies mb)%nat -> ptsn m' i = ptsn m i.
Proof.
  intro Hi. destruct un_kin as (m1 & m1' & F & F' & _ & _ & _ & _ & _ & _ & Ep & Ep' & _). cbv beta. rewrite Ep, Ep'.
  rewrite (fk_pts _ _ _ F i), (fk_pts _ _ _ F' i) by (rewrite ?un_n; auto). rewrite (ou_Xt _ _ _ _ _ _ U). f_equal.
  pose proof (fk_jc _ _ _ F i Hi) as J. pose proof (fk_jc _ _ _ F' i ltac:(rewrite un_n; auto)) as J'.
  rewrite (ou_joints _ _ _ _ _ _ U), (ou_q _ _ _ _ _ _ U) in J'. congruence.
Qed.
Lemma un_pos i : (i < nrBodies mb)%nat -> nth i (bodyPosW m') ptid = nth i (bodyPosW m) ptid.
Proof.
  destruct un_kin as (m1 & m1' & F & F' & _ & _ & _ & _ & Eb & Eb' & Ep & Ep' & _). rewrite Eb, Eb'.
  induction i as [i IH] using lt_wf_ind. intro Hi.
  rewrite (fk_bp _ _ _ F i), (fk_bp _ _ _ F' i) by (rewrite ?un_n; auto). rewrite un_par.
  pose proof (un_pts i Hi) as HP. cbv beta in HP. rewrite Ep, Ep' in HP. rewrite HP.
  destruct (par mb i) eqn:P; auto. pose proof (par_lt mb i n W Hi P). now rewrite IH by lia.
Qed.
Lemma un_posW : bodyPosW m' = bodyPosW m.
Proof.
  destruct un_ok as [Km Km']. pose proof (ok_bodyPosW _ _ Km) as L. pose proof (ok_bodyPosW _ _ Km') as L'. rewrite un_n in L'.
  apply (nth_ext _ _ ptid ptid); [congruence|]. intros i Hi. apply un_pos. congruence.
Qed.
Lemma un_vj i : (i < nrBodies mb)%nat -> vj m' i = svscale k (vj m i).
Proof.
  intro Hi. destruct un_kin as (m1 & m1' & F & F' & _ & _ & V & V' & _ & _ & _ & _ & _ & _ & Ea & Ea'). unfold vj.
  rewrite (fv_jv _ _ _ V i), (fv_jv _ _ _ V' i) by (rewrite ?un_n; auto). rewrite Ea, Ea'.
  rewrite (ou_joints _ _ _ _ _ _ U), (ou_alpha _ _ _ _ _ _ U), nth_times. apply smul_times.
Qed.
Lemma un_vb i : (i < nrBodies mb)%nat -> vb m' i = svscale k (vb m i).
Proof.
  destruct un_kin as (m1 & m1' & F & F' & _ & _ & V & V' & _ & _ & Ep & Ep' & _). unfold vb.
  induction i as [i IH] using lt_wf_ind. intro Hi.
  rewrite (fv_vb _ _ _ V i), (fv_vb _ _ _ V' i) by (rewrite ?un_n; auto). rewrite un_par.
  pose proof (un_vj i Hi) as HV. unfold vj in HV. rewrite HV.
  pose proof (un_pts i Hi) as HP. cbv beta in HP. rewrite Ep, Ep' in HP. rewrite HP.
  destruct (par mb i) eqn:P; auto. pose proof (par_lt mb i n W Hi P). rewrite IH by lia. now rewrite ptm_scale, svscale_add.
Qed.
Lemma scaled_list x (l l' : list SV) n : length l = n -> length l' = n -> (forall i, (i < n)%nat -> nth i l' sv0 = svscale x (nth i l sv0)) ->
  l' = map (svscale x) l.
Proof.
  intros L L' H. apply (nth_ext _ _ sv0 sv0); [now rewrite map_length; congruence|]. intros i Hi. rewrite H by congruence.
  now rewrite (nth_map_lt (svscale x) l i sv0 sv0) by congruence.
Qed.
Lemma un_velB : bodyVelB m' = map (svscale k) (bodyVelB m).
Proof.
  destruct un_ok as [Km Km']. apply (scaled_list k _ _ (nrBodies mb)); [apply Km|rewrite <- un_n; apply Km'|]. intros i Hi. now apply un_vb.
Qed.
Lemma un_velW : bodyVelW m' = map (svscale k) (bodyVelW m).
Proof.
  destruct un_ok as [Km Km']. apply (scaled_list k _ _ (nrBodies mb)); [apply Km|rewrite <- un_n; apply Km'|]. intros i Hi.
  destruct un_kin as (m1 & m1' & F & F' & _ & _ & V & V' & Eb & Eb' & _).
  rewrite (fv_vw _ _ _ V i), (fv_vw _ _ _ V' i) by (rewrite ?un_n; auto). rewrite <- Eb, <- Eb', un_pos by auto.
  pose proof (un_vb i Hi) as HV. unfold vb in HV. rewrite HV. generalize (nth i (bodyVelB m) sv0). intro v. svring.
Qed.
Lemma un_tan i : smul (jS (nth i (mb_joints mb') jd)) (nth i (alphaD m') []) = svscale (k * k) (smul (jS (nth i (mb_joints mb) jd)) (nth i (alphaD m) [])).
Proof.
  destruct (kin_keeps mb m0 m W K A) as (_ & _ & Ed & _). destruct (kin_keeps mb' m0' m' W' K' A') as (_ & _ & Ed' & _).
  rewrite Ed, Ed', (ou_joints _ _ _ _ _ _ U), (ou_alphaD _ _ _ _ _ _ U), nth_times. apply smul_times.
Qed.
Lemma un_cross i : (i < nrBodies mb)%nat -> scross (vb m' i) (vj m' i) = svscale (k * k) (scross (vb m i) (vj m i)).
Proof. intro Hi. rewrite un_vb, un_vj, scross_scale_l, scross_scale_r, svscale_svscale by auto. reflexivity. Qed.
Lemma un_FA A0 n n' : forwardAcceleration mb m A0 = Ok n -> forwardAcceleration mb' m' (svscale (k * k) A0) = Ok n' ->
  bodyAccB n' = map (svscale (k * k)) (bodyAccB n).
Proof.
  intros E E'. destruct un_ok as [K1 K1'].
  destruct (FA_total mb m A0 W K1) as (x & Ex & P). rewrite E in Ex. injection Ex as <-.
  destruct (FA_total mb' m' (svscale (k * k) A0) W' K1') as (x & Ex & P'). rewrite E' in Ex. injection Ex as <-.
  pose proof (fa_len _ _ _ _ P) as L. pose proof (fa_len _ _ _ _ P') as L'. rewrite (ok_bodyAccB _ _ K1) in L. rewrite (ok_bodyAccB _ _ K1'), un_n in L'.
  apply (scaled_list _ _ _ (nrBodies mb)); auto. intro i. induction i as [i IH] using lt_wf_ind. intro Hi.
  rewrite (fa_acc _ _ _ _ P i), (fa_acc _ _ _ _ P' i) by (rewrite ?un_n; auto). rewrite un_par.
  pose proof (un_cross i Hi) as HC. unfold vj, vb in HC. rewrite HC, un_tan.
  pose proof (un_pts i Hi) as HP. cbv beta in HP. rewrite HP. rewrite !svscale_add, <- ptm_scale.
  destruct (par mb i) eqn:Q; auto. pose proof (par_lt mb i n0 W Hi Q). now rewrite IH by lia.
Qed.
Lemma un_grav : mkSV v0 (gravity m') = svscale (k * k) (mkSV v0 (gravity m)).
Proof.
  destruct (kin_keeps mb m0 m W K A) as (_ & _ & _ & _ & Eg & _). destruct (kin_keeps mb' m0' m' W' K' A') as (_ & _ & _ & _ & Eg' & _).
  rewrite Eg, Eg', (ou_gravity _ _ _ _ _ _ U). svring.
Qed.
Lemma un_fext i : (i < nrBodies mb)%nat -> fext m' i = svscale (c * (k * k)) (fext m i).
Proof.
  intro Hi. unfold fext. destruct (kin_keeps mb m0 m W K A) as (_ & _ & _ & Ef & _). destruct (kin_keeps mb' m0' m' W' K' A') as (_ & _ & _ & Ef' & _).
  rewrite Ef, Ef', (ou_force _ _ _ _ _ _ U), un_pos by auto.
  rewrite (nth_map_lt (svscale (c * (k * k))) (force m0) i sv0 sv0) by (rewrite (ok_force _ _ K); auto). apply ptdual_scale.
Qed.
Lemma un_force B B' : (forall i, (i < nrBodies mb)%nat -> B' i = svscale (k * k) (B i)) ->
  forall i, (i < nrBodies mb)%nat -> local_force mb' m' B' i = svscale (c * (k * k)) (local_force mb m B i).
Proof.
  intros E i Hi. unfold local_force. rewrite !un_I, un_vb, E, un_fext by auto. rewrite !rbim_scale.
  generalize (rbim (Ib mb i) (B i)) (rbim (Ib mb i) (vb m i)) (vb m i) (fext m i). intros. svring.
Qed.
Lemma un_fwd A0 s B : fwd (nrBodies mb) (par mb) (ptsn m') A0 s B -> fwd (nrBodies mb) (par mb) (ptsn m) A0 s B.
Proof. intros F i Hi. rewrite (F i Hi). rewrite (un_pts i Hi). reflexivity. Qed.
Lemma un_acc f F : acc (nrBodies mb) (par mb) (ptsn m') f F -> acc (nrBodies mb) (par mb) (ptsn m) f F.
Proof.
  intros F0 i Hi u. rewrite (F0 i Hi). f_equal. apply rsum_ext. intros d Hd. destruct (is_par (par mb) d i); auto.
  rewrite (un_pts d Hd). reflexivity.
Qed.
Lemma un_ms i : (i < nrBodies mb)%nat -> nth i (motionSubspace m') [] = nth i (motionSubspace m) [].
Proof.
  intro Hi. destruct un_kin as (m1 & m1' & F & F' & _ & _ & _ & _ & _ & _ & _ & _ & Em & Em' & _). rewrite Em, Em'.
  rewrite (fk_ms _ _ _ F i Hi), (fk_ms _ _ _ F' i) by (now rewrite un_n). now rewrite (ou_joints _ _ _ _ _ _ U).
Qed.
Lemma un_ID f f' g g' n n' : length f = nrBodies mb -> length f' = nrBodies mb ->
  inverseDynamics mb f m = Ok (g, n) -> inverseDynamics mb' f' m' = Ok (g', n') ->
  jointTorque n' = numbers_times (c * (k * k)) (jointTorque n).
Proof.
  intros L L' E E'. destruct un_ok as [K1 K1'].
  pose proof (ID_run mb m f g n W K1 L E) as P. pose proof (ID_run mb' m' f' g' n' W' K1' ltac:(rewrite un_n; auto) E') as P'.
  pose proof (ip_acc _ _ _ _ P) as HB. pose proof (ip_acc _ _ _ _ P') as HB'. pose proof (ip_F _ _ _ _ P') as HF'.
  rewrite un_par, un_n, un_grav in HB'. rewrite un_par, un_n in HF'.
  assert (EB : forall i, (i < nrBodies mb)%nat -> nth i (bodyAccB n') sv0 = svscale (k * k) (nth i (bodyAccB n) sv0)).
  { intros i Hi. apply (fwd_scale (nrBodies mb) (par mb) (ptsn m) (k * k)) in HB.
    refine (fwd_unique (nrBodies mb) (par mb) (parlt mb W) (ptsn m) _ _ (fun i => nth i (bodyAccB n') sv0) _ _ HB i Hi).
    apply un_fwd. eapply fwd_ext; [apply (parlt mb W)| | |exact HB']; [|auto]. intros d Hd. cbv beta.
    now rewrite svscale_add, (un_cross d Hd), (un_tan d). }
  assert (EF : forall i, (i < nrBodies mb)%nat -> nth i g' sv0 = svscale (c * (k * k)) (nth i g sv0)).
  { intros i Hi. pose proof (acc_scale (nrBodies mb) (par mb) (ptsn m) (c * (k * k)) _ _ (ip_F _ _ _ _ P)) as HF.
    refine (acc_unique (nrBodies mb) (par mb) (parlt mb W) (ptsn m) _ (fun i => nth i g' sv0) _ _ HF i Hi).
    apply un_acc. eapply acc_ext; [|exact HF']. intros d Hd. cbv beta. apply un_force; auto. }
  pose proof (ok_jointTorque _ _ (ip_ok _ _ _ _ P)) as S1. pose proof (ok_jointTorque _ _ (ip_ok _ _ _ _ P')) as S1'.
  pose proof (sized_length _ _ _ S1) as L1. pose proof (sized_length _ _ _ S1') as L1'.
  pose proof (wf_nrJoints mb W) as NJ. pose proof (wf_nrJoints mb' W') as NJ'. rewrite un_n in NJ'.
  apply (nth_ext _ _ [] []); [unfold numbers_times; rewrite map_length; congruence|]. intros i Hi. rewrite L1', NJ' in Hi.
  rewrite nth_times. rewrite (ip_t _ _ _ _ P), (ip_t _ _ _ _ P') by (rewrite ?un_n; auto). rewrite un_ms by auto. rewrite map_map.
  apply map_ext. intro x. rewrite EF by auto. apply svdot_scale_r.
Qed.
Lemma un_posf i : SpecDyn.pos mb' i = SpecDyn.pos mb i.
Proof. unfold SpecDyn.pos. now rewrite (ou_joints _ _ _ _ _ _ U). Qed.
Lemma un_dof i : dofi mb' i = dofi mb i.
Proof. unfold dofi. now rewrite (ou_joints _ _ _ _ _ _ U). Qed.
Lemma un_nrDof : mb_nrDof mb' = mb_nrDof mb.
Proof. now rewrite (wf_nrDof mb W), (wf_nrDof mb' W'), (ou_joints _ _ _ _ _ _ U). Qed.
Lemma un_C s s' d d' : fd_ok mb s -> fd_ok mb' s' -> computeC mb m s = Ok d -> computeC mb' m' s' = Ok d' ->
  fd_C d' = map (Rmult (c * (k * k))) (fd_C d).
Proof.
  intros O1 O2 E E'. destruct un_ok as [K1 K1'].
  destruct (C_ok mb m s W K1 O1) as (c1 & E1 & P1). rewrite E in E1. injection E1 as <-.
  destruct (C_ok mb' m' s' W' K1' O2) as (c2 & E2 & P2). rewrite E' in E2. injection E2 as <-.
  destruct (cp_C _ _ _ _ P1) as (B & f & F & HB & Hf & HF & HC). destruct (cp_C _ _ _ _ P2) as (B' & f' & F' & HB' & Hf' & HF' & HC').
  rewrite un_par, un_n, un_grav in HB'. rewrite un_par, un_n in HF'.
  assert (EB : forall i, (i < nrBodies mb)%nat -> B' i = svscale (k * k) (B i)).
  { intros i Hi. apply (fwd_scale (nrBodies mb) (par mb) (ptsn m) (k * k)) in HB.
    refine (fwd_unique (nrBodies mb) (par mb) (parlt mb W) (ptsn m) _ _ B' _ _ HB i Hi).
    apply un_fwd. eapply fwd_ext; [apply (parlt mb W)| | |exact HB']; [|auto]. intros x Hx. cbv beta. now rewrite (un_cross x Hx). }
  assert (EF : forall i, (i < nrBodies mb)%nat -> F' i = svscale (c * (k * k)) (F i)).
  { intros i Hi. apply (acc_scale (nrBodies mb) (par mb) (ptsn m) (c * (k * k))) in HF.
    refine (acc_unique (nrBodies mb) (par mb) (parlt mb W) (ptsn m) _ F' _ _ HF i Hi).
    apply un_acc. eapply acc_ext; [|exact HF']. intros x Hx. cbv beta. rewrite Hf by auto. rewrite Hf' by (rewrite un_n; auto). now apply un_force. }
  pose proof (fo_C _ _ (cp_ok _ _ _ _ P1)) as L1. pose proof (fo_C _ _ (cp_ok _ _ _ _ P2)) as L2. rewrite un_nrDof in L2.
  apply (nth_ext _ _ 0 0); [rewrite map_length; congruence|]. intros r Hr. rewrite L2 in Hr.
  rewrite (nth_map_lt (Rmult (c * (k * k))) (fd_C d) r 0 0) by congruence.
  rewrite (wf_nrDof mb W), <- pos_all in Hr. pose proof (wf_nrJoints mb W). apply pos_find in Hr; auto.
  destruct Hr as (i & a & Li & La & ->). rewrite HC by (auto; lia). rewrite <- un_posf at 1. rewrite HC' by (rewrite ?un_n, ?un_dof; auto; lia).
  rewrite EF, un_ms by lia. apply svdot_scale_r.
Qed.
Hypothesis RM : rigid_mb mb. Hypothesis C : config_ok mb m0.
Lemma un_rigid : rigid_mb mb'.
Proof. destruct RM. split; rewrite ?(ou_joints _ _ _ _ _ _ U), ?(ou_Xt _ _ _ _ _ _ U); auto. Qed.
Lemma un_config : config_ok mb' m0'.
Proof. intros i j x. rewrite (ou_joints _ _ _ _ _ _ U), (ou_q _ _ _ _ _ _ U). apply C. Qed.
Lemma un_H s s' h h' : fd_ok mb s -> fd_ok mb' s' -> computeH mb m s = Ok h -> computeH mb' m' s' = Ok h' ->
  forall r x, (r < mb_nrDof mb)%nat -> (x < mb_nrDof mb)%nat -> ment (fd_H h') r x = c * ment (fd_H h) r x.
Proof.
  intros FO FO' E E' r x Lr Lc.
  destruct (H_run mb m0 m s h W RM K C A FO E) as [D P]. destruct (H_run mb' m0' m' s' h' W' un_rigid K' un_config A' FO' E') as [D' P'].
  rewrite (wf_nrDof mb W), <- pos_all in Lr, Lc. pose proof (wf_nrJoints mb W).
  apply pos_find in Lr; auto. apply pos_find in Lc; auto.
  destruct Lr as (i & a & Li & La & ->). destruct Lc as (j & b & Lj & Lb & ->).
  rewrite (hp_H _ _ _ _ P) by (auto; lia). rewrite <- !un_posf. rewrite (hp_H _ _ _ _ P') by (rewrite ?un_n, ?un_dof; auto; lia).
  unfold Msp, Fu. rewrite un_n, un_par.
  assert (EX : forall i a, (i < nrBodies mb)%nat -> axis m' i a = axis m i a) by (intros; unfold axis; now rewrite un_ms).
  rewrite !(unit_bilin (nrBodies mb) (par mb) (parlt mb W)) by lia. rewrite <- rsum_scal. apply rsum_ext. intros y Hy.
  assert (EA : forall i v, unitA (par mb) (ptsn m') i v y = unitA (par mb) (ptsn m) i v y).
  { intros i' v. apply (fwd_unique (nrBodies mb) (par mb) (parlt mb W) (ptsn m) sv0 (at_ i' v)); auto.
    - apply un_fwd. apply unitA_fwd. apply (parlt mb W).
    - apply unitA_fwd. apply (parlt mb W). }
  rewrite !EA. rewrite (EX i a), (EX j b), un_I by lia. apply svdot_scale_l.
Qed.
Lemma un_FD solve s s' h h' n n' : 0 < c -> jointTorque m0' = numbers_times (c * (k * k)) (jointTorque m0) -> fd_ok mb s -> fd_ok mb' s' ->
  (forall b, In b (mb_bodies mb) -> inertia_pd (binertia b)) -> solver_ok solve ->
  forwardDynamics solve mb m s = Ok (h, n) -> forwardDynamics solve mb' m' s' = Ok (h', n') -> alphaD n' = numbers_times (k * k) (alphaD n).
Proof.
  intros Cp ST O1 O2 PD SO E E'.
  assert (PD' : forall b, In b (mb_bodies mb') -> inertia_pd (binertia b)).
  { rewrite (ou_bodies _ _ _ _ _ _ U). intros b Hb. apply in_map_iff in Hb as (b0 & <- & Hb). intro u. rewrite rbim_times, svdot_scale_l.
    destruct (PD b0 Hb u) as [Q1 Q2]. split; [apply Rmult_le_pos; lra|]. intro Z. apply Q2. apply Rmult_integral in Z. destruct Z; lra. }
  pose proof (after_kin_state mb m0 m W RM K C A) as D. pose proof (after_kin_state mb' m0' m' W' un_rigid K' un_config A') as D'.
  destruct (FD_run mb m s solve W RM D O1 PD SO) as (s1 & s2 & s3 & m3 & E1 & E2 & P1 & P2 & E3 & _ & _ & Sd & _ & _ & Hx).
  destruct (FD_run mb' m' s' solve W' un_rigid D' O2 PD' SO) as (t1 & t2 & t3 & n3 & E1' & E2' & P1' & P2' & E3' & _ & _ & Sd' & _ & _ & Hx').
  rewrite E in E3. injection E3 as <- <-. rewrite E' in E3'. injection E3' as <- <-.
  pose proof (un_C s1 t1 s2 t2 (hp_ok _ _ _ _ P1) (hp_ok _ _ _ _ P1') E2 E2') as EC. rewrite un_nrDof in Hx'.
  destruct (kin_keeps mb m0 m W K A) as (_ & _ & _ & _ & _ & Et). destruct (kin_keeps mb' m0' m' W' K' A') as (_ & _ & _ & _ & _ & Et').
  apply (flat_inj mb); auto; [unfold sized in *; now rewrite <- (ou_joints _ _ _ _ _ _ U)|now apply numbers_sized|].
  apply (spd_inj (mb_nrDof mb) (ment (fd_H s1)) _ _ (H_pd mb m s s1 W RM D P1 PD)).
  intros r Hr. apply (Rmult_eq_reg_l c); [|lra].
  transitivity (rsum (mb_nrDof mb) (fun x => ment (fd_H t1) r x * flat (alphaD n') x)).
  { rewrite <- rsum_scal. apply rsum_ext. intros x Hxx. rewrite (un_H s s' s1 t1 O1 O2 E1 E1' r x Hr Hxx). ring. }
  rewrite Hx' by auto. rewrite EC, Et', ST, flat_times. pose proof (fo_C _ _ (cp_ok _ _ _ _ P2)) as LC.
  rewrite (nth_map_lt (Rmult (c * (k * k))) (fd_C s2) r 0 0) by congruence. rewrite <- Et.
  transitivity (c * (k * k) * (flat (jointTorque m) r - nth r (fd_C s2) 0)); [ring|]. rewrite <- Hx by auto.
  rewrite <- !rsum_scal. apply rsum_ext. intros x Hxx. rewrite flat_times. ring.
Qed.
End Units.
