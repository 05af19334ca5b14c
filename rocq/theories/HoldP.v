(** Fixing joints is holding them where their pose is the identity. *)
From Coq Require Import Reals String ZArith Bool Arith List Lia Lra.
From Verif Require Import Res ResP SMap Vec VecP Sva SvaP Mat JointM MultiBodyM KinM DynM CoMM Spec SpecDyn SpecHold
  JointP JointFinP KinP MbP TreeP DynP DynHP DynCP DynFinP DynFin2P KinFinP BaseP JacTopP.
Import ListNotations.
Open Scope R_scope.

Lemma fixed_S j : joint_ok j -> jtyp j = Fixed -> jS j = [].
Proof.
  intros J T. destruct (sizes j J) as (_ & _ & L). rewrite (joint_ok_dof j J), T in L. now apply length_zero_iff_nil.
Qed.

Section Hold.
Variables (mb mb' : MultiBody) (m0 m m0' m' : MBC).
Hypothesis T : same_tree mb mb'.
Hypothesis W : wf_mb mb. Hypothesis W' : wf_mb mb'.
Hypothesis K : mbc_ok mb m0. Hypothesis K' : mbc_ok mb' m0'.
Hypothesis A : after_kinematics mb m0 m. Hypothesis A' : after_kinematics mb' m0' m'.
Hypothesis H : held_state mb m0 mb' m0'.

Lemma hd_n : nrBodies mb' = nrBodies mb.
Proof. unfold nrBodies. now rewrite (st_bodies _ _ T). Qed.
Lemma hd_par i : par mb' i = par mb i.
Proof. unfold par. now rewrite (st_pred _ _ T). Qed.
Lemma hd_par_fun : par mb' = par mb.
Proof. unfold par. now rewrite (st_pred _ _ T). Qed.
Lemma hd_Ib : Ib mb' = Ib mb.
Proof. unfold Ib. now rewrite (st_bodies _ _ T). Qed.

Lemma hd_jc i : (i < nrBodies mb)%nat -> pose (nth i (mb_joints mb') jd) (nth i (q m0') []) = pose (nth i (mb_joints mb) jd) (nth i (q m0) []).
Proof.
  intro Hi. destruct (proj2 (proj2 H) i Hi) as [E1 E2 _ _|F P _ _]; [now rewrite E1, E2|].
  rewrite P. unfold pose. now rewrite F.
Qed.
Lemma hd_kin : exists m1 m1', fk_post mb m0 m1 /\ fk_post mb' m0' m1' /\ mbc_ok mb m1 /\ mbc_ok mb' m1' /\ fv_post mb m1 m /\ fv_post mb' m1' m' /\
  bodyPosW m = bodyPosW m1 /\ bodyPosW m' = bodyPosW m1' /\ parentToSon m = parentToSon m1 /\ parentToSon m' = parentToSon m1' /\
  motionSubspace m = motionSubspace m1 /\ motionSubspace m' = motionSubspace m1' /\ alpha m1 = alpha m0 /\ alpha m1' = alpha m0'.
Proof.
  destruct A as (m1 & E1 & E2). destruct A' as (m1' & E1' & E2').
  pose proof (FK_run mb m0 m1 W K E1) as F. pose proof (FK_run mb' m0' m1' W' K' E1') as F'.
  pose proof (FK_mbc_ok _ _ _ W K F) as K1. pose proof (FK_mbc_ok _ _ _ W' K' F') as K1'.
  pose proof (FV_run mb m1 m W K1 E2) as V. pose proof (FV_run mb' m1' m' W' K1' E2') as V'.
  exists m1, m1'. do 6 (split; [assumption|]).
  rewrite (fv_frame _ _ _ V), (fv_frame _ _ _ V').
  split; [reflexivity|]. split; [reflexivity|]. split; [reflexivity|]. split; [reflexivity|]. split; [reflexivity|]. split; [reflexivity|].
  rewrite (fk_frame _ _ _ F), (fk_frame _ _ _ F'). split; reflexivity.
Qed.
Lemma hd_pts i : (i < nrBodies mb)%nat -> ptsn m' i = ptsn m i.
Proof.
  intro Hi. destruct hd_kin as (m1 & m1' & F & F' & _ & _ & _ & _ & _ & _ & Ep & Ep' & _). cbv beta. rewrite Ep, Ep'.
  rewrite (fk_pts _ _ _ F i), (fk_pts _ _ _ F' i) by (rewrite ?hd_n; auto). rewrite (st_Xt _ _ T). f_equal.
  pose proof (fk_jc _ _ _ F i Hi) as J. pose proof (fk_jc _ _ _ F' i ltac:(rewrite hd_n; auto)) as J'.
  rewrite hd_jc in J' by auto. congruence.
Qed.
Lemma hd_pos i : (i < nrBodies mb)%nat -> nth i (bodyPosW m') ptid = nth i (bodyPosW m) ptid.
Proof.
  destruct hd_kin as (m1 & m1' & F & F' & _ & _ & _ & _ & Eb & Eb' & Ep & Ep' & _). rewrite Eb, Eb'.
  induction i as [i IH] using lt_wf_ind. intro Hi.
  rewrite (fk_bp _ _ _ F i), (fk_bp _ _ _ F' i) by (rewrite ?hd_n; auto). rewrite hd_par.
  pose proof (hd_pts i Hi) as HP. cbv beta in HP. rewrite Ep, Ep' in HP. rewrite HP.
  destruct (par mb i) eqn:P; auto. pose proof (par_lt mb i n W Hi P). now rewrite IH by lia.
Qed.
Lemma hd_lens : length (bodyPosW m) = nrBodies mb /\ length (bodyPosW m') = nrBodies mb /\ length (bodyVelB m) = nrBodies mb /\
  length (bodyVelB m') = nrBodies mb /\ length (bodyVelW m) = nrBodies mb /\ length (bodyVelW m') = nrBodies mb.
Proof.
  destruct hd_kin as (m1 & m1' & _ & _ & K1 & K1' & V & V' & _).
  pose proof (FV_mbc_ok _ _ _ K1 V) as K2. pose proof (FV_mbc_ok _ _ _ K1' V') as K2'.
  rewrite (ok_bodyPosW _ _ K2), (ok_bodyPosW _ _ K2'), (ok_bodyVelB _ _ K2), (ok_bodyVelB _ _ K2'), (ok_bodyVelW _ _ K2), (ok_bodyVelW _ _ K2'), hd_n.
  repeat split.
Qed.
Lemma hd_posW : bodyPosW m' = bodyPosW m.
Proof.
  destruct hd_lens as (L & L' & _). apply (nth_ext _ _ ptid ptid); [congruence|]. intros i Hi. apply hd_pos. congruence.
Qed.
Lemma hd_vj i : (i < nrBodies mb)%nat -> vj m' i = vj m i.
Proof.
  intro Hi. destruct hd_kin as (m1 & m1' & F & F' & _ & _ & V & V' & _ & _ & _ & _ & _ & _ & Ea & Ea'). unfold vj.
  rewrite (fv_jv _ _ _ V i), (fv_jv _ _ _ V' i) by (rewrite ?hd_n; auto). rewrite Ea, Ea'.
  destruct (proj2 (proj2 H) i Hi) as [E1 _ E3 _|Fx _ Z _]; [now rewrite E1, E3|].
  rewrite (fixed_S _ (wf_joint_nth mb' i W' ltac:(rewrite hd_n; auto)) Fx). rewrite (smul_zeros _ _ Z). reflexivity.
Qed.
Lemma hd_vb i : (i < nrBodies mb)%nat -> vb m' i = vb m i.
Proof.
  destruct hd_kin as (m1 & m1' & F & F' & _ & _ & V & V' & _ & _ & Ep & Ep' & _). unfold vb.
  induction i as [i IH] using lt_wf_ind. intro Hi.
  rewrite (fv_vb _ _ _ V i), (fv_vb _ _ _ V' i) by (rewrite ?hd_n; auto). rewrite hd_par.
  pose proof (hd_vj i Hi) as HV. unfold vj in HV. rewrite HV.
  pose proof (hd_pts i Hi) as HP. cbv beta in HP. rewrite Ep, Ep' in HP. rewrite HP.
  destruct (par mb i) eqn:P; auto. pose proof (par_lt mb i n W Hi P). now rewrite IH by lia.
Qed.
Lemma hd_velB : bodyVelB m' = bodyVelB m.
Proof.
  destruct hd_lens as (_ & _ & L & L' & _). apply (nth_ext _ _ sv0 sv0); [congruence|]. intros i Hi. apply hd_vb. congruence.
Qed.
Lemma hd_velW : bodyVelW m' = bodyVelW m.
Proof.
  destruct hd_lens as (_ & _ & _ & _ & L & L'). apply (nth_ext _ _ sv0 sv0); [congruence|]. intros i Hi. rewrite L' in Hi.
  destruct hd_kin as (m1 & m1' & F & F' & _ & _ & V & V' & Eb & Eb' & _).
  rewrite (fv_vw _ _ _ V i), (fv_vw _ _ _ V' i) by (rewrite ?hd_n; auto). rewrite <- Eb, <- Eb', hd_pos by auto.
  pose proof (hd_vb i Hi) as HV. unfold vb in HV. now rewrite HV.
Qed.
Lemma hd_ok : mbc_ok mb m /\ mbc_ok mb' m'.
Proof.
  destruct hd_kin as (m1 & m1' & _ & _ & K1 & K1' & V & V' & _).
  split; [exact (FV_mbc_ok _ _ _ K1 V)|exact (FV_mbc_ok _ _ _ K1' V')].
Qed.
Lemma hd_tan i : (i < nrBodies mb)%nat -> smul (jS (nth i (mb_joints mb') jd)) (nth i (alphaD m') []) = smul (jS (nth i (mb_joints mb) jd)) (nth i (alphaD m) []).
Proof.
  intro Hi. destruct (kin_keeps mb m0 m W K A) as (_ & _ & Ed & _). destruct (kin_keeps mb' m0' m' W' K' A') as (_ & _ & Ed' & _).
  rewrite Ed, Ed'. destruct (proj2 (proj2 H) i Hi) as [E1 _ _ E3|Fx _ _ Z]; [now rewrite E1, E3|].
  rewrite (fixed_S _ (wf_joint_nth mb' i W' ltac:(rewrite hd_n; auto)) Fx). rewrite (smul_zeros _ _ Z). reflexivity.
Qed.
Lemma hd_ms i : (i < nrBodies mb)%nat -> nth i (motionSubspace m) [] = jS (nth i (mb_joints mb) jd) /\ nth i (motionSubspace m') [] = jS (nth i (mb_joints mb') jd).
Proof.
  intro Hi. destruct hd_kin as (m1 & m1' & F & F' & _ & _ & _ & _ & _ & _ & _ & _ & Em & Em' & _). rewrite Em, Em'.
  split; [exact (fk_ms _ _ _ F i Hi)|apply (fk_ms _ _ _ F' i); now rewrite hd_n].
Qed.
Lemma hd_FA A0 n n' : forwardAcceleration mb m A0 = Ok n -> forwardAcceleration mb' m' A0 = Ok n' -> bodyAccB n' = bodyAccB n.
Proof.
  intros E E'. destruct hd_ok as [K1 K1'].
  destruct (FA_total mb m A0 W K1) as (x & Ex & P). rewrite E in Ex. injection Ex as <-.
  destruct (FA_total mb' m' A0 W' K1') as (x & Ex & P'). rewrite E' in Ex. injection Ex as <-.
  pose proof (fa_len _ _ _ _ P) as L. pose proof (fa_len _ _ _ _ P') as L'. rewrite (ok_bodyAccB _ _ K1) in L. rewrite (ok_bodyAccB _ _ K1'), hd_n in L'.
  apply (nth_ext _ _ sv0 sv0); [congruence|]. rewrite L'. intro i. induction i as [i IH] using lt_wf_ind. intro Hi.
  rewrite (fa_acc _ _ _ _ P i), (fa_acc _ _ _ _ P' i) by (rewrite ?hd_n; auto). rewrite hd_par.
  pose proof (hd_vj i Hi) as HV. pose proof (hd_vb i Hi) as HB. unfold vj in HV. unfold vb in HB. rewrite HV, HB, hd_tan by auto.
  pose proof (hd_pts i Hi) as HP. cbv beta in HP. rewrite HP.
  destruct (par mb i) eqn:Q; auto. pose proof (par_lt mb i n0 W Hi Q). now rewrite IH by lia.
Qed.
Lemma hd_grav : gravity m' = gravity m /\ force m' = force m.
Proof.
  destruct (kin_keeps mb m0 m W K A) as (_ & _ & _ & Ef & Eg & _). destruct (kin_keeps mb' m0' m' W' K' A') as (_ & _ & _ & Ef' & Eg' & _).
  destruct H as (Hg & Hf & _). split; congruence.
Qed.
Lemma hd_force B B' : (forall i, (i < nrBodies mb)%nat -> B' i = B i) ->
  forall i, (i < nrBodies mb)%nat -> local_force mb' m' B' i = local_force mb m B i.
Proof. intros E i Hi. unfold local_force, fext. rewrite hd_Ib, hd_vb, E, hd_pos, (proj2 hd_grav) by auto. reflexivity. Qed.
(** Recursions over the tree with transforms that agree. *)
Lemma hd_fwd A0 s B : fwd (nrBodies mb) (par mb) (ptsn m') A0 s B -> fwd (nrBodies mb) (par mb) (ptsn m) A0 s B.
Proof. intros F i Hi. rewrite (F i Hi). rewrite (hd_pts i Hi). reflexivity. Qed.
Lemma hd_acc f F : acc (nrBodies mb) (par mb) (ptsn m') f F -> acc (nrBodies mb) (par mb) (ptsn m) f F.
Proof.
  intros F0 i Hi u. rewrite (F0 i Hi). f_equal. apply rsum_ext. intros c Hc. destruct (is_par (par mb) c i); auto.
  rewrite (hd_pts c Hc). reflexivity.
Qed.
Lemma hd_ID f f' g g' n n' : length f = nrBodies mb -> length f' = nrBodies mb ->
  inverseDynamics mb f m = Ok (g, n) -> inverseDynamics mb' f' m' = Ok (g', n') ->
  bodyAccB n' = bodyAccB n /\ g' = g /\
  forall i, (i < nrBodies mb)%nat -> nth i (mb_joints mb') jd = nth i (mb_joints mb) jd -> nth i (jointTorque n') [] = nth i (jointTorque n) [].
Proof.
  intros L L' E E'. destruct hd_ok as [K1 K1'].
  pose proof (ID_run mb m f g n W K1 L E) as P. pose proof (ID_run mb' m' f' g' n' W' K1' ltac:(rewrite hd_n; auto) E') as P'.
  pose proof (ip_acc _ _ _ _ P) as HB. pose proof (ip_acc _ _ _ _ P') as HB'. pose proof (ip_F _ _ _ _ P') as HF'.
  rewrite hd_par_fun, hd_n, (proj1 hd_grav) in HB'. rewrite hd_par_fun, hd_n in HF'.
  assert (EB : forall i, (i < nrBodies mb)%nat -> nth i (bodyAccB n') sv0 = nth i (bodyAccB n) sv0).
  { intros i Hi.
    apply (fwd_unique (nrBodies mb) (par mb) (parlt mb W) (ptsn m) (mkSV v0 (gravity m)) (fun i => svadd (smul (jS (nth i (mb_joints mb) jd)) (nth i (alphaD m) [])) (scross (vb m i) (vj m i)))
      (fun i => nth i (bodyAccB n') sv0) (fun i => nth i (bodyAccB n) sv0)); auto.
    apply hd_fwd. eapply fwd_ext; [apply (parlt mb W)| | |exact HB']; [|auto]. intros k Hk. cbv beta.
    now rewrite (hd_vb k Hk), (hd_vj k Hk), (hd_tan k Hk). }
  assert (EF : forall i, (i < nrBodies mb)%nat -> nth i g' sv0 = nth i g sv0).
  { intros i Hi. apply (acc_unique (nrBodies mb) (par mb) (parlt mb W) (ptsn m) (local_force mb m (fun i => nth i (bodyAccB n) sv0))
      (fun i => nth i g' sv0) (fun i => nth i g sv0)); auto; [|exact (ip_F _ _ _ _ P)].
    apply hd_acc. eapply acc_ext; [|exact HF']. intros k Hk. apply hd_force; auto. }
  pose proof (ok_bodyAccB _ _ (ip_ok _ _ _ _ P)) as L1. pose proof (ok_bodyAccB _ _ (ip_ok _ _ _ _ P')) as L1'. rewrite hd_n in L1'.
  pose proof (ip_f _ _ _ _ P) as L2. pose proof (ip_f _ _ _ _ P') as L2'. rewrite hd_n in L2'.
  split; [apply (nth_ext _ _ sv0 sv0); [congruence|]; intros i Hi; apply EB; congruence|].
  split; [apply (nth_ext _ _ sv0 sv0); [congruence|]; intros i Hi; apply EF; congruence|].
  intros i Hi EJ. rewrite (ip_t _ _ _ _ P), (ip_t _ _ _ _ P') by (rewrite ?hd_n; auto).
  destruct (hd_ms i Hi) as [M M']. rewrite M, M', EJ, EF by auto. reflexivity.
Qed.
Lemma hd_C s s' c c' : fd_ok mb s -> fd_ok mb' s' -> computeC mb m s = Ok c -> computeC mb' m' s' = Ok c' ->
  forall i a, (i < nrBodies mb)%nat -> nth i (mb_joints mb') jd = nth i (mb_joints mb) jd -> (a < dofi mb i)%nat ->
    nth (pos mb' i + a) (fd_C c') 0 = nth (pos mb i + a) (fd_C c) 0.
Proof.
  intros O1 O2 E E'. destruct hd_ok as [K1 K1'].
  destruct (C_ok mb m s W K1 O1) as (c1 & E1 & P1). rewrite E in E1. injection E1 as <-.
  destruct (C_ok mb' m' s' W' K1' O2) as (c2 & E2 & P2). rewrite E' in E2. injection E2 as <-.
  destruct (cp_C _ _ _ _ P1) as (B & f & F & HB & Hf & HF & HC). destruct (cp_C _ _ _ _ P2) as (B' & f' & F' & HB' & Hf' & HF' & HC').
  rewrite hd_par_fun, hd_n, (proj1 hd_grav) in HB'. rewrite hd_par_fun, hd_n in HF'.
  assert (EB : forall i, (i < nrBodies mb)%nat -> B' i = B i).
  { intros i Hi. apply (fwd_unique (nrBodies mb) (par mb) (parlt mb W) (ptsn m) (mkSV v0 (gravity m)) (fun i => scross (vb m i) (vj m i))); auto.
    apply hd_fwd. eapply fwd_ext; [apply (parlt mb W)| | |exact HB']; [|auto]. intros k Hk. cbv beta. now rewrite (hd_vb k Hk), (hd_vj k Hk). }
  assert (EF : forall i, (i < nrBodies mb)%nat -> F' i = F i).
  { intros i Hi. apply (acc_unique (nrBodies mb) (par mb) (parlt mb W) (ptsn m) f); auto.
    apply hd_acc. eapply acc_ext; [|exact HF']. intros k Hk. rewrite Hf by auto. rewrite Hf' by (rewrite hd_n; auto). now apply hd_force. }
  intros i a Hi EJ La. rewrite HC by auto. rewrite HC' by (rewrite ?hd_n; auto; unfold dofi; rewrite EJ; auto).
  destruct (hd_ms i Hi) as [M M']. rewrite M, M', EJ, EF by auto. reflexivity.
Qed.
Hypothesis RM : rigid_mb mb. Hypothesis RM' : rigid_mb mb'.
Hypothesis C : config_ok mb m0.
Lemma hd_config : config_ok mb' m0'.
Proof.
  intros i j qi Ej Eq. pose proof (wf_nrJoints mb' W') as NJ.
  assert (Hi : (i < nrBodies mb)%nat) by (rewrite <- hd_n, <- NJ; apply nth_error_Some; congruence).
  pose proof (sized_nth mb' jparams (q m0') i (ok_q _ _ K') ltac:(rewrite NJ, hd_n; auto)) as LQ.
  pose proof (proj2 (proj2 H) i Hi) as HK. rewrite (nth_error_nth _ _ jd Ej), (nth_error_nth _ _ [] Eq) in *.
  pose proof (wf_nrJoints mb W) as NJ0. 
  destruct HK as [E1 E2 _ _|Fx _ _ _].
  - apply (C i); rewrite ?E1, ?E2; apply nth_error_nth'.
    + unfold nrJoints in NJ0. lia.
    + rewrite (sized_length _ _ _ (ok_q _ _ K)). lia.
  - split; [|now rewrite Fx]. exact LQ.
Qed.
Lemma hd_H s s' h h' : fd_ok mb s -> fd_ok mb' s' -> computeH mb m s = Ok h -> computeH mb' m' s' = Ok h' ->
  forall i j a b, (i < nrBodies mb)%nat -> (j < nrBodies mb)%nat ->
    nth i (mb_joints mb') jd = nth i (mb_joints mb) jd -> nth j (mb_joints mb') jd = nth j (mb_joints mb) jd ->
    (a < dofi mb i)%nat -> (b < dofi mb j)%nat ->
    ment (fd_H h') (pos mb' i + a) (pos mb' j + b) = ment (fd_H h) (pos mb i + a) (pos mb j + b).
Proof.
  intros FO FO' E E' i j a b Li Lj EI EJ La Lb.
  destruct (H_run mb m0 m s h W RM K C A FO E) as [D P]. destruct (H_run mb' m0' m' s' h' W' RM' K' hd_config A' FO' E') as [D' P'].
  rewrite (hp_H _ _ _ _ P) by auto. rewrite (hp_H _ _ _ _ P') by (rewrite ?hd_n; auto; unfold dofi; rewrite ?EI, ?EJ; auto).
  unfold Msp, Fu. rewrite hd_n, hd_par_fun, hd_Ib.
  assert (EX : forall i a, (i < nrBodies mb)%nat -> nth i (mb_joints mb') jd = nth i (mb_joints mb) jd -> axis m' i a = axis m i a).
  { intros i' a' Hi Ee. unfold axis. destruct (hd_ms i' Hi) as [M M']. now rewrite M, M', Ee. }
  rewrite !(unit_bilin (nrBodies mb) (par mb) (parlt mb W)) by auto. apply rsum_ext. intros k Hk.
  assert (EA : forall i v, unitA (par mb) (ptsn m') i v k = unitA (par mb) (ptsn m) i v k).
  { intros i' v. apply (fwd_unique (nrBodies mb) (par mb) (parlt mb W) (ptsn m) sv0 (at_ i' v)); auto.
    - apply hd_fwd. apply unitA_fwd. apply (parlt mb W).
    - apply unitA_fwd. apply (parlt mb W). }
  rewrite !EA. rewrite (EX i a), (EX j b) by auto. reflexivity.
Qed.
End Hold.
