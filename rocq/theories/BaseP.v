(** Which parts of the state the dynamics depend on: the mass matrix couples only joints on a common branch, and
    nothing but gravity and external forces depends on where the roots are. *)
From Coq Require Import Reals String ZArith Bool Arith List Lia Lra.
From Verif Require Import Res ResP SMap Vec VecP Sva SvaP Mat JointM MultiBodyM KinM DynM Spec SpecDyn SpecBase
  KinP MbP TreeP DynP DynHP DynCP DynFinP DynFin2P KinFinP.
Import ListNotations.
Open Scope R_scope.

Section Tree.
Variables (n : nat) (pa : nat -> option nat) (X Y : nat -> PT).
Hypothesis PL : forall i p, (i < n)%nat -> pa i = Some p -> (p < i)%nat.
Hypothesis XY : forall i p, (i < n)%nat -> pa i = Some p -> X i = Y i.

Lemma fwd_nonroot s A : fwd n pa X sv0 s A -> fwd n pa Y sv0 s A.
Proof.
  intros H i Hi. rewrite H by auto. destruct (pa i) as [p|] eqn:P.
  - now rewrite (XY i p Hi P).
  - now rewrite !ptm_sv0.
Qed.
Lemma acc_nonroot f F : acc n pa X f F -> acc n pa Y f F.
Proof.
  intros H i Hi u. rewrite H by auto. f_equal. apply rsum_ext. intros c Hc. unfold is_par.
  destruct (pa c) as [p|] eqn:P; [|reflexivity]. now rewrite (XY c p Hc P).
Qed.
(** Motion of joint i only moves what is carried by i. *)
Lemma unitA_zero (P : nat -> Prop) i v : P i -> (forall k p, (k < n)%nat -> pa k = Some p -> P p -> P k) ->
  forall k, (k < n)%nat -> ~ P k -> unitA pa X i v k = sv0.
Proof.
  intros Pi Ps k. induction k as [k IH] using lt_wf_ind. intros Hk Nk.
  rewrite (unitA_fwd n pa PL X i v k Hk). unfold at_ at 1.
  destruct (Nat.eqb_spec k i) as [->|Ne]; [contradiction|]. rewrite svadd_0_r.
  destruct (pa k) as [p|] eqn:E; [|apply ptm_sv0].
  pose proof (PL k p Hk E) as L. rewrite IH; [apply ptm_sv0|exact L|lia|].
  intros Pp. apply Nk. eapply Ps; eauto.
Qed.
End Tree.

Lemma par_pred mb i p : wf_mb mb -> (i < nrBodies mb)%nat -> par mb i = Some p -> nth_error (mb_pred mb) i = Some (Z.of_nat p).
Proof.
  intros W Hi. unfold par. pose proof (wf_pred_len mb W).
  destruct (wf_get_pred mb i W Hi) as [[Ep Pp]|(p' & Ep & Hp & Pp)]; unfold get in Ep;
    destruct (nth_error (mb_pred mb) i) as [z|]; try discriminate; injection Ep as ->.
  - simpl. discriminate.
  - destruct (Z.eqb_spec (Z.of_nat p') (-1)); [lia|]. intros E. injection E as <-. now rewrite Nat2Z.id.
Qed.
Lemma anc_child mb i k p : wf_mb mb -> (k < nrBodies mb)%nat -> par mb k = Some p -> anc mb i p -> anc mb i k.
Proof. intros W Hk P A. eapply anc_step; [|exact A]. now apply par_pred. Qed.
Lemma anc_le mb i k : wf_mb mb -> (k < nrBodies mb)%nat -> anc mb i k -> (i <= k)%nat.
Proof.
  intros W Hk A. induction A as [k|i p k E A IH]; [lia|].
  assert (P : par mb k = Some p). { unfold par. rewrite E. destruct (Z.eqb_spec (Z.of_nat p) (-1)); [lia|]. now rewrite Nat2Z.id. }
  pose proof (parlt mb W k p Hk P). specialize (IH ltac:(lia)). lia.
Qed.
(** Two ancestors of one body are on one branch. *)
Lemma anc_total mb i j k : wf_mb mb -> (k < nrBodies mb)%nat -> anc mb i k -> anc mb j k -> anc mb i j \/ anc mb j i.
Proof.
  intros W Hk A. revert Hk. induction A as [k|i p k E A IH]; intros Hk B; [right; exact B|].
  inversion B as [k'|i' p' k' E' B']; subst.
  - left. eapply anc_step; eauto.
  - rewrite E in E'. injection E' as E'. apply Nat2Z.inj in E'. subst p'.
    assert (P : par mb k = Some p). { unfold par. rewrite E. destruct (Z.eqb_spec (Z.of_nat p) (-1)); [lia|]. now rewrite Nat2Z.id. }
    pose proof (parlt mb W k p Hk P). apply IH; [lia|exact B'].
Qed.

Lemma H_sparse mb m0 m s s' : wf_mb mb -> rigid_mb mb -> mbc_ok mb m0 -> config_ok mb m0 -> after_kinematics mb m0 m ->
  fd_ok mb s -> computeH mb m s = Ok s' ->
  forall i j a b, (i < nrBodies mb)%nat -> (j < nrBodies mb)%nat -> (a < dofi mb i)%nat -> (b < dofi mb j)%nat ->
  ~ anc mb i j -> ~ anc mb j i -> ment (fd_H s') (pos mb i + a) (pos mb j + b) = 0.
Proof.
  intros W RM K0 C AK FO E i j a b Hi Hj Ha Hb N1 N2.
  destruct (H_run mb m0 m s s' W RM K0 C AK FO E) as [D P].
  rewrite (hp_H _ _ _ _ P) by auto. unfold Msp, Fu.
  rewrite (unit_bilin (nrBodies mb) (par mb) (parlt mb W) (ptsn m) (Ib mb)) by auto. apply rsum_eq0. intros k Hk.
  assert (DecA : forall i k, (k < nrBodies mb)%nat -> anc mb i k \/ ~ anc mb i k).
  { clear - W. intros i k. induction k as [k IH] using lt_wf_ind. intros Hk.
    destruct (Nat.eq_dec i k) as [->|Ne]; [left; constructor|].
    destruct (par mb k) as [p|] eqn:P.
    - pose proof (parlt mb W k p Hk P) as L. destruct (IH p L ltac:(lia)) as [A|A].
      + left. eapply anc_child; eauto.
      + right. intros B. inversion B as [|x p' y E' B']; subst; [congruence|].
        rewrite (par_pred mb k p W Hk P) in E'. injection E' as E'. apply Nat2Z.inj in E'. subst p'. contradiction.
    - right. intros B. inversion B as [|x p' y E' B']; subst; [congruence|].
      unfold par in P. rewrite E' in P. destruct (Z.eqb_spec (Z.of_nat p') (-1)); [lia|discriminate]. }
  destruct (DecA i k Hk) as [Ai|Ni].
  - destruct (DecA j k Hk) as [Aj|Nj].
    + destruct (anc_total mb i j k W Hk Ai Aj); contradiction.
    + rewrite (unitA_zero (nrBodies mb) (par mb) (ptsn m) (parlt mb W) (anc mb j) j (axis m j b)) with (k := k); auto.
      * apply svdot_0_r.
      * constructor.
      * intros k' p Hk' P' A. eapply anc_child; eauto.
  - rewrite (unitA_zero (nrBodies mb) (par mb) (ptsn m) (parlt mb W) (anc mb i) i (axis m i a)) with (k := k); auto.
    + rewrite rbim_sv0. apply svdot_0_l.
    + constructor.
    + intros k' p Hk' P' A. eapply anc_child; eauto.
Qed.

Lemma pts_of_kin mb m0 m : wf_mb mb -> mbc_ok mb m0 -> after_kinematics mb m0 m ->
  forall i, (i < nrBodies mb)%nat -> exists Xj, pose (nth i (mb_joints mb) jd) (nth i (q m0) []) = Ok Xj /\
    ptsn m i = ptmul Xj (nth i (mb_Xt mb) ptid).
Proof.
  intros W K (m1 & E1 & E2) i Hi. pose proof (FK_run mb m0 m1 W K E1) as F.
  pose proof (FV_run mb m1 m W (FK_mbc_ok mb m0 m1 W K F) E2) as V.
  exists (nth i (jointConfig m1) ptid). split; [now apply (fk_jc _ _ _ F)|].
  rewrite (fv_frame _ _ _ V). cbn [parentToSon with_bodyVelW with_bodyVelB with_jointVelocity].
  now apply (fk_pts _ _ _ F).
Qed.
Lemma same_pts mb m0 m m0' m' : wf_mb mb -> mbc_ok mb m0 -> mbc_ok mb m0' -> after_kinematics mb m0 m -> after_kinematics mb m0' m' ->
  same_inside mb m0 m0' -> forall i p, (i < nrBodies mb)%nat -> par mb i = Some p -> ptsn m i = ptsn m' i.
Proof.
  intros W K K' A A' S i p Hi P.
  destruct (pts_of_kin mb m0 m W K A i Hi) as (Xj & E & ->). destruct (pts_of_kin mb m0' m' W K' A' i Hi) as (Xj' & E' & ->).
  assert (N : nth_error (mb_pred mb) i <> Some (-1)%Z).
  { rewrite (par_pred mb i p W Hi P). intros F. injection F. lia. }
  rewrite (S i Hi N) in E. rewrite E in E'. injection E' as ->. reflexivity.
Qed.

Lemma H_base mb m0 m m0' m' s s' h h' : wf_mb mb -> rigid_mb mb ->
  mbc_ok mb m0 -> config_ok mb m0 -> after_kinematics mb m0 m ->
  mbc_ok mb m0' -> config_ok mb m0' -> after_kinematics mb m0' m' ->
  same_inside mb m0 m0' -> fd_ok mb s -> fd_ok mb s' -> computeH mb m s = Ok h -> computeH mb m' s' = Ok h' ->
  forall r c, (r < mb_nrDof mb)%nat -> (c < mb_nrDof mb)%nat -> ment (fd_H h) r c = ment (fd_H h') r c.
Proof.
  intros W RM K C A K' C' A' S FO FO' E E' r c Lr Lc.
  destruct (H_run mb m0 m s h W RM K C A FO E) as [D P]. destruct (H_run mb m0' m' s' h' W RM K' C' A' FO' E') as [D' P'].
  rewrite (wf_nrDof mb W), <- pos_all in Lr, Lc. pose proof (wf_nrJoints mb W).
  apply pos_find in Lr; auto. apply pos_find in Lc; auto.
  destruct Lr as (i & a & Li & La & ->). destruct Lc as (j & b & Lj & Lb & ->).
  rewrite (hp_H _ _ _ _ P), (hp_H _ _ _ _ P') by (auto; lia). unfold Msp, Fu.
  assert (EX : forall i a, (i < nrBodies mb)%nat -> axis m i a = axis m' i a).
  { intros i' a' Hi. unfold axis. now rewrite (ds_ms _ _ D), (ds_ms _ _ D') by auto. }
  rewrite !(unit_bilin (nrBodies mb) (par mb) (parlt mb W)) by lia. apply rsum_ext. intros k Hk.
  assert (EA : forall i v, unitA (par mb) (ptsn m) i v k = unitA (par mb) (ptsn m') i v k).
  { intros i' v. apply (fwd_unique (nrBodies mb) (par mb) (parlt mb W) (ptsn m') sv0 (at_ i' v)); auto.
    - apply (fwd_nonroot (nrBodies mb) (par mb) (ptsn m)); [|apply unitA_fwd; apply (parlt mb W)].
      intros i2 p Hi P2. eapply (same_pts mb m0 m m0' m'); eauto.
    - apply unitA_fwd. apply (parlt mb W). }
  rewrite !EA. rewrite (EX i a), (EX j b) by lia. reflexivity.
Qed.

Lemma kin_keeps mb m0 m : wf_mb mb -> mbc_ok mb m0 -> after_kinematics mb m0 m ->
  q m = q m0 /\ alpha m = alpha m0 /\ alphaD m = alphaD m0 /\ force m = force m0 /\ gravity m = gravity m0 /\ jointTorque m = jointTorque m0.
Proof.
  intros W K (m1 & E1 & E2). pose proof (FK_run mb m0 m1 W K E1) as F.
  pose proof (FV_run mb m1 m W (FK_mbc_ok mb m0 m1 W K F) E2) as V.
  rewrite (fv_frame _ _ _ V), (fk_frame _ _ _ F).
  cbn [q alpha alphaD force gravity jointTorque with_bodyVelW with_bodyVelB with_jointVelocity with_bodyPosW with_motionSubspace with_parentToSon with_jointConfig].
  repeat split; reflexivity.
Qed.
Lemma ptdual_sv0 P : ptdual P sv0 = sv0.
Proof. svring. Qed.
Section Base.
Variables (mb : MultiBody) (m0 m m0' m' : MBC).
Hypothesis W : wf_mb mb.
Hypothesis RM : rigid_mb mb.
Hypothesis K : mbc_ok mb m0. Hypothesis C : config_ok mb m0. Hypothesis A : after_kinematics mb m0 m.
Hypothesis K' : mbc_ok mb m0'. Hypothesis C' : config_ok mb m0'. Hypothesis A' : after_kinematics mb m0' m'.
Hypothesis SI : same_inside mb m0 m0'.
Hypothesis SA : alpha m0 = alpha m0'.

Let D := after_kin_state mb m0 m W RM K C A.
Let D' := after_kin_state mb m0' m' W RM K' C' A'.
Lemma base_pts i p : (i < nrBodies mb)%nat -> par mb i = Some p -> ptsn m i = ptsn m' i.
Proof. exact (same_pts mb m0 m m0' m' W K K' A A' SI i p). Qed.
Lemma base_ms i : (i < nrBodies mb)%nat -> nth i (motionSubspace m) [] = nth i (motionSubspace m') [].
Proof. intros Hi. now rewrite (ds_ms _ _ D), (ds_ms _ _ D'). Qed.
Lemma base_vj i : (i < nrBodies mb)%nat -> vj m i = vj m' i.
Proof.
  intros Hi. unfold vj. rewrite (ds_vj _ _ D), (ds_vj _ _ D') by auto. rewrite base_ms by auto.
  destruct (kin_keeps mb m0 m W K A) as (_ & Ea & _). destruct (kin_keeps mb m0' m' W K' A') as (_ & Ea' & _).
  now rewrite Ea, Ea', SA.
Qed.
Lemma base_vb i : (i < nrBodies mb)%nat -> vb m i = vb m' i.
Proof.
  intros Hi. apply (fwd_unique (nrBodies mb) (par mb) (parlt mb W) (ptsn m') sv0 (vj m')); auto.
  - apply (fwd_nonroot (nrBodies mb) (par mb) (ptsn m)); [exact base_pts|].
    eapply fwd_ext; [apply (parlt mb W)|exact base_vj| |exact (ds_vb _ _ D)]. auto.
  - exact (ds_vb _ _ D').
Qed.
Hypothesis Z : weightless mb m0.
Hypothesis Z' : weightless mb m0'.
Lemma fext_zero_l i : (i < nrBodies mb)%nat -> fext m i = sv0.
Proof.
  intros Hi. unfold fext. destruct (kin_keeps mb m0 m W K A) as (_ & _ & _ & Ef & _). rewrite Ef, (proj2 Z i Hi).
  apply ptdual_sv0.
Qed.
Lemma fext_zero_r i : (i < nrBodies mb)%nat -> fext m' i = sv0.
Proof.
  intros Hi. unfold fext. destruct (kin_keeps mb m0' m' W K' A') as (_ & _ & _ & Ef & _). rewrite Ef, (proj2 Z' i Hi).
  apply ptdual_sv0.
Qed.
Lemma g_zero : mkSV v0 (gravity m) = sv0 /\ mkSV v0 (gravity m') = sv0.
Proof.
  destruct (kin_keeps mb m0 m W K A) as (_ & _ & _ & _ & Eg & _). destruct (kin_keeps mb m0' m' W K' A') as (_ & _ & _ & _ & Eg' & _).
  now rewrite Eg, Eg', (proj1 Z), (proj1 Z').
Qed.
Lemma base_force B B' : (forall i, (i < nrBodies mb)%nat -> B i = B' i) ->
  forall i, (i < nrBodies mb)%nat -> local_force mb m B i = local_force mb m' B' i.
Proof. intros H i Hi. unfold local_force. now rewrite base_vb, H, fext_zero_l, fext_zero_r by auto. Qed.

Lemma base_C s s' c c' : fd_ok mb s -> fd_ok mb s' -> computeC mb m s = Ok c -> computeC mb m' s' = Ok c' -> fd_C c = fd_C c'.
Proof.
  intros O1 O2 E E'.
  destruct (C_ok mb m s W (ds_ok _ _ D) O1) as (c1 & E1 & P1). rewrite E in E1. injection E1 as <-.
  destruct (C_ok mb m' s' W (ds_ok _ _ D') O2) as (c2 & E2 & P2). rewrite E' in E2. injection E2 as <-.
  destruct (cp_C _ _ _ _ P1) as (B & f & F & HB & Hf & HF & HC). destruct (cp_C _ _ _ _ P2) as (B' & f' & F' & HB' & Hf' & HF' & HC').
  destruct g_zero as [G G']. rewrite G in HB. rewrite G' in HB'.
  assert (EB : forall i, (i < nrBodies mb)%nat -> B i = B' i).
  { intros i Hi. apply (fwd_unique (nrBodies mb) (par mb) (parlt mb W) (ptsn m') sv0 (fun i => scross (vb m' i) (vj m' i))); auto.
    apply (fwd_nonroot (nrBodies mb) (par mb) (ptsn m)); [exact base_pts|].
    eapply fwd_ext; [apply (parlt mb W)| | |exact HB]; [|auto]. intros k Hk. cbv beta. now rewrite (base_vb k Hk), (base_vj k Hk). }
  assert (EF : forall i, (i < nrBodies mb)%nat -> F i = F' i).
  { intros i Hi. apply (acc_unique (nrBodies mb) (par mb) (parlt mb W) (ptsn m') f'); auto.
    apply (acc_nonroot (nrBodies mb) (par mb) (ptsn m)); [exact base_pts|].
    eapply acc_ext; [|exact HF]. intros k Hk. rewrite Hf, Hf' by auto. now apply base_force. }
  pose proof (fo_C _ _ (cp_ok _ _ _ _ P1)) as L1. pose proof (fo_C _ _ (cp_ok _ _ _ _ P2)) as L2.
  apply (nth_ext _ _ 0 0); [congruence|]. intros k Hk. rewrite L1 in Hk.
  rewrite (wf_nrDof mb W), <- pos_all in Hk. pose proof (wf_nrJoints mb W). apply pos_find in Hk; auto.
  destruct Hk as (i & a & Li & La & ->). rewrite HC, HC' by (auto; lia). rewrite EF, base_ms by lia. reflexivity.
Qed.
Lemma base_ID f f' g g' n n' : alphaD m0 = alphaD m0' -> length f = nrBodies mb -> length f' = nrBodies mb ->
  inverseDynamics mb f m = Ok (g, n) -> inverseDynamics mb f' m' = Ok (g', n') -> jointTorque n = jointTorque n'.
Proof.
  intros SD L L' E E'.
  pose proof (ID_run mb m f g n W (ds_ok _ _ D) L E) as P. pose proof (ID_run mb m' f' g' n' W (ds_ok _ _ D') L' E') as P'.
  destruct g_zero as [G G']. pose proof (ip_acc _ _ _ _ P) as HB. pose proof (ip_acc _ _ _ _ P') as HB'. rewrite G in HB. rewrite G' in HB'.
  destruct (kin_keeps mb m0 m W K A) as (_ & _ & Ed & _). destruct (kin_keeps mb m0' m' W K' A') as (_ & _ & Ed' & _).
  assert (EB : forall i, (i < nrBodies mb)%nat -> nth i (bodyAccB n) sv0 = nth i (bodyAccB n') sv0).
  { intros i Hi.
    apply (fwd_unique (nrBodies mb) (par mb) (parlt mb W) (ptsn m') sv0 (fun i => svadd (smul (jS (nth i (mb_joints mb) jd)) (nth i (alphaD m') [])) (scross (vb m' i) (vj m' i)))
      (fun i => nth i (bodyAccB n) sv0) (fun i => nth i (bodyAccB n') sv0)); auto.
    apply (fwd_nonroot (nrBodies mb) (par mb) (ptsn m)); [exact base_pts|].
    eapply fwd_ext; [apply (parlt mb W)| | |exact HB]; [|auto]. intros k Hk. cbv beta. now rewrite (base_vb k Hk), (base_vj k Hk), Ed, Ed', SD. }
  assert (EF : forall i, (i < nrBodies mb)%nat -> nth i g sv0 = nth i g' sv0).
  { intros i Hi. apply (acc_unique (nrBodies mb) (par mb) (parlt mb W) (ptsn m') (local_force mb m' (fun i => nth i (bodyAccB n') sv0))
      (fun i => nth i g sv0) (fun i => nth i g' sv0)); auto; [|exact (ip_F _ _ _ _ P')].
    apply (acc_nonroot (nrBodies mb) (par mb) (ptsn m)); [exact base_pts|].
    eapply acc_ext; [|exact (ip_F _ _ _ _ P)]. now apply base_force. }
  pose proof (sized_length _ _ _ (ok_jointTorque _ _ (ip_ok _ _ _ _ P))) as L1.
  pose proof (sized_length _ _ _ (ok_jointTorque _ _ (ip_ok _ _ _ _ P'))) as L2.
  pose proof (wf_nrJoints mb W) as NJ.
  apply (nth_ext _ _ [] []); [congruence|]. intros i Hi. unfold nrJoints in *. rewrite L1 in Hi.
  rewrite (ip_t _ _ _ _ P), (ip_t _ _ _ _ P') by lia. rewrite base_ms, EF by lia. reflexivity.
Qed.
Lemma base_FD solve s s' h h' n n' : jointTorque m0 = jointTorque m0' -> fd_ok mb s -> fd_ok mb s' ->
  (forall b, In b (mb_bodies mb) -> inertia_pd (binertia b)) -> solver_ok solve ->
  forwardDynamics solve mb m s = Ok (h, n) -> forwardDynamics solve mb m' s' = Ok (h', n') -> alphaD n = alphaD n'.
Proof.
  intros ST O1 O2 PD SO E E'.
  destruct (FD_run mb m s solve W RM D O1 PD SO) as (s1 & s2 & s3 & m3 & E1 & E2 & P1 & P2 & E3 & _ & _ & Sd & _ & _ & Hx).
  destruct (FD_run mb m' s' solve W RM D' O2 PD SO) as (t1 & t2 & t3 & n3 & E1' & E2' & P1' & P2' & E3' & _ & _ & Sd' & _ & _ & Hx').
  rewrite E in E3. injection E3 as <- <-. rewrite E' in E3'. injection E3' as <- <-.
  pose proof (base_C s1 t1 s2 t2 (hp_ok _ _ _ _ P1) (hp_ok _ _ _ _ P1') E2 E2') as EC.
  destruct (kin_keeps mb m0 m W K A) as (_ & _ & _ & _ & _ & Et). destruct (kin_keeps mb m0' m' W K' A') as (_ & _ & _ & _ & _ & Et').
  apply (flat_inj mb); auto. apply (spd_inj (mb_nrDof mb) (ment (fd_H s1)) _ _ (H_pd mb m s s1 W RM D P1 PD)).
  intros r Hr. rewrite Hx by auto. rewrite Et, ST, <- Et', EC, <- Hx' by auto. apply rsum_ext. intros c Hc. f_equal.
  symmetry. eapply (H_base mb m0 m m0' m' s s' s1 t1); eauto.
Qed.
End Base.
