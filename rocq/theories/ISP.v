(** Lemmas about inverse statics and the ZMP. *)
From Coq Require Import Reals String ZArith Bool Arith Lia Lra List.
From Verif Require Import Res ResP Vec VecP Sva SvaP Mat JointM MultiBodyM KinM DynM CoMM ISM ZMPM Spec JointP KinP KinPathP MbP KinFinP TreeP DynP SpecDyn
  DynCP DynHP DynFinP DynFin2P SpecAlg.
Import ListNotations.
Open Scope R_scope.

Lemma is_forward_ok mb m f a0 : wf_mb mb -> mbc_ok mb m -> length f = nrBodies mb ->
  exists A f', for_up (nrBodies mb) (is_body mb m a0) (bodyAccB m, f) = Ok (A, f') /\
    length A = nrBodies mb /\ length f' = nrBodies mb /\
    (forall i, (i < nrBodies mb)%nat -> nth i A sv0 = ptm (nth i (bodyPosW m) ptid) a0) /\
    (forall i, (i < nrBodies mb)%nat -> nth i f' sv0 = svsub (rbim (Ib mb i) (ptm (nth i (bodyPosW m) ptid) a0)) (fext m i)).
Proof.
  intros W K Lf. pose proof (wf_nrJoints mb W) as NJ. mbclens W K.
  destruct (for_up_inv (fun k (s : list SV * list SV) => length (fst s) = nrBodies mb /\ length (snd s) = nrBodies mb /\
     (forall i, (i < k)%nat -> nth i (fst s) sv0 = ptm (nth i (bodyPosW m) ptid) a0) /\
     (forall i, (i < k)%nat -> nth i (snd s) sv0 = svsub (rbim (Ib mb i) (ptm (nth i (bodyPosW m) ptid) a0)) (fext m i)))
     (is_body mb m a0) (nrBodies mb) (bodyAccB m, f)) as ([A f'] & E & L1 & L2 & H1 & H2).
  - cbn [fst snd]. do 2 (split; [auto|]). split; intros; lia.
  - intros k [A f'] Hk (L1 & L2 & H1 & H2). cbn [fst snd] in *. unfold is_body.
    assert (Lb : (k < length (mb_bodies mb))%nat) by exact Hk. gets.
    eexists; split; [reflexivity|]. cbn [fst snd]. rewrite !upd_length. do 2 (split; [auto|]).
    split; intros i Hi; destruct (Nat.eq_dec i k) as [->|]; nthupd; auto; try (apply H1; lia); try (apply H2; lia).
    all: unfold Ib, fext; reflexivity.
  - exists A, f'. auto.
Qed.
Lemma is_torques_ok mb m f : wf_mb mb -> length f = nrBodies mb ->
  length (parentToSon m) = nrBodies mb -> sized mb jdof (jointTorque m) -> sized mb jdof (motionSubspace m) ->
  exists jt f', for_down (nrJoints mb) (is_torque mb m) (jointTorque m, f) = Ok (jt, f') /\ length f' = nrBodies mb /\
    acc (nrBodies mb) (par mb) (ptsn m) (fun k => nth k f sv0) (fun k => nth k f' sv0) /\
    length jt = nrBodies mb /\
    (forall i, (i < nrBodies mb)%nat -> nth i jt [] = map (fun c => svdot c (nth i f' sv0)) (nth i (motionSubspace m) [])).
Proof.
  intros W Lf Lp St Sm. pose proof (wf_nrJoints mb W) as NJ. rewrite NJ.
  pose proof (sized_length _ _ _ St) as Lt. pose proof (sized_length _ _ _ Sm) as Lm.
  pose proof (wf_joints mb W) as Ljs.
  pose (P := fun (i : nat) (s : list (list R) * list SV) =>
    accI mb (ptsn m) (fun k => nth k f sv0) i (snd s) /\
    length (fst s) = nrBodies mb /\
    (forall k, (k < nrBodies mb)%nat -> length (nth k (fst s) []) = jdof (nth k (mb_joints mb) jd)) /\
    (forall k, (i <= k < nrBodies mb)%nat ->
       nth k (fst s) [] = map (fun c => svdot c (nth k (snd s) sv0)) (nth k (motionSubspace m) []))).
  destruct (for_down_inv P (is_torque mb m) (nrBodies mb) (jointTorque m, f)) as ([jt f'] & E & HP).
  - unfold P; cbn [fst snd]. split; [now apply accI_start|]. split; [lia|]. split.
    + intros. apply (sized_nth _ _ _ _ St). lia.
    + intros; lia.
  - intros i [jt fl] Hi (HA & L1 & L2 & HT). cbn [fst snd] in *. destruct (HA) as [LA _].
    unfold is_torque. gets. pose proof (sized_nth _ _ _ i Sm ltac:(lia)) as Ls. rewrite Ls, Nat.eqb_refl.
    unfold set_seg. rewrite map_length, Ls, L2 by lia. cbn [Nat.add]. rewrite Nat.leb_refl. cbn [bind].
    replace (set_from (nth i jt []) 0 (map (fun c => svdot (nth i fl sv0) c) (nth i (motionSubspace m) [])))
      with (map (fun c => svdot c (nth i fl sv0)) (nth i (motionSubspace m) [])).
    2:{ apply (list_ext_nth _ _ 0).
        - rewrite set_from_length, map_length, L2 by lia. auto.
        - intros e He. rewrite map_length in He. rewrite set_from_nth by (rewrite map_length, Ls, L2 by lia; lia).
          rewrite map_length, Nat.sub_0_r. destruct (Nat.ltb_spec e (0 + length (nth i (motionSubspace m) []))); [|lia]. cbn.
          rewrite !(nth_map_lt _ _ _ sv0) by auto. apply svdot_comm. }
    gets. predcase W Hi.
    + eexists; split; [reflexivity|]. unfold P; cbn [fst snd]. rewrite upd_length. split; [now apply accI_step_none|].
      split; [auto|]. split.
      * intros k Hk. destruct (Nat.eq_dec k i) as [->|]; nthupd; auto. rewrite map_length. apply (sized_nth _ _ _ _ Sm). lia.
      * intros k Hk. destruct (Nat.eq_dec k i) as [->|]; nthupd; auto. apply HT. lia.
    + gets. eexists; split; [reflexivity|]. unfold P; cbn [fst snd]. rewrite upd_length. split; [now apply accI_step_some|].
      split; [auto|]. split.
      * intros k Hk. destruct (Nat.eq_dec k i) as [->|]; nthupd; auto. rewrite map_length. apply (sized_nth _ _ _ _ Sm). lia.
      * intros k Hk. rewrite (nth_upd_neq fl p k) by lia.
        destruct (Nat.eq_dec k i) as [->|]; nthupd; auto. apply HT. lia.
  - destruct HP as (HA & L1 & L2 & HT). cbn [fst snd] in *. destruct (HA) as [LA _].
    exists jt, f'. split; [auto|]. split; [auto|]. split; [now apply accI_end|]. split; [auto|]. intros. apply HT. lia.
Qed.

Record is_post (mb : MultiBody) (m : MBC) (f' : list SV) (m' : MBC) : Prop := {
  sp_frame : m' = with_jointTorque (jointTorque m') (with_bodyAccB (bodyAccB m') m);
  sp_accl : length (bodyAccB m') = nrBodies mb;
  sp_acc : forall i, (i < nrBodies mb)%nat -> nth i (bodyAccB m') sv0 = ptm (nth i (bodyPosW m) ptid) (mkSV v0 (gravity m));
  sp_f : length f' = nrBodies mb;
  sp_F : acc (nrBodies mb) (par mb) (ptsn m)
           (fun i => svsub (rbim (Ib mb i) (ptm (nth i (bodyPosW m) ptid) (mkSV v0 (gravity m)))) (fext m i)) (fun i => nth i f' sv0);
  sp_tl : length (jointTorque m') = nrBodies mb;
  sp_t : forall i, (i < nrBodies mb)%nat ->
       nth i (jointTorque m') [] = map (fun c => svdot c (nth i f' sv0)) (nth i (motionSubspace m) [])
}.
Lemma IS_total mb m f : wf_mb mb -> mbc_ok mb m -> length f = nrBodies mb ->
  exists f' m', inverseStatics mb f m = Ok (f', m') /\ is_post mb m f' m'.
Proof.
  intros W K Lf. destruct (is_forward_ok mb m f (mkSV v0 (gravity m)) W K Lf) as (A & f1 & E & LA & Lf1 & HA & Hf).
  unfold inverseStatics. rewrite E. cbn [bind fst snd].
  set (mA := with_bodyAccB A m). assert (KA : mbc_ok mb mA) by (now apply with_bodyAccB_ok).
  destruct (is_torques_ok mb mA f1 W Lf1) as (jt & f' & E' & Lf' & HF & Lt & Ht); try apply KA.
  rewrite E'. cbn [bind fst snd]. exists f', (with_jointTorque jt mA). split; [reflexivity|].
  constructor; auto.
  eapply acc_ext; [|exact HF]. intros i Hi. cbn beta. now apply Hf.
Qed.

(** ** Inverse dynamics at rest *)
Lemma zero_sized mb : sized mb jdof (zero_dofs mb).
Proof. unfold sized, zero_dofs. rewrite map_map. apply map_ext. intro j. apply repeat_length. Qed.
Lemma zero_nth mb i : (i < nrJoints mb)%nat -> nth i (zero_dofs mb) [] = repeat 0 (jdof (nth i (mb_joints mb) jd)).
Proof. intros L. unfold zero_dofs. now rewrite (nth_map_lt _ _ _ jd). Qed.
Lemma smul_zero : forall S n, smul S (repeat 0 n) = sv0.
Proof.
  induction S as [|c S IH]; intros [|n]; cbn [smul repeat]; auto. rewrite IH, svadd_0_r.
  destruct c as [[a b c] [d e f]]. unfold svscale, vscale, sv0, v0; cbn. f_equal; f_equal; ring.
Qed.
Lemma scross_zero v : scross v sv0 = sv0.
Proof. destruct v as [[a b c] [d e f]]. unfold scross, vcross, vadd, sv0, v0; cbn. f_equal; f_equal; ring. Qed.
Lemma scrossDual_zero f : scrossDual sv0 f = sv0.
Proof. destruct f as [[a b c] [d e f]]. unfold scrossDual, vcross, vadd, sv0, v0; cbn. f_equal; f_equal; ring. Qed.

Lemma statics_dynamics mb m0 m mv f g : wf_mb mb -> rigid_mb mb -> mbc_ok mb m0 -> config_ok mb m0 ->
  forwardKinematics mb m0 = Ok m -> forwardVelocity mb (with_alpha (zero_dofs mb) m) = Ok mv ->
  length f = nrBodies mb -> length g = nrBodies mb ->
  exists f1 m1 f2 m2, inverseStatics mb f m = Ok (f1, m1) /\
    inverseDynamics mb g (with_alphaD (zero_dofs mb) mv) = Ok (f2, m2) /\
    jointTorque m1 = jointTorque m2 /\ bodyAccB m1 = bodyAccB m2 /\ f1 = f2 /\
    m1 = with_jointTorque (jointTorque m1) (with_bodyAccB (bodyAccB m1) m).
Proof.
  intros W RM K C EK EV Lf Lg. pose proof (FK_run mb m0 m W K EK) as F. pose proof (FK_mbc_ok mb m0 m W K F) as K1.
  pose proof (sized_length _ _ _ (ok_q _ _ K)) as Lq. pose proof (fk_placed mb m0 m W RM C Lq F) as PL.
  pose proof (wf_nrJoints mb W) as NJ. pose proof (parlt mb W) as Pl.
  pose proof (with_alpha_ok _ _ _ K1 (zero_sized mb)) as Ka.
  pose proof (FV_run _ _ _ W Ka EV) as V. pose proof (FV_mbc_ok _ _ _ Ka V) as Kv.
  assert (Ep : parentToSon mv = parentToSon m) by (rewrite (fv_frame _ _ _ V); reflexivity).
  assert (Em : motionSubspace mv = motionSubspace m) by (rewrite (fv_frame _ _ _ V); reflexivity).
  assert (Eb : bodyPosW mv = bodyPosW m) by (rewrite (fv_frame _ _ _ V); reflexivity).
  assert (Ef : force mv = force m) by (rewrite (fv_frame _ _ _ V); reflexivity).
  assert (Eg : gravity mv = gravity m) by (rewrite (fv_frame _ _ _ V); reflexivity).
  assert (HJ : forall i, (i < nrBodies mb)%nat -> vj mv i = sv0).
  { intros i Hi. unfold vj. rewrite (fv_jv _ _ _ V) by auto. cbn [alpha with_alpha]. rewrite zero_nth by lia. apply smul_zero. }
  assert (HB : forall i, (i < nrBodies mb)%nat -> vb mv i = sv0).
  { intros i Hi. apply (fwd_unique (nrBodies mb) (par mb) Pl (ptsn mv) sv0 (vj mv) (vb mv) (fun _ => sv0)); auto.
    - now apply (fv_fwd mb _ _ W V).
    - intros k Hk. rewrite HJ, svadd_0_r by auto. destruct (par mb k); symmetry; apply ptm_sv0. }
  set (mz := with_alphaD (zero_dofs mb) mv).
  assert (Kz : mbc_ok mb mz) by (apply with_alphaD_ok; auto; apply zero_sized).
  destruct (IS_total mb m f W K1 Lf) as (f1 & m1 & E1 & P1).
  destruct (ID_total mb mz g W Kz Lg) as (f2 & m2 & E2 & P2).
  assert (AC : forall i, (i < nrBodies mb)%nat -> nth i (bodyAccB m1) sv0 = nth i (bodyAccB m2) sv0).
  { intros i Hi. rewrite (sp_acc _ _ _ _ P1) by auto.
    pose proof (base_fwd mb m (mkSV v0 (gravity m)) W PL) as B.
    apply (fwd_unique (nrBodies mb) (par mb) Pl (ptsn m) (mkSV v0 (gravity m)) (fun _ => sv0) _ (fun i => nth i (bodyAccB m2) sv0) B); auto.
    pose proof (ip_acc _ _ _ _ P2) as A2. unfold mz in A2. cbn [gravity with_alphaD parentToSon alphaD] in A2.
    rewrite Ep, Eg in A2. refine (fwd_ext _ _ Pl _ _ _ _ _ _ _ (fun _ _ => eq_refl) A2). intros k Hk. cbn beta.
    rewrite zero_nth, smul_zero, svadd_0_l by lia. change (vj (with_alphaD (zero_dofs mb) mv) k) with (vj mv k).
    rewrite HJ by auto. apply scross_zero. }
  assert (EA : bodyAccB m1 = bodyAccB m2).
  { apply (list_ext_nth _ _ sv0).
    - rewrite (sp_accl _ _ _ _ P1). symmetry. apply (ip_ok _ _ _ _ P2).
    - intros i Hi. rewrite (sp_accl _ _ _ _ P1) in Hi. auto. }
  assert (EF : f1 = f2).
  { apply (list_ext_nth _ _ sv0).
    - rewrite (sp_f _ _ _ _ P1). symmetry. apply (ip_f _ _ _ _ P2).
    - intros i Hi. rewrite (sp_f _ _ _ _ P1) in Hi.
      apply (acc_unique (nrBodies mb) (par mb) Pl (ptsn m) _ (fun i => nth i f1 sv0) (fun i => nth i f2 sv0) (sp_F _ _ _ _ P1)); auto.
      pose proof (ip_F _ _ _ _ P2) as A2. unfold mz in A2. cbn [parentToSon with_alphaD] in A2. rewrite Ep in A2.
      eapply acc_ext; [|exact A2]. intros k Hk. unfold local_force. rewrite <- AC, (sp_acc _ _ _ _ P1) by auto.
      change (vb (with_alphaD (zero_dofs mb) mv) k) with (vb mv k). rewrite HB, scrossDual_zero, svadd_0_r by auto.
      unfold fext. cbn [bodyPosW force with_alphaD]. rewrite Eb, Ef. reflexivity. }
  exists f1, m1, f2, m2. do 2 (split; [auto|]). split; [|split; [auto|split; [auto|apply (sp_frame _ _ _ _ P1)]]].
  apply (list_ext_nth _ _ []).
  - rewrite (sp_tl _ _ _ _ P1). symmetry. rewrite (sized_length _ _ _ (ok_jointTorque _ _ (ip_ok _ _ _ _ P2))). auto.
  - intros i Hi. rewrite (sp_tl _ _ _ _ P1) in Hi. rewrite (sp_t _ _ _ _ P1), (ip_t _ _ _ _ P2) by auto. unfold mz. cbn [motionSubspace with_alphaD].
    now rewrite Em, EF.
Qed.

(** ** ZMP *)
Lemma rdiv_ok a b : b <> 0 -> rdiv a b = Ok (a / b).
Proof. intros N. unfold rdiv. destruct (Req_EM_T b 0); [contradiction|auto]. Qed.
Lemma zmp_nograv com F h : vz F <> 0 ->
  exists p, computeCentroidalZMPNoGravity com F h = Ok p /\ zero_moment_point com F v0 h p /\
    forall p', zero_moment_point com F v0 h p' -> p' = p.
Proof.
  intros N. unfold computeCentroidalZMPNoGravity. repeat (rewrite rdiv_ok by auto; cbn [bind]). eexists; split; [reflexivity|].
  destruct com as [x y z], F as [a b c]. unfold zero_moment_point. cbn in *. split.
  - split; [auto|]. split; field; auto.
  - intros [x' y' z'] (E & H1 & H2). cbn in *. subst z'. f_equal.
    + apply (Rmult_eq_reg_r c); [|auto]. replace (x' * c) with (x * c - (z - h) * a) by lra. field; auto.
    + apply (Rmult_eq_reg_r c); [|auto]. replace (y' * c) with (y * c - (z - h) * b) by lra. field; auto.
Qed.
Lemma zmp_agree m com comA h : 
  computeCentroidalZMP m com comA h =
  computeCentroidalZMPNoGravity com (vadd comA (mkV3 0 0 (vz (gravity m)))) h.
Proof.
  unfold computeCentroidalZMP, computeCentroidalZMPNoGravity. destruct comA as [a b c]. cbn [vx vy vz vadd]. now rewrite !Rplus_0_r.
Qed.
Lemma zmp_grav m com comA h : vx (gravity m) = 0 -> vy (gravity m) = 0 -> vz comA + vz (gravity m) <> 0 ->
  exists p, computeCentroidalZMP m com comA h = Ok p /\ zero_moment_point com (vadd comA (gravity m)) v0 h p /\
    forall p', zero_moment_point com (vadd comA (gravity m)) v0 h p' -> p' = p.
Proof.
  intros G1 G2 N. rewrite zmp_agree. replace (mkV3 0 0 (vz (gravity m))) with (gravity m).
  - apply zmp_nograv. exact N.
  - destruct (gravity m); cbn in *. now subst.
Qed.
Lemma zmp_complete_none m com F h mass : mass * vz (gravity m) <> 0 ->
  computeCentroidalZMPComplete m com F h sv0 mass = computeCentroidalZMPNoGravity com F h.
Proof.
  intros N. unfold computeCentroidalZMPComplete, computeCentroidalZMPNoGravity. cbn [sv0 slin sang v0 vx vy vz].
  assert (N' : mass * vz (gravity m) - 0 <> 0) by lra. rewrite (rdiv_ok (mass * vz (gravity m))) by auto. cbn [bind].
  set (g := vz (gravity m)) in *. destruct (Req_EM_T (vz F) 0) as [E|E].
  - unfold rdiv. destruct (Req_EM_T (vz F) 0); [reflexivity|contradiction].
  - repeat (rewrite rdiv_ok by auto; cbn [bind]). f_equal.
    assert (mass <> 0) by (intros ->; apply N; ring). assert (g <> 0) by (intros Z; apply N; rewrite Z; ring).
    rewrite !Rminus_0_r. f_equal; field; auto.
Qed.
(** The wrench is the one of the environment on the robot, at the centre of mass: what the ground must balance is
    mass comA - force, and the couple. *)
Lemma zmp_complete_flat m com F wr mass : vz F = vz (gravity m) -> vz F <> 0 ->
  mass * vz F - vz (slin wr) <> 0 ->
  exists p, computeCentroidalZMPComplete m com F 0 wr mass = Ok p /\
    zero_moment_point com (vsub (vscale mass F) (slin wr)) (vopp (sang wr)) 0 p.
Proof.
  intros EG N ND. unfold computeCentroidalZMPComplete. rewrite <- EG. repeat (rewrite rdiv_ok by auto; cbn [bind]). eexists; split; [reflexivity|].
  destruct com as [x y z], F as [a b c], wr as [[w1 w2 w3] [f1 f2 f3]]. unfold zero_moment_point. cbn in *.
  split; [auto|]. split; field; auto.
Qed.
Definition grav10 : MBC := mkMBC [] [] [] [] [] [] [] [] [] [] [] [] [] (mkV3 0 0 10).
(** Above the ground level zero ... *)
Lemma zmp_complete_wrong : exists m com F h wr mass p, vz F = vz (gravity m) /\ vz F <> 0 /\ mass * vz F - vz (slin wr) <> 0 /\
  computeCentroidalZMPComplete m com F h wr mass = Ok p /\
  ~ zero_moment_point com (vsub (vscale mass F) (slin wr)) (vopp (sang wr)) h p.
Proof.
  exists grav10, (mkV3 0 0 2), (mkV3 0 0 10), 1, (mkSV v0 (mkV3 10 0 0)), 1. unfold computeCentroidalZMPComplete. cbn [gravity grav10 vx vy vz slin sang v0].
  repeat (rewrite rdiv_ok by lra; cbn [bind]). eexists. split; [auto|]. split; [lra|]. split; [lra|]. split; [reflexivity|].
  unfold zero_moment_point. cbn. intros (_ & _ & H). lra.
Qed.
(** ... and with a vertical acceleration. *)
Lemma zmp_complete_wrong_az : exists m com F wr mass p, vz F <> 0 /\ mass * vz F - vz (slin wr) <> 0 /\
  computeCentroidalZMPComplete m com F 0 wr mass = Ok p /\
  ~ zero_moment_point com (vsub (vscale mass F) (slin wr)) (vopp (sang wr)) 0 p.
Proof.
  exists grav10, (mkV3 0 0 1), (mkV3 1 0 20), (mkSV v0 (mkV3 0 0 5)), 1. unfold computeCentroidalZMPComplete. cbn [gravity grav10 vx vy vz slin sang v0].
  repeat (rewrite rdiv_ok by lra; cbn [bind]). eexists. split; [lra|]. split; [lra|]. split; [reflexivity|].
  unfold zero_moment_point. cbn. intros (_ & _ & H). lra.
Qed.
(** Horizontal components of the gravity vector are ignored. *)
Lemma zmp_tilted : exists m com comA h p, vz comA + vz (gravity m) <> 0 /\ computeCentroidalZMP m com comA h = Ok p /\
  ~ zero_moment_point com (vadd comA (gravity m)) v0 h p.
Proof.
  exists (mkMBC [] [] [] [] [] [] [] [] [] [] [] [] [] (mkV3 1 0 10)), (mkV3 0 0 1), v0, 0.
  unfold computeCentroidalZMP. cbn [gravity vx vy vz v0]. repeat (rewrite rdiv_ok by lra; cbn [bind]). eexists.
  split; [lra|]. split; [reflexivity|]. unfold zero_moment_point. cbn. intros (_ & _ & H). lra.
Qed.
