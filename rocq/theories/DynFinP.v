(** Dynamics: final forms. *)
From Coq Require Import Reals String ZArith Bool Arith Lia Lra List.
From Verif Require Import Res ResP Vec VecP Sva SvaP Mat JointM MultiBodyM KinM DynM Spec SpecDyn JointP KinP KinPathP MbP KinFinP TreeP DynP DynCP DynHP.
Import ListNotations.
Open Scope R_scope.

Lemma rsum_S_front n f : rsum (S n) f = f 0%nat + rsum n (fun i => f (S i)).
Proof. replace (S n) with (1 + n)%nat by lia. rewrite rsum_app. simpl. ring. Qed.
Lemma smul_vsum S x : length S = length x ->
  smul S x = vsum (length S) (fun a => svscale (nth a x 0) (nth a S sv0)).
Proof.
  intros L. apply svdot_ext. intros u. rewrite vsum_dot. revert x L.
  induction S; intros [|k x] L; try discriminate.
  - apply svdot_0_l.
  - simpl length. rewrite rsum_S_front. simpl smul. rewrite svdot_add_l. f_equal. apply IHS. simpl in L. lia.
Qed.
Lemma smul_dot_rsum S x f : length S = length x ->
  svdot f (smul S x) = rsum (length S) (fun a => svdot f (nth a S sv0) * nth a x 0).
Proof.
  intros L. rewrite smul_vsum by auto. rewrite vsum_dot_r. apply rsum_ext. intros. rewrite svdot_scale_r. ring.
Qed.

(** Joint increments produced by a flat vector of rates. *)
Definition incr (mb : MultiBody) (m : MBC) (x : nat -> R) (i : nat) : SV :=
  vsum (dofi mb i) (fun a => svscale (x (pos mb i + a)%nat) (axis m i a)).
Definition motA (mb : MultiBody) (m : MBC) (x : nat -> R) : nat -> SV := fwd_sol (par mb) (ptsn m) sv0 (incr mb m x).

Section Bilin.
Variables (mb : MultiBody) (m : MBC) (H : Mat).
Hypothesis W : wf_mb mb.
Hypothesis HP : forall i j a b, (i < nrBodies mb)%nat -> (j < nrBodies mb)%nat -> (a < dofi mb i)%nat -> (b < dofi mb j)%nat ->
     ment H (pos mb i + a) (pos mb j + b) = Msp mb m i a j b.

(** A row of H times a vector of rates is a projected inertial force. *)
Lemma H_row x A F i a : (i < nrBodies mb)%nat -> (a < dofi mb i)%nat ->
  fwd (nrBodies mb) (par mb) (ptsn m) sv0 (incr mb m x) A ->
  acc (nrBodies mb) (par mb) (ptsn m) (fun k => rbim (Ib mb k) (A k)) F ->
  rsum (mb_nrDof mb) (fun c => ment H (pos mb i + a) c * x c) = svdot (F i) (axis m i a).
Proof.
  intros Li La HA HF. rewrite rsum_nrDof by auto.
  rewrite (force_bilin (nrBodies mb) (par mb) (parlt mb W) (ptsn m) (Ib mb) (incr mb m x) A F i (axis m i a) Li HA HF).
  apply rsum_ext. intros j Hj. unfold incr. rewrite vsum_dot_r. apply rsum_ext. intros b Hb.
  rewrite HP by auto. rewrite svdot_scale_r. unfold Msp, Fu. ring.
Qed.
Lemma H_quad x y A B : 
  fwd (nrBodies mb) (par mb) (ptsn m) sv0 (incr mb m x) A ->
  fwd (nrBodies mb) (par mb) (ptsn m) sv0 (incr mb m y) B ->
  quad (mb_nrDof mb) (ment H) x y = rsum (nrBodies mb) (fun k => svdot (rbim (Ib mb k) (A k)) (B k)).
Proof.
  intros HA HB. pose proof (acc_sol_acc (nrBodies mb) (par mb) (parlt mb W) (ptsn m) (fun k => rbim (Ib mb k) (A k))) as HF.
  rewrite (virtual_power0 (nrBodies mb) (par mb) (parlt mb W) (ptsn m) (incr mb m y) B _ _ HB HF).
  unfold quad. rewrite rsum_nrDof by auto. apply rsum_ext. intros i Hi. unfold incr at 1. rewrite vsum_dot_r.
  apply rsum_ext. intros a Ha. rewrite (H_row x A _ i a Hi Ha HA HF). rewrite svdot_scale_r. auto.
Qed.
Lemma motA_fwd x : fwd (nrBodies mb) (par mb) (ptsn m) sv0 (incr mb m x) (motA mb m x).
Proof. apply fwd_sol_fwd. apply parlt. auto. Qed.
Lemma H_symm r c : (r < mb_nrDof mb)%nat -> (c < mb_nrDof mb)%nat -> ment H r c = ment H c r.
Proof.
  intros Lr Lc. rewrite (wf_nrDof mb W), <- pos_all in Lr, Lc. pose proof (wf_nrJoints mb W).
  apply pos_find in Lr; auto. apply pos_find in Lc; auto.
  destruct Lr as (i & a & Li & La & ->). destruct Lc as (j & b & Lj & Lb & ->).
  rewrite !HP by (auto; lia). apply Msp_sym; auto; lia.
Qed.
Lemma H_psd : (forall b, In b (mb_bodies mb) -> inertia_psd (binertia b)) ->
  forall x, 0 <= quad (mb_nrDof mb) (ment H) x x.
Proof.
  intros P x. rewrite (H_quad x x _ _ (motA_fwd x) (motA_fwd x)). apply rsum_nonneg. intros i Hi.
  apply P. apply nth_In. exact Hi.
Qed.
End Bilin.

(** The joint increments of a vector of vectors. *)
Lemma incr_smul mb m (v : list (list R)) i : wf_mb mb -> sized mb jdof v -> sized mb jdof (motionSubspace m) ->
  (i < nrBodies mb)%nat -> incr mb m (flat v) i = smul (nth i (motionSubspace m) []) (nth i v []).
Proof.
  intros W Sv Sm Li. pose proof (wf_nrJoints mb W).
  pose proof (sized_nth _ _ _ i Sv ltac:(lia)) as L1. pose proof (sized_nth _ _ _ i Sm ltac:(lia)) as L2.
  rewrite smul_vsum by congruence. unfold incr. rewrite L2. fold (dofi mb i). apply vsum_ext. intros a Ha.
  unfold flat. rewrite (concat_tile mb v i a 0) by (auto; lia). auto.
Qed.

(** What forward kinematics and velocity establish. *)
Record dyn_state (mb : MultiBody) (m : MBC) : Prop := {
  ds_ok : mbc_ok mb m;
  ds_rigid : forall i, (i < nrBodies mb)%nat -> rigid (nth i (parentToSon m) ptid);
  ds_placed : placed mb m;
  ds_ms : forall i, (i < nrBodies mb)%nat -> nth i (motionSubspace m) [] = jS (nth i (mb_joints mb) jd);
  ds_vj : forall i, (i < nrBodies mb)%nat -> nth i (jointVelocity m) sv0 = smul (nth i (motionSubspace m) []) (nth i (alpha m) []);
  ds_vb : fwd (nrBodies mb) (par mb) (ptsn m) sv0 (vj m) (vb m)
}.
Lemma fv_fwd mb m1 m : wf_mb mb -> fv_post mb m1 m -> fwd (nrBodies mb) (par mb) (ptsn m) sv0 (vj m) (vb m).
Proof.
  intros W V i Hi. unfold vb, vj. rewrite (fv_vb _ _ _ V) by auto.
  assert (E : parentToSon m = parentToSon m1) by (rewrite (fv_frame _ _ _ V); reflexivity). rewrite E.
  destruct (par mb i); auto. now rewrite ptm_sv0, svadd_0_l.
Qed.
Lemma after_kin_state mb m0 m : wf_mb mb -> rigid_mb mb -> mbc_ok mb m0 -> config_ok mb m0 ->
  after_kinematics mb m0 m -> dyn_state mb m.
Proof.
  intros W RM K C (m1 & E1 & E2). pose proof (FK_run mb m0 m1 W K E1) as F.
  pose proof (FK_mbc_ok mb m0 m1 W K F) as K1.
  pose proof (FV_run mb m1 m W K1 E2) as V. pose proof (FV_mbc_ok mb m1 m K1 V) as K2.
  pose proof (sized_length _ _ _ (ok_q _ _ K)) as Lq.
  pose proof (fk_placed mb m0 m1 W RM C Lq F) as PL.
  assert (Ep : parentToSon m = parentToSon m1) by (rewrite (fv_frame _ _ _ V); reflexivity).
  assert (Em : motionSubspace m = motionSubspace m1) by (rewrite (fv_frame _ _ _ V); reflexivity).
  assert (Ea : alpha m = alpha m1) by (rewrite (fv_frame _ _ _ V); reflexivity).
  assert (MS : forall i, (i < nrBodies mb)%nat -> nth i (motionSubspace m) [] = jS (nth i (mb_joints mb) jd))
    by (intros; rewrite Em; apply (fk_ms _ _ _ F); auto).
  constructor; auto.
  - intros i Hi. rewrite Ep. apply (fk_rigid_pts mb m0 m1); auto.
  - rewrite (fv_frame _ _ _ V). exact PL.
  - intros i Hi. rewrite (fv_jv _ _ _ V) by auto. rewrite MS by auto. now rewrite Ea.
  - now apply (fv_fwd mb m1).
Qed.

Lemma with_bodyAccB_ok mb m A : mbc_ok mb m -> length A = nrBodies mb -> mbc_ok mb (with_bodyAccB A m).
Proof. intros [] L. constructor; auto. Qed.
Lemma with_jointTorque_ok mb m t : mbc_ok mb m -> sized mb jdof t -> mbc_ok mb (with_jointTorque t m).
Proof. intros [] L. constructor; auto. Qed.
Lemma with_force_ok mb m t : mbc_ok mb m -> length t = nrBodies mb -> mbc_ok mb (with_force t m).
Proof. intros [] L. constructor; auto. Qed.
Lemma with_alphaD_ok mb m t : mbc_ok mb m -> sized mb jdof t -> mbc_ok mb (with_alphaD t m).
Proof. intros [] L. constructor; auto. Qed.
Lemma with_alpha_ok mb m t : mbc_ok mb m -> sized mb jdof t -> mbc_ok mb (with_alpha t m).
Proof. intros [] L. constructor; auto. Qed.

(** ** Inverse dynamics *)
Record id_post (mb : MultiBody) (m : MBC) (f' : list SV) (m' : MBC) : Prop := {
  ip_frame : m' = with_jointTorque (jointTorque m') (with_bodyAccB (bodyAccB m') m);
  ip_ok : mbc_ok mb m';
  ip_f : length f' = nrBodies mb;
  ip_acc : fwd (nrBodies mb) (par mb) (ptsn m) (mkSV v0 (gravity m))
      (fun i => svadd (smul (jS (nth i (mb_joints mb) jd)) (nth i (alphaD m) [])) (scross (vb m i) (vj m i)))
      (fun i => nth i (bodyAccB m') sv0);
  ip_F : acc (nrBodies mb) (par mb) (ptsn m) (local_force mb m (fun i => nth i (bodyAccB m') sv0)) (fun i => nth i f' sv0);
  ip_t : forall i, (i < nrBodies mb)%nat ->
       nth i (jointTorque m') [] = map (fun c => svdot c (nth i f' sv0)) (nth i (motionSubspace m) [])
}.
Lemma torque_sized mb m f' t : wf_mb mb -> mbc_ok mb m -> length t = nrBodies mb ->
  (forall i, (i < nrBodies mb)%nat ->
       nth i t [] = map (fun c => svdot c (nth i f' sv0)) (nth i (motionSubspace m) [])) -> sized mb jdof t.
Proof.
  intros W K L H. pose proof (wf_nrJoints mb W). apply sized_of_nth; [lia|]. intros i Hi. rewrite H by lia.
  rewrite map_length. apply (sized_nth _ _ _ _ (ok_motionSubspace _ _ K)). auto.
Qed.
Lemma ID_total mb m f : wf_mb mb -> mbc_ok mb m -> length f = nrBodies mb ->
  exists f' m', inverseDynamics mb f m = Ok (f', m') /\ id_post mb m f' m'.
Proof.
  intros W K Lf. destruct (id_forward_ok mb m f (mkSV v0 (gravity m)) W K Lf) as (A & f1 & E & LA & Lf1 & HA & Hf).
  unfold inverseDynamics. rewrite E. cbn [bind fst snd].
  set (mA := with_bodyAccB A m). assert (KA : mbc_ok mb mA) by (now apply with_bodyAccB_ok).
  destruct (torques_ok mb mA f1 W Lf1) as (f' & m' & E' & Fr & Lf' & HF & Lt & Ht); try apply KA.
  exists f', m'. split; auto.
  assert (EA : bodyAccB m' = A) by (rewrite Fr; reflexivity).
  assert (St : sized mb jdof (jointTorque m')) by (apply (torque_sized mb m f'); auto).
  constructor; auto.
  - rewrite EA. rewrite Fr at 1. reflexivity.
  - rewrite Fr. apply with_jointTorque_ok; auto.
  - rewrite EA. exact HA.
  - rewrite EA. eapply acc_ext; [|exact HF]. exact Hf.
Qed.
Lemma ID_run mb m f f' m' : wf_mb mb -> mbc_ok mb m -> length f = nrBodies mb ->
  inverseDynamics mb f m = Ok (f', m') -> id_post mb m f' m'.
Proof. intros W K L E. destruct (ID_total mb m f W K L) as (f2 & m2 & E2 & P). rewrite E in E2. injection E2 as <- <-. auto. Qed.

(** Power of the joint torques. *)
Lemma torque_power mb m f' t b A f : wf_mb mb -> mbc_ok mb m -> sized mb jdof b -> length t = nrBodies mb ->
  (forall i, (i < nrBodies mb)%nat ->
       nth i t [] = map (fun c => svdot c (nth i f' sv0)) (nth i (motionSubspace m) [])) ->
  acc (nrBodies mb) (par mb) (ptsn m) f (fun i => nth i f' sv0) ->
  fwd (nrBodies mb) (par mb) (ptsn m) sv0 (fun i => smul (nth i (motionSubspace m) []) (nth i b [])) A ->
  rsum (mb_nrDof mb) (fun r => flat t r * flat b r) = rsum (nrBodies mb) (fun i => svdot (f i) (A i)).
Proof.
  intros W K Sb Lt Ht HF HA.
  rewrite (virtual_power0 (nrBodies mb) (par mb) (parlt mb W) (ptsn m) _ A f _ HA HF).
  pose proof (torque_sized mb m f' t W K Lt Ht) as St. pose proof (wf_nrJoints mb W) as NJ.
  rewrite rsum_nrDof by auto. apply rsum_ext. intros i Hi.
  pose proof (sized_nth _ _ _ i (ok_motionSubspace _ _ K) ltac:(lia)) as Lm.
  pose proof (sized_nth _ _ _ i Sb ltac:(lia)) as Lb.
  rewrite smul_dot_rsum by congruence. rewrite Lm. fold (dofi mb i). apply rsum_ext. intros a Ha.
  unfold flat. rewrite (concat_tile mb t), (concat_tile mb b) by (auto; lia).
  rewrite Ht by auto. rewrite (nth_map_lt _ _ _ sv0) by (unfold dofi in Ha; lia). rewrite svdot_comm. auto.
Qed.

(** Velocities for a virtual rate: forwardVelocity on the same configuration. *)

Lemma virtual_fwd mb m b mb' : wf_mb mb -> mbc_ok mb m -> sized mb jdof b ->
  (forall i, (i < nrBodies mb)%nat -> nth i (motionSubspace m) [] = jS (nth i (mb_joints mb) jd)) ->
  forwardVelocity mb (with_alpha b m) = Ok mb' ->
  fwd (nrBodies mb) (par mb) (ptsn m) sv0 (fun i => smul (nth i (motionSubspace m) []) (nth i b [])) (vb mb').
Proof.
  intros W K Sb MS E. pose proof (FV_run _ _ _ W (with_alpha_ok _ _ _ K Sb) E) as V.
  intros i Hi. pose proof (fv_fwd mb _ _ W V i Hi) as H.
  assert (EX : parentToSon mb' = parentToSon m) by (rewrite (fv_frame _ _ _ V); reflexivity).
  rewrite EX in H. rewrite H. f_equal. unfold vj. rewrite (fv_jv _ _ _ V) by auto. rewrite MS by auto. reflexivity.
Qed.

(** ** C06 *)
(** The matrix and the vector that computeH and computeC leave, related to the torques of
    inverse dynamics on any state with the same kinematics. *)
Lemma id_H_C mb m H C f' m' : wf_mb mb -> dyn_state mb m ->
  (forall i j a b, (i < nrBodies mb)%nat -> (j < nrBodies mb)%nat -> (a < dofi mb i)%nat -> (b < dofi mb j)%nat ->
     ment H (pos mb i + a) (pos mb j + b) = Msp mb m i a j b) ->
  (exists A f F,
     fwd (nrBodies mb) (par mb) (ptsn m) (mkSV v0 (gravity m)) (fun i => scross (vb m i) (vj m i)) A /\
     (forall i, (i < nrBodies mb)%nat -> f i = local_force mb m A i) /\
     acc (nrBodies mb) (par mb) (ptsn m) f F /\
     forall i a, (i < nrBodies mb)%nat -> (a < dofi mb i)%nat ->
       nth (pos mb i + a) C 0 = svdot (nth a (nth i (motionSubspace m) []) sv0) (F i)) ->
  id_post mb m f' m' ->
  forall r, (r < mb_nrDof mb)%nat ->
    flat (jointTorque m') r = rsum (mb_nrDof mb) (fun c => ment H r c * flat (alphaD m) c) + nth r C 0.
Proof.
  intros W D HP HCC P3. pose proof (ds_ok _ _ D) as K. pose proof (wf_nrJoints mb W) as NJ.
  pose proof (ok_jointTorque _ _ (ip_ok _ _ _ _ P3)) as St.
  intros r Lr. rewrite (wf_nrDof mb W), <- pos_all in Lr. apply pos_find in Lr; auto.
  destruct Lr as (i & a & Li & La & ->). rewrite NJ in Li.
  destruct HCC as (A & fc & F & HA & Hf & HF & HC).
  rewrite (HC i a Li La).
  set (x := flat (alphaD m)).
  pose proof (motA_fwd mb m W x) as HM.
  pose proof (acc_sol_acc (nrBodies mb) (par mb) (parlt mb W) (ptsn m) (fun k => rbim (Ib mb k) (motA mb m x k))) as HFM.
  rewrite (H_row mb m H W HP x _ _ i a Li La HM HFM).
  set (FM := acc_sol (nrBodies mb) (par mb) (ptsn m) (fun k => rbim (Ib mb k) (motA mb m x k))) in *.
  unfold flat. rewrite (concat_tile mb (jointTorque m')) by (auto; lia).
  rewrite (ip_t _ _ _ _ P3) by auto.
  pose proof (sized_nth _ _ _ i (ok_motionSubspace _ _ K) ltac:(lia)) as Lm.
  rewrite (nth_map_lt _ _ _ sv0) by (unfold dofi in La; lia). fold (axis m i a).
  (* the accelerations add up *)
  assert (EA : forall k, (k < nrBodies mb)%nat -> nth k (bodyAccB m') sv0 = svadd (A k) (motA mb m x k)).
  { apply (fwd_unique (nrBodies mb) (par mb) (parlt mb W) (ptsn m) (mkSV v0 (gravity m))
      (fun i => svadd (smul (jS (nth i (mb_joints mb) jd)) (nth i (alphaD m) [])) (scross (vb m i) (vj m i)))).
    - apply (ip_acc _ _ _ _ P3).
    - rewrite <- (svadd_0_r (mkSV v0 (gravity m))).
      eapply fwd_ext; [apply parlt; auto| | |apply (fwd_add _ _ _ _ _ _ _ _ _ HA HM)]; auto.
      intros k Hk. cbv beta. unfold x. rewrite incr_smul by (auto; apply K). rewrite (ds_ms _ _ D) by auto.
      apply svadd_comm. }
  assert (EF : forall k, (k < nrBodies mb)%nat -> nth k f' sv0 = svadd (F k) (FM k)).
  { apply (acc_unique (nrBodies mb) (par mb) (parlt mb W) (ptsn m) (local_force mb m (fun i => nth i (bodyAccB m') sv0))).
    - apply (ip_F _ _ _ _ P3).
    - eapply acc_ext; [|apply (acc_add _ _ _ _ _ _ _ HF HFM)].
      intros k Hk. cbv beta. rewrite Hf by auto. unfold local_force. rewrite EA by auto. rewrite rbim_add.
      rewrite !svsub_def. 
      match goal with |- svadd (svadd (svadd ?a ?b) ?c) ?d = svadd (svadd (svadd ?a ?d) ?b) ?c =>
        rewrite <- !svadd_assoc; f_equal; rewrite (svadd_comm d); rewrite <- !svadd_assoc; auto end. }
  rewrite EF by auto. rewrite svdot_add_r. rewrite (svdot_comm (FM i)). unfold axis. ring.
Qed.
Lemma ID_H_C mb m0 m f s : wf_mb mb -> rigid_mb mb -> mbc_ok mb m0 -> config_ok mb m0 ->
  after_kinematics mb m0 m -> length f = nrBodies mb -> fd_ok mb s ->
  exists s1 s2 f' m', computeH mb m s = Ok s1 /\ computeC mb m s1 = Ok s2 /\ inverseDynamics mb f m = Ok (f', m') /\
    length (concat (jointTorque m')) = mb_nrDof mb /\
    (forall r, (r < mb_nrDof mb)%nat ->
      flat (jointTorque m') r =
        rsum (mb_nrDof mb) (fun c => ment (fd_H s2) r c * flat (alphaD m) c) + nth r (fd_C s2) 0) /\
    m' = with_jointTorque (jointTorque m') (with_bodyAccB (bodyAccB m') m).
Proof.
  intros W RM K0 C AK Lf O1. pose proof (after_kin_state _ _ _ W RM K0 C AK) as D. pose proof (ds_ok _ _ D) as K.
  pose proof (wf_nrJoints mb W) as NJ.
  destruct (H_ok mb m s W K (ds_rigid _ _ D) O1) as (s1 & E1 & P1).
  destruct (C_ok mb m s1 W K (hp_ok _ _ _ _ P1)) as (s2 & E2 & P2).
  destruct (ID_total mb m f W K Lf) as (f' & m' & E3 & P3).
  exists s1, s2, f', m'. split; auto. split; auto. split; auto.
  pose proof (ok_jointTorque _ _ (ip_ok _ _ _ _ P3)) as St.
  split; [rewrite (concat_length mb _ jdof) by auto; now rewrite (wf_nrDof mb W)|]. split; [|apply (ip_frame _ _ _ _ P3)].
  rewrite (cp_H _ _ _ _ P2).
  apply (id_H_C mb m (fd_H s1) (fd_C s2) f' m' W D (hp_H _ _ _ _ P1) (cp_C _ _ _ _ P2) P3).
Qed.

(** ** C07-C09 *)
Lemma H_sym_total mb m0 m s : wf_mb mb -> rigid_mb mb -> mbc_ok mb m0 -> config_ok mb m0 ->
  after_kinematics mb m0 m -> fd_ok mb s ->
  exists s', computeH mb m s = Ok s' /\ mrows (fd_H s') = mb_nrDof mb /\ mcols (fd_H s') = mb_nrDof mb /\
    (forall r c, (r < mb_nrDof mb)%nat -> (c < mb_nrDof mb)%nat -> ment (fd_H s') r c = ment (fd_H s') c r) /\
    fd_C s' = fd_C s.
Proof.
  intros W RM K0 C AK O1. pose proof (after_kin_state _ _ _ W RM K0 C AK) as D. pose proof (ds_ok _ _ D) as K.
  destruct (H_ok mb m s W K (ds_rigid _ _ D) O1) as (s1 & E1 & P1). exists s1. split; auto.
  split; [apply P1|]. split; [apply P1|]. split; [|apply P1].
  intros. apply (H_symm mb m); auto. apply P1.
Qed.

Lemma H_run mb m0 m s s' : wf_mb mb -> rigid_mb mb -> mbc_ok mb m0 -> config_ok mb m0 ->
  after_kinematics mb m0 m -> fd_ok mb s -> computeH mb m s = Ok s' -> dyn_state mb m /\ h_post mb m s s'.
Proof.
  intros W RM K0 C AK O1 E. pose proof (after_kin_state _ _ _ W RM K0 C AK) as D. pose proof (ds_ok _ _ D) as K.
  destruct (H_ok mb m s W K (ds_rigid _ _ D) O1) as (s1 & E1 & P1). rewrite E in E1. injection E1 as <-. auto.
Qed.

Lemma H_energy mb m0 m s s' : wf_mb mb -> rigid_mb mb -> mbc_ok mb m0 -> config_ok mb m0 ->
  after_kinematics mb m0 m -> fd_ok mb s -> computeH mb m s = Ok s' ->
  quad (mb_nrDof mb) (ment (fd_H s')) (flat (alpha m)) (flat (alpha m)) =
  rsum (nrBodies mb) (fun i => svdot (rbim (binertia (nth i (mb_bodies mb) bd)) (nth i (bodyVelB m) sv0)) (nth i (bodyVelB m) sv0)).
Proof.
  intros W RM K0 C AK O1 E. destruct (H_run mb m0 m s s' W RM K0 C AK O1 E) as [D P]. pose proof (ds_ok _ _ D) as K.
  assert (HV : fwd (nrBodies mb) (par mb) (ptsn m) sv0 (incr mb m (flat (alpha m))) (vb m)).
  { eapply fwd_ext; [apply parlt; auto| | |apply (ds_vb _ _ D)]; auto.
    intros i Hi. unfold vj. rewrite (ds_vj _ _ D) by auto. symmetry. apply incr_smul; auto; apply K. }
  apply (H_quad mb m (fd_H s') W (hp_H _ _ _ _ P) _ _ _ _ HV HV).
Qed.

(** For every vector of rates, not only the current one. *)
Lemma H_energy_any mb m0 m s s' b mv : wf_mb mb -> rigid_mb mb -> mbc_ok mb m0 -> config_ok mb m0 ->
  after_kinematics mb m0 m -> fd_ok mb s -> computeH mb m s = Ok s' ->
  sized mb jdof b -> forwardVelocity mb (with_alpha b m) = Ok mv ->
  quad (mb_nrDof mb) (ment (fd_H s')) (flat b) (flat b) =
  rsum (nrBodies mb) (fun i => svdot (rbim (binertia (nth i (mb_bodies mb) bd)) (nth i (bodyVelB mv) sv0)) (nth i (bodyVelB mv) sv0)).
Proof.
  intros W RM K0 C AK O1 E Sb EV. destruct (H_run mb m0 m s s' W RM K0 C AK O1 E) as [D P]. pose proof (ds_ok _ _ D) as K.
  assert (HV : fwd (nrBodies mb) (par mb) (ptsn m) sv0 (incr mb m (flat b)) (vb mv)).
  { eapply fwd_ext; [apply parlt; auto| | |apply (virtual_fwd mb m b mv W K Sb (ds_ms _ _ D) EV)]; auto.
    intros i Hi. symmetry. apply incr_smul; auto; apply K. }
  apply (H_quad mb m (fd_H s') W (hp_H _ _ _ _ P) _ _ _ _ HV HV).
Qed.

Lemma H_psd_run mb m0 m s s' : wf_mb mb -> rigid_mb mb -> mbc_ok mb m0 -> config_ok mb m0 ->
  after_kinematics mb m0 m -> fd_ok mb s -> computeH mb m s = Ok s' ->
  (forall b, In b (mb_bodies mb) -> inertia_psd (binertia b)) ->
  forall x, 0 <= quad (mb_nrDof mb) (ment (fd_H s')) x x.
Proof.
  intros W RM K0 C AK O1 E. destruct (H_run mb m0 m s s' W RM K0 C AK O1 E) as [D P].
  apply (H_psd mb m (fd_H s') W (hp_H _ _ _ _ P)).
Qed.
