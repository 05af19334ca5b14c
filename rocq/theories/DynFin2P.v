(** Dynamics: power balance, external forces, gravity, forward dynamics. *)
From Coq Require Import Reals String ZArith Bool Arith Lia Lra List.
From Verif Require Import Res ResP Vec VecP Sva SvaP Mat JointM MultiBodyM KinM DynM Spec SpecDyn JointP KinP KinPathP MbP KinFinP TreeP DynP DynCP DynHP DynFinP ConvP.
Import ListNotations.
Open Scope R_scope.

Lemma svdot_sub_l a b c : svdot (svsub a b) c = svdot a c - svdot b c.
Proof. destruct a as [[] []], b as [[] []], c as [[] []]. unfold svdot, svsub, vdot, vsub; simpl. ring. Qed.

(** ** C12 *)
Lemma ID_power mb m0 m f f' m' b mv : wf_mb mb -> rigid_mb mb -> mbc_ok mb m0 -> config_ok mb m0 ->
  after_kinematics mb m0 m -> length f = nrBodies mb -> inverseDynamics mb f m = Ok (f', m') ->
  sized mb jdof b -> forwardVelocity mb (with_alpha b m) = Ok mv ->
  rsum (mb_nrDof mb) (fun r => flat (jointTorque m') r * flat b r) =
  rsum (nrBodies mb) (fun i => svdot (local_force mb m (fun k => nth k (bodyAccB m') sv0) i) (vb mv i)).
Proof.
  intros W RM K0 C AK Lf E Sb EV. pose proof (after_kin_state _ _ _ W RM K0 C AK) as D. pose proof (ds_ok _ _ D) as K.
  pose proof (ID_run _ _ _ _ _ W K Lf E) as P. pose proof (wf_nrJoints mb W).
  apply (torque_power mb m f'); auto.
  - rewrite (sized_length _ _ _ (ok_jointTorque _ _ (ip_ok _ _ _ _ P))). auto.
  - apply (ip_t _ _ _ _ P).
  - apply (ip_F _ _ _ _ P).
  - apply virtual_fwd; auto. apply D.
Qed.

Lemma ID_acc mb m0 m f f' m' m3 : wf_mb mb -> rigid_mb mb -> mbc_ok mb m0 -> config_ok mb m0 ->
  after_kinematics mb m0 m -> length f = nrBodies mb -> inverseDynamics mb f m = Ok (f', m') ->
  forwardAcceleration mb m (mkSV v0 (gravity m)) = Ok m3 -> bodyAccB m' = bodyAccB m3.
Proof.
  intros W RM K0 C AK Lf E EA. pose proof (after_kin_state _ _ _ W RM K0 C AK) as D. pose proof (ds_ok _ _ D) as K.
  pose proof (ID_run _ _ _ _ _ W K Lf E) as P. pose proof (FA_run _ _ _ _ W K EA) as Q.
  apply (list_ext_nth _ _ sv0).
  - rewrite (ok_bodyAccB _ _ (ip_ok _ _ _ _ P)), (fa_len _ _ _ _ Q). symmetry. apply K.
  - rewrite (ok_bodyAccB _ _ (ip_ok _ _ _ _ P)).
    apply (fwd_unique (nrBodies mb) (par mb) (parlt mb W) (ptsn m) (mkSV v0 (gravity m)) _ _ _ (ip_acc _ _ _ _ P)).
    intros i Hi. rewrite (fa_acc _ _ _ _ Q) by auto. rewrite <- svadd_assoc. f_equal.
    all: destruct (par mb i); auto.
Qed.

(** ** C11 *)
Lemma world_twist_invm X V : world_twist X V = ptinvm X V.
Proof.
  unfold world_twist, ptinvm. f_equal. f_equal. destruct (mapp (mtr (rotE X)) (sang V)), (trR X). v3. f_equal; ring.
Qed.
Lemma fext_power X F V : svdot (ptdual X F) V = svdot F (world_twist X V).
Proof. rewrite world_twist_invm. apply ptdual_adj. Qed.

Lemma base_fwd mb m A0 : wf_mb mb -> placed mb m ->
  fwd (nrBodies mb) (par mb) (ptsn m) A0 (fun _ => sv0) (fun i => ptm (nth i (bodyPosW m) ptid) A0).
Proof.
  intros W PL i Hi. destruct (PL i Hi) as (R1 & R2 & ->). rewrite svadd_0_r.
  destruct (par mb i) as [p|] eqn:P; auto. pose proof (par_lt mb i p W Hi P).
  apply ptm_mul. apply PL. lia.
Qed.

(** Accelerations for another gravity. *)
Lemma id_acc_gravity mb m f' m' f2 m2 m2' G : wf_mb mb -> id_post mb m f' m' -> id_post mb m2 f2 m2' -> placed mb m ->
  parentToSon m2 = parentToSon m -> alphaD m2 = alphaD m -> bodyVelB m2 = bodyVelB m ->
  jointVelocity m2 = jointVelocity m -> gravity m2 = vadd (gravity m) G ->
  forall i, (i < nrBodies mb)%nat ->
    nth i (bodyAccB m2') sv0 = svadd (nth i (bodyAccB m') sv0) (ptm (nth i (bodyPosW m) ptid) (mkSV v0 G)).
Proof.
  intros W P P2 PL E1 E2 E3 E4 EG.
  pose proof (ip_acc _ _ _ _ P2) as H2. unfold vb, vj in H2. rewrite E1, E2, E3, E4, EG in H2.
  apply (fwd_unique (nrBodies mb) (par mb) (parlt mb W) (ptsn m) _ _ _ _ H2).
  pose proof (fwd_add _ _ _ _ _ _ _ _ _ (ip_acc _ _ _ _ P) (base_fwd mb m (mkSV v0 G) W PL)) as H.
  replace (mkSV v0 (vadd (gravity m) G)) with (svadd (mkSV v0 (gravity m)) (mkSV v0 G))
    by (unfold svadd; simpl; now rewrite vadd_0_l).
  eapply fwd_ext; [apply parlt; auto| | |exact H]; auto.
  intros k Hk. cbv beta. rewrite svadd_0_r. auto.
Qed.

Lemma dyn_state_with_force mb m F : dyn_state mb m -> length F = nrBodies mb -> dyn_state mb (with_force F m).
Proof. intros [] L. constructor; auto. now apply with_force_ok. Qed.
Lemma dyn_state_with_gravity mb m g : dyn_state mb m -> dyn_state mb (with_gravity g m).
Proof. intros D. pose proof (ds_ok _ _ D) as K. destruct D. constructor; auto. destruct K. constructor; auto. Qed.
Lemma dyn_state_with_alphaD mb m a : dyn_state mb m -> sized mb jdof a -> dyn_state mb (with_alphaD a m).
Proof. intros [] L. constructor; auto. now apply with_alphaD_ok. Qed.

(** Power of inverse dynamics torques, from the kinematic state alone. *)
Lemma id_power mb m f f' m' b mv : wf_mb mb -> dyn_state mb m -> length f = nrBodies mb ->
  inverseDynamics mb f m = Ok (f', m') -> sized mb jdof b -> 
  fwd (nrBodies mb) (par mb) (ptsn m) sv0 (fun i => smul (nth i (motionSubspace m) []) (nth i b [])) (vb mv) ->
  rsum (mb_nrDof mb) (fun r => flat (jointTorque m') r * flat b r) =
  rsum (nrBodies mb) (fun i => svdot (local_force mb m (fun k => nth k (bodyAccB m') sv0) i) (vb mv i)).
Proof.
  intros W D Lf E Sb HV. pose proof (ds_ok _ _ D) as K.
  pose proof (ID_run _ _ _ _ _ W K Lf E) as P. pose proof (wf_nrJoints mb W).
  apply (torque_power mb m f'); auto.
  - rewrite (sized_length _ _ _ (ok_jointTorque _ _ (ip_ok _ _ _ _ P))). auto.
  - apply (ip_t _ _ _ _ P).
  - apply (ip_F _ _ _ _ P).
Qed.

Lemma ID_force_change mb m0 m f F2 f1 m1 f2 m2 b mv : wf_mb mb -> rigid_mb mb -> mbc_ok mb m0 -> config_ok mb m0 ->
  after_kinematics mb m0 m -> length f = nrBodies mb -> length F2 = nrBodies mb ->
  inverseDynamics mb f m = Ok (f1, m1) -> inverseDynamics mb f (with_force F2 m) = Ok (f2, m2) ->
  sized mb jdof b -> forwardVelocity mb (with_alpha b m) = Ok mv ->
  rsum (mb_nrDof mb) (fun r => (flat (jointTorque m2) r - flat (jointTorque m1) r) * flat b r) =
  - rsum (nrBodies mb) (fun i =>
      svdot (svsub (nth i F2 sv0) (nth i (force m) sv0))
            (world_twist (nth i (bodyPosW m) ptid) (nth i (bodyVelB mv) sv0))).
Proof.
  intros W RM K0 C AK Lf LF E1 E2 Sb EV. pose proof (after_kin_state _ _ _ W RM K0 C AK) as D. pose proof (ds_ok _ _ D) as K.
  pose proof (dyn_state_with_force mb m F2 D LF) as D2. pose proof (ds_ok _ _ D2) as K2.
  pose proof (ID_run _ _ _ _ _ W K Lf E1) as P1. pose proof (ID_run _ _ _ _ _ W K2 Lf E2) as P2.
  pose proof (virtual_fwd mb m b mv W K Sb (ds_ms _ _ D) EV) as HV.
  pose proof (id_power mb m f f1 m1 b mv W D Lf E1 Sb HV) as Q1.
  pose proof (id_power mb _ f f2 m2 b mv W D2 Lf E2 Sb HV) as Q2.
  transitivity (rsum (mb_nrDof mb) (fun r => flat (jointTorque m2) r * flat b r) - rsum (mb_nrDof mb) (fun r => flat (jointTorque m1) r * flat b r)).
  { rewrite <- rsum_minus. apply rsum_ext. intros. ring. }
  rewrite Q1, Q2, <- rsum_minus.
  replace (- rsum (nrBodies mb) (fun i => svdot (svsub (nth i F2 sv0) (nth i (force m) sv0))
            (world_twist (nth i (bodyPosW m) ptid) (nth i (bodyVelB mv) sv0))))
    with (rsum (nrBodies mb) (fun i => (-1) * svdot (svsub (nth i F2 sv0) (nth i (force m) sv0))
            (world_twist (nth i (bodyPosW m) ptid) (nth i (bodyVelB mv) sv0)))) by (rewrite rsum_scal; ring).
  apply rsum_ext. intros i Hi. unfold local_force.
  assert (EA : nth i (bodyAccB m2) sv0 = nth i (bodyAccB m1) sv0).
  { apply (fwd_unique (nrBodies mb) (par mb) (parlt mb W) (ptsn m) _ _ _ _ (ip_acc _ _ _ _ P2) (ip_acc _ _ _ _ P1)). auto. }
  rewrite EA. unfold fext, with_force; cbn [bodyPosW force bodyVelB]. unfold vb at 3 6; cbn [bodyVelB].
  change (vb (mkMBC (q m) (alpha m) (alphaD m) F2 (jointConfig m) (jointVelocity m) (jointTorque m)
    (motionSubspace m) (bodyPosW m) (parentToSon m) (bodyVelW m) (bodyVelB m) (bodyAccB m) (gravity m)) i) with (vb m i).
  rewrite !svdot_sub_l, !fext_power. unfold vb. ring.
Qed.

(** The contribution of the external forces computed by inverseDynamicsNoInertia. *)
Lemma NoInertia_power mb m0 m f b mv : wf_mb mb -> rigid_mb mb -> mbc_ok mb m0 -> config_ok mb m0 ->
  after_kinematics mb m0 m -> length f = nrBodies mb ->
  sized mb jdof b -> forwardVelocity mb (with_alpha b m) = Ok mv ->
  exists f' m', inverseDynamicsNoInertia mb f m = Ok (f', m') /\
  m' = with_jointTorque (jointTorque m') m /\
  rsum (mb_nrDof mb) (fun r => flat (jointTorque m') r * flat b r) =
  rsum (nrBodies mb) (fun i =>
      svdot (nth i (force m) sv0) (world_twist (nth i (bodyPosW m) ptid) (nth i (bodyVelB mv) sv0))).
Proof.
  intros W RM K0 C AK Lf Sb EV. pose proof (after_kin_state _ _ _ W RM K0 C AK) as D. pose proof (ds_ok _ _ D) as K.
  pose proof (virtual_fwd mb m b mv W K Sb (ds_ms _ _ D) EV) as HV.
  pose proof (wf_nrJoints mb W) as NJ. mbclens W K.
  destruct (for_up_inv (fun i l => length l = nrBodies mb /\ forall k, (k < i)%nat -> nth k l sv0 = fext m k)
     (fun i f => Xw <- get (bodyPosW m) i ;; fe <- get (force m) i ;; set f i (ptdual Xw fe)) (nrBodies mb) f) as (f1 & E & L1 & H1).
  - split; auto. intros; lia.
  - intros i l Hi (Ll & Hl). gets. eexists; split; [reflexivity|]. rewrite upd_length. split; auto.
    intros k Hk. destruct (Nat.eq_dec k i) as [->|]; nthupd; auto. apply Hl. lia.
  - destruct (torques_ok mb m f1 W L1 LpS SjT Sms) as (f' & m' & E' & Fr & Lf' & HF & Lt & Ht).
    exists f', m'. unfold inverseDynamicsNoInertia. rewrite E. cbn [bind]. split; auto. split; auto.
    rewrite (torque_power mb m f' (jointTorque m') b (vb mv) _ W K Sb Lt Ht HF HV).
    apply rsum_ext. intros i Hi. rewrite H1 by auto. unfold fext. rewrite fext_power. auto.
Qed.

(** ** C63 *)
Lemma gravity_power X I G V : rigid X -> svdot (rbim I (ptm X (mkSV v0 G))) V = vdot G (lin_momentum X I V).
Proof.
  intros RX. unfold lin_momentum. rewrite vdot_mapp, mtr_mtr.
  unfold ptm; simpl. destruct X as [E r], I as [mm [h1 h2 h3] J], V as [[w1 w2 w3] [u1 u2 u3]], G as [g1 g2 g3].
  unfold svdot, rbim; simpl. v3. ring.
Qed.
Lemma ID_gravity_change mb m0 m f G f1 m1 f2 m2 b mv : wf_mb mb -> rigid_mb mb -> mbc_ok mb m0 -> config_ok mb m0 ->
  after_kinematics mb m0 m -> length f = nrBodies mb ->
  inverseDynamics mb f m = Ok (f1, m1) -> inverseDynamics mb f (with_gravity (vadd (gravity m) G) m) = Ok (f2, m2) ->
  sized mb jdof b -> forwardVelocity mb (with_alpha b m) = Ok mv ->
  rsum (mb_nrDof mb) (fun r => (flat (jointTorque m2) r - flat (jointTorque m1) r) * flat b r) =
  rsum (nrBodies mb) (fun i =>
      vdot G (lin_momentum (nth i (bodyPosW m) ptid) (binertia (nth i (mb_bodies mb) bd)) (nth i (bodyVelB mv) sv0))).
Proof.
  intros W RM K0 C AK Lf E1 E2 Sb EV. pose proof (after_kin_state _ _ _ W RM K0 C AK) as D. pose proof (ds_ok _ _ D) as K.
  pose proof (dyn_state_with_gravity mb m (vadd (gravity m) G) D) as D2. pose proof (ds_ok _ _ D2) as K2.
  pose proof (ID_run _ _ _ _ _ W K Lf E1) as P1. pose proof (ID_run _ _ _ _ _ W K2 Lf E2) as P2.
  pose proof (virtual_fwd mb m b mv W K Sb (ds_ms _ _ D) EV) as HV.
  pose proof (id_power mb m f f1 m1 b mv W D Lf E1 Sb HV) as Q1.
  pose proof (id_power mb _ f f2 m2 b mv W D2 Lf E2 Sb HV) as Q2.
  transitivity (rsum (mb_nrDof mb) (fun r => flat (jointTorque m2) r * flat b r) - rsum (mb_nrDof mb) (fun r => flat (jointTorque m1) r * flat b r)).
  { rewrite <- rsum_minus. apply rsum_ext. intros. ring. }
  rewrite Q1, Q2, <- rsum_minus. apply rsum_ext. intros i Hi. unfold local_force.
  rewrite (id_acc_gravity mb m f1 m1 f2 _ m2 G W P1 P2 (ds_placed _ _ D)) by auto.
  change (fext (with_gravity (vadd (gravity m) G) m) i) with (fext m i).
  change (vb (with_gravity (vadd (gravity m) G) m) i) with (vb m i).
  rewrite rbim_add, !svdot_sub_l, !svdot_add_l. unfold Ib.
  rewrite gravity_power by (apply (ds_placed _ _ D); auto). unfold vb. ring.
Qed.

Lemma weight_local X I g : rigid X -> ptdual X (weight g X I) = svscale (-1) (rbim I (ptm X (mkSV v0 g))).
Proof.
  intros RX. apply svdot_ext. intros V. rewrite svdot_scale_l, gravity_power by auto. rewrite fext_power.
  unfold lin_momentum, weight, world_twist. destruct X as [E r], I as [mm h J], V as [w u]. cbn [rotE trR imass imom sang slin].
  rewrite mapp_add, mapp_scale. rewrite <- (SO3_cross (mtr E)) by (now apply SO3_tr).
  set (u' := mapp (mtr E) u). set (w' := mapp (mtr E) w). set (h' := mapp (mtr E) h). clearbody u' w' h'.
  destruct u', w', h', g, r. unfold svdot; simpl. v3. ring.
Qed.
Lemma ID_weight_as_force mb m0 m f g f1 m1 F2 : wf_mb mb -> rigid_mb mb -> mbc_ok mb m0 -> config_ok mb m0 ->
  after_kinematics mb m0 m -> length f = nrBodies mb -> length F2 = nrBodies mb -> g = gravity m ->
  (forall i, (i < nrBodies mb)%nat -> nth i F2 sv0 =
     svadd (nth i (force m) sv0) (weight g (nth i (bodyPosW m) ptid) (binertia (nth i (mb_bodies mb) bd)))) ->
  inverseDynamics mb f m = Ok (f1, m1) -> 
  exists f2 m2, inverseDynamics mb f (with_force F2 (with_gravity v0 m)) = Ok (f2, m2) /\ jointTorque m2 = jointTorque m1.
Proof.
  intros W RM K0 C AK Lf LF -> HF E1. pose proof (after_kin_state _ _ _ W RM K0 C AK) as D. pose proof (ds_ok _ _ D) as K.
  pose proof (dyn_state_with_force mb _ F2 (dyn_state_with_gravity mb m v0 D) LF) as D2. pose proof (ds_ok _ _ D2) as K2.
  set (m' := with_force F2 (with_gravity v0 m)) in *.
  destruct (ID_total mb m' f W K2 Lf) as (f2 & m2 & E2 & P2). exists f2, m2. split; auto.
  pose proof (ID_run _ _ _ _ _ W K Lf E1) as P1.
  assert (EA : forall i, (i < nrBodies mb)%nat -> nth i (bodyAccB m1) sv0 = svadd (nth i (bodyAccB m2) sv0) (ptm (nth i (bodyPosW m) ptid) (mkSV v0 (gravity m)))).
  { apply (id_acc_gravity mb m' f2 m2 f1 m m1 (gravity m) W P2 P1 (ds_placed _ _ D2)); auto.
    unfold m'; simpl. now rewrite vadd_0_l. }
  assert (EF : forall i, (i < nrBodies mb)%nat -> nth i f2 sv0 = nth i f1 sv0).
  { apply (acc_unique (nrBodies mb) (par mb) (parlt mb W) (ptsn m) _ _ _ (ip_F _ _ _ _ P2)).
    eapply acc_ext; [|apply (ip_F _ _ _ _ P1)]. intros i Hi. unfold local_force.
    rewrite EA by auto. unfold fext, m'; cbn [bodyPosW force with_force with_gravity]. rewrite HF by auto.
    change (vb (with_force F2 (with_gravity v0 m)) i) with (vb m i).
    apply svdot_ext. intros u. rewrite rbim_add, !svdot_sub_l, !svdot_add_l.
    pose proof (weight_local (nth i (bodyPosW m) ptid) (Ib mb i) (gravity m) ltac:(apply (ds_placed _ _ D); auto)) as WL.
    apply (f_equal (fun x => svdot x u)) in WL. rewrite svdot_scale_l in WL.
    rewrite fext_power in WL |- *. rewrite fext_power. rewrite svdot_add_l. unfold Ib in *. rewrite WL. ring. }
  pose proof (wf_nrJoints mb W) as NJ.
  assert (LT : forall f' mm mm', id_post mb mm f' mm' -> length (jointTorque mm') = nrBodies mb).
  { intros f' mm mm' P. rewrite (sized_length _ _ _ (ok_jointTorque _ _ (ip_ok _ _ _ _ P))). auto. }
  apply (list_ext_nth _ _ []).
  - rewrite (LT _ _ _ P1), (LT _ _ _ P2). auto.
  - rewrite (LT _ _ _ P2). intros i Hi. rewrite (ip_t _ _ _ _ P1), (ip_t _ _ _ _ P2), EF by auto. reflexivity.
Qed.

(** ** Positive definiteness *)
Lemma smul_unit_inj j y : joint_unit j -> length y = jdof j -> smul (jS j) y = sv0 -> forall a, nth a y 0 = 0.
Proof.
  intros (ax & U & B) L E. apply built_shape in B. destruct B as (ES & _ & ED). rewrite ES in E. rewrite ED in L. clear ES ED.
  assert (D : dirR (jfwd j) <> 0) by (destruct (jfwd j); simpl; lra). set (d := dirR (jfwd j)) in *. clearbody d.
  assert (Z : forall k, vscale k ax = v0 -> k = 0).
  { intros k Hk. assert (vdot (vscale k ax) ax = 0) by (rewrite Hk; v3; ring). rewrite vdot_scale_l, U in H. lra. }
  assert (Zd : forall k, k * d = 0 -> k = 0) by (intros k Hk; apply Rmult_integral in Hk; tauto).
  pose proof (f_equal sang E) as EA. pose proof (f_equal slin E) as EL.
  pose proof (f_equal vx EA) as A1. pose proof (f_equal vy EA) as A2. pose proof (f_equal vz EA) as A3.
  pose proof (f_equal vx EL) as B1. pose proof (f_equal vy EL) as B2. pose proof (f_equal vz EL) as B3.
  destruct (jtyp j); simpl in L;
    repeat (destruct y as [|? y]; simpl in L; try discriminate L; try lia).
  all: cbn in A1, A2, A3, B1, B2, B3.
  all: intros a.
  - destruct a as [|[|a]]; auto. apply Zd. apply Z. destruct ax. v3. cbn; f_equal; lra.
  - destruct a as [|[|a]]; auto. apply Zd. apply Z. destruct ax. v3. cbn; f_equal; lra.
  - destruct a as [|[|[|[|a]]]]; auto; apply Zd; cbn; lra.
  - destruct a as [|[|[|[|a]]]]; auto; apply Zd; cbn; lra.
  - destruct a as [|[|[|a]]]; auto; apply Zd; apply Z; destruct ax; v3; cbn; f_equal; lra.
  - destruct a as [|[|[|[|[|[|[|a]]]]]]]; auto; apply Zd; cbn; lra.
  - destruct a; auto.
Qed.

Lemma rsum_eq0_inv n f : (forall i, (i < n)%nat -> 0 <= f i) -> rsum n f = 0 -> forall i, (i < n)%nat -> f i = 0.
Proof.
  induction n; intros P E i Hi; [lia|]. simpl in E. pose proof (rsum_nonneg n f ltac:(intros; apply P; lia)).
  pose proof (P n ltac:(lia)). destruct (Nat.eq_dec i n) as [->|]; [lra|].
  apply IHn; [intros; apply P; lia|lra|lia].
Qed.

Lemma unflat mb (x : nat -> R) : wf_mb mb ->
  exists v, sized mb jdof v /\ forall r, (r < mb_nrDof mb)%nat -> flat v r = x r.
Proof.
  intros W. pose proof (wf_nrJoints mb W) as NJ.
  set (v0 := map (fun j => repeat 0 (jdof j)) (mb_joints mb)).
  assert (S0 : sized mb jdof v0) by (unfold sized, v0; rewrite map_map; apply map_ext; intros; apply repeat_length).
  pose proof (concat_length mb v0 jdof S0) as L. 
  destruct (vectorToParam_ok (map x (seq 0 (mb_nrDof mb))) v0) as (v & _ & M & Cc).
  - rewrite L, map_length, seq_length. rewrite (wf_nrDof mb W). auto.
  - exists v. split; [unfold sized in *; congruence|]. intros r Hr. unfold flat. rewrite Cc. now rewrite nth_map_seq.
Qed.

Lemma H_pd mb m s s' : wf_mb mb -> rigid_mb mb -> dyn_state mb m -> h_post mb m s s' ->
  (forall b, In b (mb_bodies mb) -> inertia_pd (binertia b)) -> spd (mb_nrDof mb) (ment (fd_H s')).
Proof.
  intros W RM D P PD. pose proof (ds_ok _ _ D) as K. pose proof (wf_nrJoints mb W) as NJ.
  assert (PSD : forall i, (i < nrBodies mb)%nat -> inertia_pd (Ib mb i)) by (intros; apply PD, nth_In; auto).
  split; [|split].
  - intros. apply (H_symm mb m); auto. apply P.
  - apply (H_psd mb m (fd_H s') W (hp_H _ _ _ _ P)). intros b Hb u. now apply PD.
  - intros x Q r Lr.
    rewrite (H_quad mb m (fd_H s') W (hp_H _ _ _ _ P) x x _ _ (motA_fwd mb m W x) (motA_fwd mb m W x)) in Q.
    assert (Z : forall k, (k < nrBodies mb)%nat -> motA mb m x k = sv0).
    { intros k Hk. apply (PSD k Hk). revert k Hk. apply rsum_eq0_inv; auto. intros i Hi. apply PSD; auto. }
    assert (Zi : forall k, (k < nrBodies mb)%nat -> incr mb m x k = sv0).
    { intros k Hk. pose proof (motA_fwd mb m W x k Hk) as H. rewrite Z in H by auto.
      assert (E : match par mb k with Some p => motA mb m x p | None => sv0 end = sv0).
      { destruct (par mb k) as [p|] eqn:Pk; auto. apply Z. pose proof (par_lt mb k p W Hk Pk). lia. }
      rewrite E, ptm_sv0, svadd_0_l in H. auto. }
    destruct (unflat mb x W) as (v & Sv & Ev).
    rewrite (wf_nrDof mb W), <- pos_all in Lr. apply pos_find in Lr; auto. destruct Lr as (i & a & Li & La & ->).
    rewrite NJ in Li.
    assert (Lp : (pos mb i + a < mb_nrDof mb)%nat).
    { pose proof (pos_le mb i W Li). lia. }
    rewrite <- Ev by auto. unfold flat. rewrite (concat_tile mb v) by (auto; lia).
    apply (smul_unit_inj (nth i (mb_joints mb) jd)).
    + apply RM. apply nth_In. unfold nrJoints in NJ. lia.
    + apply (sized_nth _ _ _ _ Sv). lia.
    + rewrite <- (ds_ms _ _ D) by auto. rewrite <- (incr_smul mb m v i W Sv (ok_motionSubspace _ _ K) Li).
      rewrite <- (Zi i Li). unfold incr. apply vsum_ext. intros c Hc. rewrite Ev; auto.
      pose proof (pos_le mb i W Li). lia.
Qed.

(** ** C10 *)
Lemma fd_ok_tmp mb s t : fd_ok mb s -> length t = mb_nrDof mb -> fd_ok mb (with_tmp t s).
Proof. intros [] L. constructor; auto. Qed.
Lemma concat_nrDof mb (v : list (list R)) : wf_mb mb -> sized mb jdof v -> length (concat v) = mb_nrDof mb.
Proof. intros W S. rewrite (concat_length mb v jdof S). symmetry. apply W. Qed.

Lemma FD_run mb m s solve : wf_mb mb -> rigid_mb mb -> dyn_state mb m -> fd_ok mb s ->
  (forall b, In b (mb_bodies mb) -> inertia_pd (binertia b)) -> solver_ok solve ->
  exists s1 s2 s' m', computeH mb m s = Ok s1 /\ computeC mb m s1 = Ok s2 /\ h_post mb m s s1 /\ c_post mb m s1 s2 /\
    forwardDynamics solve mb m s = Ok (s', m') /\
    fd_ok mb s' /\ m' = with_alphaD (alphaD m') m /\ sized mb jdof (alphaD m') /\
    fd_H s' = fd_H s2 /\ fd_C s' = fd_C s2 /\
    (forall r, (r < mb_nrDof mb)%nat ->
       rsum (mb_nrDof mb) (fun c => ment (fd_H s1) r c * flat (alphaD m') c) = flat (jointTorque m) r - nth r (fd_C s2) 0).
Proof.
  intros W RM D O1 PD SO. pose proof (ds_ok _ _ D) as K.
  destruct (H_ok mb m s W K (ds_rigid _ _ D) O1) as (s1 & E1 & P1).
  destruct (C_ok mb m s1 W K (hp_ok _ _ _ _ P1)) as (s2 & E2 & P2).
  pose proof (cp_ok _ _ _ _ P2) as O2.
  pose proof (concat_nrDof mb _ W (ok_jointTorque _ _ K)) as LT.
  pose proof (fo_C _ _ O2) as LC.
  set (rhs := map (fun p => fst p - snd p) (combine (concat (jointTorque m)) (fd_C s2))).
  assert (Lr : length rhs = mb_nrDof mb).
  { unfold rhs. rewrite map_length, combine_length, LT, LC. apply Nat.min_id. }
  assert (Er : forall r, (r < mb_nrDof mb)%nat -> nth r rhs 0 = flat (jointTorque m) r - nth r (fd_C s2) 0).
  { intros r Hr. unfold rhs. rewrite (nth_map_lt _ _ _ (0, 0)) by (rewrite combine_length; lia).
    rewrite combine_nth by lia. auto. }
  pose proof (H_pd mb m s s1 W RM D P1 PD) as SPD.
  destruct (SO (fd_H s2) rhs) as [Lx Hx].
  { rewrite Lr. apply O2. } { rewrite Lr. apply O2. } { rewrite Lr, (cp_H _ _ _ _ P2). auto. }
  set (x := solve (fd_H s2) rhs) in *.
  destruct (vectorToParam_ok x (alphaD m)) as (aD & EA & M & Cc).
  { rewrite (concat_nrDof mb _ W (ok_alphaD _ _ K)). lia. }
  exists s1, s2, (with_tmp x s2), (with_alphaD aD m). split; auto. split; auto. split; auto. split; auto.
  split.
  { unfold forwardDynamics. rewrite E1. cbn [bind]. rewrite E2. cbn [bind].
    rewrite paramToVector_ok by (rewrite LT; symmetry; apply O2). cbn [bind]. rewrite LT, LC, Nat.eqb_refl.
    fold rhs. fold x. rewrite EA. auto. }
  split; [apply fd_ok_tmp; auto; lia|]. split; [reflexivity|]. cbn [alphaD with_alphaD].
  split; [unfold sized in *; rewrite M; apply K|]. split; auto. split; auto.
  intros r Hr. rewrite <- Er by auto. rewrite <- Hx by lia. unfold mat_vec. rewrite (fo_cols _ _ O2), (cp_H _ _ _ _ P2).
  unfold flat. now rewrite Cc.
Qed.

Lemma flat_inj mb (u v : list (list R)) : wf_mb mb -> sized mb jdof u -> sized mb jdof v ->
  (forall r, (r < mb_nrDof mb)%nat -> flat u r = flat v r) -> u = v.
Proof.
  intros W Su Sv H. apply concat_inj; [unfold sized in *; congruence|].
  apply (list_ext_nth _ _ 0); [now rewrite !(concat_nrDof mb)|].
  rewrite (concat_nrDof mb) by auto. intros i Hi. apply H. auto.
Qed.

Lemma FD_then_ID mb m0 m s f solve : wf_mb mb -> rigid_mb mb -> mbc_ok mb m0 -> config_ok mb m0 ->
  after_kinematics mb m0 m -> fd_ok mb s -> length f = nrBodies mb ->
  (forall b, In b (mb_bodies mb) -> inertia_pd (binertia b)) -> solver_ok solve ->
  exists s' m' f2 m2, forwardDynamics solve mb m s = Ok (s', m') /\ m' = with_alphaD (alphaD m') m /\ fd_ok mb s' /\
    inverseDynamics mb f m' = Ok (f2, m2) /\ jointTorque m2 = jointTorque m.
Proof.
  intros W RM K0 C AK O1 Lf PD SO. pose proof (after_kin_state _ _ _ W RM K0 C AK) as D.
  destruct (FD_run mb m s solve W RM D O1 PD SO) as (s1 & s2 & s' & m' & E1 & E2 & P1 & P2 & E & O' & Fr & Sd & EH & EC & Hx).
  pose proof (dyn_state_with_alphaD mb m (alphaD m') D Sd) as D'. rewrite <- Fr in D'. pose proof (ds_ok _ _ D') as K'.
  destruct (ID_total mb m' f W K' Lf) as (f2 & m2 & E3 & P3).
  exists s', m', f2, m2. repeat (split; auto).
  apply (flat_inj mb); auto. apply (ip_ok _ _ _ _ P3). apply (ds_ok _ _ D).
  intros r Hr. rewrite (id_H_C mb m' (fd_H s1) (fd_C s2) f2 m2 W D'); auto.
  - rewrite Hx by auto. ring.
  - rewrite Fr. apply (hp_H _ _ _ _ P1).
  - rewrite Fr. apply (cp_C _ _ _ _ P2).
Qed.

Lemma spd_inj n H x y : spd n H -> (forall r, (r < n)%nat -> rsum n (fun c => H r c * x c) = rsum n (fun c => H r c * y c)) ->
  forall r, (r < n)%nat -> x r = y r.
Proof.
  intros (_ & _ & D) E r Hr. apply Rminus_diag_uniq. apply (D (fun r => x r - y r)); auto.
  unfold quad. apply rsum_eq0. intros k Hk.
  replace (rsum n (fun c => H k c * (x c - y c))) with (rsum n (fun c => H k c * x c) - rsum n (fun c => H k c * y c)).
  - rewrite E by auto. ring.
  - rewrite <- rsum_minus. apply rsum_ext. intros. ring.
Qed.

Lemma ID_then_FD mb m0 m s f solve : wf_mb mb -> rigid_mb mb -> mbc_ok mb m0 -> config_ok mb m0 ->
  after_kinematics mb m0 m -> fd_ok mb s -> length f = nrBodies mb ->
  (forall b, In b (mb_bodies mb) -> inertia_pd (binertia b)) -> solver_ok solve ->
  exists f' m' s' m2, inverseDynamics mb f m = Ok (f', m') /\
    forwardDynamics solve mb m' s = Ok (s', m2) /\ alphaD m2 = alphaD m.
Proof.
  intros W RM K0 C AK O1 Lf PD SO. pose proof (after_kin_state _ _ _ W RM K0 C AK) as D.
  destruct (ID_total mb m f W (ds_ok _ _ D) Lf) as (f' & m' & E3 & P3).
  assert (D' : dyn_state mb m').
  { pose proof (ip_ok _ _ _ _ P3) as K'. pose proof (ip_frame _ _ _ _ P3) as Fr. destruct D.
    constructor; auto; rewrite Fr; auto. }
  destruct (FD_run mb m' s solve W RM D' O1 PD SO) as (s1 & s2 & s' & m2 & E1 & E2 & P1 & P2 & E & O' & Fr & Sd & EH & EC & Hx).
  exists f', m', s', m2. split; auto. split; auto.
  apply (flat_inj mb); auto. apply (ds_ok _ _ D).
  apply (spd_inj (mb_nrDof mb) (ment (fd_H s1)) _ _ (H_pd mb m' s s1 W RM D' P1 PD)).
  intros r Hr. rewrite Hx by auto.
  pose proof (hp_H _ _ _ _ P1) as HH. pose proof (cp_C _ _ _ _ P2) as HC. pose proof (ip_frame _ _ _ _ P3) as Fi.
  rewrite Fi in HH, HC.
  rewrite (id_H_C mb m (fd_H s1) (fd_C s2) f' m' W D HH HC P3 r Hr). ring.
Qed.
