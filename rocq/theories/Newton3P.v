(** Along trajectories: momentum and energy. *)
From Coq Require Import Reals String ZArith Bool Arith List Lia Lra.
From Verif Require Import Res ResP SMap Vec VecP Sva SvaP Mat JointM MultiBodyM KinM DynM JacM CoMM MomM Spec SpecDyn SpecJac SpecCoM SpecRel SpecDeriv SpecNewton
  JointP KinP KinPathP MbP TreeP DynP DynCP DynHP ConvP KinFinP DynFinP DynFin2P DerivP DerivTreeP JacP JacFinP JacTopP CoMP CoMTopP MomP MomTopP CorDerivP NewtonP Newton2P.
Import ListNotations.
Open Scope R_scope.

(** A function of time whose derivative is 0 everywhere is constant. *)
Lemma D_const_all f : (forall t, D f t 0) -> forall s t, f s = f t.
Proof.
  intros H s t.
  assert (pr : derivable f) by (intro x; exists 0; apply H).
  apply (null_derivative_1 f pr). intro x. apply derive_pt_eq_0, H.
Qed.
Lemma derivS_const_all f : (forall t, derivS f t sv0) -> forall s t, f s = f t.
Proof.
  intros H s t. apply SV_ext; apply V3_ext.
  - apply (D_const_all (fun s => vx (sang (f s)))). intro x. apply (H x).
  - apply (D_const_all (fun s => vy (sang (f s)))). intro x. apply (H x).
  - apply (D_const_all (fun s => vz (sang (f s)))). intro x. apply (H x).
  - apply (D_const_all (fun s => vx (slin (f s)))). intro x. apply (H x).
  - apply (D_const_all (fun s => vy (slin (f s)))). intro x. apply (H x).
  - apply (D_const_all (fun s => vz (slin (f s)))). intro x. apply (H x).
Qed.

(** The power of the inertial and gravity forces, at one instant. *)
Lemma instant_power mb m f f' m' m3 : wf_mb mb -> dyn_state mb m -> length f = nrBodies mb ->
  inverseDynamics mb f m = Ok (f', m') -> forwardAcceleration mb m sv0 = Ok m3 ->
  rsum (nrBodies mb) (fun i => svdot (rbim (inertia_of mb i) (nth i (bodyVelB m) sv0)) (nth i (bodyAccB m3) sv0) +
     vdot (gravity m) (lin_momentum (nth i (bodyPosW m) ptid) (inertia_of mb i) (nth i (bodyVelB m) sv0))) =
  rsum (mb_nrDof mb) (fun r => flat (jointTorque m') r * flat (alpha m) r) +
  rsum (nrBodies mb) (fun i =>
    svdot (nth i (force m) sv0) (world_twist (nth i (bodyPosW m) ptid) (nth i (bodyVelB m) sv0))).
Proof.
  intros W D Lf E EA. pose proof (ds_ok _ _ D) as K.
  pose proof (ID_run _ _ _ _ _ W K Lf E) as P. pose proof (FA_run _ _ _ _ W K EA) as Q.
  assert (HV : fwd (nrBodies mb) (par mb) (ptsn m) sv0 (fun i => smul (nth i (motionSubspace m) []) (nth i (alpha m) [])) (vb m)).
  { eapply fwd_ext; [apply (parlt mb W)| | |apply (ds_vb _ _ D)]; auto. intros i Hi. unfold vj. now apply (ds_vj _ _ D). }
  rewrite (id_power mb m f f' m' (alpha m) m W D Lf E (ok_alpha _ _ K) HV), <- rsum_plus. apply rsum_ext. intros i Hi.
  rewrite <- gravity_power by (apply (ds_placed _ _ D); auto). rewrite <- fext_power.
  unfold local_force, fext. rewrite (acc_split_gravity mb m f' m' m3 W D P Q i Hi), rbim_add, svdot_sub_l, !svdot_add_l.
  rewrite scrossDual_adj, scross_self, svdot_0_r.
  change (inertia_of mb i) with (Ib mb i). change (nth i (bodyVelB m) sv0) with (vb m i).
  rewrite (rbim_sym (Ib mb i) (vb m i)). ring.
Qed.

Section Traj.
Variables (mb : MultiBody) (M K : R -> MBC) (t : R).
Hypothesis W : wf_mb mb.
Hypothesis RM : rigid_mb mb.
Hypothesis RG : forall j, In j (mb_joints mb) -> regular j.
Hypothesis OK : forall s, mbc_ok mb (M s).
Hypothesis CO : forall s, config_ok mb (M s).
Hypothesis AK : forall s, after_kinematics mb (M s) (K s).
Hypothesis F : forall i, (i < nrBodies mb)%nat ->
     follows (nth i (mb_joints mb) jd) (fun s => nth i (q (M s)) []) t (nth i (alpha (M t)) []).
Hypothesis AD : forall i k, (i < nrBodies mb)%nat -> (k < jdof (nth i (mb_joints mb) jd))%nat ->
     derivable_pt_lim (fun s => co (nth i (alpha (M s)) []) k) t (co (nth i (alphaD (M t)) []) k).
Let JM := follow_moves mb M t W RM OK CO RG F.
Let RU : forall s, run mb (M s) (K s) := fun s => kin_run mb (M s) (K s) W RM (OK s) (CO s) (AK s).
Let DS : forall s, dyn_state mb (K s) := fun s => after_kin_state _ _ _ W RM (OK s) (CO s) (AK s).

Lemma kin_gravity s : gravity (K s) = gravity (M s).
Proof.
  destruct (after_kin_posts _ _ _ W (OK s) (AK s)) as (m1 & F1 & K1 & V & K2).
  rewrite (fv_frame _ _ _ V), (fk_frame _ _ _ F1). reflexivity.
Qed.

Lemma energy_deriv g m3 : (forall s, gravity (M s) = g) -> forwardAcceleration mb (K t) sv0 = Ok m3 ->
  D (fun s => kinetic mb (K s) + potential mb (K s)) t
    (rsum (nrBodies mb) (fun i => svdot (rbim (inertia_of mb i) (nth i (bodyVelB (K t)) sv0)) (nth i (bodyAccB m3) sv0) +
     vdot (gravity (K t)) (lin_momentum (nth i (bodyPosW (K t)) ptid) (inertia_of mb i) (nth i (bodyVelB (K t)) sv0)))).
Proof.
  intros G FA. rewrite rsum_plus. apply D_plus.
  - unfold kinetic. eapply D_eq.
    + apply D_scal. apply (D_rsum _ (fun s i => svdot (rbim (inertia_of mb i) (nth i (bodyVelB (K s)) sv0)) (nth i (bodyVelB (K s)) sv0)) t
        (fun i => 2 * svdot (rbim (inertia_of mb i) (nth i (bodyVelB (K t)) sv0)) (nth i (bodyAccB m3) sv0))).
      intros i Hi.
      pose proof (acc_deriv mb M K t sv0 m3 W RM OK CO AK JM AD FA i Hi) as DA. rewrite ptm_sv0 in DA.
      assert (DA' : derivS (fun s => nth i (bodyVelB (K s)) sv0) t (nth i (bodyAccB m3) sv0)).
      { eapply derivS_eq; [exact DA|]. generalize (nth i (bodyAccB m3) sv0). clear. intro x. svring. }
      eapply D_eq; [apply (deriv_dot2 (fun s => rbim (inertia_of mb i) (nth i (bodyVelB (K s)) sv0))); [apply deriv_rbim; exact DA'|exact DA']|].
      cbv beta. rewrite (rbim_sym _ (nth i (bodyAccB m3) sv0)). ring.
    + rewrite rsum_scal. field.
  - unfold potential. apply (D_rsum _ (fun s i => let X := nth i (bodyPosW (K s)) ptid in
       vdot (gravity (K s)) (vadd (vscale (mass_of mb i) (trR X)) (mapp (mtr (rotE X)) (imom (inertia_of mb i)))))).
    intros i Hi. cbv zeta.
    eapply D_ext; [intro s; rewrite kin_gravity, G; reflexivity|]. rewrite kin_gravity, G.
    destruct (body_world mb M K t W RM OK CO AK JM i Hi) as (DX & DE).
    eapply D_eq.
    + apply (D_vdot (fun _ => g)); [apply derivV_const|]. apply derivV_add.
      * apply (derivV_scale (fun _ => mass_of mb i)); [apply D_const|exact DX].
      * apply (derivV_app _ (fun _ => imom (inertia_of mb i))); [exact DE|apply derivV_const].
    + cbv beta. rewrite (r_vw _ _ _ (RU t)) by auto.
      assert (E : forall E V, ptinvm (ptrot E) V = mkSV (mapp (mtr E) (sang V)) (mapp (mtr E) (slin V))).
      { clear. intros. svring. }
      rewrite E. cbn [sang slin]. unfold lin_momentum, mass_of.
      set (EE := rotE (nth i (bodyPosW (K t)) ptid)) in *.
      assert (RE : SO3 (mtr EE)) by (apply SO3_tr; apply (r_rw _ _ _ (RU t) i Hi)).
      rewrite mapp_add, mapp_scale, <- (SO3_cross (mtr EE)) by auto. rewrite mapp_mmul.
      assert (Z : mapp (mtr EE) v0 = v0) by (clear; svring). rewrite Z.
      generalize (mapp (mtr EE) (sang (nth i (bodyVelB (K t)) sv0))), (mapp (mtr EE) (slin (nth i (bodyVelB (K t)) sv0))), (mapp (mtr EE) (imom (inertia_of mb i))), (imass (inertia_of mb i)), (trR (nth i (bodyPosW (K t)) ptid)).
      clear. intros [? ? ?] [? ? ?] [? ? ?] mm [? ? ?]. destruct g. unfold vdot, vadd, vscale, vcross, mcross, mapp, v0. cbn. ring.
Qed.
Lemma kin_alphaD s : alphaD (K s) = alphaD (M s).
Proof.
  destruct (after_kin_posts _ _ _ W (OK s) (AK s)) as (m1 & F1 & K1 & V & K2).
  rewrite (fv_frame _ _ _ V), (fk_frame _ _ _ F1). reflexivity.
Qed.

(** At time t the accelerations are those of the forward dynamics. *)
Variables (s0 s' : FD) (solve : Mat -> list R -> list R) (m' : MBC).
Hypothesis FO : fd_ok mb s0.
Hypothesis PD : forall b, In b (mb_bodies mb) -> inertia_pd (binertia b).
Hypothesis SO : solver_ok solve.
Hypothesis EF : forwardDynamics solve mb (K t) s0 = Ok (s', m').
Hypothesis EA : alphaD m' = alphaD (M t).
Lemma FD_here : m' = K t.
Proof.
  destruct (FD_run mb (K t) s0 solve W RM (DS t) FO PD SO) as (x1 & x2 & x3 & m1 & _ & _ & _ & _ & E1 & _ & Fr & _).
  rewrite EF in E1. injection E1 as _ EM. subst m1. rewrite Fr, EA, <- kin_alphaD. destruct (K t). reflexivity.
Qed.
Lemma ID_here f : length f = nrBodies mb -> exists f2 m2, inverseDynamics mb f (K t) = Ok (f2, m2) /\ jointTorque m2 = jointTorque (K t).
Proof.
  intro Lf. destruct (FD_then_ID mb (M t) (K t) s0 f solve W RM (OK t) (CO t) (AK t) FO Lf PD SO) as (s2 & m2 & f2 & m4 & E2 & _ & _ & E3 & ET).
  rewrite EF in E2. injection E2 as _ EM. subst m2. rewrite FD_here in E3. eauto.
Qed.
Lemma energy_traj g : (forall s, gravity (M s) = g) -> D (fun s => kinetic mb (K s) + potential mb (K s)) t (power mb (K t)).
Proof.
  intro G. destruct (FA_total mb (K t) sv0 W (ds_ok _ _ (DS t))) as (m3 & FA & _).
  destruct (ID_here (repeat sv0 (nrBodies mb)) (repeat_length _ _)) as (f2 & m2 & E & ET).
  eapply D_eq; [apply (energy_deriv g m3 G FA)|]. unfold power. rewrite <- ET.
  apply (instant_power mb (K t) _ f2 m2 m3 W (DS t) (repeat_length _ _) E FA).
Qed.
Lemma newton_traj c h : one_root mb -> floating mb -> (forall s, computeCentroidalMomentum mb (K s) c = Ok (h s)) ->
  derivS h t (svadd (wrench_at c (nth 0 (bodyPosW (K t)) ptid) (sv_of (nth 0 (jointTorque (K t)) []))) (applied mb (K t) c)).
Proof.
  intros O1 FL EH. destruct (FA_total mb (K t) sv0 W (ds_ok _ _ (DS t))) as (m3 & FA & _).
  destruct (ID_here (repeat sv0 (nrBodies mb)) (repeat_length _ _)) as (f2 & m2 & E & ET).
  pose proof (momentumDot_rate mb (K t) c v0 sv0 m3 W (DS t) FA) as EC.
  eapply derivS_eq; [apply (traj_momentum mb M K t W RM RG OK CO AK F (fun _ => c) v0 h _ m3 AD (derivV_const c t) EH FA EC)|].
  rewrite (newton_floating mb W O1 RM (K t) _ f2 m2 m3 c _ (DS t) FL (repeat_length _ _) E FA EC). now rewrite ET.
Qed.
End Traj.

(** Conservation. *)
Section Cons.
Variables (mb : MultiBody) (M K : R -> MBC).
Hypothesis W : wf_mb mb.
Hypothesis RM : rigid_mb mb.
Hypothesis RG : forall j, In j (mb_joints mb) -> regular j.
Hypothesis OK : forall s, mbc_ok mb (M s).
Hypothesis CO : forall s, config_ok mb (M s).
Hypothesis AK : forall s, after_kinematics mb (M s) (K s).
Hypothesis F : forall t i, (i < nrBodies mb)%nat ->
     follows (nth i (mb_joints mb) jd) (fun s => nth i (q (M s)) []) t (nth i (alpha (M t)) []).
Hypothesis AD : forall t i k, (i < nrBodies mb)%nat -> (k < jdof (nth i (mb_joints mb) jd))%nat ->
     derivable_pt_lim (fun s => co (nth i (alpha (M s)) []) k) t (co (nth i (alphaD (M t)) []) k).
Variables (s0 : FD) (solve : Mat -> list R -> list R).
Hypothesis FO : fd_ok mb s0.
Hypothesis PD : forall b, In b (mb_bodies mb) -> inertia_pd (binertia b).
Hypothesis SO : solver_ok solve.
Hypothesis EF : forall t, exists s' m', forwardDynamics solve mb (K t) s0 = Ok (s', m') /\ alphaD m' = alphaD (M t).
Lemma energy_conserved g : (forall s, gravity (M s) = g) -> (forall s, power mb (K s) = 0) ->
  forall s t, kinetic mb (K s) + potential mb (K s) = kinetic mb (K t) + potential mb (K t).
Proof.
  intros G P. apply (D_const_all (fun s => kinetic mb (K s) + potential mb (K s))). intro t. destruct (EF t) as (s' & m' & E & EA).
  rewrite <- (P t). exact (energy_traj mb M K t W RM RG OK CO AK (F t) (AD t) s0 s' solve m' FO PD SO E EA g G).
Qed.
Lemma momentum_conserved c h : one_root mb -> floating mb -> (forall s, computeCentroidalMomentum mb (K s) c = Ok (h s)) ->
  (forall s, sv_of (nth 0 (jointTorque (K s)) []) = sv0) -> (forall s, applied mb (K s) c = sv0) -> forall s t, h s = h t.
Proof.
  intros O1 FL EH T A. apply derivS_const_all. intro t. destruct (EF t) as (s' & m' & E & EA).
  eapply derivS_eq; [exact (newton_traj mb M K t W RM RG OK CO AK (F t) (AD t) s0 s' solve m' FO PD SO E EA c h O1 FL EH)|].
  rewrite T, A, svadd_0_r. unfold wrench_at. clear. cbn [sv0 sang slin]. rewrite mapp_v0. destruct (nth 0 (bodyPosW (K t)) ptid) as [? [? ? ?]], c. svring.
Qed.
End Cons.
