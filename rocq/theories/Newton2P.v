(** Newton's law and the balance of energy, in the form of the property file. *)
From Coq Require Import Reals String ZArith Bool Arith List Lia Lra.
From Verif Require Import Res ResP SMap Vec VecP Sva SvaP Mat JointM MultiBodyM KinM DynM JacM CoMM MomM Spec SpecDyn SpecJac SpecCoM SpecRel SpecDeriv SpecNewton
  JointP KinP KinPathP MbP TreeP DynP DynCP DynHP ConvP KinFinP DynFinP DynFin2P DerivP DerivTreeP JacP JacFinP JacTopP CoMP CoMTopP MomP MomTopP NewtonP.
Import ListNotations.
Open Scope R_scope.

(** The kinematics do not look at alphaD. *)
Definition rmap {A B} (f : A -> B) (x : res A) : res B := match x with Ok a => Ok (f a) | Throw e => Throw e | UB => UB | Diverge => Diverge end.
Lemma for_up_map {S} (g : S -> S) (body : nat -> S -> res S) n s :
  (forall i s, body i (g s) = rmap g (body i s)) -> for_up n body (g s) = rmap g (for_up n body s).
Proof.
  intro H. unfold for_up. generalize 0%nat. revert s. induction n as [|n IH]; intros s k; [reflexivity|].
  cbn [for_from]. rewrite H. destruct (body k s); cbn [rmap bind]; auto.
Qed.
Ltac steps := repeat match goal with
  | |- context [bind (rmap _ _) _] => fail 1
  | |- context [if ?b then _ else _] => destruct b; cbn [bind rmap]
  | |- context [bind (bind ?x _) _] => destruct x; cbn [bind rmap]; try reflexivity
  | |- context [bind ?x _] => destruct x; cbn [bind rmap]; try reflexivity
  end; try reflexivity.
Lemma fk_alphaD mb a i m : fk_step mb i (with_alphaD a m) = rmap (with_alphaD a) (fk_step mb i m).
Proof. unfold fk_step. destruct m. cbn. steps. Qed.
Lemma fv_alphaD mb a i m : fv_step mb i (with_alphaD a m) = rmap (with_alphaD a) (fv_step mb i m).
Proof. unfold fv_step. destruct m. cbn. steps. Qed.
Lemma after_kin_alphaD mb m0 m a : after_kinematics mb m0 m -> after_kinematics mb (with_alphaD a m0) (with_alphaD a m).
Proof.
  intros (m1 & E1 & E2). exists (with_alphaD a m1). unfold forwardKinematics, forwardVelocity in *.
  rewrite !for_up_map, E1, E2 by (intros; apply fk_alphaD || apply fv_alphaD). auto.
Qed.

Section One.
Variables (mb : MultiBody) (m0 m : MBC).
Hypothesis W : wf_mb mb.
Hypothesis O1 : one_root mb.
Hypothesis RM : rigid_mb mb.
Hypothesis K0 : mbc_ok mb m0.
Hypothesis C0 : config_ok mb m0.
Hypothesis AK : after_kinematics mb m0 m.
Let D : dyn_state mb m := after_kin_state _ _ _ W RM K0 C0 AK.

Lemma transmitted_wrench f f' m' m3 i sub c : length f = nrBodies mb ->
  inverseDynamics mb f m = Ok (f', m') -> forwardAcceleration mb m sv0 = Ok m3 ->
  (i < nrBodies mb)%nat -> (forall k, (k < nrBodies mb)%nat -> sub k = true <-> anc mb i k) ->
  svadd (wrench_at c (nth i (bodyPosW m) ptid) (nth i f' sv0))
        (svsum (nrBodies mb) (fun k => if sub k then applied_to mb m c k else sv0)) =
  svsum (nrBodies mb) (fun k => if sub k then
     momentum_rate c (nth k (bodyPosW m) ptid) (inertia_of mb k) (nth k (bodyVelB m) sv0) (nth k (bodyAccB m3) sv0) else sv0).
Proof. intros. eapply transmitted; eauto. Qed.

Lemma floating_size : floating mb -> (0 < nrBodies mb)%nat.
Proof. intros (j & E & _). rewrite <- (wf_joints mb W). apply nth_error_Some. congruence. Qed.
Lemma floating_torque m1 f' m' : dyn_state mb m1 -> floating mb -> id_post mb m1 f' m' -> sv_of (nth 0 (jointTorque m') []) = nth 0 f' sv0.
Proof.
  intros D1 FL P. pose proof (floating_size FL) as N. destruct FL as (j & E & T & F).
  rewrite (ip_t _ _ _ _ P) by auto. rewrite (ds_ms _ _ D1) by auto. rewrite (nth_error_nth _ _ jd E).
  apply free_coefs; auto. apply (proj1 RM). eapply nth_error_In; eauto.
Qed.
Lemma newton_floating m1 f f' m' m3 c hd : dyn_state mb m1 -> floating mb -> length f = nrBodies mb ->
  inverseDynamics mb f m1 = Ok (f', m') -> forwardAcceleration mb m1 sv0 = Ok m3 ->
  computeCentroidalMomentumDot mb m3 c v0 = Ok hd ->
  hd = svadd (wrench_at c (nth 0 (bodyPosW m1) ptid) (sv_of (nth 0 (jointTorque m') []))) (applied mb m1 c).
Proof.
  intros D1 FL Lf E EA EH. rewrite (floating_torque m1 f' m' D1 FL (ID_run _ _ _ _ _ W (ds_ok _ _ D1) Lf E)).
  eapply newton_root; eauto. now apply floating_size.
Qed.
Lemma newton_FD s solve s' m' m3 c hd : floating mb -> fd_ok mb s ->
  (forall b, In b (mb_bodies mb) -> inertia_pd (binertia b)) -> solver_ok solve ->
  forwardDynamics solve mb m s = Ok (s', m') -> forwardAcceleration mb m' sv0 = Ok m3 ->
  computeCentroidalMomentumDot mb m3 c v0 = Ok hd ->
  hd = svadd (wrench_at c (nth 0 (bodyPosW m) ptid) (sv_of (nth 0 (jointTorque m) []))) (applied mb m c).
Proof.
  intros FL FO PD SO E EA EH. set (f := repeat sv0 (nrBodies mb)).
  destruct (FD_run mb m s solve W RM D FO PD SO) as (x1 & x2 & x3 & m1' & _ & _ & _ & _ & E1 & _ & Fr & Sd & _).
  rewrite E in E1. injection E1 as _ EM. subst m1'.
  destruct (FD_then_ID mb m0 m s f solve W RM K0 C0 AK FO (repeat_length _ _) PD SO) as (s2 & m2 & f2 & m4 & E2 & _ & _ & E3 & ET).
  rewrite E in E2. injection E2 as _ EM. subst m2.
  pose proof (dyn_state_with_alphaD mb m (alphaD m') D Sd) as D'. rewrite <- Fr in D'.
  rewrite (newton_floating m' f f2 m4 m3 c hd D' FL (repeat_length _ _) E3 EA EH). rewrite ET.
  rewrite Fr. reflexivity.
Qed.
Lemma rate_lin c X I V A p : imom I = vscale (imass I) p -> slin (momentum_rate c X I V A) = vscale (imass I) (slin (point_acceleration X p V A)).
Proof. intro E. unfold momentum_rate, wrench_at, point_acceleration, rbim, scrossDual. cbn [slin svadd sang]. rewrite E. clear. destruct A as [[? ? ?] [? ? ?]], V as [[? ? ?] [? ? ?]], p. svring. Qed.
Lemma com_linear mA cA m3 c hd a p : mbc_ok mb cA -> config_ok mb cA -> after_kinematics mb cA mA -> 0 < total_mass_of mb -> com_of mb p ->
  forwardAcceleration mb mA sv0 = Ok m3 ->
  computeCentroidalMomentumDot mb m3 c v0 = Ok hd -> computeCoMAcceleration mb m3 = Ok a -> slin hd = vscale (total_mass_of mb) a.
Proof.
  intros KA CA AA TM CM EA EH EC. pose proof (after_kin_state _ _ _ W RM KA CA AA) as DA.
  rewrite (momentumDot_rate mb mA c v0 sv0 m3 W DA EA) in EH. injection EH as <-.
  rewrite (top_coma mb cA mA W RM KA CA AA TM p sv0 m3 CM EA) in EC. injection EC as <-.
  rewrite slin_vsum, <- mean_total by lra. apply vsum3_ext. intros i Hi.
  rewrite bmd_rate by (apply (ds_placed _ _ DA); auto). apply rate_lin. now apply CM.
Qed.
Lemma newton_com s solve s' m' m3 a p : floating mb -> fd_ok mb s ->
  (forall b, In b (mb_bodies mb) -> inertia_pd (binertia b)) -> solver_ok solve -> 0 < total_mass_of mb -> com_of mb p ->
  forwardDynamics solve mb m s = Ok (s', m') -> forwardAcceleration mb m' sv0 = Ok m3 ->
  computeCoMAcceleration mb m3 = Ok a ->
  vscale (total_mass_of mb) a =
  vadd (mapp (mtr (rotE (nth 0 (bodyPosW m) ptid))) (slin (sv_of (nth 0 (jointTorque m) []))))
       (vsub (vsum3 (nrBodies mb) (fun i => slin (nth i (force m) sv0))) (vscale (total_mass_of mb) (gravity m))).
Proof.
  intros FL FO PD SO TM CM E EA EC.
  destruct (FD_run mb m s solve W RM D FO PD SO) as (x1 & x2 & x3 & m1' & _ & _ & _ & _ & E1 & _ & Fr & Sd & _).
  rewrite E in E1. injection E1 as _ EM. subst m1'.
  pose proof (dyn_state_with_alphaD mb m (alphaD m') D Sd) as D'. rewrite <- Fr in D'.
  pose proof (momentumDot_rate mb m' v0 v0 sv0 m3 W D' EA) as EH.
  pose proof (newton_FD s solve s' m' m3 v0 _ FL FO PD SO E EA EH) as N.
  pose proof (after_kin_alphaD mb m0 m (alphaD m') AK) as AK'. rewrite <- Fr in AK'.
  pose proof (com_linear m' (with_alphaD (alphaD m') m0) m3 v0 _ a p (with_alphaD_ok _ _ _ K0 Sd) C0 AK' TM CM EA EH EC) as L.
  rewrite <- L, N. unfold applied, wrench_at. cbn [svadd slin]. f_equal.
  rewrite svsum_vsum, slin_vsum. unfold applied_to, moved_to, weight. cbn [slin svadd].
  unfold total_mass_of, vsum3, vsub, vscale, vopp, mass_of. cbn [vx vy vz]. destruct (gravity m) as [g1 g2 g3]. cbn [vx vy vz vadd vopp].
  assert (S : forall f h g, rsum (nrBodies mb) (fun i => f i + h i * - g) = rsum (nrBodies mb) f - rsum (nrBodies mb) h * g).
  { clear. intros f h g. rewrite rsum_plus. unfold Rminus. f_equal. rewrite Ropp_mult_distr_r, Rmult_comm, <- rsum_scal. apply rsum_ext. intros. ring. }
  f_equal.
  - rewrite <- (S (fun i => vx (slin (nth i (force m) sv0))) (fun i => imass (inertia_of mb i)) g1). apply rsum_ext. intros. reflexivity.
  - rewrite <- (S (fun i => vy (slin (nth i (force m) sv0))) (fun i => imass (inertia_of mb i)) g2). apply rsum_ext. intros. reflexivity.
  - rewrite <- (S (fun i => vz (slin (nth i (force m) sv0))) (fun i => imass (inertia_of mb i)) g3). apply rsum_ext. intros. reflexivity.
Qed.
End One.
Lemma newton_ID mb m0 m : wf_mb mb -> one_root mb -> rigid_mb mb -> mbc_ok mb m0 -> config_ok mb m0 -> after_kinematics mb m0 m ->
  forall f f' m' m3 c hd, floating mb -> length f = nrBodies mb ->
  inverseDynamics mb f m = Ok (f', m') -> forwardAcceleration mb m sv0 = Ok m3 ->
  computeCentroidalMomentumDot mb m3 c v0 = Ok hd ->
  hd = svadd (wrench_at c (nth 0 (bodyPosW m) ptid) (sv_of (nth 0 (jointTorque m') []))) (applied mb m c).
Proof.
  intros W O1 RM K0 C0 AK f f' m' m3 c hd FL Lf. intros.
  exact (newton_floating mb W O1 RM m f f' m' m3 c hd (after_kin_state _ _ _ W RM K0 C0 AK) FL Lf H H0 H1).
Qed.
Lemma rate_deriv (X : R -> PT) I (V : R -> SV) A c t :
  (forall s, rigid (X s)) -> moves X t (V t) -> derivS V t A ->
  derivS (fun s => momentum_about c (X s) I (V s)) t (momentum_rate c (X t) I (V t) A).
Proof.
  intros RX MV DV. rewrite <- bmd_rate by apply RX.
  exact (momentum_deriv X I V A (fun _ => c) v0 t RX MV DV (derivV_const c t)).
Qed.
