(** The momentum theorems in the form of the property files. *)
From Coq Require Import Reals String ZArith Bool Arith List Lia Lra.
From Verif Require Import Res ResP SMap Vec VecP Sva SvaP Mat JointM MultiBodyM KinM DynM JacM CoMM MomM Spec SpecDyn SpecJac SpecCoM
  JointP KinP KinPathP MbP TreeP DynP DynCP ConvP KinFinP DynFinP SpecDeriv DerivP DerivTreeP JacP JacFinP JacFin2P JacDerivP JacBlkP JacTopP CoMP CoMLoopP CoMCtorP CoMFinP CoMTopP MomP.
Import ListNotations.
Open Scope R_scope.

Lemma wsum_vsum n w f : wsum n w f = vsum n (fun i => svscale (w i) (f i)).
Proof. apply svsum_vsum. Qed.
Lemma wsum_ext n w w' f g : (forall i, (i < n)%nat -> w i = w' i) -> (forall i, (i < n)%nat -> f i = g i) -> wsum n w f = wsum n w' g.
Proof. intros E F. rewrite !wsum_vsum. apply vsum_ext. intros. now rewrite E, F. Qed.
Lemma svscale_1_l v : svscale 1 v = v. Proof. svring. Qed.
Lemma wsum_1 n f : wsum n (fun _ => 1) f = vsum n f.
Proof. rewrite wsum_vsum. apply vsum_ext. intros. apply svscale_1_l. Qed.
Lemma slin_vsum n f : slin (vsum n f) = vsum3 n (fun i => slin (f i)).
Proof. induction n as [|n IH]; [reflexivity|]. cbn [vsum]. rewrite vsum3_S, <- IH. reflexivity. Qed.
Lemma mean_total mb f : total_mass_of mb <> 0 ->
  vsum3 (nrBodies mb) (fun i => vscale (mass_of mb i) (f i)) = vscale (total_mass_of mb) (com_mean mb (fun _ => 1) f).
Proof.
  intro Z. unfold com_mean.
  rewrite (vsum3_ext _ (fun i => vscale (mass_of mb i * 1) (f i)) (fun i => vscale (mass_of mb i) (f i))).
  2:{ intros. now rewrite Rmult_1_r. }
  generalize (vsum3 (nrBodies mb) (fun i => vscale (mass_of mb i) (f i))). intros [x y z]. unfold vscale. cbn.
  f_equal; field; auto.
Qed.

(** ** Derivatives *)
Lemma deriv_dot2 f g t d e : derivS f t d -> derivS g t e -> D (fun s => svdot (f s) (g s)) t (svdot d (g t) + svdot (f t) e).
Proof.
  intros ((A1 & A2 & A3) & (B1 & B2 & B3)) ((C1 & C2 & C3) & (D1 & D2 & D3)).
  eapply D_eq.
  - unfold svdot, vdot. repeat (apply D_plus); apply D_mult; eassumption.
  - unfold svdot, vdot. ring.
Qed.
Lemma derivS_of_dots g t d : (forall u, D (fun s => svdot (g s) u) t (svdot d u)) -> derivS g t d.
Proof.
  intro H.
  assert (P : forall (f : R -> R) e u, (forall s, f s = svdot (g s) u) -> e = svdot d u -> D f t e).
  { intros f e u E ->. eapply D_ext; [exact E|apply H]. }
  split; (split; [|split]).
  - apply (P _ _ (mkSV (mkV3 1 0 0) v0)); intros; unfold svdot, vdot; cbn; ring.
  - apply (P _ _ (mkSV (mkV3 0 1 0) v0)); intros; unfold svdot, vdot; cbn; ring.
  - apply (P _ _ (mkSV (mkV3 0 0 1) v0)); intros; unfold svdot, vdot; cbn; ring.
  - apply (P _ _ (mkSV v0 (mkV3 1 0 0))); intros; unfold svdot, vdot; cbn; ring.
  - apply (P _ _ (mkSV v0 (mkV3 0 1 0))); intros; unfold svdot, vdot; cbn; ring.
  - apply (P _ _ (mkSV v0 (mkV3 0 0 1))); intros; unfold svdot, vdot; cbn; ring.
Qed.
Lemma deriv_pttrans X f t V f' : moves X t V -> SO3 (rotE (X t)) -> derivS f t f' ->
  derivS (fun s => pttrans (X s) (f s)) t (pttrans (X t) (svadd f' (scrossDual V (f t)))).
Proof.
  intros MX SX DF. apply derivS_of_dots. intro u.
  eapply D_ext; [intro s; apply pttrans_adj|]. eapply D_eq.
  - apply (deriv_dot2 f (fun s => ptm (X s) u)); [exact DF|]. apply (deriv_ptm X (fun _ => u) t V sv0); auto. apply derivS_const.
  - cbv beta. rewrite pttrans_adj, svdot_add_l, scrossDual_adj, ptm_sv0. generalize (scross V (ptm (X t) u)) (f t). clear. intros. svring.
Qed.
Lemma scrossDual_pttrans Y u f : rigid Y -> pttrans Y (scrossDual (ptm Y u) f) = scrossDual u (pttrans Y f).
Proof.
  intro RY. apply svdot_ext. intro z. rewrite pttrans_adj, !scrossDual_adj, pttrans_adj. now rewrite scross_ptm.
Qed.
Lemma scrossDual_add_l a b f : scrossDual (svadd a b) f = svadd (scrossDual a f) (scrossDual b f). Proof. svring. Qed.
Lemma moves_pttr p t d : derivV p t d -> moves (fun s => pttr (vopp (p s))) t (mkSV v0 (vopp d)).
Proof.
  intros (P1 & P2 & P3). split; cbn [pttr rotE trR sang slin].
  - eapply derivM_eq; [apply derivM_const|]. clear. v3ring.
  - split; [|split]; cbn.
    + eapply D_eq; [apply D_opp, P1|]. ring.
    + eapply D_eq; [apply D_opp, P2|]. ring.
    + eapply D_eq; [apply D_opp, P3|]. ring.
Qed.
Lemma deriv_rbim I f t d : derivS f t d -> derivS (fun s => rbim I (f s)) t (rbim I d).
Proof.
  intro H. apply derivS_of_dots. intro u. eapply D_ext; [intro s; apply rbim_sym|].
  eapply D_eq; [apply (deriv_dot2 (fun _ => rbim I u) f t sv0 d); [apply derivS_const|exact H]|].
  cbv beta. rewrite svdot_0_l, Rplus_0_l. apply rbim_sym.
Qed.
Lemma momentum_deriv X I (V : R -> SV) A com comDot t : (forall s, rigid (X s)) -> moves X t (V t) -> derivS V t A -> derivV com t comDot ->
  derivS (fun s => momentum_about (com s) (X s) I (V s)) t (body_momentum_dot (com t) comDot (X t) I (V t) A).
Proof.
  intros RX MX DV DC. eapply derivS_ext; [intro s; symmetry; apply mom_about|].
  pose proof (moves_mul X (fun s => pttr (vopp (com s))) t (V t) _ (RX t) MX (moves_pttr com t comDot DC)) as MY.
  assert (RY : rigid (ptmul (X t) (pttr (vopp (com t))))) by (apply rigid_mul; [apply RX|apply rigid_pttr]).
  eapply derivS_eq; [apply (deriv_pttrans _ (fun s => rbim I (V s)) t _ (rbim I A) MY RY); now apply deriv_rbim|].
  cbv beta. unfold body_momentum_dot. rewrite ptinv_com, <- !mom_alg by apply RX.
  assert (E : ptm (X t) (mkSV v0 (vopp comDot)) = ptm (ptmul (X t) (pttr (vopp (com t)))) (svscale (-1) (mkSV v0 comDot))).
  { rewrite ptm_mul by apply rigid_pttr. f_equal. clear. svring. }
  rewrite E, scrossDual_add_l, !pttrans_add, scrossDual_pttrans by auto.
  generalize (pttrans (ptmul (X t) (pttr (vopp (com t)))) (rbim I A)) (pttrans (ptmul (X t) (pttr (vopp (com t)))) (scrossDual (V t) (rbim I (V t))))
     (pttrans (ptmul (X t) (pttr (vopp (com t)))) (rbim I (V t))). clear. intros. svring.
Qed.
Lemma deriv_vsum n (f : R -> nat -> SV) t d : (forall i, (i < n)%nat -> derivS (fun s => f s i) t (d i)) ->
  derivS (fun s => vsum n (f s)) t (vsum n d).
Proof.
  induction n as [|n IH]; intro H.
  - exact (derivS_const sv0 t).
  - cbn [vsum]. apply (derivS_add (fun s => vsum n (f s)) (fun s => f s n)); auto.
Qed.

Section Top.
Variables (mb : MultiBody) (m0 m : MBC).
Hypothesis W : wf_mb mb.
Hypothesis RM : rigid_mb mb.
Hypothesis K0 : mbc_ok mb m0.
Hypothesis C0 : config_ok mb m0.
Hypothesis AK : after_kinematics mb m0 m.
Let RN : run mb m0 m := kin_run mb m0 m W RM K0 C0 AK.
Let K := r_ok _ _ _ RN.

Definition hb (mv : MBC) com i := momentum_about com (nth i (bodyPosW m) ptid) (inertia_of mb i) (nth i (bodyVelB mv) sv0).
Lemma top_momentum com : computeCentroidalMomentum mb m com = Ok (wsum (nrBodies mb) (fun _ => 1) (hb m com)).
Proof.
  rewrite wsum_1. apply vsum_loop_sv. intros i s Hi. rewrite get_body by auto. cbn [bind].
  rewrite (getV mb m0 m RN), (getX mb m0 m RN) by auto. cbn [bind].
  now rewrite mom_about.
Qed.
Lemma top_momentum_lin com c : total_mass_of mb <> 0 -> com_of mb c ->
  slin (wsum (nrBodies mb) (fun _ => 1) (hb m com)) =
  vscale (total_mass_of mb) (com_mean mb (fun _ => 1) (fun i => slin (point_velocity (nth i (bodyPosW m) ptid) (c i) (nth i (bodyVelB m) sv0)))).
Proof.
  intros Z CM. rewrite wsum_1, slin_vsum, <- mean_total by auto. apply vsum3_ext. intros i Hi.
  apply mom_lin. now apply CM.
Qed.
Lemma top_momentumDot com comDot A0 m3 : forwardAcceleration mb m A0 = Ok m3 ->
  computeCentroidalMomentumDot mb m3 com comDot = Ok (vsum (nrBodies mb)
    (fun i => body_momentum_dot com comDot (posW m i) (inertia_of mb i) (vb m i) (nth i (bodyAccB m3) sv0))).
Proof.
  intro F. pose proof (FA_run mb m A0 m3 W K F) as FP. apply vsum_loop_sv. intros i s Hi.
  rewrite (fa_frame _ _ _ _ FP). cbn [with_bodyAccB bodyPosW bodyVelW bodyVelB bodyAccB].
  rewrite (getX mb m0 m RN), (getV mb m0 m RN), get_body by auto. cbn [bind].
  rewrite (get_nth _ i sv0) by (rewrite (fa_len _ _ _ _ FP), (ok_bodyAccB _ _ K); auto). reflexivity.
Qed.

Variables (w : list R) (c : CMM).
Hypothesis HC : cmm_of mb w c.
Let wt := fun i => nth i w 0.

Lemma cmm_momentum_ok com mv : bodyPosW mv = bodyPosW m -> length (bodyVelB mv) = nrBodies mb ->
  cmm_momentum mb mv com c = Ok (wsum (nrBodies mb) wt (hb mv com)).
Proof.
  intros EX LV. rewrite wsum_vsum. apply vsum_loop_sv. intros i s Hi. rewrite get_body by auto. cbn [bind].
  rewrite (get_nth (bodyVelB mv) i sv0) by lia. cbn [bind]. rewrite EX, (getX mb m0 m RN) by auto. cbn [bind].
  rewrite (get_w mb w c HC) by auto. cbn [bind]. now rewrite mom_about.
Qed.
Lemma unit_wsum f : w = repeat 1 (nrBodies mb) -> wsum (nrBodies mb) wt f = wsum (nrBodies mb) (fun _ => 1) f.
Proof. intros Ew. apply wsum_ext; auto. intros. unfold wt. rewrite Ew. now apply repeat_nth. Qed.

Lemma top_matrix com : exists c1 h, computeMatrix mb m com c = Ok c1 /\ cmm_of mb w c1 /\ cmm_momentum mb m com c = Ok h /\
  (forall r, (r < 6)%nat -> mat_vec (cm_mat c1) (concat (alpha m)) r = svcoef r h) /\
  h = wsum (nrBodies mb) wt (hb m com) /\
  (w = repeat 1 (nrBodies mb) -> computeCentroidalMomentum mb m com = Ok h).
Proof.
  destruct (paths_exist mb W) as (path & HP).
  destruct (matrix_ok mb m0 m W RN path HP w com c HC) as (c1 & E & H1 & _ & P).
  exists c1, (wsum (nrBodies mb) wt (hb m com)). split; [exact E|]. split; [exact H1|].
  split; [apply cmm_momentum_ok; auto; apply (ok_bodyVelB _ _ K)|]. split; [|split; [reflexivity|]].
  - intros r Hr. rewrite (entry6_times mb W path HP (cm_mat c1) (mcolsM mb m path w com) (alpha m) r); auto.
    + f_equal. rewrite wsum_vsum. apply vsum_ext. intros b Hb. rewrite (mcolsM_times mb m0 m W RN path HP) by (auto; apply (ok_alpha _ _ K)).
      rewrite (A_about mb m0 m RN) by auto. unfold wt, hb. do 2 f_equal. apply (vb_psum mb m0 m W RN path HP); auto.
    + apply (cmo_mat _ _ _ H1).
    + intros b Hb. apply (mcolsM_len mb m W path HP); auto.
    + apply (ok_alpha _ _ K).
  - intro Ew. rewrite unit_wsum by auto. apply top_momentum.
Qed.
Lemma top_matrix_rates com c1 a mv : computeMatrix mb m com c = Ok c1 -> sized mb jdof a -> forwardVelocity mb (with_alpha a m) = Ok mv ->
  exists h, cmm_momentum mb mv com c = Ok h /\ h = wsum (nrBodies mb) wt (hb mv com) /\
  forall r, (r < 6)%nat -> mat_vec (cm_mat c1) (concat a) r = svcoef r h.
Proof.
  intros E SA F. pose proof (FV_run _ _ _ W (with_alpha_ok _ _ _ K SA) F) as FP.
  destruct (paths_exist mb W) as (path & HP).
  destruct (matrix_ok mb m0 m W RN path HP w com c HC) as (c1' & E' & H1 & _ & P). rewrite E in E'. injection E' as <-.
  eexists. split; [|split; [reflexivity|]].
  - apply cmm_momentum_ok.
    + rewrite (fv_frame _ _ _ FP). reflexivity.
    + rewrite (fv_vb_len _ _ _ FP). apply (ok_bodyVelB _ _ K).
  - intros r Hr. rewrite (entry6_times mb W path HP (cm_mat c1) (mcolsM mb m path w com) a r); auto.
    + f_equal. rewrite wsum_vsum. apply vsum_ext. intros b Hb. rewrite (mcolsM_times mb m0 m W RN path HP) by auto.
      rewrite (A_about mb m0 m RN) by auto. unfold wt, hb. do 2 f_equal.
      symmetry. exact (fv_closed mb (with_alpha a m) mv b (path b) W (run_placed mb m0 m RN) FP (HP b Hb)).
    + apply (cmo_mat _ _ _ H1).
    + intros b Hb. apply (mcolsM_len mb m W path HP); auto.
Qed.
Lemma nmd_pre com comDot acc : length acc = nrBodies mb ->
  normalMomentumDot_pre mb m com comDot acc c =
  Ok (wsum (nrBodies mb) wt (fun i => body_momentum_dot com comDot (posW m i) (inertia_of mb i) (vb m i) (nth i acc sv0))).
Proof.
  intro L. rewrite wsum_vsum. apply vsum_loop_sv. intros i s Hi.
  rewrite (getV mb m0 m RN), (getX mb m0 m RN), get_body by auto. cbn [bind]. rewrite (get_nth acc i sv0) by lia. cbn [bind].
  now rewrite (get_w mb w c HC).
Qed.
Lemma svcoef_add r u v : svcoef r (svadd u v) = svcoef r u + svcoef r v. Proof. apply sv_coef. Qed.
Lemma vsum_add2 n f g : svadd (vsum n f) (vsum n g) = vsum n (fun i => svadd (f i) (g i)).
Proof.
  induction n as [|n IH]; cbn [vsum]; [apply svadd_0_l|]. rewrite <- IH.
  generalize (vsum n f) (vsum n g) (f n) (g n). clear. intros. svring.
Qed.
Lemma AB_bmd com comDot i A : (i < nrBodies mb)%nat ->
  svadd (MomP.A mb m w com i A) (MomP.B mb m w com comDot i (vb m i)) =
  svscale (wt i) (body_momentum_dot com comDot (posW m i) (inertia_of mb i) (vb m i) A).
Proof.
  intro Hi. unfold MomP.A, MomP.B, MomP.Y, wt. rewrite bmd_spec by (apply (r_rw _ _ _ RN); auto). now rewrite svscale_add.
Qed.
Lemma top_dots com comDot m3 : forwardAcceleration mb m sv0 = Ok m3 ->
  exists c1 c2 c3 c4 n, computeMatrix mb m com c = Ok c1 /\ computeMatrixDot mb m com comDot c = Ok c2 /\
  normalMomentumDot mb m com comDot c = Ok (n, c3) /\ computeMatrixAndMatrixDot mb m com comDot c = Ok c4 /\
  cmm_of mb w c1 /\ cmm_of mb w c2 /\ cmm_of mb w c3 /\ cmm_of mb w c4 /\
  (forall r x, (r < 6)%nat -> ment (cm_mat c4) r x = ment (cm_mat c1) r x /\ ment (cm_dot c4) r x = ment (cm_dot c2) r x) /\
  (forall r, (r < 6)%nat -> mat_vec (cm_dot c2) (concat (alpha m)) r = svcoef r n) /\
  (w = repeat 1 (nrBodies mb) -> exists hd, computeCentroidalMomentumDot mb m3 com comDot = Ok hd /\
     forall r, (r < 6)%nat -> mat_vec (cm_mat c1) (concat (alphaD m)) r + svcoef r n = svcoef r hd).
Proof.
  intro F. pose proof (FA_run mb m sv0 m3 W K F) as FP.
  destruct (paths_exist mb W) as (path & HP).
  destruct (matrix_ok mb m0 m W RN path HP w com c HC) as (c1 & E1 & H1 & _ & P1).
  destruct (matrixDot_ok mb m0 m W RN path HP w com comDot c HC) as (c2 & E2 & H2 & _ & P2).
  destruct (both_ok mb m0 m W RN path HP w com comDot c HC) as (c4 & E4 & H4 & P4).
  destruct (nacc_loop mb m0 m (cm_nacc c) W RN (cmo_nacc _ _ _ HC)) as (l & EL & LL & PL).
  eexists c1, c2, (with_cm_nacc l c), c4, _. split; [exact E1|]. split; [exact E2|]. split.
  { unfold normalMomentumDot. rewrite EL. cbn [bind].
    change (normalMomentumDot_pre mb m com comDot l (with_cm_nacc l c)) with (normalMomentumDot_pre mb m com comDot l c).
    rewrite nmd_pre by auto. cbn [bind]. reflexivity. }
  split; [exact E4|]. split; [exact H1|]. split; [exact H2|]. split. { destruct HC. constructor; auto. } split; [exact H4|].
  split; [|split].
  - intros r x Hr. destruct (P4 r x Hr) as (Pa & Pb). now rewrite Pa, Pb, P1, P2.
  - intros r Hr. rewrite (entry6_times mb W path HP (cm_dot c2) (mcolsD mb m path w com comDot) (alpha m) r); auto.
    + f_equal. rewrite wsum_vsum. apply vsum_ext. intros b Hb. rewrite (mcolsD_times mb m0 m W RN path HP) by auto.
      rewrite (PL b (path b) Hb (HP b Hb)). now apply AB_bmd.
    + apply (cmo_dot _ _ _ H2).
    + intros b Hb. apply (mcolsD_len mb m0 m W RN path HP); auto.
    + apply (ok_alpha _ _ K).
  - intro Ew. eexists. split; [apply (top_momentumDot com comDot sv0 m3 F)|]. intros r Hr.
    rewrite (entry6_times mb W path HP (cm_mat c1) (mcolsM mb m path w com) (alphaD m) r); auto.
    2:{ apply (cmo_mat _ _ _ H1). } 2:{ intros b Hb. apply (mcolsM_len mb m W path HP); auto. } 2:{ apply (ok_alphaD _ _ K). }
    rewrite unit_wsum, wsum_1, <- svcoef_add by auto. f_equal. rewrite vsum_add2. apply vsum_ext. intros b Hb.
    rewrite (mcolsM_times mb m0 m W RN path HP) by (auto; apply (ok_alphaD _ _ K)).
    destruct (jac_exists mb b v0 (path b) (HP b Hb)) as (J & HJ & EP).
    pose proof (acc_split mb m0 m W RN b v0 J HJ m3 F) as AS. rewrite EP in AS. rewrite AS.
    rewrite !bmd_spec by (apply (r_rw _ _ _ RN); auto).
    rewrite (PL b (path b) Hb (HP b Hb)). fold (psum mb m path (alphaD m) b). unfold MomP.A, MomP.Y.
    replace (nth b w 0) with 1 by (rewrite Ew; symmetry; now apply repeat_nth). rewrite svscale_1_l.
    unfold jacProjector. rewrite rbim_add, ptdual_add. apply svadd_assoc.
Qed.
End Top.

Section Traj.
Variables (mb : MultiBody) (M K : R -> MBC) (t : R).
Hypothesis W : wf_mb mb.
Hypothesis RM : rigid_mb mb.
Hypothesis RG : forall j, In j (mb_joints mb) -> regular j.
Hypothesis OK : forall s, mbc_ok mb (M s).
Hypothesis CO : forall s, config_ok mb (M s).
Hypothesis AK : forall s, after_kinematics mb (M s) (K s).
Hypothesis F : forall i, (i < nrBodies mb)%nat ->
     follows (nth i (mb_joints mb) jd) (fun s => nth i (q (M s)) []) t (nth i (alpha (M t)) []).
Let JM := follow_moves mb M t W RM OK CO RG F.
Let RU : forall s, run mb (M s) (K s) := fun s => kin_run mb (M s) (K s) W RM (OK s) (CO s) (AK s).

Lemma traj_momentum com comDot h hd m3 :
  (forall i k, (i < nrBodies mb)%nat -> (k < jdof (nth i (mb_joints mb) jd))%nat ->
     derivable_pt_lim (fun s => co (nth i (alpha (M s)) []) k) t (co (nth i (alphaD (M t)) []) k)) ->
  derivV com t comDot ->
  (forall s, computeCentroidalMomentum mb (K s) (com s) = Ok (h s)) -> forwardAcceleration mb (K t) sv0 = Ok m3 ->
  computeCentroidalMomentumDot mb m3 (com t) comDot = Ok hd -> derivS h t hd.
Proof.
  intros AD DC E FA C. rewrite (top_momentumDot mb (M t) (K t) W RM (OK t) (CO t) (AK t) (com t) comDot sv0 m3 FA) in C. injection C as <-.
  eapply derivS_ext.
  { intro s. specialize (E s). rewrite (top_momentum mb (M s) (K s) W RM (OK s) (CO s) (AK s)) in E. injection E as <-. rewrite wsum_1. reflexivity. }
  apply (deriv_vsum _ (fun s => hb mb (K s) (K s) (com s))). intros i Hi.
  pose proof (body_moves mb M K t W RM OK CO AK JM i Hi) as MV.
  pose proof (acc_deriv mb M K t sv0 m3 W RM OK CO AK JM AD FA i Hi) as DA. rewrite ptm_sv0 in DA.
  assert (DA' : derivS (fun s => nth i (bodyVelB (K s)) sv0) t (nth i (bodyAccB m3) sv0)).
  { eapply derivS_eq; [exact DA|]. generalize (nth i (bodyAccB m3) sv0). clear. intro x. svring. }
  exact (momentum_deriv (fun s => nth i (bodyPosW (K s)) ptid) (inertia_of mb i) (fun s => nth i (bodyVelB (K s)) sv0) _ com comDot t (fun s => r_rw _ _ _ (RU s) i Hi) MV DA' DC).
Qed.
End Traj.
