(** The CoM theorems in the form of the property files. *)
From Coq Require Import Reals String ZArith Bool Arith List Lia Lra.
From Verif Require Import Res ResP SMap Vec VecP Sva SvaP Mat JointM MultiBodyM KinM DynM JacM CoMM MomM Spec SpecDyn SpecJac SpecCoM
  JointP KinP KinPathP MbP TreeP DynP DynCP ConvP KinFinP DynFinP SpecDeriv DerivP DerivTreeP JacP JacFinP JacFin2P JacDerivP JacBlkP JacTopP CoMP CoMLoopP CoMCtorP CoMFinP.
Import ListNotations.
Open Scope R_scope.

(** ** Algebra of one body *)
Lemma com_alg E r h k c : h = vscale k c -> trR (ptmul (pttr h) (mkPT E (vscale k r))) = vscale k (point_position (mkPT E r) c).
Proof. intros ->. rewrite trR_pttr. cbn [rotE trR]. unfold point_position. cbn [rotE trR]. v3ring. Qed.
Lemma comv_alg X h k c V : h = vscale k c ->
  slin (ptm (mkPT (mtr (rotE X)) h) (mkSV (sang V) (vscale k (slin V)))) = vscale k (slin (point_velocity X c V)).
Proof. intros ->. unfold point_velocity. svring. Qed.
Lemma coma_alg X h k c V A VW : rigid X -> h = vscale k c -> sang VW = mapp (mtr (rotE X)) (sang V) ->
  vadd (slin (ptm (mkPT (mtr (rotE X)) h) (mkSV (sang A) (vscale k (slin A)))))
       (slin (scross (mkSV (sang VW) v0) (ptm (mkPT (mtr (rotE X)) h) (mkSV (sang V) (vscale k (slin V)))))) =
  vscale k (slin (point_acceleration X c V A)).
Proof.
  intros RX Eh EW. rewrite <- (world_acc_alg X c V A RX), EW. rewrite (comv_alg X h k c A Eh).
  unfold scross. cbn [slin sang]. rewrite (comv_alg X h k c V Eh). unfold svadd. cbn [slin].
  generalize (slin (point_velocity X c A)) (slin (point_velocity X c V)) (mapp (mtr (rotE X)) (sang V)). clear.
  intros a b w. generalize (sang (ptm (mkPT (mtr (rotE X)) h) (mkSV (sang V) (vscale k (slin V))))) (sang (point_velocity X c V)). clear.
  intros x y. v3ring.
Qed.
Lemma vsum3_S n f : vsum3 (S n) f = vadd (vsum3 n f) (f n). Proof. reflexivity. Qed.
Lemma vsum3_ext n f g : (forall i, (i < n)%nat -> f i = g i) -> vsum3 n f = vsum3 n g.
Proof. intro E. unfold vsum3. f_equal; apply rsum_ext; intros; now rewrite E. Qed.
Lemma com_mean_ext mb w w' f g : (forall i, (i < nrBodies mb)%nat -> w i = w' i) -> (forall i, (i < nrBodies mb)%nat -> f i = g i) -> com_mean mb w f = com_mean mb w' g.
Proof. intros E F. unfold com_mean. f_equal. apply vsum3_ext. intros. now rewrite E, F. Qed.

(** Loops adding masses and vectors. *)
Lemma com_loop mb (body : nat -> R * V3 -> res (R * V3)) (f : nat -> V3) : 0 < total_mass_of mb ->
  (forall i s, (i < nrBodies mb)%nat -> body i s = Ok (fst s + mass_of mb i, vadd (snd s) (vscale (mass_of mb i) (f i)))) ->
  (s <- for_up (nrBodies mb) body (0, v0) ;; vdiv_mass (snd s) (fst s)) = Ok (com_mean mb (fun _ => 1) f).
Proof.
  intros Z B.
  destruct (for_up_inv (fun i s => fst s = rsum i (mass_of mb) /\ snd s = vsum3 i (fun i => vscale (mass_of mb i * 1) (f i))) body (nrBodies mb) (0, v0)) as ((a & v) & E & E1 & E2).
  - auto.
  - intros i (a & v) Hi (E1 & E2). rewrite B by auto. eexists. split; [reflexivity|]. cbn [fst snd] in *. rewrite rsum_S, vsum3_S, E1, E2, Rmult_1_r. auto.
  - rewrite E. cbn [bind fst snd] in *. subst. unfold vdiv_mass. fold (total_mass_of mb). destruct (Rlt_dec 0 (total_mass_of mb)); [reflexivity|contradiction].
Qed.
Lemma vsum_loop n (body : nat -> V3 -> res V3) (f : nat -> V3) :
  (forall i s, (i < n)%nat -> body i s = Ok (vadd s (f i))) -> for_up n body v0 = Ok (vsum3 n f).
Proof. intro B. apply (for_sum vadd f n body v0 (fun n => vsum3 n f)); auto. Qed.
Lemma com_mean_coef mb w f : com_mean mb (fun i => nth i w 0) f = vsum3 (nrBodies mb) (fun i => vscale (coefw mb w i) (f i)).
Proof.
  unfold com_mean, coefw, vsum3, vscale. cbn [vx vy vz]. f_equal; rewrite <- rsum_scal; apply rsum_ext; intros; unfold Rdiv; ring.
Qed.
Lemma com_mean_add mb w f g : com_mean mb w (fun i => vadd (f i) (g i)) = vadd (com_mean mb w f) (com_mean mb w g).
Proof.
  unfold com_mean, vsum3, vscale, vadd. cbn [vx vy vz].
  f_equal; rewrite <- Rmult_plus_distr_l, <- rsum_plus; f_equal; apply rsum_ext; intros; ring.
Qed.
Lemma V3_coef u v : (forall r, (r < 3)%nat -> vcoef r u = vcoef r v) -> u = v.
Proof.
  intro E. pose proof (E 0%nat) as E0. pose proof (E 1%nat) as E1. pose proof (E 2%nat) as E2. destruct u, v. cbn in *.
  f_equal; [apply E0|apply E1|apply E2]; lia.
Qed.
Lemma vcoef_add r u v : vcoef r (vadd u v) = vcoef r u + vcoef r v.
Proof. destruct r as [|[|r]]; reflexivity. Qed.

Lemma own_com_of mb : sane_masses mb -> com_of mb (own_com mb).
Proof.
  intros S i Hi. unfold own_com. destruct (S i Hi) as [P|(Z & E)].
  - destruct (Rlt_dec 0 (mass_of mb i)); [|contradiction]. unfold vscale. cbn. rewrite <- !Rmult_assoc, Rinv_r, !Rmult_1_l by lra. now destruct (imom (inertia_of mb i)).
  - rewrite E. destruct (Rlt_dec 0 (mass_of mb i)); [lra|]. rewrite Z. unfold vscale, v0. cbn. f_equal; ring.
Qed.
Lemma repeat_nth i n : (i < n)%nat -> nth i (repeat 1 n) 0 = 1.
Proof. revert i. induction n; intros [|i] H; cbn; try lia; auto. apply IHn. lia. Qed.

(** The recursion of the normal accelerations. *)
Lemma nacc_loop mb m0 m acc : wf_mb mb -> run mb m0 m -> length acc = nrBodies mb ->
  exists l, for_up (nrJoints mb) (nacc_step mb m) acc = Ok l /\ length l = nrBodies mb /\
    forall b path, (b < nrBodies mb)%nat -> root_path mb b path -> nth b l sv0 = nacc m path b.
Proof.
  intros W RN La. pose proof (wf_nrJoints _ W) as NJ. pose proof (r_ok _ _ _ RN) as K. rewrite NJ.
  destruct (for_up_inv (fun i l => length l = nrBodies mb /\ forall b path, (b < i)%nat -> root_path mb b path -> nth b l sv0 = nacc m path b)
     (nacc_step mb m) (nrBodies mb) acc) as (l & E & L & P).
  - split; auto. intros; lia.
  - intros i l Hi (L & P). unfold nacc_step.
    rewrite (get_nth (parentToSon m) i ptid) by (rewrite (ok_parentToSon _ _ K); auto). cbn [bind].
    rewrite (get_nth (jointVelocity m) i sv0) by (rewrite (ok_jointVelocity _ _ K); lia). cbn [bind].
    rewrite (get_nth (bodyVelB m) i sv0) by (rewrite (ok_bodyVelB _ _ K); auto). cbn [bind].
    rewrite (get_nth (mb_pred mb) i 0%Z) by (rewrite (wf_pred_len _ W); auto). cbn [bind].
    rewrite (get_nth (mb_succ mb) i 0%Z) by (rewrite (wf_succ_len _ W); auto). cbn [bind]. rewrite (wf_succ _ W i Hi), setz_nat.
    assert (NE : nth_error (mb_pred mb) i = Some (nth i (mb_pred mb) 0%Z)) by (apply nth_error_nth'; rewrite (wf_pred_len _ W); auto).
    destruct (root_path_exists mb W i Hi) as (pi & RP).
    assert (FIN : forall v, v = nacc m pi i -> exists s', set l i v = Ok s' /\ length s' = nrBodies mb /\
        forall b path, (b < S i)%nat -> root_path mb b path -> nth b s' sv0 = nacc m path b).
    { intros v Ev. rewrite set_ok by lia. eexists. split; [reflexivity|]. rewrite upd_length. split; auto.
      intros b path Hb RPb. destruct (Nat.eq_dec i b) as [<-|NEb].
      - rewrite nth_upd_eq by lia. rewrite (root_path_unique mb i path pi W RPb RP). auto.
      - rewrite nth_upd_neq by auto. apply P; auto. lia. }
    pose proof (normalAccB_ok mb m0 m W RN i pi RP) as NA.
    destruct (wf_pred _ W i Hi) as [Ep|Ep].
    + rewrite Ep. cbn [Z.eqb Pos.eqb negb]. apply FIN.
      rewrite Ep in NE. rewrite (root_path_unique mb i pi [i] W RP (rp_root mb i NE)) in *.
      unfold nacc. unfold path_sum. cbn [fold_left]. rewrite svadd_0_l. unfold relX. rewrite ptinv_r by (apply (r_rw _ _ _ RN); auto).
      now rewrite ptm_id.
    + rewrite (proj2 (Z.eqb_neq _ _)) by lia. cbn [negb].
      replace (nth i (mb_pred mb) 0%Z) with (Z.of_nat (Z.to_nat (nth i (mb_pred mb) 0%Z))) in * by lia.
      set (p := Z.to_nat (nth i (mb_pred mb) 0%Z)) in *. assert (Hp : (p < i)%nat) by lia.
      destruct (root_path_exists mb W p ltac:(lia)) as (pp & RPp).
      rewrite getz_nat, (get_nth l p sv0) by lia. cbn [bind]. rewrite setz_nat. apply FIN. rewrite (P p pp Hp RPp).
      pose proof (root_path_unique mb i pi (pp ++ [i]) W RP (rp_step mb i p pp NE RPp)) as ->.
      unfold normalAccB_ in NA. rewrite for_each_app in NA.
      pose proof (normalAccB_ok mb m0 m W RN p pp RPp) as NA'. unfold normalAccB_ in NA'. rewrite NA' in NA. cbn [bind for_each] in NA.
      rewrite (get_nth (parentToSon m) i ptid) in NA by (rewrite (ok_parentToSon _ _ K); auto). cbn [bind] in NA.
      rewrite (get_nth (jointVelocity m) i sv0) in NA by (rewrite (ok_jointVelocity _ _ K); lia). cbn [bind] in NA.
      rewrite (get_nth (bodyVelB m) i sv0) in NA by (rewrite (ok_bodyVelB _ _ K); auto). cbn [bind] in NA. congruence.
  - exists l. auto.
Qed.

(** Derivative of the velocity of a point. *)
Lemma point_velocity_deriv X p V t A : (forall s, rigid (X s)) -> moves X t (V t) -> derivS V t A ->
  derivS (fun s => point_velocity (X s) p (V s)) t (point_acceleration (X t) p (V t) A).
Proof.
  intros RX MX DV. eapply derivS_ext; [intro s; symmetry; apply rot_point|].
  assert (DB : derivS (fun s => body_point_velocity p (V s)) t (body_point_velocity p A)).
  { eapply derivS_ext; [intro s; symmetry; apply at_point|]. eapply derivS_eq.
    - apply (deriv_ptm (fun _ => pttr p) V t sv0 A); auto. apply moves_const. apply SO3_id.
    - rewrite at_point. cbv beta. generalize (ptm (pttr p) (V t)) (body_point_velocity p A). clear. intros. svring. }
  eapply derivS_eq; [apply (deriv_ptm (fun s => ptrot (mtr (rotE (X s)))) (fun s => body_point_velocity p (V s)) t _ (body_point_velocity p A) (moves_rot_tr X t (V t) (RX t) MX)); [apply SO3_tr; apply RX|exact DB]|].
  cbv beta. rewrite !rot_point, <- (world_acc_alg _ _ _ _ (RX t)).
  generalize (mapp (mtr (rotE (X t))) (sang (V t))) (point_velocity (X t) p (V t)) (point_velocity (X t) p A). clear. intros. svring.
Qed.
Lemma deriv_vsum3 n (f : R -> nat -> V3) t d : (forall i, (i < n)%nat -> derivV (fun s => f s i) t (d i)) ->
  derivV (fun s => vsum3 n (f s)) t (vsum3 n d).
Proof.
  induction n as [|n IH]; intro H.
  - apply (derivV_ext _ (fun _ => v0)); [reflexivity|]. apply derivV_const.
  - apply (derivV_ext _ (fun s => vadd (vsum3 n (f s)) (f s n))); [reflexivity|]. rewrite vsum3_S.
    apply (derivV_add (fun s => vsum3 n (f s)) (fun s => f s n)); auto.
Qed.
Lemma derivV_cscale k f t d : derivV f t d -> derivV (fun s => vscale k (f s)) t (vscale k d).
Proof.
  intro H. eapply derivV_eq; [apply (derivV_scale (fun _ => k) f t 0 d); [apply derivable_pt_lim_const|exact H]|].
  cbv beta. generalize (f t). clear. intro x. v3ring.
Qed.
Lemma deriv_mean mb w (f : R -> nat -> V3) t d : (forall i, (i < nrBodies mb)%nat -> derivV (fun s => f s i) t (d i)) ->
  derivV (fun s => com_mean mb w (f s)) t (com_mean mb w d).
Proof.
  intro H. unfold com_mean. apply derivV_cscale. apply (deriv_vsum3 _ (fun s i => vscale (mass_of mb i * w i) (f s i))).
  intros i Hi. apply derivV_cscale. auto.
Qed.

Section Top.
Variables (mb : MultiBody) (m0 m : MBC).
Hypothesis W : wf_mb mb.
Hypothesis RM : rigid_mb mb.
Hypothesis K0 : mbc_ok mb m0.
Hypothesis C0 : config_ok mb m0.
Hypothesis AK : after_kinematics mb m0 m.
Let RN : run mb m0 m := kin_run mb m0 m W RM K0 C0 AK.
Let K := r_ok _ _ _ RN.
Hypothesis TM : 0 < total_mass_of mb.

Lemma com_step_ok c i s : com_of mb c -> (i < nrBodies mb)%nat ->
  com_step mb m i s = Ok (fst s + mass_of mb i, vadd (snd s) (vscale (mass_of mb i) (point_position (posW m i) (c i)))).
Proof.
  intros HC Hi. unfold com_step. rewrite get_body by auto. cbn [bind]. rewrite (getX mb m0 m RN) by auto. cbn [bind].
  change (binertia (nth i (mb_bodies mb) bd)) with (inertia_of mb i). rewrite (com_alg (rotE (posW m i)) _ _ _ _ (HC i Hi)).
  now destruct (posW m i).
Qed.
Lemma comv_step_ok c i s : com_of mb c -> (i < nrBodies mb)%nat ->
  comv_step mb m i s = Ok (fst s + mass_of mb i, vadd (snd s) (vscale (mass_of mb i) (slin (point_velocity (posW m i) (c i) (vb m i))))).
Proof.
  intros HC Hi. unfold comv_step. rewrite get_body by auto. cbn [bind]. rewrite (getX mb m0 m RN), (getV mb m0 m RN) by auto. cbn [bind].
  change (binertia (nth i (mb_bodies mb) bd)) with (inertia_of mb i). now rewrite (comv_alg (posW m i) _ _ _ _ (HC i Hi)).
Qed.
Lemma top_com c : com_of mb c ->
  computeCoM mb m = Ok (com_mean mb (fun _ => 1) (fun i => point_position (nth i (bodyPosW m) ptid) (c i))).
Proof. intro HC. apply com_loop; auto. intros. apply com_step_ok; auto. Qed.
Lemma top_comv c : com_of mb c ->
  computeCoMVelocity mb m = Ok (com_mean mb (fun _ => 1) (fun i => slin (point_velocity (nth i (bodyPosW m) ptid) (c i) (nth i (bodyVelB m) sv0)))).
Proof. intro HC. apply com_loop; auto. intros. apply comv_step_ok; auto. Qed.
Lemma vw_ang i : (i < nrBodies mb)%nat -> sang (nth i (bodyVelW m) sv0) = mapp (mtr (rotE (posW m i))) (sang (vb m i)).
Proof. intro Hi. rewrite (r_vw _ _ _ RN) by auto. apply ptrot_inv_ang. Qed.
Lemma vadd_assoc3 a b c : vadd (vadd a b) c = vadd a (vadd b c). Proof. v3ring. Qed.
Lemma top_coma c A0 m3 : com_of mb c -> forwardAcceleration mb m A0 = Ok m3 ->
  computeCoMAcceleration mb m3 = Ok (com_mean mb (fun _ => 1)
    (fun i => slin (point_acceleration (nth i (bodyPosW m) ptid) (c i) (nth i (bodyVelB m) sv0) (nth i (bodyAccB m3) sv0)))).
Proof.
  intros HC F. pose proof (FA_run mb m A0 m3 W K F) as FP. apply com_loop; auto.
  intros i s Hi. unfold coma_step. rewrite get_body by auto. cbn [bind].
  rewrite (fa_frame _ _ _ _ FP). cbn [with_bodyAccB bodyPosW bodyVelW bodyVelB bodyAccB].
  rewrite (getX mb m0 m RN), (getV mb m0 m RN), (getVW mb m0 m RN) by auto. cbn [bind].
  rewrite (get_nth _ i sv0) by (rewrite (fa_len _ _ _ _ FP), (ok_bodyAccB _ _ K); auto). cbn [bind].
  change (binertia (nth i (mb_bodies mb) bd)) with (inertia_of mb i).
  rewrite vadd_assoc3, (coma_alg (posW m i) _ _ (c i) (vb m i) _ _); auto.
  - apply (r_rw _ _ _ RN); auto.
  - exact (HC i Hi).
  - apply vw_ang; auto.
Qed.

(** ** CoMJacobian *)
Variables (w : list R) (c : CoMJ).
Hypothesis HC : comj_of mb w c.

Lemma com_coef i : (i < nrBodies mb)%nat -> get (cj_coeff c) i = Ok (coefw mb w i).
Proof.
  intro Hi. rewrite (cjo_coeff _ _ _ HC). rewrite (get_nth _ i 0) by (now rewrite garbage_length). now rewrite nth_map_seq.
Qed.
Lemma com_get i : (i < nrBodies mb)%nat -> get (cj_com c) i = Ok (pttr (own_com mb i)).
Proof.
  intro Hi. rewrite (cjo_com _ _ _ HC). rewrite (get_nth _ i ptid) by (now rewrite garbage_length). now rewrite nth_map_seq.
Qed.
Definition wv (mv : MBC) : V3 :=
  com_mean mb (fun i => nth i w 0) (fun i => slin (point_velocity (nth i (bodyPosW m) ptid) (own_com mb i) (nth i (bodyVelB mv) sv0))).
Lemma comj_velocity_ok mv : bodyPosW mv = bodyPosW m -> length (bodyVelB mv) = nrBodies mb -> comj_velocity mb mv c = Ok (wv mv).
Proof.
  intros EX LV. unfold comj_velocity, wv. rewrite com_mean_coef. apply vsum_loop. intros i s Hi.
  rewrite com_get by auto. cbn [bind]. rewrite EX, (getX mb m0 m RN) by auto. cbn [bind].
  rewrite (get_nth (bodyVelB mv) i sv0) by lia. cbn [bind]. rewrite com_coef by auto. cbn [bind pttr trR]. now rewrite at_world2.
Qed.
Lemma unit_mean f : w = repeat 1 (nrBodies mb) -> com_mean mb (fun i => nth i w 0) f = com_mean mb (fun _ => 1) f.
Proof. intros ->. apply com_mean_ext; auto. intros. now apply repeat_nth. Qed.

Lemma top_comj : exists c1 v, comj_jacobian mb m c = Ok c1 /\ comj_of mb w c1 /\ comj_velocity mb m c = Ok v /\
  (forall r, (r < 3)%nat -> mat_vec (cj_jac c1) (concat (alpha m)) r = vcoef r v) /\
  v = wv m /\
  (w = repeat 1 (nrBodies mb) -> sane_masses mb -> computeCoMVelocity mb m = Ok v).
Proof.
  destruct (paths_exist mb W) as (path & HP).
  destruct (comj_jacobian_ok mb m0 m W RN path HP w c HC) as (c1 & E & H1 & _ & P).
  exists c1, (wv m). split; [exact E|]. split; [exact H1|]. split; [apply comj_velocity_ok; auto; apply (ok_bodyVelB _ _ K)|].
  split; [|split; [reflexivity|]].
  - intros r Hr. rewrite (entry_times mb W path HP w (cj_jac c1) (lcols mb m path (own_com mb)) (alpha m) r); auto; try apply (cjo_jac _ _ _ H1); try apply (ok_alpha _ _ K).
    + f_equal. apply com_mean_ext; auto. intros b Hb. rewrite (lcols_times mb m0 m W RN path HP) by (auto; apply (ok_alpha _ _ K)).
      now rewrite <- (vb_closed mb m0 m W RN b (path b) (HP b Hb)).
    + intros b Hb. apply (lcols_len mb m W path HP); auto.
  - intros Ew SM. unfold wv. rewrite (top_comv (own_com mb)) by now apply own_com_of. now rewrite unit_mean.
Qed.
Lemma top_comj_rates c1 a mv : comj_jacobian mb m c = Ok c1 -> sized mb jdof a -> forwardVelocity mb (with_alpha a m) = Ok mv ->
  comj_velocity mb mv c = Ok (wv mv) /\ forall r, (r < 3)%nat -> mat_vec (cj_jac c1) (concat a) r = vcoef r (wv mv).
Proof.
  intros E SA F. pose proof (FV_run _ _ _ W (with_alpha_ok _ _ _ K SA) F) as FP.
  destruct (paths_exist mb W) as (path & HP).
  destruct (comj_jacobian_ok mb m0 m W RN path HP w c HC) as (c1' & E' & H1 & _ & P). rewrite E in E'. injection E' as <-.
  split.
  - apply comj_velocity_ok.
    + rewrite (fv_frame _ _ _ FP). reflexivity.
    + rewrite (fv_vb_len _ _ _ FP). apply (ok_bodyVelB _ _ K).
  - intros r Hr. rewrite (entry_times mb W path HP w (cj_jac c1) (lcols mb m path (own_com mb)) a r); auto; try apply (cjo_jac _ _ _ H1).
    + unfold wv. f_equal. apply com_mean_ext; auto. intros b Hb. rewrite (lcols_times mb m0 m W RN path HP) by auto.
      now rewrite (fv_closed mb (with_alpha a m) mv b (path b) W (run_placed mb m0 m RN) FP (HP b Hb)).
    + intros b Hb. apply (lcols_len mb m W path HP); auto.
Qed.

Lemma top_agree d c1 d1 : comd_of mb w d -> comj_jacobian mb m c = Ok c1 -> comd_jacobian mb m d = Ok d1 ->
  forall r x, (r < 3)%nat -> (x < mb_nrDof mb)%nat -> ment (cj_jac c1) r x = ment (cd_jac d1) r x.
Proof.
  intros HD E1 E2 r x Hr Hx. destruct (paths_exist mb W) as (path & HP).
  destruct (comj_jacobian_ok mb m0 m W RN path HP w c HC) as (c' & E & _ & _ & P). rewrite E1 in E. injection E as <-.
  destruct (comd_jacobian_ok mb m0 m W RN path HP w d TM HD) as (d' & E & _ & _ & P'). rewrite E2 in E. injection E as <-.
  now rewrite P, P'.
Qed.
Lemma top_agree_dot d c1 d1 : comd_of mb w d -> comj_jacobianDot mb m c = Ok c1 -> comd_jacobianDot mb m d = Ok d1 ->
  forall r x, (r < 3)%nat -> (x < mb_nrDof mb)%nat -> ment (cj_dot c1) r x = ment (cd_dot d1) r x.
Proof.
  intros HD E1 E2 r x Hr Hx. destruct (paths_exist mb W) as (path & HP).
  destruct (comj_jacobianDot_ok mb m0 m W RN path HP w c HC) as (c' & E & _ & _ & P). rewrite E1 in E. injection E as <-.
  destruct (comd_jacobianDot_ok mb m0 m W RN path HP w d TM HD) as (d' & E & _ & _ & P'). rewrite E2 in E. injection E as <-.
  now rewrite P, P'.
Qed.
Lemma top_agree_total d : comd_of mb w d -> exists c1 d1 c2 d2,
  comj_jacobian mb m c = Ok c1 /\ comd_jacobian mb m d = Ok d1 /\ comj_jacobianDot mb m c = Ok c2 /\ comd_jacobianDot mb m d = Ok d2 /\
  comj_of mb w c1 /\ comd_of mb w d1 /\ comj_of mb w c2 /\ comd_of mb w d2 /\
  forall r x, (r < 3)%nat -> (x < mb_nrDof mb)%nat ->
    ment (cj_jac c1) r x = ment (cd_jac d1) r x /\ ment (cj_dot c2) r x = ment (cd_dot d2) r x.
Proof.
  intros HD. destruct (paths_exist mb W) as (path & HP).
  destruct (comj_jacobian_ok mb m0 m W RN path HP w c HC) as (c1 & E1 & H1 & _ & P1).
  destruct (comd_jacobian_ok mb m0 m W RN path HP w d TM HD) as (d1 & E2 & H2 & _ & P2).
  destruct (comj_jacobianDot_ok mb m0 m W RN path HP w c HC) as (c2 & E3 & H3 & _ & P3).
  destruct (comd_jacobianDot_ok mb m0 m W RN path HP w d TM HD) as (d2 & E4 & H4 & _ & P4).
  exists c1, d1, c2, d2. do 8 (split; [assumption|]). intros r x Hr Hx. now rewrite P1, P2, P3, P4.
Qed.

(** Accelerations: [acc] holds the accelerations of the bodies in body coordinates. *)
Definition wa (acc : list SV) : V3 :=
  com_mean mb (fun i => nth i w 0) (fun i => slin (point_acceleration (nth i (bodyPosW m) ptid) (own_com mb i) (nth i (bodyVelB m) sv0) (nth i acc sv0))).
Lemma comj_nacc_pre acc : length acc = nrBodies mb -> comj_normalAcceleration_pre mb m acc c = Ok (wa acc).
Proof.
  intros LA. unfold comj_normalAcceleration_pre, wa. rewrite com_mean_coef. apply vsum_loop. intros i s Hi.
  rewrite com_get by auto. cbn [bind]. rewrite (getX mb m0 m RN), (getVW mb m0 m RN) by auto. cbn [bind].
  rewrite (get_nth acc i sv0) by lia. cbn [bind]. rewrite (getV mb m0 m RN) by auto. cbn [bind].
  rewrite com_coef by auto. cbn [bind pttr trR]. rewrite !at_world2, vw_ang by auto.
  rewrite <- (world_acc_alg _ _ _ _ (r_rw _ _ _ RN i Hi)). cbn [svadd slin]. rewrite vadd_assoc3.
  unfold vb. generalize (slin (point_velocity (posW m i) (own_com mb i) (nth i acc sv0))) (slin (scross (mkSV (mapp (mtr (rotE (posW m i))) (sang (nth i (bodyVelB m) sv0))) v0) (point_velocity (posW m i) (own_com mb i) (nth i (bodyVelB m) sv0)))) (coefw mb w i).
  intros x y k. f_equal. clear. v3ring.
Qed.
Lemma top_comj_acc m3 : forwardAcceleration mb m sv0 = Ok m3 ->
  exists c1 c2 c3 n, comj_jacobian mb m c = Ok c1 /\ comj_jacobianDot mb m c = Ok c2 /\ comj_normalAcceleration mb m c = Ok (n, c3) /\
  comj_of mb w c1 /\ comj_of mb w c2 /\ comj_of mb w c3 /\
  (forall r, (r < 3)%nat -> mat_vec (cj_dot c2) (concat (alpha m)) r = vcoef r n) /\
  (forall r, (r < 3)%nat -> mat_vec (cj_jac c1) (concat (alphaD m)) r + vcoef r n = vcoef r (wa (bodyAccB m3))) /\
  (w = repeat 1 (nrBodies mb) -> sane_masses mb -> computeCoMAcceleration mb m3 = Ok (wa (bodyAccB m3))).
Proof.
  intro F. pose proof (FA_run mb m sv0 m3 W K F) as FP.
  destruct (paths_exist mb W) as (path & HP).
  destruct (comj_jacobian_ok mb m0 m W RN path HP w c HC) as (c1 & E1 & H1 & _ & P1).
  destruct (comj_jacobianDot_ok mb m0 m W RN path HP w c HC) as (c2 & E2 & H2 & _ & P2).
  destruct (nacc_loop mb m0 m (cj_nacc c) W RN (cjo_nacc _ _ _ HC)) as (l & EL & LL & PL).
  exists c1, c2, (with_nacc l c), (wa l). split; [exact E1|]. split; [exact E2|]. split.
  { unfold comj_normalAcceleration. rewrite EL. cbn [bind].
    change (comj_normalAcceleration_pre mb m l (with_nacc l c)) with (comj_normalAcceleration_pre mb m l c). now rewrite comj_nacc_pre. }
  split; [exact H1|]. split; [exact H2|]. split. { destruct HC. constructor; auto. }
  assert (N : wa l = com_mean mb (fun i => nth i w 0) (fun b => slin (smul (ldots m path (own_com mb) b) (on_path (path b) (alpha m))))).
  { apply com_mean_ext; auto. intros b Hb. rewrite (ldots_times mb m0 m W RN path HP) by auto. rewrite (PL b (path b) Hb (HP b Hb)).
    destruct (jac_exists mb b (own_com mb b) (path b) (HP b Hb)) as (J & HJ & _).
    now rewrite (world_acc mb m0 m W RN b (own_com mb b) J HJ). }
  split; [|split].
  - intros r Hr. rewrite N. apply (entry_times mb W path HP w (cj_dot c2) (ldots m path (own_com mb)) (alpha m) r); auto; try apply (cjo_dot _ _ _ H2); try apply (ok_alpha _ _ K).
    intros b Hb. apply (ldots_len mb m0 m W RN path HP); auto.
  - intros r Hr. rewrite (entry_times mb W path HP w (cj_jac c1) (lcols mb m path (own_com mb)) (alphaD m) r); auto; try apply (cjo_jac _ _ _ H1); try apply (ok_alphaD _ _ K).
    2:{ intros b Hb. apply (lcols_len mb m W path HP); auto. }
    rewrite N, <- vcoef_add, <- com_mean_add. f_equal. unfold wa. apply com_mean_ext; auto. intros b Hb.
    rewrite (ldots_times mb m0 m W RN path HP), (lcols_times mb m0 m W RN path HP) by (auto; apply (ok_alphaD _ _ K)).
    destruct (jac_exists mb b (own_com mb b) (path b) (HP b Hb)) as (J & HJ & EP).
    pose proof (acc_split mb m0 m W RN b (own_com mb b) J HJ m3 F) as AS. rewrite EP in AS. rewrite AS.
    rewrite <- (world_acc mb m0 m W RN b (own_com mb b) J HJ). rewrite <- !slin_add. rewrite svadd_assoc. f_equal. f_equal.
    rewrite <- !at_world2, <- ptm_add. reflexivity.
  - intros Ew SM. rewrite (top_coma (own_com mb) sv0 m3) by (auto using own_com_of). unfold wa. now rewrite unit_mean.
Qed.
End Top.

(** Along trajectories. *)
Section Traj.
Variables (mb : MultiBody) (M K : R -> MBC) (t : R).
Hypothesis W : wf_mb mb.
Hypothesis RM : rigid_mb mb.
Hypothesis RG : forall j, In j (mb_joints mb) -> regular j.
Hypothesis OK : forall s, mbc_ok mb (M s).
Hypothesis CO : forall s, config_ok mb (M s).
Hypothesis AK : forall s, after_kinematics mb (M s) (K s).
Hypothesis F : forall i, (i < nrBodies mb)%nat ->
     follows (nth i (mb_joints mb) jd) (fun s => nth i (q (M s)) []) t (nth i (alpha (M t)) []).
Hypothesis TM : 0 < total_mass_of mb.
Variable cm : nat -> V3.
Hypothesis CM : com_of mb cm.
Let JM := follow_moves mb M t W RM OK CO RG F.
Let RU : forall s, run mb (M s) (K s) := fun s => kin_run mb (M s) (K s) W RM (OK s) (CO s) (AK s).

Lemma traj_com com v : (forall s, computeCoM mb (K s) = Ok (com s)) -> computeCoMVelocity mb (K t) = Ok v -> derivV com t v.
Proof.
  intros E V. rewrite (top_comv mb (M t) (K t) W RM (OK t) (CO t) (AK t) TM cm CM) in V. injection V as <-.
  eapply derivV_ext. { intro s. specialize (E s). rewrite (top_com mb (M s) (K s) W RM (OK s) (CO s) (AK s) TM cm CM) in E. injection E as <-. reflexivity. }
  apply (deriv_mean mb (fun _ => 1) (fun s i => point_position (nth i (bodyPosW (K s)) ptid) (cm i))). intros i Hi.
  destruct (root_path_exists mb W i Hi) as (l & RP). destruct (jac_exists mb i (cm i) l RP) as (J & HJ & _).
  exact (point_deriv mb M K t W RM OK CO AK JM i (cm i) J HJ).
Qed.
Lemma traj_comv v A m3 :
  (forall i k, (i < nrBodies mb)%nat -> (k < jdof (nth i (mb_joints mb) jd))%nat ->
     derivable_pt_lim (fun s => co (nth i (alpha (M s)) []) k) t (co (nth i (alphaD (M t)) []) k)) ->
  (forall s, computeCoMVelocity mb (K s) = Ok (v s)) -> forwardAcceleration mb (K t) sv0 = Ok m3 ->
  computeCoMAcceleration mb m3 = Ok A -> derivV v t A.
Proof.
  intros AD E FA C. rewrite (top_coma mb (M t) (K t) W RM (OK t) (CO t) (AK t) TM cm sv0 m3 CM FA) in C. injection C as <-.
  eapply derivV_ext. { intro s. specialize (E s). rewrite (top_comv mb (M s) (K s) W RM (OK s) (CO s) (AK s) TM cm CM) in E. injection E as <-. reflexivity. }
  apply (deriv_mean mb (fun _ => 1) (fun s i => slin (point_velocity (nth i (bodyPosW (K s)) ptid) (cm i) (nth i (bodyVelB (K s)) sv0)))). intros i Hi.
  pose proof (body_moves mb M K t W RM OK CO AK JM i Hi) as MV.
  pose proof (acc_deriv mb M K t sv0 m3 W RM OK CO AK JM AD FA i Hi) as DA. rewrite ptm_sv0 in DA.
  assert (DA' : derivS (fun s => nth i (bodyVelB (K s)) sv0) t (nth i (bodyAccB m3) sv0)).
  { eapply derivS_eq; [exact DA|]. generalize (nth i (bodyAccB m3) sv0). clear. intro x. svring. }
  exact (proj2 (point_velocity_deriv (fun s => nth i (bodyPosW (K s)) ptid) (cm i) (fun s => nth i (bodyVelB (K s)) sv0) t _ (fun s => r_rw _ _ _ (RU s) i Hi) MV DA')).
Qed.
End Traj.
