(** Proofs of the Jacobian properties: products, accelerations, derivatives, translation. *)
From Coq Require Import Reals String ZArith Bool Arith List Lia Lra.
From Verif Require Import Res ResP SMap Vec VecP Sva SvaP Mat JointM MultiBodyM KinM DynM JacM Spec SpecDyn SpecJac
  JointP KinP KinPathP MbP TreeP DynP DynCP ConvP KinFinP SpecDeriv DerivP DerivTreeP JacP JacFinP.
Import ListNotations.
Open Scope R_scope.

Lemma after_fields mb m0 m : wf_mb mb -> mbc_ok mb m0 -> after_kinematics mb m0 m ->
  alpha m = alpha m0 /\ alphaD m = alphaD m0 /\ q m = q m0.
Proof.
  intros W K A. destruct (after_kin_posts _ _ _ W K A) as (m1 & F & K1 & V & K2).
  rewrite (fv_frame _ _ _ V), (fk_frame _ _ _ F). auto.
Qed.

Lemma svadd_4 a b c d : svadd (svadd a b) (svadd c d) = svadd (svadd a c) (svadd b d).
Proof. rewrite !svadd_assoc. f_equal. rewrite <- !svadd_assoc. f_equal. apply svadd_comm. Qed.

Lemma ptrot_inv_ang X V : sang (ptinvm (ptrot (rotE X)) V) = mapp (mtr (rotE X)) (sang V).
Proof. destruct X as [E r], V as [a b]. reflexivity. Qed.
Lemma world_acc_alg X p V A : rigid X ->
  svadd (point_velocity X p A) (scross (mkSV (mapp (mtr (rotE X)) (sang V)) v0) (point_velocity X p V)) =
  point_acceleration X p V A.
Proof.
  intro RX. pose proof (SO3_tr _ RX) as RT. unfold point_velocity, point_acceleration, scross, svadd.
  cbn [sang slin]. apply SV_ext; cbn [sang slin].
  - now rewrite vcross_self, vadd_0_r.
  - rewrite SO3_cross by auto. replace (vcross v0 (mapp (mtr (rotE X)) (sang V))) with v0 by (destruct (mapp (mtr (rotE X)) (sang V)); unfold vcross, v0; cbn; f_equal; ring).
    rewrite vadd_0_r, <- mapp_add. reflexivity.
Qed.
Lemma scross_sv0_r a : scross a sv0 = sv0.
Proof. svring. Qed.

Lemma rot_point X p V : ptm (ptrot (mtr (rotE X))) (body_point_velocity p V) = point_velocity X p V.
Proof. unfold point_velocity, body_point_velocity. svring. Qed.
Lemma rigid_pttr v : rigid (pttr v). Proof. apply SO3_id. Qed.
Lemma rigid_ptrot E : SO3 E -> rigid (ptrot E). Proof. auto. Qed.
Lemma slin_smul S : forall S' x, map slin S = map slin S' -> slin (smul S x) = slin (smul S' x).
Proof.
  induction S as [|c S IH]; intros [|c' S'] x E; try discriminate; auto. destruct x as [|a x]; auto.
  injection E as E1 E2. cbn [smul svadd svscale slin]. now rewrite E1, (IH S' x E2).
Qed.
Lemma map_concat_map {A B C} (f : B -> C) (g : A -> list B) l : map f (concat (map g l)) = concat (map (fun a => map f (g a)) l).
Proof. rewrite concat_map, map_map. reflexivity. Qed.
Lemma trR_pttr v X : trR (ptmul (pttr v) X) = vadd (trR X) (mapp (mtr (rotE X)) v).
Proof. svring. Qed.
Lemma vcross_add_l a b c : vcross (vadd a b) c = vadd (vcross a c) (vcross b c). Proof. v3ring. Qed.
Lemma vcross_scale_l k a b : vcross (vscale k a) b = vscale k (vcross a b). Proof. v3ring. Qed.
Lemma vcross_0_l a : vcross v0 a = v0. Proof. v3ring. Qed.
Lemma vcross_opp_l a b : vcross (vopp a) b = vcross b a. Proof. v3ring. Qed.
Lemma vsub_vadd a b : vsub a (vadd a b) = vopp b. Proof. v3ring. Qed.

Section Run.
Variables (mb : MultiBody) (m0 m : MBC).
Hypothesis W : wf_mb mb.
Hypothesis R : run mb m0 m.
Let K := r_ok _ _ _ R.

Variables (i : nat) (p : V3) (J : Jac).
Hypothesis H : jacobian_of mb i p J.
Let RP := jo_path _ _ _ _ H.
Let Hi : (i < nrBodies mb)%nat := proj1 (root_path_lt _ _ _ W RP).
Let RX : rigid (posW m i) := r_rw _ _ _ R i Hi.

Lemma jac_product : exists J1, jacobian mb m J = Ok J1 /\ jacobian_of mb i p J1 /\ jc_path J1 = jc_path J /\
  (forall a, sized mb jdof a -> length (on_path (jc_path J) a) = jac_dof J1 /\
     smul (jc_jac J1) (on_path (jc_path J) a) =
     point_velocity (posW m i) p
      (path_sum (fun k => ptm (relX (bodyPosW m) i k) (smul (jS (nth k (mb_joints mb) jd)) (nth k a []))) (jc_path J))).
Proof.
  rewrite (jacobian_run mb m0 m W R i p J H). eexists. split; [reflexivity|].
  split; [apply jo_with_jac; auto; apply (fcols_length mb m W i p J); auto|]. split; [reflexivity|].
  intros a S. unfold jac_dof. cbn [jc_jac with_jac]. split.
  - rewrite (fcols_length mb m W i p J) by auto. rewrite (jo_jac _ _ _ _ H). eapply on_path_length; eauto.
  - rewrite (fcols_times mb m0 m W R i p J) by auto. now apply at_world.
Qed.
Lemma jac_at_product X : exists J1, jacobian_at mb m X J = Ok J1 /\ jacobian_of mb i p J1 /\
  (forall a, sized mb jdof a -> length (on_path (jc_path J) a) = jac_dof J1 /\
     smul (jc_jac J1) (on_path (jc_path J) a) =
     ptm (ptmul X (ptinv (posW m i)))
      (path_sum (fun k => ptm (relX (bodyPosW m) i k) (smul (jS (nth k (mb_joints mb) jd)) (nth k a []))) (jc_path J))).
Proof.
  rewrite (jacobian_at_run mb m0 m W R i p J X H). eexists. split; [reflexivity|].
  split; [apply jo_with_jac; auto; apply (fcols_length mb m W i p J); auto|].
  intros a S. unfold jac_dof. cbn [jc_jac with_jac]. split.
  - rewrite (fcols_length mb m W i p J) by auto. rewrite (jo_jac _ _ _ _ H). eapply on_path_length; eauto.
  - now rewrite (fcols_times mb m0 m W R i p J) by auto.
Qed.
Lemma body_jac_product : exists J1, bodyJacobian mb m J = Ok J1 /\ jacobian_of mb i p J1 /\
  (forall a, sized mb jdof a -> length (on_path (jc_path J) a) = jac_dof J1 /\
     smul (jc_jac J1) (on_path (jc_path J) a) =
     body_point_velocity p
      (path_sum (fun k => ptm (relX (bodyPosW m) i k) (smul (jS (nth k (mb_joints mb) jd)) (nth k a []))) (jc_path J))).
Proof.
  rewrite (bodyJacobian_run mb m0 m W R i p J H). eexists. split; [reflexivity|].
  split; [apply jo_with_jac; auto; apply (fcols_length mb m W i p J); auto|].
  intros a S. unfold jac_dof. cbn [jc_jac with_jac]. split.
  - rewrite (fcols_length mb m W i p J) by auto. rewrite (jo_jac _ _ _ _ H). eapply on_path_length; eauto.
  - rewrite (fcols_times mb m0 m W R i p J) by auto. now apply at_body.
Qed.

Lemma getPos : get (bodyPosW m) i = Ok (posW m i).
Proof. apply get_nth. rewrite (ok_bodyPosW _ _ K). auto. Qed.
Lemma getVelB : get (bodyVelB m) i = Ok (vb m i).
Proof. apply get_nth. rewrite (ok_bodyVelB _ _ K). auto. Qed.
Lemma getVelW : get (bodyVelW m) i = Ok (nth i (bodyVelW m) sv0).
Proof. apply get_nth. rewrite (ok_bodyVelW _ _ K). auto. Qed.

Lemma velocity_ok : velocity m J = Ok (point_velocity (posW m i) p (vb m i)).
Proof.
  unfold velocity. rewrite (root_path_back _ _ _ RP). cbn [bind]. rewrite getPos. cbn [bind]. rewrite getVelB. cbn [bind].
  rewrite (jo_point _ _ _ _ H). cbn [pttr trR]. now rewrite at_world2.
Qed.
Lemma velocity_at_ok X : velocity_at m X J = Ok (ptm X (vb m i)).
Proof. unfold velocity_at. rewrite (root_path_back _ _ _ RP). cbn [bind]. now rewrite getVelB. Qed.
Lemma bodyVelocity_ok : bodyVelocity m J = Ok (body_point_velocity p (vb m i)).
Proof.
  unfold bodyVelocity. rewrite (root_path_back _ _ _ RP). cbn [bind]. rewrite getVelB. cbn [bind].
  now rewrite (jo_point _ _ _ _ H), at_point.
Qed.

(** ** Normal accelerations *)
Definition nacc (l : list nat) (i : nat) : SV :=
  path_sum (fun k => ptm (relX (bodyPosW m) i k) (scross (vb m k) (vj m k))) l.

Lemma for_each_app {A St} (l l' : list A) (f : A -> St -> res St) s :
  for_each (l ++ l') f s = (s' <- for_each l f s ;; for_each l' f s').
Proof. revert s. induction l; intro s; cbn; auto. destruct (f a s); cbn; auto. Qed.

Lemma normalAccB_ok j l : root_path mb j l -> normalAccB_ m l = Ok (nacc l j).
Proof.
  assert (G : forall k, (k < nrBodies mb)%nat -> forall a,
    (X <- get (parentToSon m) k ;; vj0 <- get (jointVelocity m) k ;; vb0 <- get (bodyVelB m) k ;;
     Ok (svadd (ptm X a) (scross vb0 vj0))) = Ok (svadd (ptm (nth k (parentToSon m) ptid) a) (scross (vb m k) (vj m k)))).
  { intros k Hk a. rewrite (get_nth (parentToSon m) k ptid) by (rewrite (ok_parentToSon _ _ K); auto). cbn [bind].
    rewrite (get_nth (jointVelocity m) k sv0) by (rewrite (ok_jointVelocity _ _ K), (wf_nrJoints _ W); auto). cbn [bind].
    rewrite (get_nth (bodyVelB m) k sv0) by (rewrite (ok_bodyVelB _ _ K); auto). reflexivity. }
  intro Q. unfold normalAccB_. induction Q as [k Q|k a l Q RQ IH].
  - assert (Hk : (k < nrBodies mb)%nat) by (rewrite <- (wf_pred_len _ W); apply nth_error_Some; congruence).
    cbn [for_each]. rewrite G by auto. cbn [bind]. f_equal. unfold nacc, path_sum. cbn [fold_left].
    rewrite relX_self by (apply (r_rw _ _ _ R); auto). now rewrite ptm_id, ptm_sv0.
  - assert (Hk : (k < nrBodies mb)%nat) by (rewrite <- (wf_pred_len _ W); apply nth_error_Some; congruence).
    rewrite for_each_app, IH. cbn [bind for_each]. rewrite G by auto. cbn [bind]. f_equal.
    unfold nacc. rewrite path_sum_app, relX_self, ptm_id by (apply (r_rw _ _ _ R); auto). f_equal.
    rewrite ptm_path_sum. apply path_sum_ext. intros c Hc.
    destruct (root_path_lt _ _ _ W RQ) as (Ha & _). pose proof (root_path_in _ _ _ W RQ c Hc) as Hcn.
    rewrite (relX_step mb m k a c W (run_placed _ _ _ R)) by (auto; now apply pred_par).
    rewrite ptm_mul by (apply (relX_rigid mb m a c); [apply (run_placed _ _ _ R)|auto|auto]). reflexivity.
Qed.

Notation Ew := (mtr (rotE (posW m i))).
Definition wN : SV := mkSV (sang (nth i (bodyVelW m) sv0)) v0.

Lemma normalAcceleration_ok : normalAcceleration m J =
  Ok (svadd (point_velocity (posW m i) p (nacc (jc_path J) i)) (scross wN (point_velocity (posW m i) p (vb m i)))).
Proof.
  unfold normalAcceleration. rewrite (normalAccB_ok i _ RP). cbn [bind]. unfold normalAcceleration_N.
  rewrite (root_path_back _ _ _ RP). cbn [bind]. rewrite getPos. cbn [bind]. rewrite getVelW. cbn [bind].
  rewrite getVelB. cbn [bind]. rewrite (jo_point _ _ _ _ H). cbn [pttr trR]. now rewrite !at_world2.
Qed.
Lemma bodyNormalAcceleration_ok : bodyNormalAcceleration m J = Ok (body_point_velocity p (nacc (jc_path J) i)).
Proof.
  unfold bodyNormalAcceleration. rewrite (normalAccB_ok i _ RP). cbn [bind]. unfold bodyNormalAcceleration_N.
  now rewrite (jo_point _ _ _ _ H), at_point.
Qed.
Lemma normalAcceleration_at_ok X V : normalAcceleration_at m X V J =
  Ok (svadd (ptm X (nacc (jc_path J) i)) (scross V (ptm X (vb m i)))).
Proof.
  unfold normalAcceleration_at. rewrite (normalAccB_ok i _ RP). cbn [bind]. unfold normalAcceleration_N_at.
  rewrite (root_path_back _ _ _ RP). cbn [bind]. now rewrite getVelB.
Qed.

(** Acceleration of the body *)
Lemma acc_split m3 : forwardAcceleration mb m sv0 = Ok m3 ->
  nth i (bodyAccB m3) sv0 =
  svadd (path_sum (fun k => ptm (relX (bodyPosW m) i k) (smul (jS (nth k (mb_joints mb) jd)) (nth k (alphaD m) []))) (jc_path J))
        (nacc (jc_path J) i).
Proof.
  intro F. pose proof (FA_run mb m sv0 m3 W K F) as FP.
  rewrite (fa_closed mb sv0 m m3 i _ W (run_placed _ _ _ R) FP RP). rewrite ptm_sv0, svadd_0_l.
  unfold nacc. clear. generalize (jc_path J) as l. intro l. induction l as [|k l IH] using rev_ind.
  - unfold path_sum. cbn [fold_left]. now rewrite svadd_0_l.
  - rewrite !path_sum_app, IH, ptm_add. apply svadd_4.
Qed.

Lemma world_acc A : svadd (point_velocity (posW m i) p A) (scross wN (point_velocity (posW m i) p (vb m i))) =
  point_acceleration (posW m i) p (vb m i) A.
Proof. unfold wN. rewrite (r_vw _ _ _ R) by auto. rewrite ptrot_inv_ang. now apply world_acc_alg. Qed.

(** ** Derivative of the Jacobian *)
Lemma path_sum_add f g l : path_sum (fun k => svadd (f k) (g k)) l = svadd (path_sum f l) (path_sum g l).
Proof.
  induction l as [|k l IH] using rev_ind; [unfold path_sum; cbn [fold_left]; now rewrite svadd_0_l|].
  rewrite !path_sum_app, IH. apply svadd_4.
Qed.
Lemma path_sum_scross a f l : path_sum (fun k => scross a (f k)) l = scross a (path_sum f l).
Proof.
  induction l as [|k l IH] using rev_ind; [unfold path_sum; cbn [fold_left]; now rewrite scross_sv0_r|].
  rewrite !path_sum_app, IH. now rewrite scross_add_r.
Qed.
Lemma path_sum_scale a f l : path_sum (fun k => svscale a (f k)) l = svscale a (path_sum f l).
Proof.
  induction l as [|k l IH] using rev_ind; [unfold path_sum; cbn [fold_left]; now rewrite svscale_sv0|].
  rewrite !path_sum_app, IH. now rewrite svscale_add.
Qed.

Definition dcol_body (Xk : PT) (V c : SV) : SV := scross V (ptm Xk c).
Definition dcol_world (Xk : PT) (V c : SV) : SV :=
  svadd (scross wN (ptm (ptmul (ptrot Ew) Xk) c)) (ptm (ptrot Ew) (scross V (ptm Xk c))).

Lemma jacobianDot_run : jacobianDot mb m J =
  Ok (with_dot (concat (map (dcols m dcol_world (ptmul (pttr p) (posW m i)) (ptm (pttr p) (vb m i))) (jc_path J))) J).
Proof.
  unfold jacobianDot. rewrite (root_path_back _ _ _ RP). cbn [bind]. rewrite getPos. cbn [bind]. rewrite getVelB. cbn [bind].
  rewrite getVelW. cbn [bind]. rewrite (jo_point _ _ _ _ H). fold wN.
  change (fun X_i_Np V c => _) with dcol_world.
  rewrite (dot_loop_ok mb m dcol_world _ _ J W (jo_path_ok mb m0 m i p J W R H) (ok_bodyVelB _ _ K)). reflexivity.
Qed.
Lemma bodyJacobianDot_run : bodyJacobianDot mb m J =
  Ok (with_dot (concat (map (dcols m dcol_body (ptmul (pttr p) (posW m i)) (ptm (pttr p) (vb m i))) (jc_path J))) J).
Proof.
  unfold bodyJacobianDot. rewrite (root_path_back _ _ _ RP). cbn [bind]. rewrite getPos. cbn [bind]. rewrite getVelB. cbn [bind].
  rewrite (jo_point _ _ _ _ H).
  change (fun X_i_Np V c => _) with dcol_body.
  rewrite (dot_loop_ok mb m dcol_body _ _ J W (jo_path_ok mb m0 m i p J W R H) (ok_bodyVelB _ _ K)). reflexivity.
Qed.
Lemma dcols_length col X V k : (k < nrBodies mb)%nat -> length (dcols m col X V k) = dofi mb k.
Proof. intro L. unfold dcols. rewrite map_length, (r_ms _ _ _ R) by auto. now apply S_len. Qed.
Lemma dcols_total col X V : length (concat (map (dcols m col X V) (jc_path J))) = path_dof mb (jc_path J).
Proof. apply concat_map_length. intros k Hk. apply dcols_length. eapply root_path_in; eauto. Qed.

Lemma X_point k : (k < nrBodies mb)%nat ->
  ptmul (ptmul (pttr p) (posW m i)) (ptinv (posW m k)) = ptmul (pttr p) (relX (bodyPosW m) i k).
Proof. intro. unfold relX. now rewrite ptmul_assoc. Qed.

(** sum over the path of (V_k - V_N) x S_k alpha_k *)
Lemma dot_body_sum :
  smul (concat (map (dcols m dcol_body (ptmul (pttr p) (posW m i)) (ptm (pttr p) (vb m i))) (jc_path J)))
       (on_path (jc_path J) (alpha m)) = ptm (pttr p) (nacc (jc_path J) i).
Proof.
  unfold on_path. pose proof (root_path_in _ _ _ W RP) as IN.
  rewrite smul_concat.
  2:{ intros k Hk. rewrite dcols_length by auto. symmetry. apply (sized_nth _ _ _ _ (ok_alpha _ _ K)).
      rewrite (wf_nrJoints _ W). auto. }
  set (U := ptm (pttr p) (vb m i)).
  transitivity (path_sum (fun k => svadd (ptm (pttr p) (ptm (relX (bodyPosW m) i k) (scross (vb m k) (vj m k))))
        (svscale (-1) (scross U (ptm (pttr p) (ptm (relX (bodyPosW m) i k) (vj m k)))))) (jc_path J)).
  - apply path_sum_ext. intros k Hk. specialize (IN k Hk).
    assert (RR : rigid (relX (bodyPosW m) i k)) by (apply (relX_rigid mb m); auto; apply (run_placed _ _ _ R)).
    assert (RT : rigid (pttr p)) by (unfold rigid, pttr; cbn [rotE]; apply SO3_id).
    unfold dcols. rewrite X_point by auto. unfold dcol_body.
    rewrite (smul_lin (fun c => scross (svsub (ptm (ptmul (pttr p) (relX (bodyPosW m) i k)) (vb m k)) U)
                                       (ptm (ptmul (pttr p) (relX (bodyPosW m) i k)) c))).
    2:{ intros. now rewrite ptm_add, scross_add_r. }
    2:{ intros. now rewrite ptm_scale, scross_scale_r. }
    rewrite (r_ms _ _ _ R) by auto.
    replace (smul (jS (nth k (mb_joints mb) jd)) (nth k (alpha m) [])) with (vj m k)
      by (unfold vj; rewrite (r_vj _ _ _ R), (r_a _ _ _ R); auto).
    rewrite !ptm_mul by auto. rewrite !scross_ptm by auto.
    set (a := ptm (pttr p) (ptm (relX (bodyPosW m) i k) (vb m k))).
    set (b := ptm (pttr p) (ptm (relX (bodyPosW m) i k) (vj m k))).
    rewrite svsub_def, scross_add_l, scross_scale_l. reflexivity.
  - rewrite path_sum_add, <- !ptm_path_sum, path_sum_scale, path_sum_scross, <- !ptm_path_sum.
    replace (path_sum (fun k => ptm (relX (bodyPosW m) i k) (vj m k)) (jc_path J)) with (vb m i).
    + fold U. rewrite scross_self, svscale_sv0, svadd_0_r. reflexivity.
    + rewrite (vb_closed mb m0 m W R i _ RP). apply path_sum_ext. intros k Hk.
      unfold vj. rewrite (r_vj _ _ _ R), (r_a _ _ _ R); auto.
Qed.


Lemma dot_world_sum :
  smul (concat (map (dcols m dcol_world (ptmul (pttr p) (posW m i)) (ptm (pttr p) (vb m i))) (jc_path J)))
       (on_path (jc_path J) (alpha m)) =
  svadd (point_velocity (posW m i) p (nacc (jc_path J) i)) (scross wN (point_velocity (posW m i) p (vb m i))).
Proof.
  pose proof dot_body_sum as B. revert B. unfold on_path. pose proof (root_path_in _ _ _ W RP) as IN.
  assert (SZ : forall col k, In k (jc_path J) -> length (dcols m col (ptmul (pttr p) (posW m i)) (ptm (pttr p) (vb m i)) k) = length (nth k (alpha m) [])).
  { intros col k Hk. rewrite dcols_length by auto. symmetry. apply (sized_nth _ _ _ _ (ok_alpha _ _ K)).
    rewrite (wf_nrJoints _ W). auto. }
  rewrite !smul_concat by (intros; apply SZ; auto). intro B.
  rewrite <- !rot_point, <- !at_point. rewrite <- B.
  assert (EV : scross wN (ptm (ptrot Ew) (ptm (pttr p) (vb m i))) =
    path_sum (fun k => scross wN (ptm (ptrot Ew) (ptm (pttr p) (ptm (relX (bodyPosW m) i k)
       (smul (jS (nth k (mb_joints mb) jd)) (nth k (alpha m) [])))))) (jc_path J)).
  { rewrite (vb_closed mb m0 m W R i _ RP). now rewrite !ptm_path_sum, <- path_sum_scross. }
  rewrite EV, !ptm_path_sum, <- path_sum_add.
  apply path_sum_ext. intros k Hk. specialize (IN k Hk).
  assert (RR : rigid (relX (bodyPosW m) i k)) by (apply (relX_rigid mb m); auto; apply (run_placed _ _ _ R)).
  assert (RQ : rigid (ptmul (pttr p) (relX (bodyPosW m) i k))) by (apply rigid_mul; auto using rigid_pttr).
  unfold dcols. rewrite X_point by auto.
  set (X := ptmul (pttr p) (relX (bodyPosW m) i k)) in *.
  set (V := svsub (ptm X (vb m k)) (ptm (pttr p) (vb m i))).
  rewrite (smul_lin (fun c => dcol_world X V c)).
  2:{ intros. unfold dcol_world. rewrite !ptm_mul by auto. rewrite !ptm_add, !scross_add_r, ptm_add. apply svadd_4. }
  2:{ intros. unfold dcol_world. rewrite !ptm_mul by auto. now rewrite !ptm_scale, !scross_scale_r, ptm_scale, svscale_add. }
  rewrite (smul_lin (fun c => dcol_body X V c)).
  2:{ intros. unfold dcol_body. now rewrite ptm_add, scross_add_r. }
  2:{ intros. unfold dcol_body. now rewrite ptm_scale, scross_scale_r. }
  unfold dcol_world, dcol_body. rewrite (r_ms _ _ _ R) by auto. rewrite ptm_mul by auto.
  rewrite svadd_comm. f_equal. f_equal. f_equal. unfold X. rewrite ptm_mul by auto. reflexivity.
Qed.

(** ** vectorJacobian *)
Definition vrot (Ef : PT -> M3) (vec : V3) (x : SV) (k : nat) : V3 :=
  let Xk := ptmul (ptmul (pttr p) (posW m i)) (ptinv (posW m k)) in
  mapp (Ef Xk) (vcross (sang x) (mapp (mtr (rotE Xk)) vec)).
Lemma vec_product Ef vec : exists jac,
  for_up (length (jc_path J)) (vec_step mb m Ef (ptmul (jc_point J) (posW m i)) vec J) (0%nat, jc_jac J) =
    Ok (length (jc_jac J), jac) /\ map sang jac = map sang (jc_jac J) /\
  slin (smul jac (on_path (jc_path J) (alpha m))) =
  slin (path_sum (fun k => mkSV v0 (vrot Ef vec (vj m k) k)) (jc_path J)).
Proof.
  destruct (vec_loop_ok mb m Ef (ptmul (jc_point J) (posW m i)) vec J W (jo_path_ok mb m0 m i p J W R H)) as (jac & E & S1 & S2).
  exists jac. split; [exact E|]. split; [exact S1|].
  pose proof (root_path_in _ _ _ W RP) as IN.
  set (F k c := mkSV v0 (vrot Ef vec c k)).
  rewrite (slin_smul jac (concat (map (fun k => map (F k) (subsp m k)) (jc_path J)))).
  - unfold on_path. rewrite smul_concat.
    + f_equal. apply path_sum_ext. intros k Hk. rewrite (smul_lin (F k)).
      * rewrite (r_ms _ _ _ R) by auto. unfold F, vj. rewrite (r_vj _ _ _ R), (r_a _ _ _ R); auto.
      * intros. unfold F, vrot, svadd. cbn [sang slin]. rewrite vadd_0_l. f_equal. rewrite <- mapp_add. f_equal. apply vcross_add_l.
      * intros. unfold F, vrot, svscale. cbn [sang slin]. rewrite vscale_v0. f_equal. rewrite <- mapp_scale. f_equal. apply vcross_scale_l.
    + intros k Hk. rewrite map_length, (r_ms _ _ _ R), S_len by auto. symmetry. apply (sized_nth _ _ _ _ (ok_alpha _ _ K)).
      rewrite (wf_nrJoints _ W). auto.
  - rewrite S2, map_concat_map. f_equal. apply map_ext. intro k. rewrite map_map. unfold vcols. apply map_ext. intro c.
    unfold F, vrot. cbn [slin]. rewrite (jo_point _ _ _ _ H). rewrite trR_pttr, vsub_vadd, vcross_opp_l. reflexivity.
Qed.
Lemma slin_path_sum (f : nat -> V3) (g : V3 -> V3) (h : nat -> SV) l :
  g v0 = v0 -> (forall a b, g (vadd a b) = vadd (g a) (g b)) -> (forall k, In k l -> f k = g (sang (h k))) ->
  slin (path_sum (fun k => mkSV v0 (f k)) l) = g (sang (path_sum h l)).
Proof.
  intros G0 G1. induction l as [|k l IH] using rev_ind; intro E; [cbn; auto|].
  rewrite !path_sum_app. cbn [svadd slin sang]. rewrite G1, IH, E; auto; intros; try apply E; apply in_or_app; cbn; auto.
Qed.
Lemma ang_rel k : (k < nrBodies mb)%nat ->
  rotE (ptmul (ptmul (pttr p) (posW m i)) (ptinv (posW m k))) = rotE (relX (bodyPosW m) i k).
Proof. intro. rewrite X_point by auto. cbn [ptmul rotE pttr]. apply mmul_id_l. Qed.
Lemma vec_sum Ef vec G : (forall a b, mapp G (vadd a b) = vadd (mapp G a) (mapp G b)) ->
  (forall k, In k (jc_path J) -> Ef (ptmul (ptmul (pttr p) (posW m i)) (ptinv (posW m k))) = mmul G (rotE (relX (bodyPosW m) i k))) ->
  slin (path_sum (fun k => mkSV v0 (vrot Ef vec (vj m k) k)) (jc_path J)) = mapp G (vcross (sang (vb m i)) vec).
Proof.
  intros GA GE. pose proof (root_path_in _ _ _ W RP) as IN.
  rewrite (slin_path_sum _ (fun w => mapp G (vcross w vec)) (fun k => ptm (relX (bodyPosW m) i k) (vj m k))).
  - do 3 f_equal. rewrite (vb_closed mb m0 m W R i _ RP). apply path_sum_ext. intros k Hk.
    unfold vj. rewrite (r_vj _ _ _ R), (r_a _ _ _ R); auto.
  - rewrite vcross_0_l. apply mapp_v0.
  - intros a b. rewrite <- GA. f_equal. apply vcross_add_l.
  - intros k Hk. unfold vrot. rewrite GE, ang_rel by auto. rewrite mapp_mmul. f_equal.
    assert (RR : rigid (relX (bodyPosW m) i k)) by (apply (relX_rigid mb m); auto; apply (run_placed _ _ _ R)).
    rewrite <- (SO3_cross _ _ _ RR), SO3_cancel_r by auto. reflexivity.
Qed.
Lemma vectorJacobian_ok vec : exists J1, vectorJacobian mb m vec J = Ok J1 /\ jacobian_of mb i p J1 /\
  map sang (jc_jac J1) = map sang (jc_jac J) /\
  slin (smul (jc_jac J1) (on_path (jc_path J) (alpha m))) =
    vcross (sang (nth i (bodyVelW m) sv0)) (mapp Ew vec).
Proof.
  destruct (vec_product (fun X_i_N => mmul Ew (rotE X_i_N)) vec) as (jac & E & S1 & S2).
  unfold vectorJacobian. rewrite (root_path_back _ _ _ RP). cbn [bind]. rewrite getPos. cbn [bind]. rewrite E. cbn [bind snd].
  eexists. split; [reflexivity|]. split; [|split; [exact S1|]].
  - apply jo_with_jac; auto. rewrite <- (map_length sang jac), S1, map_length. reflexivity.
  - cbn [with_jac jc_jac]. rewrite S2, (vec_sum _ vec Ew).
    + rewrite (r_vw _ _ _ R) by auto. rewrite ptrot_inv_ang. now rewrite SO3_cross by (apply SO3_tr, RX).
    + intros. apply mapp_add.
    + intros k Hk. rewrite ang_rel; auto. eapply root_path_in; eauto.
Qed.
Lemma vectorBodyJacobian_ok vec : exists J1, vectorBodyJacobian mb m vec J = Ok J1 /\ jacobian_of mb i p J1 /\
  map sang (jc_jac J1) = map sang (jc_jac J) /\
  slin (smul (jc_jac J1) (on_path (jc_path J) (alpha m))) = vcross (sang (vb m i)) vec.
Proof.
  destruct (vec_product rotE vec) as (jac & E & S1 & S2).
  unfold vectorBodyJacobian. rewrite (root_path_back _ _ _ RP). cbn [bind]. rewrite getPos. cbn [bind]. rewrite E. cbn [bind snd].
  eexists. split; [reflexivity|]. split; [|split; [exact S1|]].
  - apply jo_with_jac; auto. rewrite <- (map_length sang jac), S1, map_length. reflexivity.
  - cbn [with_jac jc_jac]. rewrite S2, (vec_sum _ vec mid).
    + now rewrite mapp_id.
    + intros. apply mapp_add.
    + intros k Hk. rewrite mmul_id_l. apply ang_rel. eapply root_path_in; eauto.
Qed.

End Run.

(** ** translateJacobian *)
Lemma translate_cols_ok t jac r : length r = length jac -> translate_cols t jac r = Ok (map (ptm t) jac).
Proof.
  intro L. unfold translate_cols.
  destruct (for_up_inv (fun k s => s = splice r 0 (firstn k (map (ptm t) jac)))
              (fun i r => c <- get jac i ;; set r i (ptm t c)) (length jac) r) as (s & E & P).
  - cbn [firstn]. now rewrite splice_nil.
  - intros k s Hk ->. rewrite (get_nth jac k sv0) by auto. cbn [bind].
    assert (Lf : length (firstn k (map (ptm t) jac)) = k) by (rewrite firstn_length, map_length; lia).
    rewrite set_ok by (rewrite splice_length; lia). eexists. split; [reflexivity|].
    rewrite (firstn_S_nth _ k sv0) by (rewrite map_length; auto). rewrite <- splice_snoc by lia. rewrite Lf.
    rewrite (nth_map_lt _ _ _ sv0) by auto. reflexivity.
  - rewrite E, P. f_equal. rewrite <- (map_length (ptm t) jac), firstn_all. unfold splice. cbn [firstn app plus].
    rewrite skipn_all2 by (rewrite map_length; lia). apply app_nil_r.
Qed.

Lemma pttr_pttr a b : ptmul (pttr a) (pttr b) = pttr (vadd b a). Proof. svring. Qed.
Lemma world_shift E d : SO3 E ->
  ptmul (ptmul (ptrot (mtr E)) (pttr d)) (ptinv (ptrot (mtr E))) = pttr (mapp (mtr E) d).
Proof.
  intro SE. unfold ptmul, ptrot, pttr, ptinv. cbn [rotE trR]. rewrite mmul_id_r, mtr_mtr, SO3_l by auto.
  f_equal. rewrite mtr_id, mapp_id, mapp_v0, vadd_0_r. generalize (mapp (mtr E) d). clear. v3ring.
Qed.

Lemma translate_ok mb m0 m i p d J J2 J1 J2' r : wf_mb mb -> run mb m0 m ->
  jacobian_of mb i p J -> jacobian_of mb i (vadd p d) J2 ->
  jacobian mb m J = Ok J1 -> jacobian mb m J2 = Ok J2' -> length r = length (jc_jac J1) ->
  translateJacobian m (jc_jac J1) d r J = Ok (jc_jac J2').
Proof.
  intros W R H H2 E1 E2 L.
  pose proof (jo_path _ _ _ _ H) as RP. pose proof (root_path_unique _ _ _ _ W RP (jo_path _ _ _ _ H2)) as EP.
  pose proof (proj1 (root_path_lt _ _ _ W RP)) as Hi. pose proof (r_rw _ _ _ R i Hi) as RX.
  rewrite (jacobian_run mb m0 m W R i p J H) in E1. injection E1 as <-.
  rewrite (jacobian_run mb m0 m W R i _ J2 H2) in E2. injection E2 as <-.
  unfold translateJacobian. rewrite (root_path_back _ _ _ RP). cbn [bind].
  rewrite (get_nth (bodyPosW m) i ptid) by (rewrite (ok_bodyPosW _ _ (r_ok _ _ _ R)); auto). cbn [bind].
  rewrite translate_cols_ok by auto. f_equal. cbn [jc_jac with_jac]. rewrite <- EP.
  rewrite map_concat_map. f_equal. apply map_ext_in. intros k Hk. unfold fcols. rewrite map_map. apply map_ext. intro c.
  pose proof (r_rw _ _ _ R k (root_path_in _ _ _ W RP k Hk)) as Rk.
  rewrite world_shift by auto.
  rewrite <- ptm_mul by (apply rigid_mul; auto using rigid_pttr, rigid_inv).
  rewrite ptmul_assoc, pttr_pttr. rewrite mapp_add, vadd_assoc. reflexivity.
Qed.
Lemma translate_body_ok mb m0 m i p d J J2 J1 J2' r : wf_mb mb -> run mb m0 m ->
  jacobian_of mb i p J -> jacobian_of mb i (vadd p d) J2 ->
  bodyJacobian mb m J = Ok J1 -> bodyJacobian mb m J2 = Ok J2' -> length r = length (jc_jac J1) ->
  translateBodyJacobian (jc_jac J1) d r = Ok (jc_jac J2').
Proof.
  intros W R H H2 E1 E2 L.
  pose proof (jo_path _ _ _ _ H) as RP. pose proof (root_path_unique _ _ _ _ W RP (jo_path _ _ _ _ H2)) as EP.
  pose proof (proj1 (root_path_lt _ _ _ W RP)) as Hi. pose proof (r_rw _ _ _ R i Hi) as RX.
  rewrite (bodyJacobian_run mb m0 m W R i p J H) in E1. injection E1 as <-.
  rewrite (bodyJacobian_run mb m0 m W R i _ J2 H2) in E2. injection E2 as <-.
  unfold translateBodyJacobian.
  rewrite translate_cols_ok by auto. f_equal. cbn [jc_jac with_jac]. rewrite <- EP.
  rewrite map_concat_map. f_equal. apply map_ext_in. intros k Hk. unfold fcols. rewrite map_map. apply map_ext. intro c.
  pose proof (r_rw _ _ _ R k (root_path_in _ _ _ W RP k Hk)) as Rk.
  rewrite <- ptm_mul by (repeat apply rigid_mul; auto using rigid_pttr, rigid_inv).
  rewrite !ptmul_assoc, pttr_pttr. reflexivity.
Qed.
