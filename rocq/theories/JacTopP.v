(** The Jacobian theorems in the form of the property files. *)
From Coq Require Import Reals String ZArith Bool Arith List Lia Lra.
From Verif Require Import Res ResP SMap Vec VecP Sva SvaP Mat JointM MultiBodyM KinM DynM JacM Spec SpecDyn SpecJac
  JointP KinP KinPathP MbP TreeP DynP DynCP ConvP KinFinP DynFinP SpecDeriv DerivP DerivTreeP JacP JacFinP JacFin2P JacDerivP.
Import ListNotations.
Open Scope R_scope.

Section Top.
Variables (mb : MultiBody) (m0 m : MBC).
Hypothesis W : wf_mb mb.
Hypothesis RM : rigid_mb mb.
Hypothesis K0 : mbc_ok mb m0.
Hypothesis C0 : config_ok mb m0.
Hypothesis A : after_kinematics mb m0 m.
Let R : run mb m0 m := kin_run mb m0 m W RM K0 C0 A.
Let K := r_ok _ _ _ R.
Variables (i : nat) (p : V3) (J : Jac).
Hypothesis H : jacobian_of mb i p J.
Let RP := jo_path _ _ _ _ H.
Let Hi : (i < nrBodies mb)%nat := proj1 (root_path_lt _ _ _ W RP).

Lemma posX : nth_error (bodyPosW m) i = Some (posW m i).
Proof. apply nth_error_nth'. rewrite (ok_bodyPosW _ _ K). auto. Qed.
Lemma velV : nth_error (bodyVelB m) i = Some (vb m i).
Proof. apply nth_error_nth'. rewrite (ok_bodyVelB _ _ K). auto. Qed.

Lemma alpha_sized : sized mb jdof (alpha m). Proof. apply (ok_alpha _ _ K). Qed.

Lemma top_velocity : exists X V J1 J2,
  nth_error (bodyPosW m) i = Some X /\ nth_error (bodyVelB m) i = Some V /\
  jacobian mb m J = Ok J1 /\ jacobian_of mb i p J1 /\ bodyJacobian mb m J = Ok J2 /\ jacobian_of mb i p J2 /\
  smul (jc_jac J1) (on_path (jc_path J) (alpha m)) = point_velocity X p V /\
  smul (jc_jac J2) (on_path (jc_path J) (alpha m)) = body_point_velocity p V /\
  velocity m J = Ok (point_velocity X p V) /\ bodyVelocity m J = Ok (body_point_velocity p V).
Proof.
  destruct (jac_product mb m0 m W R i p J H) as (J1 & E1 & H1 & _ & P1).
  destruct (body_jac_product mb m0 m W R i p J H) as (J2 & E2 & H2 & P2).
  exists (posW m i), (vb m i), J1, J2. do 6 (split; [auto using posX, velV|]).
  rewrite (proj2 (P1 _ alpha_sized)), (proj2 (P2 _ alpha_sized)), <- (vb_closed mb m0 m W R i _ RP).
  do 2 (split; [reflexivity|]). split; [apply (velocity_ok mb m0 m W R i p J H)|apply (bodyVelocity_ok mb m0 m W R i p J H)].
Qed.

Lemma top_any_rates a mv : sized mb jdof a -> forwardVelocity mb (with_alpha a m) = Ok mv ->
  exists X V J1 J2,
  nth_error (bodyPosW m) i = Some X /\ nth_error (bodyVelB mv) i = Some V /\
  jacobian mb m J = Ok J1 /\ bodyJacobian mb m J = Ok J2 /\
  length (on_path (jc_path J) a) = jac_dof J1 /\ length (on_path (jc_path J) a) = jac_dof J2 /\
  smul (jc_jac J1) (on_path (jc_path J) a) = point_velocity X p V /\
  smul (jc_jac J2) (on_path (jc_path J) a) = body_point_velocity p V.
Proof.
  intros SA F. pose proof (FV_run _ _ _ W (with_alpha_ok _ _ _ K SA) F) as FP.
  destruct (jac_product mb m0 m W R i p J H) as (J1 & E1 & H1 & _ & P1).
  destruct (body_jac_product mb m0 m W R i p J H) as (J2 & E2 & H2 & P2).
  exists (posW m i), (nth i (bodyVelB mv) sv0), J1, J2. split; [apply posX|].
  split. { apply nth_error_nth'. rewrite (fv_vb_len _ _ _ FP). cbn [with_alpha bodyVelB]. rewrite (ok_bodyVelB _ _ K). auto. }
  do 2 (split; [auto|]). split; [apply P1; auto|]. split; [apply P2; auto|].
  rewrite (proj2 (P1 _ SA)), (proj2 (P2 _ SA)).
  rewrite (fv_closed mb (with_alpha a m) mv i _ W (run_placed mb m0 m R) FP RP). split; reflexivity.
Qed.

Lemma top_at Y : exists X V J1,
  nth_error (bodyPosW m) i = Some X /\ nth_error (bodyVelB m) i = Some V /\
  jacobian_at mb m Y J = Ok J1 /\ jacobian_of mb i p J1 /\
  smul (jc_jac J1) (on_path (jc_path J) (alpha m)) = ptm (ptmul Y (ptinv X)) V /\
  velocity_at m (ptmul Y (ptinv X)) J = Ok (ptm (ptmul Y (ptinv X)) V).
Proof.
  destruct (jac_at_product mb m0 m W R i p J H Y) as (J1 & E1 & H1 & P1).
  exists (posW m i), (vb m i), J1. do 4 (split; [auto using posX, velV|]).
  rewrite (proj2 (P1 _ alpha_sized)), <- (vb_closed mb m0 m W R i _ RP). split; [reflexivity|].
  apply (velocity_at_ok mb m0 m W R i p J H).
Qed.

(** Accelerations *)
Lemma top_acceleration m3 : forwardAcceleration mb m sv0 = Ok m3 -> exists X V Ac J1 J2 N1 N2,
  nth_error (bodyPosW m) i = Some X /\ nth_error (bodyVelB m) i = Some V /\ nth_error (bodyAccB m3) i = Some Ac /\
  jacobian mb m J = Ok J1 /\ bodyJacobian mb m J = Ok J2 /\
  normalAcceleration m J = Ok N1 /\ bodyNormalAcceleration m J = Ok N2 /\
  svadd (smul (jc_jac J1) (on_path (jc_path J) (alphaD m))) N1 = point_acceleration X p V Ac /\
  svadd (smul (jc_jac J2) (on_path (jc_path J) (alphaD m))) N2 = body_point_velocity p Ac.
Proof.
  intro F. pose proof (FA_run mb m sv0 m3 W K F) as FP.
  destruct (jac_product mb m0 m W R i p J H) as (J1 & E1 & H1 & _ & P1).
  destruct (body_jac_product mb m0 m W R i p J H) as (J2 & E2 & H2 & P2).
  pose proof (ok_alphaD _ _ K) as SD.
  exists (posW m i), (vb m i), (nth i (bodyAccB m3) sv0), J1, J2. do 2 eexists.
  do 2 (split; [auto using posX, velV|]).
  split. { apply nth_error_nth'. rewrite (fa_len _ _ _ _ FP). rewrite (ok_bodyAccB _ _ K). auto. }
  do 2 (split; [auto|]). split; [apply (normalAcceleration_ok mb m0 m W R i p J H)|].
  split; [apply (bodyNormalAcceleration_ok mb m0 m W R i p J H)|].
  rewrite (proj2 (P1 _ SD)), (proj2 (P2 _ SD)), (acc_split mb m0 m W R i p J H m3 F). split.
  - rewrite <- (world_acc mb m0 m W R i p J H). rewrite svadd_assoc. f_equal.
    rewrite <- !at_world2, <- ptm_add. reflexivity.
  - rewrite <- !at_point, <- ptm_add. reflexivity.
Qed.

Lemma top_dot : exists J1 J2 N1 N2,
  jacobianDot mb m J = Ok J1 /\ jacobian_of mb i p J1 /\ bodyJacobianDot mb m J = Ok J2 /\ jacobian_of mb i p J2 /\
  normalAcceleration m J = Ok N1 /\ bodyNormalAcceleration m J = Ok N2 /\
  smul (jc_dot J1) (on_path (jc_path J) (alpha m)) = N1 /\ smul (jc_dot J2) (on_path (jc_path J) (alpha m)) = N2.
Proof.
  rewrite (jacobianDot_run mb m0 m W R i p J H), (bodyJacobianDot_run mb m0 m W R i p J H).
  rewrite (normalAcceleration_ok mb m0 m W R i p J H), (bodyNormalAcceleration_ok mb m0 m W R i p J H).
  do 4 eexists. split; [reflexivity|].
  split. { apply jo_with_dot; auto. rewrite (dcols_total mb m0 m W R i p J H). symmetry. apply (jo_dot _ _ _ _ H). }
  split; [reflexivity|].
  split. { apply jo_with_dot; auto. rewrite (dcols_total mb m0 m W R i p J H). symmetry. apply (jo_dot _ _ _ _ H). }
  do 2 (split; [reflexivity|]). cbn [with_dot jc_dot].
  rewrite (dot_world_sum mb m0 m W R i p J H), (dot_body_sum mb m0 m W R i p J H), at_point. auto.
Qed.

(** The versions reading precomputed normal accelerations. *)
Lemma smul_zeros S : forall x, (forall v, In v x -> v = 0) -> smul S x = sv0.
Proof.
  induction S as [|c S IH]; intros [|a x] Z; cbn [smul]; auto.
  rewrite (Z a) by (cbn; auto). rewrite IH by (intros; apply Z; cbn; auto). now rewrite svscale_0, svadd_0_l.
Qed.
Lemma top_pre m3 : (forall a, In a (alphaD m) -> forall v, In v a -> v = 0) -> forwardAcceleration mb m sv0 = Ok m3 ->
  normalAcceleration_pre m (bodyAccB m3) J = normalAcceleration m J /\
  bodyNormalAcceleration_pre (bodyAccB m3) J = bodyNormalAcceleration m J /\
  forall X V, normalAcceleration_pre_at m (bodyAccB m3) X V J = normalAcceleration_at m X V J.
Proof.
  intros Z F. pose proof (FA_run mb m sv0 m3 W K F) as FP.
  assert (E : get (bodyAccB m3) i = Ok (nacc m (jc_path J) i)).
  { rewrite (get_nth _ i sv0) by (rewrite (fa_len _ _ _ _ FP), (ok_bodyAccB _ _ K); auto). f_equal.
    rewrite (acc_split mb m0 m W R i p J H m3 F).
    rewrite (path_sum_ext _ (fun _ => sv0)).
    - rewrite <- (svadd_0_l (nacc m (jc_path J) i)) at 2. f_equal.
      generalize (jc_path J). intro l. induction l as [|k l IH] using rev_ind; auto.
      rewrite path_sum_app, IH. apply svadd_0_l.
    - intros k Hk. rewrite smul_zeros; [apply ptm_sv0|]. intros v Hv.
      destruct (Nat.lt_ge_cases k (length (alphaD m))) as [L|L].
      + apply (Z (nth k (alphaD m) [])); auto. apply nth_In; auto.
      + rewrite nth_overflow in Hv by auto. destruct Hv. }
  unfold normalAcceleration_pre, bodyNormalAcceleration_pre, normalAcceleration_pre_at, normalAcceleration, bodyNormalAcceleration, normalAcceleration_at.
  rewrite (root_path_back _ _ _ RP), (normalAccB_ok mb m0 m W R i _ RP). cbn [bind]. rewrite E. cbn [bind]. auto.
Qed.

Lemma top_vector vec : exists X V VW J1 J2,
  nth_error (bodyPosW m) i = Some X /\ nth_error (bodyVelB m) i = Some V /\ nth_error (bodyVelW m) i = Some VW /\
  vectorJacobian mb m vec J = Ok J1 /\ jacobian_of mb i p J1 /\
  vectorBodyJacobian mb m vec J = Ok J2 /\ jacobian_of mb i p J2 /\
  map sang (jc_jac J1) = map sang (jc_jac J) /\ map sang (jc_jac J2) = map sang (jc_jac J) /\
  slin (smul (jc_jac J1) (on_path (jc_path J) (alpha m))) = vcross (sang VW) (mapp (mtr (rotE X)) vec) /\
  slin (smul (jc_jac J2) (on_path (jc_path J) (alpha m))) = vcross (sang V) vec.
Proof.
  destruct (vectorJacobian_ok mb m0 m W R i p J H vec) as (J1 & E1 & H1 & S1 & P1).
  destruct (vectorBodyJacobian_ok mb m0 m W R i p J H vec) as (J2 & E2 & H2 & S2 & P2).
  exists (posW m i), (vb m i), (nth i (bodyVelW m) sv0), J1, J2. do 2 (split; [auto using posX, velV|]).
  split. { apply nth_error_nth'. rewrite (ok_bodyVelW _ _ K). auto. }
  do 6 (split; [auto|]). auto.
Qed.

Lemma top_translate d J' J1 J1' r : jacobian_of mb i (vadd p d) J' ->
  jacobian mb m J = Ok J1 -> jacobian mb m J' = Ok J1' -> length r = jac_dof J1 ->
  translateJacobian m (jc_jac J1) d r J = Ok (jc_jac J1').
Proof. intros. eapply translate_ok; eauto. Qed.
Lemma top_translate_body d J' J1 J1' r : jacobian_of mb i (vadd p d) J' ->
  bodyJacobian mb m J = Ok J1 -> bodyJacobian mb m J' = Ok J1' -> length r = jac_dof J1 ->
  translateBodyJacobian (jc_jac J1) d r = Ok (jc_jac J1').
Proof. intros. eapply (translate_body_ok mb m0 m i p d J J' J1); eauto. Qed.
Lemma set_point_of d : jacobian_of mb i d (set_point d J).
Proof. destruct H. constructor; auto. Qed.
End Top.

Lemma ctor_top g mb name p i : wf_mb mb -> sBodyIndexByName mb name = Ok (Z.of_nat i) -> (i < nrBodies mb)%nat ->
  exists J, Jacobian_ctor g mb name p = Ok J /\ jacobian_of mb i p J /\ jac_dof J = path_dof mb (jc_path J) /\
    NoDup (jc_path J) /\ forall k, In k (jc_path J) <-> anc mb k i.
Proof.
  intros W E Hi. destruct (ctor_ok g mb name p i W E Hi) as (J & EJ & H). exists J. split; [exact EJ|]. split; [exact H|].
  split; [apply (jo_jac _ _ _ _ H)|]. split; [apply (root_path_increasing _ _ _ W (jo_path _ _ _ _ H))|].
  intro k. eapply root_path_anc; eauto. apply (jo_path _ _ _ _ H).
Qed.

(** Derivatives along trajectories of regular joints. *)
Lemma traj_point mb (M K : R -> MBC) t : wf_mb mb -> rigid_mb mb ->
  (forall j, In j (mb_joints mb) -> regular j) ->
  (forall s, mbc_ok mb (M s)) -> (forall s, config_ok mb (M s)) -> (forall s, after_kinematics mb (M s) (K s)) ->
  (forall i, (i < nrBodies mb)%nat ->
     follows (nth i (mb_joints mb) jd) (fun s => nth i (q (M s)) []) t (nth i (alpha (M t)) [])) ->
  forall i p J J1, jacobian_of mb i p J -> jacobian mb (K t) J = Ok J1 ->
  derivV (fun s => point_position (nth i (bodyPosW (K s)) ptid) p) t
    (slin (smul (jc_jac J1) (on_path (jc_path J) (alpha (K t))))).
Proof.
  intros W RM RG OK CO AK F i p J J1 H E.
  pose proof (follow_moves mb M t W RM OK CO RG F) as JM.
  pose proof (kin_run mb (M t) (K t) W RM (OK t) (CO t) (AK t)) as Ru.
  destruct (jac_product mb (M t) (K t) W Ru i p J H) as (J1' & E1 & H1 & _ & P1).
  rewrite E in E1. injection E1 as <-.
  rewrite (proj2 (P1 _ (ok_alpha _ _ (r_ok _ _ _ Ru)))), <- (vb_closed mb (M t) (K t) W Ru i _ (jo_path _ _ _ _ H)).
  exact (point_deriv mb M K t W RM OK CO AK JM i p J H).
Qed.
Lemma traj_jacobian mb (M K : R -> MBC) t : wf_mb mb -> rigid_mb mb ->
  (forall j, In j (mb_joints mb) -> regular j) ->
  (forall s, mbc_ok mb (M s)) -> (forall s, config_ok mb (M s)) -> (forall s, after_kinematics mb (M s) (K s)) ->
  (forall i, (i < nrBodies mb)%nat ->
     follows (nth i (mb_joints mb) jd) (fun s => nth i (q (M s)) []) t (nth i (alpha (M t)) [])) ->
  forall i p J (JW JB : R -> Jac) DW DB, jacobian_of mb i p J ->
  (forall s, jacobian mb (K s) J = Ok (JW s)) -> (forall s, bodyJacobian mb (K s) J = Ok (JB s)) ->
  jacobianDot mb (K t) J = Ok DW -> bodyJacobianDot mb (K t) J = Ok DB ->
  forall c, derivS (fun s => nth c (jc_jac (JW s)) sv0) t (nth c (jc_dot DW) sv0) /\
            derivS (fun s => nth c (jc_jac (JB s)) sv0) t (nth c (jc_dot DB) sv0).
Proof.
  intros W RM RG OK CO AK F i p J JW JB DW DB H E1 E2 E3 E4 c.
  pose proof (follow_moves mb M t W RM OK CO RG F) as JM. split.
  - exact (jacobian_deriv mb M K t W RM OK CO AK JM i p J H JW DW E1 E3 c).
  - exact (bodyJacobian_deriv mb M K t W RM OK CO AK JM i p J H JB DB E2 E4 c).
Qed.
