(** C17-C22, C66: Jacobians. *)
From Coq Require Import Reals String ZArith Bool Arith List.
From Verif Require Import Res Vec Sva Mat JointM MultiBodyM KinM DynM JacM Spec SpecDyn SpecJac SpecDeriv Ex DynExP DerivExP
  JacFinP JacBlkP JacTopP JacExP.
Import ListNotations.
Open Scope R_scope.

(** C17: jacobian * alpha is the velocity of the point, with world axes, and velocity()
    returns it; the same with body axes for bodyJacobian and bodyVelocity(). *)
Theorem C17_jacobian_times_alpha : forall mb m0 m,
  wf_mb mb -> rigid_mb mb -> mbc_ok mb m0 -> config_ok mb m0 -> after_kinematics mb m0 m ->
  forall i p J, jacobian_of mb i p J ->
  exists X V J1 J2,
    nth_error (bodyPosW m) i = Some X /\ nth_error (bodyVelB m) i = Some V /\
    jacobian mb m J = Ok J1 /\ jacobian_of mb i p J1 /\ bodyJacobian mb m J = Ok J2 /\ jacobian_of mb i p J2 /\
    smul (jc_jac J1) (on_path (jc_path J) (alpha m)) = point_velocity X p V /\
    smul (jc_jac J2) (on_path (jc_path J) (alpha m)) = body_point_velocity p V /\
    velocity m J = Ok (point_velocity X p V) /\ bodyVelocity m J = Ok (body_point_velocity p V).
Proof. exact top_velocity. Qed.
Print Assumptions C17_jacobian_times_alpha.
(** C17: not only for the rates of the state: for every vector of rates a, with the
    velocities forwardVelocity gives for a. *)
Theorem C17_jacobian_any_rates : forall mb m0 m,
  wf_mb mb -> rigid_mb mb -> mbc_ok mb m0 -> config_ok mb m0 -> after_kinematics mb m0 m ->
  forall i p J, jacobian_of mb i p J ->
  forall a mv, sized mb jdof a -> forwardVelocity mb (with_alpha a m) = Ok mv ->
  exists X V J1 J2,
    nth_error (bodyPosW m) i = Some X /\ nth_error (bodyVelB mv) i = Some V /\
    jacobian mb m J = Ok J1 /\ bodyJacobian mb m J = Ok J2 /\
    length (on_path (jc_path J) a) = jac_dof J1 /\ length (on_path (jc_path J) a) = jac_dof J2 /\
    smul (jc_jac J1) (on_path (jc_path J) a) = point_velocity X p V /\
    smul (jc_jac J2) (on_path (jc_path J) a) = body_point_velocity p V.
Proof. exact top_any_rates. Qed.
Print Assumptions C17_jacobian_any_rates.
(** C17: jacobian(mb, mbc, Y) gives the velocity in the frame placed at Y, rigidly attached
    to the body. *)
Theorem C17_jacobian_in_frame : forall mb m0 m,
  wf_mb mb -> rigid_mb mb -> mbc_ok mb m0 -> config_ok mb m0 -> after_kinematics mb m0 m ->
  forall i p J, jacobian_of mb i p J -> forall Y,
  exists X V J1,
    nth_error (bodyPosW m) i = Some X /\ nth_error (bodyVelB m) i = Some V /\
    jacobian_at mb m Y J = Ok J1 /\ jacobian_of mb i p J1 /\
    smul (jc_jac J1) (on_path (jc_path J) (alpha m)) = ptm (ptmul Y (ptinv X)) V /\
    velocity_at m (ptmul Y (ptinv X)) J = Ok (ptm (ptmul Y (ptinv X)) V).
Proof. exact top_at. Qed.
Print Assumptions C17_jacobian_in_frame.
(** C17: along a trajectory, the linear rows of jacobian * alpha are the time derivative of
    the world position of the point. *)
Theorem C17_linear_rows_are_derivative : forall mb (M K : R -> MBC) t, wf_mb mb -> rigid_mb mb ->
  (forall j, In j (mb_joints mb) -> regular j) ->
  (forall s, mbc_ok mb (M s)) -> (forall s, config_ok mb (M s)) -> (forall s, after_kinematics mb (M s) (K s)) ->
  (forall i, (i < nrBodies mb)%nat ->
     follows (nth i (mb_joints mb) jd) (fun s => nth i (q (M s)) []) t (nth i (alpha (M t)) [])) ->
  forall i p J J1, jacobian_of mb i p J -> jacobian mb (K t) J = Ok J1 ->
  derivV (fun s => point_position (nth i (bodyPosW (K s)) ptid) p) t
    (slin (smul (jc_jac J1) (on_path (jc_path J) (alpha (K t))))).
Proof. exact traj_point. Qed.
Print Assumptions C17_linear_rows_are_derivative.
Example C17_applies : exists m X V J1, after_kinematics ex_mb ex_m m /\
  jacobian ex_mb m ex_J = Ok J1 /\ smul (jc_jac J1) (on_path [0; 1; 2]%nat (alpha m)) = point_velocity X (mkV3 1 2 3) V.
Proof.
  destruct ex_kin as (m & A).
  destruct (C17_jacobian_times_alpha _ _ m ex_wf ex_rigid ex_mbc_ok ex_config A _ _ _ ex_J_of)
    as (X & V & J1 & J2 & _ & _ & E & _ & _ & _ & P & _). exists m, X, V, J1. auto.
Qed.
Example C17_rates_apply : exists m mv J1 X V, after_kinematics ex_mb ex_m m /\
  forwardVelocity ex_mb (with_alpha ex_rates m) = Ok mv /\ jacobian ex_mb m ex_J = Ok J1 /\
  smul (jc_jac J1) [1; 0; 0; 0; 2; 0; 5; 1] = point_velocity X (mkV3 1 2 3) V.
Proof.
  destruct ex_kin as (m & A). destruct (ex_virtual m A) as (mv & E).
  destruct (C17_jacobian_any_rates _ _ m ex_wf ex_rigid ex_mbc_ok ex_config A _ _ _ ex_J_of ex_rates mv ex_rates_ok E)
    as (X & V & J1 & J2 & _ & _ & E1 & _ & _ & _ & P & _). exists m, mv, J1, X, V. auto.
Qed.
Example C17_derivative_applies : exists K, forall t, exists J J1, jacobian exd_mb (K t) J = Ok J1 /\
  derivV (fun s => point_position (nth 2 (bodyPosW (K s)) ptid) (mkV3 1 2 3)) t
    (slin (smul (jc_jac J1) (on_path (jc_path J) (alpha (K t))))).
Proof.
  destruct exd_kin as (K & HK). exists K. intros t. destruct exd_J as (J & _ & HJ).
  destruct (C17_jacobian_times_alpha _ _ (K t) exd_wf exd_rigid (exd_ok t) (exd_config t) (HK t) _ _ _ HJ)
    as (X & V & J1 & J2 & _ & _ & E & _).
  exists J, J1. split; [exact E|].
  exact (C17_linear_rows_are_derivative _ _ _ t exd_wf exd_rigid exd_regular exd_ok exd_config HK (exd_follows t) _ _ _ _ HJ E).
Qed.

(** C18: the constructor finds the body by name; the path holds the joints from the root to
    the body ([jo_path]), each once, and exactly those of the ancestors; dof() is the sum of
    their dofs; an unknown name throws. *)
Theorem C18_jacobian_path : forall g mb name p i, wf_mb mb ->
  sBodyIndexByName mb name = Ok (Z.of_nat i) -> (i < nrBodies mb)%nat ->
  exists J, Jacobian_ctor g mb name p = Ok J /\ jacobian_of mb i p J /\ jac_dof J = path_dof mb (jc_path J) /\
    NoDup (jc_path J) /\ forall k, In k (jc_path J) <-> anc mb k i.
Proof. exact ctor_top. Qed.
Print Assumptions C18_jacobian_path.
Theorem C18_unknown_body : forall g mb name p e,
  sBodyIndexByName mb name = Throw e -> Jacobian_ctor g mb name p = Throw e.
Proof. exact ctor_absent. Qed.
Print Assumptions C18_unknown_body.
(** C18: two configurations that agree on the joints of the path give the body the same pose
    and velocity, whatever the other joints do. *)
Theorem C18_other_joints_do_not_move_it : forall mb, wf_mb mb -> rigid_mb mb -> forall ma mb0 ka kb,
  mbc_ok mb ma -> mbc_ok mb mb0 -> config_ok mb ma -> config_ok mb mb0 ->
  after_kinematics mb ma ka -> after_kinematics mb mb0 kb ->
  forall i l, root_path mb i l ->
  (forall k, In k l -> nth_error (q ma) k = nth_error (q mb0) k /\ nth_error (alpha ma) k = nth_error (alpha mb0) k) ->
  nth_error (bodyPosW ka) i = nth_error (bodyPosW kb) i /\
  nth_error (bodyVelB ka) i = nth_error (bodyVelB kb) i /\
  nth_error (bodyVelW ka) i = nth_error (bodyVelW kb) i.
Proof. exact path_indep. Qed.
Print Assumptions C18_other_joints_do_not_move_it.
Example C18_applies : Jacobian_ctor (fun _ _ => sv0) ex_mb "hand"%string (mkV3 1 2 3) = Ok ex_J /\
  Jacobian_ctor (fun _ _ => sv0) ex_mb "tail"%string (mkV3 1 2 3) = Throw OutOfRange.
Proof. split; [exact ex_J_ctor|]. now apply C18_unknown_body. Qed.
(** The head's joint is not on the path of the hand. *)
Example C18_head_does_not_move_hand : exists ma ka kb, q ma <> q ex_m /\
  after_kinematics ex_mb ma ka /\ after_kinematics ex_mb ex_m kb /\
  nth_error (bodyPosW ka) 2 = nth_error (bodyPosW kb) 2.
Proof. exact ex_head_turned. Qed.

(** C19: jacobian * alphaD + normalAcceleration is the acceleration of the point, from the
    accelerations forwardAcceleration gives without gravity; world and body axes. *)
Theorem C19_acceleration : forall mb m0 m,
  wf_mb mb -> rigid_mb mb -> mbc_ok mb m0 -> config_ok mb m0 -> after_kinematics mb m0 m ->
  forall i p J, jacobian_of mb i p J ->
  forall m3, forwardAcceleration mb m sv0 = Ok m3 ->
  exists X V Ac J1 J2 N1 N2,
    nth_error (bodyPosW m) i = Some X /\ nth_error (bodyVelB m) i = Some V /\ nth_error (bodyAccB m3) i = Some Ac /\
    jacobian mb m J = Ok J1 /\ bodyJacobian mb m J = Ok J2 /\
    normalAcceleration m J = Ok N1 /\ bodyNormalAcceleration m J = Ok N2 /\
    svadd (smul (jc_jac J1) (on_path (jc_path J) (alphaD m))) N1 = point_acceleration X p V Ac /\
    svadd (smul (jc_jac J2) (on_path (jc_path J) (alphaD m))) N2 = body_point_velocity p Ac.
Proof. exact top_acceleration. Qed.
Print Assumptions C19_acceleration.
(** C19: jacobianDot * alpha = normalAcceleration. *)
Theorem C19_jacobianDot_times_alpha : forall mb m0 m,
  wf_mb mb -> rigid_mb mb -> mbc_ok mb m0 -> config_ok mb m0 -> after_kinematics mb m0 m ->
  forall i p J, jacobian_of mb i p J ->
  exists J1 J2 N1 N2,
    jacobianDot mb m J = Ok J1 /\ jacobian_of mb i p J1 /\ bodyJacobianDot mb m J = Ok J2 /\ jacobian_of mb i p J2 /\
    normalAcceleration m J = Ok N1 /\ bodyNormalAcceleration m J = Ok N2 /\
    smul (jc_dot J1) (on_path (jc_path J) (alpha m)) = N1 /\ smul (jc_dot J2) (on_path (jc_path J) (alpha m)) = N2.
Proof. exact top_dot. Qed.
Print Assumptions C19_jacobianDot_times_alpha.
(** C19: along a trajectory each column of jacobianDot is the time derivative of that column
    of the Jacobian. *)
Theorem C19_jacobianDot_is_derivative : forall mb (M K : R -> MBC) t, wf_mb mb -> rigid_mb mb ->
  (forall j, In j (mb_joints mb) -> regular j) ->
  (forall s, mbc_ok mb (M s)) -> (forall s, config_ok mb (M s)) -> (forall s, after_kinematics mb (M s) (K s)) ->
  (forall i, (i < nrBodies mb)%nat ->
     follows (nth i (mb_joints mb) jd) (fun s => nth i (q (M s)) []) t (nth i (alpha (M t)) [])) ->
  forall i p J (JW JB : R -> Jac) DW DB, jacobian_of mb i p J ->
  (forall s, jacobian mb (K s) J = Ok (JW s)) -> (forall s, bodyJacobian mb (K s) J = Ok (JB s)) ->
  jacobianDot mb (K t) J = Ok DW -> bodyJacobianDot mb (K t) J = Ok DB ->
  forall c, derivS (fun s => nth c (jc_jac (JW s)) sv0) t (nth c (jc_dot DW) sv0) /\
            derivS (fun s => nth c (jc_jac (JB s)) sv0) t (nth c (jc_dot DB) sv0).
Proof. exact traj_jacobian. Qed.
Print Assumptions C19_jacobianDot_is_derivative.
(** C19: the overloads that read a precomputed vector agree with the ones that do not when
    the vector is the bodyAccB of forwardAcceleration run with zero alphaD and no gravity. *)
Theorem C19_precomputed : forall mb m0 m,
  wf_mb mb -> rigid_mb mb -> mbc_ok mb m0 -> config_ok mb m0 -> after_kinematics mb m0 m ->
  forall i p J, jacobian_of mb i p J ->
  forall m3, (forall a, In a (alphaD m) -> forall v, In v a -> v = 0) -> forwardAcceleration mb m sv0 = Ok m3 ->
  normalAcceleration_pre m (bodyAccB m3) J = normalAcceleration m J /\
  bodyNormalAcceleration_pre (bodyAccB m3) J = bodyNormalAcceleration m J /\
  forall X V, normalAcceleration_pre_at m (bodyAccB m3) X V J = normalAcceleration_at m X V J.
Proof. exact top_pre. Qed.
Print Assumptions C19_precomputed.
Example C19_applies : exists m m3 J1 N1 X V Ac, after_kinematics ex_mb ex_m m /\ forwardAcceleration ex_mb m sv0 = Ok m3 /\
  jacobian ex_mb m ex_J = Ok J1 /\ normalAcceleration m ex_J = Ok N1 /\
  svadd (smul (jc_jac J1) (on_path [0; 1; 2]%nat (alphaD m))) N1 = point_acceleration X (mkV3 1 2 3) V Ac.
Proof.
  destruct ex_kin as (m & A). destruct (ex_acc m A) as (m3 & E).
  destruct (C19_acceleration _ _ m ex_wf ex_rigid ex_mbc_ok ex_config A _ _ _ ex_J_of m3 E)
    as (X & V & Ac & J1 & J2 & N1 & N2 & _ & _ & _ & E1 & _ & E2 & _ & P & _). exists m, m3, J1, N1, X, V, Ac. do 4 (split; [auto|]). auto.
Qed.
Example C19_derivative_applies : exists (K : R -> MBC) J (JW : R -> Jac), forall t, exists DW, jacobianDot exd_mb (K t) J = Ok DW /\
  forall c, derivS (fun s => nth c (jc_jac (JW s)) sv0) t (nth c (jc_dot DW) sv0).
Proof. exact exd_jacobian_derivative. Qed.

(** C20: fullJacobian puts the columns of each joint of the path at that joint's place in
    the generalized velocity, zeros elsewhere; the product with the stacked rates is that of
    the path. [l1] is what precedes joint k on the path. *)
Theorem C20_full_jacobian : forall mb i p J, wf_mb mb -> jacobian_of mb i p J ->
  forall jac r, mcols jac = path_dof mb (jc_path J) -> (mrows jac <= mrows r)%nat -> mcols r = mb_nrDof mb ->
  exists M, fullJacobian mb J jac r = Ok M /\ mrows M = mrows r /\ mcols M = mb_nrDof mb /\
   (forall x l1 k l2 d, (x < mrows jac)%nat -> jc_path J = l1 ++ k :: l2 -> (d < dofi mb k)%nat ->
      ment M x (pos mb k + d) = ment jac x (path_dof mb l1 + d)) /\
   (forall x k d, (x < mrows jac)%nat -> (k < nrBodies mb)%nat -> ~ In k (jc_path J) -> (d < dofi mb k)%nat ->
      ment M x (pos mb k + d) = 0) /\
   (forall x a, (x < mrows jac)%nat -> sized mb jdof a ->
      mat_vec M (concat a) x = mat_vec jac (on_path (jc_path J) a) x).
Proof. exact full_ok. Qed.
Print Assumptions C20_full_jacobian.
(** C20: addFullJacobian adds them to res, and addFullJacobian on the blocks of compactPath
    gives the same matrix. *)
Theorem C20_add_full_jacobian : forall mb i p J, wf_mb mb -> jacobian_of mb i p J ->
  forall jac r, mcols jac = path_dof mb (jc_path J) -> (mrows jac <= mrows r)%nat -> mcols r = mb_nrDof mb ->
  exists M, addFullJacobian mb J jac r = Ok M /\ mrows M = mrows r /\ mcols M = mb_nrDof mb /\
   (forall x l1 k l2 d, (x < mrows jac)%nat -> jc_path J = l1 ++ k :: l2 -> (d < dofi mb k)%nat ->
      ment M x (pos mb k + d) = ment r x (pos mb k + d) + ment jac x (path_dof mb l1 + d)) /\
   (forall x k d, (k < nrBodies mb)%nat -> ~ In k (jc_path J) -> (d < dofi mb k)%nat ->
      ment M x (pos mb k + d) = ment r x (pos mb k + d)) /\
   (forall x a, (x < mrows jac)%nat -> sized mb jdof a ->
      mat_vec M (concat a) x = mat_vec r (concat a) x + mat_vec jac (on_path (jc_path J) a) x) /\
   exists bs M', compactPath mb J = Ok bs /\ addFullJacobian_compact bs jac r = Ok M' /\
     mrows M = mrows M' /\ mcols M = mcols M' /\ forall x c, ment M x c = ment M' x c.
Proof. exact addFull_ok. Qed.
Print Assumptions C20_add_full_jacobian.
Example C20_applies : exists M, fullJacobian ex_mb ex_J (mkMat 6 8 (fun r c => INR (r + c))) (mat_zero 6 11) = Ok M /\
  ment M 2 7 = INR 9 /\ ment M 2 9 = 0.
Proof.
  destruct (C20_full_jacobian _ _ _ _ ex_wf ex_J_of (mkMat 6 8 (fun r c => INR (r + c))) (mat_zero 6 11))
    as (M & E & _ & _ & A & B & _); auto.
  exists M. split; [exact E|]. split.
  - apply (A 2 [0; 1] 2 [] 0)%nat; [apply Nat.ltb_lt| |apply Nat.ltb_lt]; reflexivity.
  - apply (B 2 3 1)%nat; [apply Nat.ltb_lt; reflexivity|apply Nat.ltb_lt; reflexivity| |apply Nat.ltb_lt; reflexivity]. intros [|[|[|[]]]]; discriminate.
Qed.

(** C21: x^T expand(M) y is the product on the path; expandAdd adds it, and the version on
    the blocks of compactPath gives the same matrix. *)
Theorem C21_expand : forall mb i p J, wf_mb mb -> jacobian_of mb i p J ->
  forall jac, mrows jac = path_dof mb (jc_path J) -> mcols jac = path_dof mb (jc_path J) ->
  exists M, expand mb J jac = Ok M /\ mrows M = mb_nrDof mb /\ mcols M = mb_nrDof mb /\
   (forall x y, sized mb jdof x -> sized mb jdof y ->
      quad (mb_nrDof mb) (ment M) (flat y) (flat x) =
      quad (path_dof mb (jc_path J)) (ment jac) (fun e => nth e (on_path (jc_path J) y) 0) (fun e => nth e (on_path (jc_path J) x) 0)).
Proof. exact expand_ok. Qed.
Print Assumptions C21_expand.
Theorem C21_expand_add : forall mb i p J, wf_mb mb -> jacobian_of mb i p J ->
  forall jac r, mrows jac = path_dof mb (jc_path J) -> mcols jac = path_dof mb (jc_path J) ->
  mrows r = mb_nrDof mb -> mcols r = mb_nrDof mb ->
  exists M, expandAdd mb J jac r = Ok M /\ mrows M = mb_nrDof mb /\ mcols M = mb_nrDof mb /\
   (forall x y, sized mb jdof x -> sized mb jdof y ->
      quad (mb_nrDof mb) (ment M) (flat y) (flat x) =
      quad (mb_nrDof mb) (ment r) (flat y) (flat x) +
      quad (path_dof mb (jc_path J)) (ment jac) (fun e => nth e (on_path (jc_path J) y) 0) (fun e => nth e (on_path (jc_path J) x) 0)) /\
   exists bs M', compactPath mb J = Ok bs /\ expandAdd_compact bs jac r = Ok M' /\
     mrows M = mrows M' /\ mcols M = mcols M' /\ forall x c, ment M x c = ment M' x c.
Proof. exact expandAdd_ok. Qed.
Print Assumptions C21_expand_add.
Example C21_applies : exists M, expand ex_mb ex_J (mkMat 8 8 (fun r c => INR (r * c))) = Ok M.
Proof.
  destruct (C21_expand _ _ _ _ ex_wf ex_J_of (mkMat 8 8 (fun r c => INR (r * c))) eq_refl eq_refl) as (M & E & _). eauto.
Qed.

(** C22: translating the Jacobian of the point p by d gives that of the point p + d. *)
Theorem C22_translate : forall mb m0 m,
  wf_mb mb -> rigid_mb mb -> mbc_ok mb m0 -> config_ok mb m0 -> after_kinematics mb m0 m ->
  forall i p J, jacobian_of mb i p J ->
  forall d J' J1 J1' r, jacobian_of mb i (vadd p d) J' ->
  jacobian mb m J = Ok J1 -> jacobian mb m J' = Ok J1' -> length r = jac_dof J1 ->
  translateJacobian m (jc_jac J1) d r J = Ok (jc_jac J1').
Proof. exact top_translate. Qed.
Print Assumptions C22_translate.
Theorem C22_translate_body : forall mb m0 m,
  wf_mb mb -> rigid_mb mb -> mbc_ok mb m0 -> config_ok mb m0 -> after_kinematics mb m0 m ->
  forall i p J, jacobian_of mb i p J ->
  forall d J' J1 J1' r, jacobian_of mb i (vadd p d) J' ->
  bodyJacobian mb m J = Ok J1 -> bodyJacobian mb m J' = Ok J1' -> length r = jac_dof J1 ->
  translateBodyJacobian (jc_jac J1) d r = Ok (jc_jac J1').
Proof. exact top_translate_body. Qed.
Print Assumptions C22_translate_body.
(** point(p) turns a Jacobian of the body into one for p. *)
Theorem C22_set_point : forall mb i p J, jacobian_of mb i p J -> forall d, jacobian_of mb i d (set_point d J).
Proof. intros mb i p J H d. destruct H. constructor; auto. Qed.
Print Assumptions C22_set_point.
Example C22_applies : exists m J1 J2, after_kinematics ex_mb ex_m m /\
  jacobian ex_mb m ex_J = Ok J1 /\ jacobian ex_mb m (set_point (vadd (mkV3 1 2 3) (mkV3 5 0 1)) ex_J) = Ok J2 /\
  translateJacobian m (jc_jac J1) (mkV3 5 0 1) (jc_jac J1) ex_J = Ok (jc_jac J2).
Proof.
  destruct ex_kin as (m & A). pose proof (C22_set_point _ _ _ _ ex_J_of (vadd (mkV3 1 2 3) (mkV3 5 0 1))) as H'.
  destruct (C17_jacobian_times_alpha _ _ m ex_wf ex_rigid ex_mbc_ok ex_config A _ _ _ ex_J_of) as (X & V & J1 & J2 & _ & _ & E & _).
  destruct (C17_jacobian_times_alpha _ _ m ex_wf ex_rigid ex_mbc_ok ex_config A _ _ _ H') as (X' & V' & J1' & J2' & _ & _ & E' & _).
  exists m, J1, J1'. do 3 (split; [auto|]).
  exact (C22_translate _ _ m ex_wf ex_rigid ex_mbc_ok ex_config A _ _ _ ex_J_of _ _ _ _ _ H' E E' eq_refl).
Qed.

(** C66: vectorJacobian writes the three linear rows only; their product with alpha is
    w x (E^T v), the velocity of a vector v fixed in the body, with world axes (w the angular
    part of bodyVelW); vectorBodyJacobian the same with body axes. *)
Theorem C66_vector_jacobian : forall mb m0 m,
  wf_mb mb -> rigid_mb mb -> mbc_ok mb m0 -> config_ok mb m0 -> after_kinematics mb m0 m ->
  forall i p J, jacobian_of mb i p J -> forall vec,
  exists X V VW J1 J2,
    nth_error (bodyPosW m) i = Some X /\ nth_error (bodyVelB m) i = Some V /\ nth_error (bodyVelW m) i = Some VW /\
    vectorJacobian mb m vec J = Ok J1 /\ jacobian_of mb i p J1 /\
    vectorBodyJacobian mb m vec J = Ok J2 /\ jacobian_of mb i p J2 /\
    map sang (jc_jac J1) = map sang (jc_jac J) /\ map sang (jc_jac J2) = map sang (jc_jac J) /\
    slin (smul (jc_jac J1) (on_path (jc_path J) (alpha m))) = vcross (sang VW) (mapp (mtr (rotE X)) vec) /\
    slin (smul (jc_jac J2) (on_path (jc_path J) (alpha m))) = vcross (sang V) vec.
Proof. exact top_vector. Qed.
Print Assumptions C66_vector_jacobian.
Example C66_applies : exists m J1, after_kinematics ex_mb ex_m m /\ vectorJacobian ex_mb m unitX ex_J = Ok J1.
Proof.
  destruct ex_kin as (m & A).
  destruct (C66_vector_jacobian _ _ m ex_wf ex_rigid ex_mbc_ok ex_config A _ _ _ ex_J_of unitX) as (X & V & VW & J1 & J2 & _ & _ & _ & E & _).
  eauto.
Qed.
