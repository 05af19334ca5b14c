(** Jacobians with the bodies numbered in another way. *)
From Coq Require Import Reals String ZArith Bool Arith List Lia Lra.
From Verif Require Import Res ResP SMap Vec VecP Sva SvaP Mat JointM MultiBodyM KinM DynM JacM Spec SpecDyn SpecJac SpecRenum
  JointP JointFinP KinP KinPathP MbP TreeP DynP DynFinP KinFinP BaseP DerivTreeP JacP JacFinP JacFin2P JacTopP RenumP RenumTopP.
Import ListNotations.
Open Scope R_scope.

Lemma renum_path s mb mb' i l : wf_mb mb -> renumbered s mb mb' -> (i < nrBodies mb)%nat -> root_path mb i l -> root_path mb' (s i) (map s l).
Proof.
  intros W U Hi P. induction P as [i E|i p l E P IH].
  - apply rp_root. exact (rn_root _ _ _ U i Hi E).
  - rewrite map_app. cbn [map]. apply (rp_step mb' (s i) (s p)); [exact (rn_pred _ _ _ U i p Hi E)|]. apply IH.
    destruct (wf_pred mb W i Hi) as [N|N]; rewrite (nth_error_nth _ _ 0%Z E) in N; lia.
Qed.
Section RenumJac.
Variables (s : nat -> nat) (mb mb' : MultiBody) (m0 m m0' m' : MBC).
Hypothesis W : wf_mb mb. Hypothesis W' : wf_mb mb'. Hypothesis RM : rigid_mb mb.
Hypothesis K : mbc_ok mb m0. Hypothesis C : config_ok mb m0. Hypothesis K' : mbc_ok mb' m0'.
Hypothesis U : renumbered s mb mb'. Hypothesis S : renumbered_state s mb m0 m0'.
Hypothesis A : after_kinematics mb m0 m. Hypothesis A' : after_kinematics mb' m0' m'.
Variables (i : nat) (p : V3) (J J' : Jac).
Hypothesis H : jacobian_of mb i p J. Hypothesis H' : jacobian_of mb' (s i) p J'.

Let RM' := renum_rigid s mb mb' W W' U RM.
Let C' := re_config s mb mb' m0 m0' W W' K U S C.
Let R := kin_run mb m0 m W RM K C A.
Let R' := kin_run mb' m0' m' W' RM' K' C' A'.
Lemma rj_i : (i < nrBodies mb)%nat. Proof. exact (proj1 (root_path_lt _ _ _ W (jo_path _ _ _ _ H))). Qed.
Lemma rj_path : jc_path J' = map s (jc_path J).
Proof.
  apply (root_path_unique mb' (s i) _ _ W' (jo_path _ _ _ _ H')). apply (renum_path s mb mb'); auto using rj_i. exact (jo_path _ _ _ _ H).
Qed.
Lemma rj_in k : In k (jc_path J) -> (k < nrBodies mb)%nat.
Proof. intro I. eapply root_path_in; eauto. exact (jo_path _ _ _ _ H). Qed.
Let EX := re_pos s mb mb' m0 m m0' m' W W' K K' A A' U S.
Let EV := re_vb s mb mb' m0 m m0' m' W W' K K' A A' U S.
Let EW := re_vw s mb mb' m0 m m0' m' W W' K K' A A' U S.
Let EM := re_ms s mb mb' m0 m m0' m' W W' K K' A A' U.
Lemma rj_fcols X : concat (map (fcols mb' m' X) (jc_path J')) = concat (map (fcols mb m X) (jc_path J)).
Proof.
  f_equal. rewrite rj_path, map_map. apply map_ext_in. intros k Hk. apply rj_in in Hk. unfold fcols.
  rewrite (re_joint s mb mb' W U k Hk). now rewrite (EX k Hk).
Qed.
Lemma rj_dcols col X V : concat (map (dcols m' col X V) (jc_path J')) = concat (map (dcols m col X V) (jc_path J)).
Proof.
  f_equal. rewrite rj_path, map_map. apply map_ext_in. intros k Hk. apply rj_in in Hk. unfold dcols.
  now rewrite (EX k Hk), (EV k Hk), (EM k Hk).
Qed.
Lemma rj_alpha : on_path (jc_path J') (alpha m') = on_path (jc_path J) (alpha m).
Proof.
  destruct (kin_keeps mb m0 m W K A) as (_ & Ea & _). destruct (kin_keeps mb' m0' m' W' K' A') as (_ & Ea' & _).
  unfold on_path. f_equal. rewrite rj_path, map_map. apply map_ext_in. intros k Hk. apply rj_in in Hk. rewrite Ea, Ea'. now apply (rs_alpha _ _ _ _ S).
Qed.
Lemma renum_jacobian : jc_path J' = map s (jc_path J) /\
  velocity m' J' = velocity m J /\ bodyVelocity m' J' = bodyVelocity m J /\
  normalAcceleration m' J' = normalAcceleration m J /\ bodyNormalAcceleration m' J' = bodyNormalAcceleration m J /\
  exists J1 J1' J2 J2' J3 J3' J4 J4',
    jacobian mb m J = Ok J1 /\ jacobian mb' m' J' = Ok J1' /\ jc_jac J1' = jc_jac J1 /\
    bodyJacobian mb m J = Ok J2 /\ bodyJacobian mb' m' J' = Ok J2' /\ jc_jac J2' = jc_jac J2 /\
    jacobianDot mb m J = Ok J3 /\ jacobianDot mb' m' J' = Ok J3' /\ jc_dot J3' = jc_dot J3 /\
    bodyJacobianDot mb m J = Ok J4 /\ bodyJacobianDot mb' m' J' = Ok J4' /\ jc_dot J4' = jc_dot J4.
Proof.
  pose proof rj_i as Hi. split; [exact rj_path|].
  destruct (top_velocity mb m0 m W RM K C A i p J H) as (X & V & _ & _ & GX & GV & _ & _ & _ & _ & _ & _ & EV1 & EV2).
  destruct (top_velocity mb' m0' m' W' RM' K' C' A' (s i) p J' H') as (X' & V' & _ & _ & GX' & GV' & _ & _ & _ & _ & _ & _ & EV1' & EV2').
  assert (X' = X) as -> by (rewrite <- (nth_error_nth _ _ ptid GX), <- (nth_error_nth _ _ ptid GX'); now apply EX).
  assert (V' = V) as -> by (rewrite <- (nth_error_nth _ _ sv0 GV), <- (nth_error_nth _ _ sv0 GV'); now apply EV).
  split; [congruence|]. split; [congruence|].
  pose proof (jacobianDot_run mb m0 m W R i p J H) as E3. pose proof (bodyJacobianDot_run mb m0 m W R i p J H) as E4.
  pose proof (jacobianDot_run mb' m0' m' W' R' (s i) p J' H') as E3'. pose proof (bodyJacobianDot_run mb' m0' m' W' R' (s i) p J' H') as E4'.
  rewrite (EX i Hi), (EV i Hi), rj_dcols in E3', E4'.
  assert (ED : dcol_world m' (s i) = dcol_world m i) by (unfold dcol_world, wN; rewrite (EX i Hi), (EW i Hi); reflexivity).
  rewrite ED in E3'.
  destruct (top_dot mb m0 m W RM K C A i p J H) as (D1 & D2 & N1 & N2 & F1 & _ & F2 & _ & F3 & F4 & F5 & F6).
  destruct (top_dot mb' m0' m' W' RM' K' C' A' (s i) p J' H') as (D1' & D2' & N1' & N2' & F1' & _ & F2' & _ & F3' & F4' & F5' & F6').
  rewrite E3 in F1. rewrite E4 in F2. rewrite E3' in F1'. rewrite E4' in F2'. injection F1 as <-. injection F2 as <-. injection F1' as <-. injection F2' as <-.
  cbn [jc_dot with_dot] in F5, F6, F5', F6'. rewrite rj_alpha in F5', F6'.
  split; [congruence|]. split; [congruence|].
  do 8 eexists. split; [exact (jacobian_run mb m0 m W R i p J H)|]. split; [exact (jacobian_run mb' m0' m' W' R' (s i) p J' H')|].
  split; [cbn [jc_jac with_jac]; rewrite rj_fcols; now rewrite (EX i Hi)|].
  split; [exact (bodyJacobian_run mb m0 m W R i p J H)|]. split; [exact (bodyJacobian_run mb' m0' m' W' R' (s i) p J' H')|].
  split; [cbn [jc_jac with_jac]; rewrite rj_fcols; now rewrite (EX i Hi)|].
  split; [exact E3|]. split; [exact E3'|]. split; [reflexivity|]. split; [exact E4|]. split; [exact E4'|]. reflexivity.
Qed.
End RenumJac.
