(** Turned joints: the statements. *)
From Coq Require Import Reals String ZArith Bool Arith List Lia Lra.
From Verif Require Import Res ResP SMap Vec VecP Sva SvaP Mat JointM MultiBodyM KinM DynM CoMM Spec SpecDyn SpecHold SpecTurn
  JointP JointFinP KinP MbP TreeP DynP DynHP DynCP DynFinP DynFin2P KinFinP BaseP Newton2P JacTopP HoldTopP TurnP.
Import ListNotations.
Open Scope R_scope.

Lemma sgn_sgn b l : map (Rmult (sgn b)) (map (Rmult (sgn b)) l) = l.
Proof. rewrite map_map. apply map_id_ext. intros x _. unfold sgn. destruct b; ring. Qed.
Lemma turned_rigid t mb mb' m m' : wf_mb mb -> wf_mb mb' -> same_tree mb mb' -> turned_state t mb m mb' m' -> rigid_mb mb -> rigid_mb mb'.
Proof.
  intros W W' T S [R1 R2]. split; [|now rewrite (st_Xt _ _ T)].
  intros j H. apply In_nth_error in H as (i & H).
  assert (Hi : (i < nrBodies mb)%nat).
  { unfold nrBodies. rewrite <- (st_bodies _ _ T). fold (nrBodies mb'). rewrite <- (wf_joints mb' W'). apply nth_error_Some. congruence. }
  assert (J : joint_unit (nth i (mb_joints mb) jd)) by (apply R1, nth_In; rewrite (wf_joints mb W); auto).
  rewrite <- (nth_error_nth _ _ jd H). destruct (proj2 (proj2 S) i Hi) as [_ E _ _ _|_ _ E _ _ _]; rewrite E; auto.
  destruct J as (ax & U & B). exists ax. split; auto. now constructor.
Qed.
Lemma turned_kinematics t mb mb' m0 m0' : wf_mb mb -> wf_mb mb' -> same_tree mb mb' -> mbc_ok mb m0 -> mbc_ok mb' m0' -> turned_state t mb m0 mb' m0' ->
  exists m m', after_kinematics mb m0 m /\ after_kinematics mb' m0' m' /\
    bodyPosW m' = bodyPosW m /\ bodyVelB m' = bodyVelB m /\ bodyVelW m' = bodyVelW m /\
    computeCoM mb' m' = computeCoM mb m /\ computeCoMVelocity mb' m' = computeCoMVelocity mb m /\
    forall A0, exists n n', forwardAcceleration mb m A0 = Ok n /\ forwardAcceleration mb' m' A0 = Ok n' /\ bodyAccB n' = bodyAccB n.
Proof.
  intros W W' T K K' H. destruct (kin_exists mb m0 W K) as (m & A & Km). destruct (kin_exists mb' m0' W' K') as (m' & A' & Km').
  pose proof (tu_posW t mb mb' m0 m m0' m' T W W' K K' A A' H) as EP. pose proof (tu_velB t mb mb' m0 m m0' m' T W W' K K' A A' H) as EV.
  exists m, m'. split; [exact A|]. split; [exact A'|]. split; [exact EP|]. split; [exact EV|].
  split; [exact (tu_velW t mb mb' m0 m m0' m' T W W' K K' A A' H)|].
  split; [now apply com_same|]. split; [now apply comv_same|].
  intro A0. destruct (FA_total mb m A0 W Km) as (n & E & _). destruct (FA_total mb' m' A0 W' Km') as (n' & E' & _).
  exists n, n'. split; [exact E|]. split; [exact E'|]. exact (tu_FA t mb mb' m0 m m0' m' T W W' K K' A A' H A0 n n' E E').
Qed.
Lemma turned_dynamics t mb mb' m0 m m0' m' f f' s s' : wf_mb mb -> wf_mb mb' -> rigid_mb mb -> same_tree mb mb' ->
  mbc_ok mb m0 -> config_ok mb m0 -> mbc_ok mb' m0' -> turned_state t mb m0 mb' m0' ->
  after_kinematics mb m0 m -> after_kinematics mb' m0' m' ->
  length f = nrBodies mb -> length f' = nrBodies mb' -> fd_ok mb s -> fd_ok mb' s' ->
  exists g n g' n' h h' c c', inverseDynamics mb f m = Ok (g, n) /\ inverseDynamics mb' f' m' = Ok (g', n') /\
    computeH mb m s = Ok h /\ computeH mb' m' s' = Ok h' /\ computeC mb m s = Ok c /\ computeC mb' m' s' = Ok c' /\
    bodyAccB n' = bodyAccB n /\ g' = g /\
    forall i, (i < nrBodies mb)%nat ->
      nth i (jointTorque n') [] = map (Rmult (sgn (t i))) (nth i (jointTorque n) []) /\
      (forall a, (a < dofi mb i)%nat -> nth (pos mb' i + a) (fd_C c') 0 = sgn (t i) * nth (pos mb i + a) (fd_C c) 0) /\
      (forall j a b, (j < nrBodies mb)%nat -> (a < dofi mb i)%nat -> (b < dofi mb j)%nat ->
         ment (fd_H h') (pos mb' i + a) (pos mb' j + b) = sgn (t i) * sgn (t j) * ment (fd_H h) (pos mb i + a) (pos mb j + b)).
Proof.
  intros W W' RM T K C K' H A A' L L' O O'. pose proof (turned_rigid t mb mb' m0 m0' W W' T H RM) as RM'.
  pose proof (tu_config t mb mb' m0 m0' T W W' K K' H C) as C'.
  pose proof (after_kin_state _ _ _ W RM K C A) as D. pose proof (after_kin_state _ _ _ W' RM' K' C' A') as D'.
  pose proof (ds_ok _ _ D) as Km. pose proof (ds_ok _ _ D') as Km'.
  destruct (ID_total mb m f W Km L) as (g & n & E1 & _). destruct (ID_total mb' m' f' W' Km' L') as (g' & n' & E1' & _).
  destruct (H_ok mb m s W Km (ds_rigid _ _ D) O) as (h & E2 & _). destruct (H_ok mb' m' s' W' Km' (ds_rigid _ _ D') O') as (h' & E2' & _).
  destruct (C_ok mb m s W Km O) as (c & E3 & _). destruct (C_ok mb' m' s' W' Km' O') as (c' & E3' & _).
  exists g, n, g', n', h, h', c, c'. do 6 (split; [assumption|]).
  pose proof (tu_n mb mb' T) as N. rewrite N in L'.
  destruct (tu_ID t mb mb' m0 m m0' m' T W W' K K' A A' H f f' g g' n n' L L' E1 E1') as (EA & EG & ET).
  split; [exact EA|]. split; [exact EG|]. intros i Hi. split; [now apply ET|]. split.
  - intros a La. exact (tu_C t mb mb' m0 m m0' m' T W W' K K' A A' H s s' c c' O O' E3 E3' i a Hi La).
  - intros j a b Hj La Lb. exact (tu_H t mb mb' m0 m m0' m' T W W' K K' A A' H RM RM' C s s' h h' O O' E2 E2' i j a b Hi Hj La Lb).
Qed.
Lemma turned_forward t mb mb' m0 m m0' m' solve o o' : wf_mb mb -> wf_mb mb' -> rigid_mb mb -> same_tree mb mb' ->
  mbc_ok mb m0 -> config_ok mb m0 -> mbc_ok mb' m0' -> turned_state t mb m0 mb' m0' ->
  (forall i, (i < nrBodies mb)%nat -> nth i (jointTorque m0') [] = map (Rmult (sgn (t i))) (nth i (jointTorque m0) [])) ->
  after_kinematics mb m0 m -> after_kinematics mb' m0' m' -> fd_ok mb o -> fd_ok mb' o' ->
  (forall b, In b (mb_bodies mb) -> inertia_pd (binertia b)) -> solver_ok solve ->
  exists h n h' n', forwardDynamics solve mb m o = Ok (h, n) /\ forwardDynamics solve mb' m' o' = Ok (h', n') /\
    forall i, (i < nrBodies mb)%nat -> nth i (alphaD n') [] = map (Rmult (sgn (t i))) (nth i (alphaD n) []).
Proof.
  intros W W' RM T K C K' S ST A A' O O' PD SO.
  pose proof (turned_rigid t mb mb' m0 m0' W W' T S RM) as RM'. pose proof (tu_config t mb mb' m0 m0' T W W' K K' S C) as C'.
  pose proof (after_kin_state _ _ _ W RM K C A) as D. pose proof (after_kin_state _ _ _ W' RM' K' C' A') as D'.
  assert (PD' : forall b, In b (mb_bodies mb') -> inertia_pd (binertia b)) by (rewrite (st_bodies _ _ T); exact PD).
  pose proof (tu_n mb mb' T) as N.
  destruct (FD_then_ID mb' m0' m' o' (repeat sv0 (nrBodies mb')) solve W' RM' K' C' A' O' ltac:(apply repeat_length) PD' SO)
    as (h' & n' & g' & n2' & E' & Fr' & _ & EI' & ET').
  destruct (FD_run mb' m' o' solve W' RM' D' O' PD' SO) as (x1 & x2 & x3 & x4 & _ & _ & _ & _ & E0 & _ & _ & Sd' & _).
  rewrite E' in E0. injection E0 as <- <-.
  destruct (FD_run mb m o solve W RM D O PD SO) as (t1 & t2 & h & n & E1 & E2 & P1 & P2 & E & _ & _ & Sd & _ & _ & Hx).
  (* the accelerations of mb', with the signs of mb *)
  pose (y := map (fun i => map (Rmult (sgn (t i))) (nth i (alphaD n') [])) (seq 0 (nrBodies mb))).
  assert (Hy : forall i, (i < nrBodies mb)%nat -> nth i y [] = map (Rmult (sgn (t i))) (nth i (alphaD n') [])).
  { intros i Hi. unfold y. rewrite (nth_map_lt _ _ _ 0%nat) by (rewrite seq_length; lia). now rewrite seq_nth. }
  assert (Sy : sized mb jdof y).
  { unfold sized. pose proof (wf_joints mb W) as LJ.
    apply (nth_ext _ _ 0%nat 0%nat); [unfold y; rewrite !map_length, seq_length; auto|]. intros i Hi.
    assert (Hi' : (i < nrBodies mb)%nat) by (unfold y in Hi; rewrite !map_length, seq_length in Hi; exact Hi).
    rewrite (nth_map_lt _ _ _ []) by (unfold y; rewrite map_length, seq_length; auto). rewrite (nth_map_lt _ _ _ jd) by lia.
    rewrite Hy, map_length by auto. rewrite (sized_nth mb' jdof (alphaD n') i Sd') by (rewrite (wf_nrJoints mb' W'), N; auto).
    exact (proj2 (tu_joint t mb mb' m0 m0' S i Hi')). }
  exists h, n, h', n'. split; [exact E|]. split; [exact E'|].
  assert (Z : alphaD n = y); [|intros i Hi; now rewrite Z, Hy, sgn_sgn by auto].
  assert (KA : forall mb m x, mbc_ok mb m -> sized mb jdof x -> mbc_ok mb (with_alphaD x m)).
  { intros b z x Kb Sx. destruct Kb. constructor; auto. }
  assert (UA : turned_state t mb (with_alphaD y m0) mb' (with_alphaD (alphaD n') m0')).
  { destruct S as (S1 & S2 & S3). split; [exact S1|]. split; [exact S2|]. intros i Hi. cbn [q alpha alphaD with_alphaD]. rewrite Hy by auto.
    destruct (S3 i Hi) as [Et X1 X2 X3 _|Et AT X1 X2 X3 _].
    - apply not_turned; auto. rewrite Et. symmetry. apply map_id_ext. intros x _. unfold sgn. ring.
    - apply turned; auto. rewrite Et, map_map. symmetry. apply map_id_ext. intros x _. unfold sgn. ring. }
  pose proof (after_kin_alphaD mb m0 m y A) as AA. pose proof (after_kin_alphaD mb' m0' m' (alphaD n') A') as AA'.
  pose proof (KA _ _ _ K Sy) as KK. pose proof (KA _ _ _ K' Sd') as KK'.
  rewrite Fr' in EI'.
  pose proof (dyn_state_with_alphaD mb m y D Sy) as Dy.
  destruct (ID_total mb (with_alphaD y m) (repeat sv0 (nrBodies mb)) W (ds_ok _ _ Dy) ltac:(apply repeat_length)) as (g & n2 & EI & PI).
  destruct (tu_ID t mb mb' _ _ _ _ T W W' KK KK' AA AA' UA (repeat sv0 (nrBodies mb)) (repeat sv0 (nrBodies mb')) g g' n2 n2' ltac:(apply repeat_length) ltac:(rewrite repeat_length; auto) EI EI') as (_ & _ & ET).
  assert (EQ : jointTorque n2 = jointTorque m).
  { destruct (kin_keeps mb m0 m W K A) as (_ & _ & _ & _ & _ & Et). destruct (kin_keeps mb' m0' m' W' K' A') as (_ & _ & _ & _ & _ & Et').
    pose proof (sized_length _ _ _ (ok_jointTorque _ _ (ip_ok _ _ _ _ PI))) as L1. pose proof (sized_length _ _ _ (ok_jointTorque _ _ (ds_ok _ _ D))) as L2.
    pose proof (wf_nrJoints mb W) as NJ.
    apply (nth_ext _ _ [] []); [congruence|]. intros i Hi. rewrite L1, NJ in Hi. pose proof (ET i Hi) as X. rewrite ET', Et', ST in X by auto.
    apply (f_equal (map (Rmult (sgn (t i))))) in X. rewrite !sgn_sgn in X. rewrite Et. now symmetry. }
  apply (flat_inj mb); auto.
  apply (spd_inj (mb_nrDof mb) (ment (fd_H t1)) _ _ (H_pd mb m o t1 W RM D P1 PD)).
  intros r Hr. rewrite Hx by auto.
  pose proof (hp_H _ _ _ _ P1) as HH. pose proof (cp_C _ _ _ _ P2) as HC.
  pose proof (id_H_C mb (with_alphaD y m) (fd_H t1) (fd_C t2) g n2 W Dy HH HC PI r Hr) as EF.
  rewrite EQ in EF. cbn [alphaD with_alphaD] in EF. rewrite EF. ring.
Qed.
