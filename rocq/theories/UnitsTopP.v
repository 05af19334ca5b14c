(** Other units of time and mass: the statements. *)
From Coq Require Import Reals String ZArith Bool Arith List Lia Lra.
From Verif Require Import Res ResP SMap Vec VecP Sva SvaP Mat JointM MultiBodyM KinM DynM CoMM MomM Spec SpecDyn SpecFrame SpecUnits
  JointP JointFinP KinP MbP TreeP DynP DynHP DynCP DynFinP DynFin2P KinFinP BaseP FrameP UnitsP.
Import ListNotations.
Open Scope R_scope.

Lemma vdiv_times c x v mass : 0 < c -> vdiv_mass (vscale (c * x) v) (c * mass) = rmap (vscale x) (vdiv_mass v mass).
Proof.
  intro Hc. unfold vdiv_mass. destruct (Rlt_dec 0 mass) as [L|L]; destruct (Rlt_dec 0 (c * mass)) as [L'|L']; cbn [rmap].
  - f_equal. assert (E : / (c * mass) * (c * x) = x * / mass) by (field; lra).
    transitivity (vscale (/ (c * mass) * (c * x)) v); [v3ring|]. rewrite E. v3ring.
  - exfalso. apply L'. now apply Rmult_lt_0_compat.
  - exfalso. apply L. apply (Rmult_lt_reg_l c); lra.
  - reflexivity.
Qed.
Ltac step := rewrite rmap_bind; apply bind_ext; intros ? ?.
Section Loops.
Variables (k c : R) (mb mb' : MultiBody) (m m' : MBC).
Hypothesis Cp : 0 < c.
Hypothesis EB : mb_bodies mb' = map (body_times c) (mb_bodies mb).
Hypothesis EP : bodyPosW m' = bodyPosW m.
Hypothesis EV : bodyVelB m' = map (svscale k) (bodyVelB m).
Hypothesis EW : bodyVelW m' = map (svscale k) (bodyVelW m).
Lemma n_times : nrBodies mb' = nrBodies mb. Proof. unfold nrBodies. rewrite EB. apply map_length. Qed.
Lemma start_times x : (0, v0) = (fun s : R * V3 => (c * fst s, vscale (c * x) (snd s))) (0, v0).
Proof. cbn [fst snd]. f_equal; [ring|v3ring]. Qed.
Lemma com_times : computeCoM mb' m' = computeCoM mb m.
Proof.
  transitivity (rmap (vscale 1) (computeCoM mb m)).
  2:{ destruct (computeCoM mb m) as [v| | |]; cbn [rmap]; auto. f_equal. v3ring. }
  unfold computeCoM. rewrite n_times. rewrite (start_times 1) at 1.
  rewrite (for_up_rmap (fun s : R * V3 => (c * fst s, vscale (c * 1) (snd s))) (nrBodies mb) (com_step mb m) (com_step mb' m')).
  - rewrite bind_rmap. step. cbn [fst snd]. now apply vdiv_times.
  - intros i s. unfold com_step. rewrite EB, EP, get_map, bind_rmap. step. step. cbn [rmap fst snd]. f_equal.
    unfold body_times, ptmul, pttr. cbn [binertia imass imom rotE trR].
    generalize (imom (binertia a)) (imass (binertia a)) (snd s) (fst s) (trR a0) (rotE a0). intros h ma p f r E. f_equal; [ring|v3ring].
Qed.
Lemma comv_times : computeCoMVelocity mb' m' = rmap (vscale k) (computeCoMVelocity mb m).
Proof.
  unfold computeCoMVelocity. rewrite n_times. rewrite (start_times k) at 1.
  rewrite (for_up_rmap (fun s : R * V3 => (c * fst s, vscale (c * k) (snd s))) (nrBodies mb) (comv_step mb m) (comv_step mb' m')).
  - rewrite bind_rmap. step. cbn [fst snd]. now apply vdiv_times.
  - intros i s. unfold comv_step. rewrite EB, EP, EV, get_map, bind_rmap. step. step. rewrite get_map, bind_rmap. step.
    cbn [rmap fst snd]. f_equal. unfold body_times, svscale, ptm. cbn [binertia imass imom rotE trR sang slin].
    generalize (imom (binertia a)) (imass (binertia a)) (snd s) (fst s) (trR a0) (rotE a0) (sang a1) (slin a1). intros h ma p f r E u v. f_equal; [ring|v3ring].
Qed.
Lemma momentum_times com : computeCentroidalMomentum mb' m' com = rmap (svscale (c * k)) (computeCentroidalMomentum mb m com).
Proof.
  unfold computeCentroidalMomentum. rewrite n_times. rewrite <- (svscale_sv0 (c * k)) at 1.
  apply for_up_rmap. intros i s. rewrite EB, EP, EV, get_map, bind_rmap. step. rewrite get_map, bind_rmap. step. step.
  cbn [rmap]. f_equal. rewrite rbim_times, rbim_scale, svscale_svscale, svscale_add. f_equal.
  generalize (rbim (binertia a) a0) (ptmul a1 (pttr (vopp com))). intros f X. svring.
Qed.
Hypothesis EA : bodyAccB m' = map (svscale (k * k)) (bodyAccB m).
Lemma coma_times : computeCoMAcceleration mb' m' = rmap (vscale (k * k)) (computeCoMAcceleration mb m).
Proof.
  unfold computeCoMAcceleration. rewrite n_times. rewrite (start_times (k * k)) at 1.
  rewrite (for_up_rmap (fun s : R * V3 => (c * fst s, vscale (c * (k * k)) (snd s))) (nrBodies mb) (coma_step mb m) (coma_step mb' m')).
  - rewrite bind_rmap. step. cbn [fst snd]. now apply vdiv_times.
  - intros i s. unfold coma_step. rewrite EB, EP, EV, EW, EA, get_map, bind_rmap. step. step. rewrite get_map, bind_rmap. step.
    rewrite get_map, bind_rmap. step. rewrite get_map, bind_rmap. step.
    cbn [rmap fst snd]. f_equal. unfold body_times, svscale, ptm, scross. cbn [binertia imass imom rotE trR sang slin].
    generalize (imom (binertia a)) (imass (binertia a)) (snd s) (fst s) (rotE a0) (sang a1) (sang a2) (slin a2) (sang a3) (slin a3).
    intros h ma p f E w ua la uv lv. f_equal; [ring|v3ring].
Qed.
Lemma momentum_dot_times com v : computeCentroidalMomentumDot mb' m' com (vscale k v) = rmap (svscale (c * (k * k))) (computeCentroidalMomentumDot mb m com v).
Proof.
  unfold computeCentroidalMomentumDot. rewrite n_times. rewrite <- (svscale_sv0 (c * (k * k))) at 1.
  apply for_up_rmap. intros i s. rewrite EB, EP, EV, EA, get_map, bind_rmap. step. step. rewrite get_map, bind_rmap. step.
  rewrite get_map, bind_rmap. step. cbn [rmap]. f_equal. rewrite svscale_add. f_equal. unfold body_momentum_dot. rewrite !rbim_times, !rbim_scale.
  generalize (rbim (binertia a1) a) (rbim (binertia a1) a2) (ptmul a0 (pttr (vopp com))). intros h f X. generalize (ptinv X). intro Y.
  replace (mkSV v0 (vscale k v)) with (svscale k (mkSV v0 v)) by svring. generalize (mkSV v0 v). intro w.
  rewrite !svscale_svscale, !scrossDual_scale_r, !ptdual_scale, !scrossDual_scale_r. 
  replace (scrossDual (svscale k a) h) with (svscale k (scrossDual a h)) by svring.
  replace (scrossDual (svscale k w) (ptdual Y h)) with (svscale k (scrossDual w (ptdual Y h))) by (generalize (ptdual Y h); intro; svring).
  replace (pttrans X (svscale (c * (k * k)) f)) with (svscale (c * (k * k)) (pttrans X f)) by svring.
  rewrite !ptdual_scale, !svscale_svscale. generalize (ptdual Y (scrossDual a h)) (scrossDual w (ptdual Y h)) (pttrans X f). intros. svring.
Qed.
End Loops.

Lemma units_kinematics k c mb mb' m0 m0' : wf_mb mb -> wf_mb mb' -> mbc_ok mb m0 -> mbc_ok mb' m0' -> other_units k c mb m0 mb' m0' -> 0 < c ->
  exists m m', after_kinematics mb m0 m /\ after_kinematics mb' m0' m' /\
    bodyPosW m' = bodyPosW m /\ bodyVelB m' = map (svscale k) (bodyVelB m) /\ bodyVelW m' = map (svscale k) (bodyVelW m) /\
    computeCoM mb' m' = computeCoM mb m /\ computeCoMVelocity mb' m' = rmap (vscale k) (computeCoMVelocity mb m) /\
    (forall com, computeCentroidalMomentum mb' m' com = rmap (svscale (c * k)) (computeCentroidalMomentum mb m com)) /\
    forall A0, exists n n', forwardAcceleration mb m A0 = Ok n /\ forwardAcceleration mb' m' (svscale (k * k) A0) = Ok n' /\
      bodyAccB n' = map (svscale (k * k)) (bodyAccB n) /\
      computeCoMAcceleration mb' n' = rmap (vscale (k * k)) (computeCoMAcceleration mb n) /\
      forall com v, computeCentroidalMomentumDot mb' n' com (vscale k v) = rmap (svscale (c * (k * k))) (computeCentroidalMomentumDot mb n com v).
Proof.
  intros W W' K K' U Cp.
  assert (KE : forall mb m0, wf_mb mb -> mbc_ok mb m0 -> exists m, after_kinematics mb m0 m /\ mbc_ok mb m).
  { intros b x Wb Kb. destruct (FK_total b x Wb Kb) as (m1 & E1 & F). pose proof (FK_mbc_ok _ _ _ Wb Kb F) as K1.
    destruct (FV_total b m1 Wb K1) as (m2 & E2 & V). exists m2. split; [exists m1; auto|exact (FV_mbc_ok _ _ _ K1 V)]. }
  destruct (KE mb m0 W K) as (m & A & Km). destruct (KE mb' m0' W' K') as (m' & A' & Km').
  pose proof (un_posW k c mb mb' m0 m m0' m' W W' K K' A A' U) as EP. pose proof (un_velB k c mb mb' m0 m m0' m' W W' K K' A A' U) as EV.
  pose proof (un_velW k c mb mb' m0 m m0' m' W W' K K' A A' U) as EW. pose proof (ou_bodies _ _ _ _ _ _ U) as EB.
  exists m, m'. do 5 (split; [assumption|]).
  split; [now apply (com_times c)|]. split; [now apply (comv_times k c)|]. split; [intro com; now apply momentum_times|].
  intro A0. destruct (FA_total mb m A0 W Km) as (n & E & P). destruct (FA_total mb' m' (svscale (k * k) A0) W' Km') as (n' & E' & P').
  pose proof (un_FA k c mb mb' m0 m m0' m' W W' K K' A A' U A0 n n' E E') as EA.
  assert (Q : bodyPosW n' = bodyPosW n /\ bodyVelB n' = map (svscale k) (bodyVelB n) /\ bodyVelW n' = map (svscale k) (bodyVelW n)).
  { rewrite (fa_frame _ _ _ _ P), (fa_frame _ _ _ _ P'). auto. }
  destruct Q as (Q1 & Q2 & Q3).
  exists n, n'. split; [exact E|]. split; [exact E'|]. split; [exact EA|].
  split; [now apply (coma_times k c)|]. intros com v. now apply momentum_dot_times.
Qed.
Lemma units_dynamics k c mb mb' m0 m m0' m' f f' s s' : wf_mb mb -> wf_mb mb' -> rigid_mb mb -> mbc_ok mb m0 -> config_ok mb m0 -> mbc_ok mb' m0' ->
  other_units k c mb m0 mb' m0' -> after_kinematics mb m0 m -> after_kinematics mb' m0' m' ->
  length f = nrBodies mb -> length f' = nrBodies mb' -> fd_ok mb s -> fd_ok mb' s' ->
  exists g n g' n' h h' d d', inverseDynamics mb f m = Ok (g, n) /\ inverseDynamics mb' f' m' = Ok (g', n') /\
    computeH mb m s = Ok h /\ computeH mb' m' s' = Ok h' /\ computeC mb m s = Ok d /\ computeC mb' m' s' = Ok d' /\
    jointTorque n' = numbers_times (c * (k * k)) (jointTorque n) /\ fd_C d' = map (Rmult (c * (k * k))) (fd_C d) /\
    forall r x, (r < mb_nrDof mb)%nat -> (x < mb_nrDof mb)%nat -> ment (fd_H h') r x = c * ment (fd_H h) r x.
Proof.
  intros W W' RM K C K' U A A' L L' O O'.
  pose proof (un_rigid k c mb mb' m0 m0' U RM) as RM'. pose proof (un_config k c mb mb' m0 m0' U C) as C'.
  pose proof (after_kin_state _ _ _ W RM K C A) as D. pose proof (after_kin_state _ _ _ W' RM' K' C' A') as D'.
  pose proof (ds_ok _ _ D) as Km. pose proof (ds_ok _ _ D') as Km'.
  destruct (ID_total mb m f W Km L) as (g & n & E1 & _). destruct (ID_total mb' m' f' W' Km' L') as (g' & n' & E1' & _).
  destruct (H_ok mb m s W Km (ds_rigid _ _ D) O) as (h & E2 & _). destruct (H_ok mb' m' s' W' Km' (ds_rigid _ _ D') O') as (h' & E2' & _).
  destruct (C_ok mb m s W Km O) as (d & E3 & _). destruct (C_ok mb' m' s' W' Km' O') as (d' & E3' & _).
  exists g, n, g', n', h, h', d, d'. do 6 (split; [assumption|]).
  rewrite (un_n k c mb mb' m0 m0' U) in L'.
  split; [exact (un_ID k c mb mb' m0 m m0' m' W W' K K' A A' U f f' g g' n n' L L' E1 E1')|].
  split; [exact (un_C k c mb mb' m0 m m0' m' W W' K K' A A' U s s' d d' O O' E3 E3')|].
  exact (un_H k c mb mb' m0 m m0' m' W W' K K' A A' U RM C s s' h h' O O' E2 E2').
Qed.
Lemma units_forward k c mb mb' m0 m m0' m' solve s s' : wf_mb mb -> wf_mb mb' -> rigid_mb mb -> mbc_ok mb m0 -> config_ok mb m0 -> mbc_ok mb' m0' ->
  other_units k c mb m0 mb' m0' -> 0 < c -> jointTorque m0' = numbers_times (c * (k * k)) (jointTorque m0) ->
  after_kinematics mb m0 m -> after_kinematics mb' m0' m' -> fd_ok mb s -> fd_ok mb' s' ->
  (forall b, In b (mb_bodies mb) -> inertia_pd (binertia b)) -> solver_ok solve ->
  exists h n h' n', forwardDynamics solve mb m s = Ok (h, n) /\ forwardDynamics solve mb' m' s' = Ok (h', n') /\
    alphaD n' = numbers_times (k * k) (alphaD n).
Proof.
  intros W W' RM K C K' U Cp ST A A' O O' PD SO.
  pose proof (un_rigid k c mb mb' m0 m0' U RM) as RM'. pose proof (un_config k c mb mb' m0 m0' U C) as C'.
  pose proof (after_kin_state _ _ _ W RM K C A) as D. pose proof (after_kin_state _ _ _ W' RM' K' C' A') as D'.
  assert (PD' : forall b, In b (mb_bodies mb') -> inertia_pd (binertia b)).
  { rewrite (ou_bodies _ _ _ _ _ _ U). intros b Hb. apply in_map_iff in Hb as (b0 & <- & Hb). intro u. rewrite rbim_times, svdot_scale_l.
    destruct (PD b0 Hb u) as [Q1 Q2]. split; [apply Rmult_le_pos; lra|]. intro Z. apply Q2. apply Rmult_integral in Z. destruct Z; lra. }
  destruct (FD_run mb m s solve W RM D O PD SO) as (s1 & s2 & h & n & _ & _ & _ & _ & E & _).
  destruct (FD_run mb' m' s' solve W' RM' D' O' PD' SO) as (t1 & t2 & h' & n' & _ & _ & _ & _ & E' & _).
  exists h, n, h', n'. split; [exact E|]. split; [exact E'|].
  exact (un_FD k c mb mb' m0 m m0' m' W W' K K' A A' U RM C solve s s' h h' n n' Cp ST O O' PD SO E E').
Qed.

(** ** Reversed velocities *)
Lemma body_times_1 b : body_times 1 b = b.
Proof.
  destruct b as [I nm]. destruct I as [ma h J]. destruct J. unfold body_times, sym_times, vscale. destruct h.
  cbn [binertia bname imass imom iine]. rewrite !Rmult_1_l. reflexivity.
Qed.
Lemma svscale_same x a : x = 1 -> svscale x a = a.
Proof. intros ->. svring. Qed.
Lemma numbers_same x v : x = 1 -> numbers_times x v = v.
Proof.
  intros ->. unfold numbers_times. rewrite <- (map_id v) at 2. apply map_ext. intro l. rewrite <- (map_id l) at 2.
  apply map_ext. intro y. apply Rmult_1_l.
Qed.
Lemma reversed_units mb m0 m0' : q m0' = q m0 -> alpha m0' = numbers_times (-1) (alpha m0) -> alphaD m0' = alphaD m0 ->
  gravity m0' = gravity m0 -> force m0' = force m0 -> other_units (-1) 1 mb m0 mb m0'.
Proof.
  intros Eq Ea Ed Eg Ef. constructor; auto.
  - rewrite <- (map_id (mb_bodies mb)) at 1. apply map_ext. intro b. symmetry. apply body_times_1.
  - rewrite numbers_same by ring. exact Ed.
  - rewrite Eg. generalize (gravity m0). v3ring.
  - rewrite Ef. rewrite <- (map_id (force m0)) at 1. apply map_ext. intro x. symmetry. apply svscale_same. ring.
Qed.
Lemma reversed_dynamics mb m0 m m0' m' f f' solve s s' : wf_mb mb -> rigid_mb mb -> mbc_ok mb m0 -> config_ok mb m0 -> mbc_ok mb m0' ->
  q m0' = q m0 -> alpha m0' = numbers_times (-1) (alpha m0) -> alphaD m0' = alphaD m0 ->
  gravity m0' = gravity m0 -> force m0' = force m0 -> jointTorque m0' = jointTorque m0 ->
  after_kinematics mb m0 m -> after_kinematics mb m0' m' -> length f = nrBodies mb -> length f' = nrBodies mb -> fd_ok mb s -> fd_ok mb s' ->
  (exists g n g' n', inverseDynamics mb f m = Ok (g, n) /\ inverseDynamics mb f' m' = Ok (g', n') /\ jointTorque n' = jointTorque n) /\
  ((forall b, In b (mb_bodies mb) -> inertia_pd (binertia b)) -> solver_ok solve ->
   exists h n h' n', forwardDynamics solve mb m s = Ok (h, n) /\ forwardDynamics solve mb m' s' = Ok (h', n') /\ alphaD n' = alphaD n).
Proof.
  intros W RM K C K' Eq Ea Ed Eg Ef Et A A' L L' O O'. pose proof (reversed_units mb m0 m0' Eq Ea Ed Eg Ef) as U. split.
  - destruct (units_dynamics (-1) 1 mb mb m0 m m0' m' f f' s s' W W RM K C K' U A A' L L' O O') as (g & n & g' & n' & h & h' & d & d' & E1 & E2 & _ & _ & _ & _ & E & _).
    exists g, n, g', n'. split; [exact E1|]. split; [exact E2|]. rewrite E. apply numbers_same. ring.
  - intros PD SO. assert (Et' : jointTorque m0' = numbers_times (1 * (-1 * -1)) (jointTorque m0)) by (rewrite numbers_same by ring; exact Et).
    destruct (units_forward (-1) 1 mb mb m0 m m0' m' solve s s' W W RM K C K' U Rlt_0_1 Et' A A' O O' PD SO) as (h & n & h' & n' & E1 & E2 & E).
    exists h, n, h', n'. split; [exact E1|]. split; [exact E2|]. rewrite E. apply numbers_same. ring.
Qed.
