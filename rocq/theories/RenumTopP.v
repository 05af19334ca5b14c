(** Bodies numbered in another way: the statements. *)
From Coq Require Import Reals String ZArith Bool Arith List Lia Lra Permutation.
From Verif Require Import Res ResP SMap Vec VecP Sva SvaP Mat JointM MultiBodyM KinM DynM CoMM MomM Spec SpecDyn SpecCoM SpecRenum
  JointP JointFinP KinP MbP TreeP DynP DynHP DynCP DynFinP DynFin2P KinFinP BaseP Newton2P CoMTopP MomP MomTopP RenumP.
Import ListNotations.
Open Scope R_scope.

(** ** Sums over the bodies *)
Lemma mean_loop n (body : nat -> R * V3 -> res (R * V3)) (a : nat -> R) (g : nat -> V3) :
  (forall i s, (i < n)%nat -> body i s = Ok (fst s + a i, vadd (snd s) (g i))) -> for_up n body (0, v0) = Ok (rsum n a, vsum3 n g).
Proof.
  intro B. destruct (for_up_inv (fun i s => fst s = rsum i a /\ snd s = vsum3 i g) body n (0, v0)) as ((x & v) & E & E1 & E2).
  - split; reflexivity.
  - intros i (x & v) Hi (E1 & E2). rewrite B by lia. eexists. split; [reflexivity|]. cbn [fst snd] in *. subst. split; reflexivity.
  - rewrite E. cbn [fst snd] in *. now subst.
Qed.
Section Sums.
Variables (s : nat -> nat) (n : nat).
Hypothesis I : forall i, (i < n)%nat -> (s i < n)%nat.
Hypothesis J : forall i j, (i < n)%nat -> (j < n)%nat -> s i = s j -> i = j.
Lemma rsum_same f f' : (forall i, (i < n)%nat -> f' (s i) = f i) -> rsum n f' = rsum n f.
Proof. intro E. rewrite (rsum_renum n s f' I J). now apply rsum_ext. Qed.
Lemma vsum3_same f f' : (forall i, (i < n)%nat -> f' (s i) = f i) -> vsum3 n f' = vsum3 n f.
Proof. intro E. unfold vsum3. f_equal; apply rsum_same; intros; now rewrite E. Qed.
Lemma vsum_same f f' : (forall i, (i < n)%nat -> f' (s i) = f i) -> vsum n f' = vsum n f.
Proof.
  intro E. apply svdot_ext. intro u. rewrite !vsum_dot. apply rsum_same. intros. now rewrite E.
Qed.
Lemma mean_same (b b' : nat -> R * V3 -> res (R * V3)) a a' g g' :
  (forall i s, (i < n)%nat -> b i s = Ok (fst s + a i, vadd (snd s) (g i))) ->
  (forall i s, (i < n)%nat -> b' i s = Ok (fst s + a' i, vadd (snd s) (g' i))) ->
  (forall i, (i < n)%nat -> a' (s i) = a i) -> (forall i, (i < n)%nat -> g' (s i) = g i) ->
  for_up n b' (0, v0) = for_up n b (0, v0).
Proof. intros B B' EA EG. rewrite (mean_loop n b a g B), (mean_loop n b' a' g' B'). now rewrite (rsum_same a a'), (vsum3_same g g'). Qed.
End Sums.
Section Loops.
Variables (s : nat -> nat) (mb mb' : MultiBody) (m m' : MBC).
Hypothesis U : renumbered s mb mb'.
Let n := nrBodies mb.
Hypothesis LX : length (bodyPosW m) = n. Hypothesis LX' : length (bodyPosW m') = n.
Hypothesis LV : length (bodyVelB m) = n. Hypothesis LV' : length (bodyVelB m') = n.
Hypothesis EX : forall i, (i < n)%nat -> nth (s i) (bodyPosW m') ptid = nth i (bodyPosW m) ptid.
Hypothesis EV : forall i, (i < n)%nat -> nth (s i) (bodyVelB m') sv0 = nth i (bodyVelB m) sv0.
Let I := rn_in _ _ _ U. Let J := rn_inj _ _ _ U.
Lemma lp_B i : (i < n)%nat -> nth (s i) (mb_bodies mb') bd = nth i (mb_bodies mb) bd.
Proof. intro Hi. pose proof (rn_body _ _ _ U i Hi) as E. unfold n, nrBodies in Hi. rewrite (nth_error_nth' _ bd Hi) in E. exact (nth_error_nth _ _ bd E). Qed.
Lemma lp_n : nrBodies mb' = n. Proof. exact (rn_n _ _ _ U). Qed.
Lemma lp_get i : (i < n)%nat -> get (mb_bodies mb) i = Ok (nth i (mb_bodies mb) bd).
Proof. intro H. now apply get_nth. Qed.
Lemma lp_get' i : (i < n)%nat -> get (mb_bodies mb') i = Ok (nth i (mb_bodies mb') bd).
Proof. intro H. apply get_nth. unfold n in H. rewrite <- (rn_n _ _ _ U) in H. exact H. Qed.
Lemma lp_com : computeCoM mb' m' = computeCoM mb m.
Proof.
  unfold computeCoM. rewrite lp_n. fold n. f_equal.
  apply (mean_same s n I J _ _ (fun i => imass (binertia (nth i (mb_bodies mb) bd))) (fun i => imass (binertia (nth i (mb_bodies mb') bd)))
    (fun i => let b := nth i (mb_bodies mb) bd in let X := nth i (bodyPosW m) ptid in
       trR (ptmul (pttr (imom (binertia b))) (mkPT (rotE X) (vscale (imass (binertia b)) (trR X)))))
    (fun i => let b := nth i (mb_bodies mb') bd in let X := nth i (bodyPosW m') ptid in
       trR (ptmul (pttr (imom (binertia b))) (mkPT (rotE X) (vscale (imass (binertia b)) (trR X)))))).
  - intros i t Hi. unfold com_step. rewrite lp_get, (get_nth _ i ptid) by lia. reflexivity.
  - intros i t Hi. unfold com_step. rewrite lp_get', (get_nth _ i ptid) by lia. reflexivity.
  - intros i Hi. now rewrite lp_B.
  - intros i Hi. cbv zeta. now rewrite lp_B, EX.
Qed.
Lemma lp_comv : computeCoMVelocity mb' m' = computeCoMVelocity mb m.
Proof.
  unfold computeCoMVelocity. rewrite lp_n. fold n. f_equal.
  apply (mean_same s n I J _ _ (fun i => imass (binertia (nth i (mb_bodies mb) bd))) (fun i => imass (binertia (nth i (mb_bodies mb') bd)))
    (fun i => let b := nth i (mb_bodies mb) bd in let X := nth i (bodyPosW m) ptid in let V := nth i (bodyVelB m) sv0 in
       slin (ptm (mkPT (mtr (rotE X)) (imom (binertia b))) (mkSV (sang V) (vscale (imass (binertia b)) (slin V)))))
    (fun i => let b := nth i (mb_bodies mb') bd in let X := nth i (bodyPosW m') ptid in let V := nth i (bodyVelB m') sv0 in
       slin (ptm (mkPT (mtr (rotE X)) (imom (binertia b))) (mkSV (sang V) (vscale (imass (binertia b)) (slin V)))))).
  - intros i t Hi. unfold comv_step. rewrite lp_get, (get_nth _ i ptid), (get_nth _ i sv0) by lia. reflexivity.
  - intros i t Hi. unfold comv_step. rewrite lp_get', (get_nth _ i ptid), (get_nth _ i sv0) by lia. reflexivity.
  - intros i Hi. now rewrite lp_B.
  - intros i Hi. cbv zeta. now rewrite lp_B, EX, EV.
Qed.
Lemma lp_momentum com : computeCentroidalMomentum mb' m' com = computeCentroidalMomentum mb m com.
Proof.
  unfold computeCentroidalMomentum. rewrite lp_n. fold n.
  erewrite (vsum_loop_sv n) by (intros i t Hi; rewrite lp_get', (get_nth (bodyVelB m') i sv0), (get_nth (bodyPosW m') i ptid) by lia; cbn [bind]; reflexivity).
  erewrite (vsum_loop_sv n) by (intros i t Hi; rewrite lp_get, (get_nth (bodyVelB m) i sv0), (get_nth (bodyPosW m) i ptid) by lia; cbn [bind]; reflexivity).
  f_equal. apply (vsum_same s n I J). intros i Hi. cbv beta. now rewrite lp_B, EX, EV.
Qed.
Hypothesis LW : length (bodyVelW m) = n. Hypothesis LW' : length (bodyVelW m') = n.
Hypothesis LA : length (bodyAccB m) = n. Hypothesis LA' : length (bodyAccB m') = n.
Hypothesis EW : forall i, (i < n)%nat -> nth (s i) (bodyVelW m') sv0 = nth i (bodyVelW m) sv0.
Hypothesis EA : forall i, (i < n)%nat -> nth (s i) (bodyAccB m') sv0 = nth i (bodyAccB m) sv0.
Lemma lp_coma : computeCoMAcceleration mb' m' = computeCoMAcceleration mb m.
Proof.
  unfold computeCoMAcceleration. rewrite lp_n. fold n. f_equal.
  pose (g := fun (b : Body) (X : PT) (VW A V : SV) => let Y := mkPT (mtr (rotE X)) (imom (binertia b)) in
    vadd (slin (ptm Y (mkSV (sang A) (vscale (imass (binertia b)) (slin A)))))
         (slin (scross (mkSV (sang VW) v0) (ptm Y (mkSV (sang V) (vscale (imass (binertia b)) (slin V))))))).
  apply (mean_same s n I J _ _ (fun i => imass (binertia (nth i (mb_bodies mb) bd))) (fun i => imass (binertia (nth i (mb_bodies mb') bd)))
    (fun i => g (nth i (mb_bodies mb) bd) (nth i (bodyPosW m) ptid) (nth i (bodyVelW m) sv0) (nth i (bodyAccB m) sv0) (nth i (bodyVelB m) sv0))
    (fun i => g (nth i (mb_bodies mb') bd) (nth i (bodyPosW m') ptid) (nth i (bodyVelW m') sv0) (nth i (bodyAccB m') sv0) (nth i (bodyVelB m') sv0))).
  - intros i t Hi. unfold coma_step, g. rewrite lp_get, (get_nth _ i ptid), !(get_nth _ i sv0) by lia. cbn [bind]. cbv zeta. now rewrite vadd_assoc3.
  - intros i t Hi. unfold coma_step, g. rewrite lp_get', (get_nth _ i ptid), !(get_nth _ i sv0) by lia. cbn [bind]. cbv zeta. now rewrite vadd_assoc3.
  - intros i Hi. now rewrite lp_B.
  - intros i Hi. cbv beta. now rewrite lp_B, EX, EV, EW, EA.
Qed.
Lemma lp_momentum_dot com v : computeCentroidalMomentumDot mb' m' com v = computeCentroidalMomentumDot mb m com v.
Proof.
  unfold computeCentroidalMomentumDot. rewrite lp_n. fold n.
  erewrite (vsum_loop_sv n) by (intros i t Hi; rewrite lp_get', !(get_nth _ i sv0), (get_nth (bodyPosW m') i ptid) by lia; cbn [bind]; reflexivity).
  erewrite (vsum_loop_sv n) by (intros i t Hi; rewrite lp_get, !(get_nth _ i sv0), (get_nth (bodyPosW m) i ptid) by lia; cbn [bind]; reflexivity).
  f_equal. apply (vsum_same s n I J). intros i Hi. cbv beta. now rewrite lp_B, EX, EV, EA.
Qed.
End Loops.

Lemma renum_kinematics s mb mb' m0 m0' : wf_mb mb -> wf_mb mb' -> mbc_ok mb m0 -> mbc_ok mb' m0' -> renumbered s mb mb' -> renumbered_state s mb m0 m0' ->
  exists m m', after_kinematics mb m0 m /\ after_kinematics mb' m0' m' /\
    (forall i, (i < nrBodies mb)%nat -> nth (s i) (bodyPosW m') ptid = nth i (bodyPosW m) ptid /\
       nth (s i) (bodyVelB m') sv0 = nth i (bodyVelB m) sv0 /\ nth (s i) (bodyVelW m') sv0 = nth i (bodyVelW m) sv0) /\
    computeCoM mb' m' = computeCoM mb m /\ computeCoMVelocity mb' m' = computeCoMVelocity mb m /\
    (forall com, computeCentroidalMomentum mb' m' com = computeCentroidalMomentum mb m com) /\
    forall A0, exists n n', forwardAcceleration mb m A0 = Ok n /\ forwardAcceleration mb' m' A0 = Ok n' /\
      (forall i, (i < nrBodies mb)%nat -> nth (s i) (bodyAccB n') sv0 = nth i (bodyAccB n) sv0) /\
      computeCoMAcceleration mb' n' = computeCoMAcceleration mb n /\
      forall com v, computeCentroidalMomentumDot mb' n' com v = computeCentroidalMomentumDot mb n com v.
Proof.
  intros W W' K K' U S.
  destruct (FK_total mb m0 W K) as (m1 & E1 & F). pose proof (FK_mbc_ok _ _ _ W K F) as K1.
  destruct (FV_total mb m1 W K1) as (m & E2 & V). pose proof (FV_mbc_ok _ _ _ K1 V) as Km.
  destruct (FK_total mb' m0' W' K') as (m1' & E1' & F'). pose proof (FK_mbc_ok _ _ _ W' K' F') as K1'.
  destruct (FV_total mb' m1' W' K1') as (m' & E2' & V'). pose proof (FV_mbc_ok _ _ _ K1' V') as Km'.
  assert (A : after_kinematics mb m0 m) by (exists m1; auto). assert (A' : after_kinematics mb' m0' m') by (exists m1'; auto).
  pose proof (re_pos s mb mb' m0 m m0' m' W W' K K' A A' U S) as EX.
  pose proof (re_vb s mb mb' m0 m m0' m' W W' K K' A A' U S) as EV. unfold vb in EV.
  pose proof (re_vw s mb mb' m0 m m0' m' W W' K K' A A' U S) as EW.
  pose proof (rn_n _ _ _ U) as N.
  pose proof (ok_bodyPosW _ _ Km) as LX. pose proof (ok_bodyPosW _ _ Km') as LX'. pose proof (ok_bodyVelB _ _ Km) as LV. pose proof (ok_bodyVelB _ _ Km') as LV'.
  pose proof (ok_bodyVelW _ _ Km) as LW. pose proof (ok_bodyVelW _ _ Km') as LW'. pose proof (ok_bodyAccB _ _ Km) as LA. pose proof (ok_bodyAccB _ _ Km') as LA'.
  rewrite N in *.
  exists m, m'. split; [exact A|]. split; [exact A'|]. split; [auto|].
  split; [now apply (lp_com s)|]. split; [now apply (lp_comv s)|]. split; [intro com; now apply (lp_momentum s)|].
  intro A0. destruct (FA_total mb m A0 W Km) as (n & E & P). destruct (FA_total mb' m' A0 W' Km') as (n' & E' & P').
  pose proof (re_FA s mb mb' m0 m m0' m' W W' K K' A A' U S A0 n n' E E') as EA.
  pose proof (fa_len _ _ _ _ P) as Ln. pose proof (fa_len _ _ _ _ P') as Ln'. rewrite LA in Ln. rewrite LA' in Ln'.
  assert (Q : bodyPosW n' = bodyPosW m' /\ bodyVelB n' = bodyVelB m' /\ bodyVelW n' = bodyVelW m') by (rewrite (fa_frame _ _ _ _ P'); auto).
  assert (Q' : bodyPosW n = bodyPosW m /\ bodyVelB n = bodyVelB m /\ bodyVelW n = bodyVelW m) by (rewrite (fa_frame _ _ _ _ P); auto).
  destruct Q as (Q1 & Q2 & Q3). destruct Q' as (Q1' & Q2' & Q3').
  exists n, n'. split; [exact E|]. split; [exact E'|]. split; [exact EA|].
  split; [apply (lp_coma s); rewrite ?Q1, ?Q2, ?Q3, ?Q1', ?Q2', ?Q3'; try assumption; auto|]. intros com v. apply (lp_momentum_dot s); rewrite ?Q1, ?Q2, ?Q3, ?Q1', ?Q2', ?Q3'; auto.
Qed.

Lemma renum_rigid s mb mb' : wf_mb mb -> wf_mb mb' -> renumbered s mb mb' -> rigid_mb mb -> rigid_mb mb'.
Proof.
  intros W W' U [R1 R2]. split.
  - intros j H. apply In_nth_error in H as (i' & H).
    assert (Hi : (i' < nrBodies mb)%nat) by (rewrite <- (rn_n _ _ _ U), <- (wf_joints mb' W'); apply nth_error_Some; congruence).
    destruct (re_onto s mb mb' U i' Hi) as (i & Li & <-). rewrite (rn_joint _ _ _ U i Li) in H. apply R1. now apply nth_error_In in H.
  - intros X H. apply In_nth_error in H as (i' & H).
    assert (Hi : (i' < nrBodies mb)%nat) by (rewrite <- (rn_n _ _ _ U), <- (wf_Xt_len mb' W'); apply nth_error_Some; congruence).
    destruct (re_onto s mb mb' U i' Hi) as (i & Li & <-). rewrite (rn_Xt _ _ _ U i Li) in H. apply R2. now apply nth_error_In in H.
Qed.
Lemma renum_pd s mb mb' : renumbered s mb mb' -> (forall b, In b (mb_bodies mb) -> inertia_pd (binertia b)) ->
  forall b, In b (mb_bodies mb') -> inertia_pd (binertia b).
Proof.
  intros U PD b H. apply In_nth_error in H as (i' & H).
  assert (Hi : (i' < nrBodies mb)%nat) by (rewrite <- (rn_n _ _ _ U); unfold nrBodies; apply nth_error_Some; congruence).
  destruct (re_onto s mb mb' U i' Hi) as (i & Li & <-). rewrite (rn_body _ _ _ U i Li) in H. apply PD. now apply nth_error_In in H.
Qed.
Lemma renum_dynamics s mb mb' m0 m m0' m' f f' o o' : wf_mb mb -> wf_mb mb' -> rigid_mb mb -> mbc_ok mb m0 -> config_ok mb m0 -> mbc_ok mb' m0' ->
  renumbered s mb mb' -> renumbered_state s mb m0 m0' -> after_kinematics mb m0 m -> after_kinematics mb' m0' m' ->
  length f = nrBodies mb -> length f' = nrBodies mb' -> fd_ok mb o -> fd_ok mb' o' ->
  exists g n g' n' h h' d d', inverseDynamics mb f m = Ok (g, n) /\ inverseDynamics mb' f' m' = Ok (g', n') /\
    computeH mb m o = Ok h /\ computeH mb' m' o' = Ok h' /\ computeC mb m o = Ok d /\ computeC mb' m' o' = Ok d' /\
    forall i, (i < nrBodies mb)%nat -> nth (s i) (jointTorque n') [] = nth i (jointTorque n) [] /\
      forall a, (a < dofi mb i)%nat ->
        nth (pos mb' (s i) + a) (fd_C d') 0 = nth (pos mb i + a) (fd_C d) 0 /\
        forall j b, (j < nrBodies mb)%nat -> (b < dofi mb j)%nat ->
          ment (fd_H h') (pos mb' (s i) + a) (pos mb' (s j) + b) = ment (fd_H h) (pos mb i + a) (pos mb j + b).
Proof.
  intros W W' RM K C K' U S A A' LF LF' O O'.
  pose proof (renum_rigid s mb mb' W W' U RM) as RM'. pose proof (re_config s mb mb' m0 m0' W W' K U S C) as C'.
  pose proof (after_kin_state _ _ _ W RM K C A) as D. pose proof (after_kin_state _ _ _ W' RM' K' C' A') as D'.
  pose proof (ds_ok _ _ D) as Km. pose proof (ds_ok _ _ D') as Km'.
  destruct (ID_total mb m f W Km LF) as (g & n & E1 & _). destruct (ID_total mb' m' f' W' Km' LF') as (g' & n' & E1' & _).
  destruct (H_ok mb m o W Km (ds_rigid _ _ D) O) as (h & E2 & _). destruct (H_ok mb' m' o' W' Km' (ds_rigid _ _ D') O') as (h' & E2' & _).
  destruct (C_ok mb m o W Km O) as (d & E3 & _). destruct (C_ok mb' m' o' W' Km' O') as (d' & E3' & _).
  exists g, n, g', n', h, h', d, d'. do 6 (split; [assumption|]). intros i Hi.
  split; [exact (proj1 (re_ID s mb mb' m0 m m0' m' W W' K K' A A' U S f f' g g' n n' LF LF' E1 E1' i Hi))|]. intros a Ha.
  split; [exact (re_C s mb mb' m0 m m0' m' W W' K K' A A' U S o o' d d' O O' E3 E3' i a Hi Ha)|]. intros j b Hj Hb.
  exact (re_H s mb mb' m0 m m0' m' W W' K K' A A' U S RM RM' C o o' h h' O O' E2 E2' i j a b Hi Hj Ha Hb).
Qed.

Lemma renum_forward s mb mb' m0 m m0' m' solve o o' : wf_mb mb -> wf_mb mb' -> rigid_mb mb -> mbc_ok mb m0 -> config_ok mb m0 -> mbc_ok mb' m0' ->
  renumbered s mb mb' -> renumbered_state s mb m0 m0' ->
  (forall i, (i < nrBodies mb)%nat -> nth (s i) (jointTorque m0') [] = nth i (jointTorque m0) []) ->
  after_kinematics mb m0 m -> after_kinematics mb' m0' m' -> fd_ok mb o -> fd_ok mb' o' ->
  (forall b, In b (mb_bodies mb) -> inertia_pd (binertia b)) -> solver_ok solve ->
  exists h n h' n', forwardDynamics solve mb m o = Ok (h, n) /\ forwardDynamics solve mb' m' o' = Ok (h', n') /\
    forall i, (i < nrBodies mb)%nat -> nth (s i) (alphaD n') [] = nth i (alphaD n) [].
Proof.
  intros W W' RM K C K' U S ST A A' O O' PD SO.
  pose proof (renum_rigid s mb mb' W W' U RM) as RM'. pose proof (re_config s mb mb' m0 m0' W W' K U S C) as C'.
  pose proof (after_kin_state _ _ _ W RM K C A) as D. pose proof (after_kin_state _ _ _ W' RM' K' C' A') as D'.
  pose proof (renum_pd s mb mb' U PD) as PD'. pose proof (rn_n _ _ _ U) as N.
  destruct (FD_then_ID mb' m0' m' o' (repeat sv0 (nrBodies mb')) solve W' RM' K' C' A' O' ltac:(apply repeat_length) PD' SO)
    as (h' & n' & g' & n2' & E' & Fr' & _ & EI' & ET').
  destruct (FD_run mb' m' o' solve W' RM' D' O' PD' SO) as (x1 & x2 & x3 & x4 & _ & _ & _ & _ & E0 & _ & _ & Sd' & _).
  rewrite E' in E0. injection E0 as <- <-.
  destruct (FD_run mb m o solve W RM D O PD SO) as (t1 & t2 & h & n & E1 & E2 & P1 & P2 & E & _ & _ & Sd & _ & _ & Hx).
  (* the accelerations of mb', numbered as in mb *)
  pose (y := map (fun i => nth (s i) (alphaD n') []) (seq 0 (nrBodies mb))).
  assert (Hy : forall i, (i < nrBodies mb)%nat -> nth i y [] = nth (s i) (alphaD n') []).
  { intros i Hi. unfold y. rewrite (nth_map_lt _ _ _ 0%nat) by (rewrite seq_length; lia). now rewrite seq_nth. }
  assert (Sy : sized mb jdof y).
  { unfold sized. pose proof (wf_joints mb W) as LJ.
    apply (nth_ext _ _ 0%nat 0%nat); [unfold y; rewrite !map_length, seq_length; auto|]. intros i Hi.
    assert (Hi' : (i < nrBodies mb)%nat) by (unfold y in Hi; rewrite !map_length, seq_length in Hi; exact Hi).
    rewrite (nth_map_lt _ _ _ []) by (unfold y; rewrite map_length, seq_length; auto). rewrite (nth_map_lt _ _ _ jd) by lia.
    rewrite Hy by auto. rewrite (sized_nth mb' jdof (alphaD n') (s i) Sd') by (rewrite (wf_nrJoints mb' W'), N; apply (rn_in _ _ _ U); auto).
    f_equal. exact (re_joint s mb mb' W U i Hi'). }
  exists h, n, h', n'. split; [exact E|]. split; [exact E'|].
  assert (Z : alphaD n = y); [|intros i Hi; now rewrite Z, Hy].
  assert (KA : forall mb m x, mbc_ok mb m -> sized mb jdof x -> mbc_ok mb (with_alphaD x m)).
  { intros b z x Kb Sx. destruct Kb. constructor; auto. }
  assert (UA : renumbered_state s mb (with_alphaD y m0) (with_alphaD (alphaD n') m0')).
  { destruct S. constructor; auto. intros i Hi. cbn [alphaD with_alphaD]. symmetry. now apply Hy. }
  pose proof (after_kin_alphaD mb m0 m y A) as AA. pose proof (after_kin_alphaD mb' m0' m' (alphaD n') A') as AA'.
  pose proof (KA _ _ _ K Sy) as KK. pose proof (KA _ _ _ K' Sd') as KK'.
  rewrite Fr' in EI'.
  pose proof (dyn_state_with_alphaD mb m y D Sy) as Dy.
  destruct (ID_total mb (with_alphaD y m) (repeat sv0 (nrBodies mb)) W (ds_ok _ _ Dy) ltac:(apply repeat_length)) as (g & n2 & EI & PI).
  pose proof (re_ID s mb mb' _ _ _ _ W W' KK KK' AA AA' U UA _ _ g g' n2 n2' ltac:(apply repeat_length) ltac:(apply repeat_length) EI EI') as ET.
  assert (EQ : jointTorque n2 = jointTorque m).
  { destruct (kin_keeps mb m0 m W K A) as (_ & _ & _ & _ & _ & Et). destruct (kin_keeps mb' m0' m' W' K' A') as (_ & _ & _ & _ & _ & Et').
    pose proof (sized_length _ _ _ (ok_jointTorque _ _ (ip_ok _ _ _ _ PI))) as L1. pose proof (sized_length _ _ _ (ok_jointTorque _ _ (ds_ok _ _ D))) as L2.
    pose proof (wf_nrJoints mb W) as NJ.
    apply (nth_ext _ _ [] []); [congruence|]. intros i Hi. rewrite L1, NJ in Hi. rewrite <- (proj1 (ET i Hi)), ET', Et, Et'. now apply ST. }
  apply (flat_inj mb); auto.
  apply (spd_inj (mb_nrDof mb) (ment (fd_H t1)) _ _ (H_pd mb m o t1 W RM D P1 PD)).
  intros r Hr. rewrite Hx by auto.
  pose proof (hp_H _ _ _ _ P1) as HH. pose proof (cp_C _ _ _ _ P2) as HC.
  pose proof (id_H_C mb (with_alphaD y m) (fd_H t1) (fd_C t2) g n2 W Dy HH HC PI r Hr) as EF.
  rewrite EQ in EF. cbn [alphaD with_alphaD] in EF. rewrite EF. ring.
Qed.
