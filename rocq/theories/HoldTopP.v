(** Held joints: the statements, and fixJoints. *)
From Coq Require Import Reals String ZArith Bool Arith List Lia Lra.
From Verif Require Import Res ResP SMap Vec VecP Sva SvaP Mat JointM MultiBodyM KinM DynM CoMM GraphM Spec SpecDyn SpecGraph SpecGraphOp SpecHold
  JointP JointFinP KinP MbP TreeP DynP DynHP DynCP DynFinP DynFin2P KinFinP BaseP JacTopP GraphP GraphWalkP GraphHistP GraphSimP GraphRmP GraphCopyP GraphSepP GraphApartP GraphFixP HoldP.
Import ListNotations.
Open Scope R_scope.

Lemma kin_exists mb m0 : wf_mb mb -> mbc_ok mb m0 -> exists m, after_kinematics mb m0 m /\ mbc_ok mb m.
Proof.
  intros W K. destruct (FK_total mb m0 W K) as (m1 & E1 & F). pose proof (FK_mbc_ok _ _ _ W K F) as K1.
  destruct (FV_total mb m1 W K1) as (m2 & E2 & V). exists m2. split; [exists m1; auto|exact (FV_mbc_ok _ _ _ K1 V)].
Qed.
Lemma com_same mb mb' m m' : same_tree mb mb' -> bodyPosW m' = bodyPosW m -> computeCoM mb' m' = computeCoM mb m.
Proof. intros T E. unfold computeCoM, com_step, nrBodies. now rewrite (st_bodies _ _ T), E. Qed.
Lemma comv_same mb mb' m m' : same_tree mb mb' -> bodyPosW m' = bodyPosW m -> bodyVelB m' = bodyVelB m -> computeCoMVelocity mb' m' = computeCoMVelocity mb m.
Proof. intros T E E'. unfold computeCoMVelocity, comv_step, nrBodies. now rewrite (st_bodies _ _ T), E, E'. Qed.

Lemma held_kinematics mb mb' m0 m0' : wf_mb mb -> wf_mb mb' -> same_tree mb mb' -> mbc_ok mb m0 -> mbc_ok mb' m0' -> held_state mb m0 mb' m0' ->
  exists m m', after_kinematics mb m0 m /\ after_kinematics mb' m0' m' /\
    bodyPosW m' = bodyPosW m /\ bodyVelB m' = bodyVelB m /\ bodyVelW m' = bodyVelW m /\
    computeCoM mb' m' = computeCoM mb m /\ computeCoMVelocity mb' m' = computeCoMVelocity mb m /\
    forall A0, exists n n', forwardAcceleration mb m A0 = Ok n /\ forwardAcceleration mb' m' A0 = Ok n' /\ bodyAccB n' = bodyAccB n.
Proof.
  intros W W' T K K' H. destruct (kin_exists mb m0 W K) as (m & A & Km). destruct (kin_exists mb' m0' W' K') as (m' & A' & Km').
  pose proof (hd_posW mb mb' m0 m m0' m' T W W' K K' A A' H) as EP. pose proof (hd_velB mb mb' m0 m m0' m' T W W' K K' A A' H) as EV.
  exists m, m'. split; [exact A|]. split; [exact A'|]. split; [exact EP|]. split; [exact EV|].
  split; [exact (hd_velW mb mb' m0 m m0' m' T W W' K K' A A' H)|].
  split; [now apply com_same|]. split; [now apply comv_same|].
  intro A0. destruct (FA_total mb m A0 W Km) as (n & E & _). destruct (FA_total mb' m' A0 W' Km') as (n' & E' & _).
  exists n, n'. split; [exact E|]. split; [exact E'|]. exact (hd_FA mb mb' m0 m m0' m' T W W' K K' A A' H A0 n n' E E').
Qed.
Lemma held_dynamics mb mb' m0 m m0' m' f f' s s' : wf_mb mb -> wf_mb mb' -> rigid_mb mb -> rigid_mb mb' -> same_tree mb mb' ->
  mbc_ok mb m0 -> config_ok mb m0 -> mbc_ok mb' m0' -> held_state mb m0 mb' m0' ->
  after_kinematics mb m0 m -> after_kinematics mb' m0' m' ->
  length f = nrBodies mb -> length f' = nrBodies mb' -> fd_ok mb s -> fd_ok mb' s' ->
  exists g n g' n' h h' c c', inverseDynamics mb f m = Ok (g, n) /\ inverseDynamics mb' f' m' = Ok (g', n') /\
    computeH mb m s = Ok h /\ computeH mb' m' s' = Ok h' /\ computeC mb m s = Ok c /\ computeC mb' m' s' = Ok c' /\
    bodyAccB n' = bodyAccB n /\ g' = g /\
    forall i, (i < nrBodies mb)%nat -> nth i (mb_joints mb') jd = nth i (mb_joints mb) jd ->
      nth i (jointTorque n') [] = nth i (jointTorque n) [] /\
      (forall a, (a < dofi mb i)%nat -> nth (pos mb' i + a) (fd_C c') 0 = nth (pos mb i + a) (fd_C c) 0) /\
      (forall j a b, (j < nrBodies mb)%nat -> nth j (mb_joints mb') jd = nth j (mb_joints mb) jd -> (a < dofi mb i)%nat -> (b < dofi mb j)%nat ->
         ment (fd_H h') (pos mb' i + a) (pos mb' j + b) = ment (fd_H h) (pos mb i + a) (pos mb j + b)).
Proof.
  intros W W' RM RM' T K C K' H A A' L L' O O'.
  pose proof (hd_config mb mb' m0 m0' T W W' K K' H C) as C'.
  pose proof (after_kin_state _ _ _ W RM K C A) as D. pose proof (after_kin_state _ _ _ W' RM' K' C' A') as D'.
  pose proof (ds_ok _ _ D) as Km. pose proof (ds_ok _ _ D') as Km'.
  destruct (ID_total mb m f W Km L) as (g & n & E1 & _). destruct (ID_total mb' m' f' W' Km' L') as (g' & n' & E1' & _).
  destruct (H_ok mb m s W Km (ds_rigid _ _ D) O) as (h & E2 & _). destruct (H_ok mb' m' s' W' Km' (ds_rigid _ _ D') O') as (h' & E2' & _).
  destruct (C_ok mb m s W Km O) as (c & E3 & _). destruct (C_ok mb' m' s' W' Km' O') as (c' & E3' & _).
  exists g, n, g', n', h, h', c, c'. do 6 (split; [assumption|]).
  pose proof (hd_n mb mb' T) as N. rewrite N in L'.
  destruct (hd_ID mb mb' m0 m m0' m' T W W' K K' A A' H f f' g g' n n' L L' E1 E1') as (EA & EG & ET).
  split; [exact EA|]. split; [exact EG|]. intros i Hi EJ. split; [now apply ET|]. split.
  - intros a La. exact (hd_C mb mb' m0 m m0' m' T W W' K K' A A' H s s' c c' O O' E3 E3' i a Hi EJ La).
  - intros j a b Hj EJ' La Lb. exact (hd_H mb mb' m0 m m0' m' T W W' K K' A A' H RM RM' C s s' h h' O O' E2 E2' i j a b Hi Hj EJ EJ' La Lb).
Qed.

(** ** fixJoints *)
Lemma make_sizes fuel root t axis X0 Xb s mb : makeMultiBody fuel root t axis X0 Xb s = Ok mb ->
  length (mb_joints mb) = nrBodies mb /\
  (forall i, (i < nrBodies mb)%nat -> nth_error (mb_posParam mb) i = Some (list_sum (map jparams (firstn i (mb_joints mb)))) /\
       nth_error (mb_posDof mb) i = Some (list_sum (map jdof (firstn i (mb_joints mb))))) /\
  mb_nrParams mb = list_sum (map jparams (mb_joints mb)) /\ mb_nrDof mb = list_sum (map jdof (mb_joints mb)).
Proof.
  destruct s as (h & g). unfold makeMultiBody. intro H. apply bind_Ok in H as (a & E1 & H). apply bind_Ok in H as (acc & E2 & H).
  pose proof (tree_len _ _ _ _ _ _ _ _ _ _ acc0 acc eq_refl E2) as LL.
  destruct (MultiBody_ctor_spec (ac_bodies acc) (ac_joints acc) (ac_pred acc) (ac_succ acc) (ac_parent acc) (ac_Xt acc))
    as (m1 & M1 & A1 & A2 & A3 & A4 & A5 & A6 & _ & _ & A7 & A8 & A9 & _); [lia|].
  rewrite M1 in H. injection H as <-. unfold nrBodies. rewrite A1, A2. rewrite LL, firstn_all in A8, A9.
  split; [congruence|]. split; [exact A7|]. auto.
Qed.
Definition same_or_fixed (names : list string) (j j' : Joint) : Prop := j' = fixj names false j.
Lemma fixj_ok names j : joint_ok j -> joint_ok (fixj names false j).
Proof. unfold fixj. destruct (hit_name names false j); auto. intros _. exists v0. constructor. Qed.
Lemma fixj_unit names j : joint_unit j -> joint_unit (fixj names false j).
Proof.
  unfold fixj. destruct (hit_name names false j); auto. intros _. exists unitZ. split; [cbv [vdot unitZ vx vy vz]; ring|].
  exact (built_ctor unitZ Fixed (jfwd j) (jname j)).
Qed.
Lemma fixed_list names l l' : Forall2 (same_or_fixed names) l l' -> l' = map (fixj names false) l.
Proof. induction 1; cbn [map]; congruence. Qed.
Lemma fixed_joints names mb mb' : fixed_mb (same_or_fixed names) mb mb' -> mb_joints mb' = fixl (fixj names false) (mb_joints mb).
Proof.
  intro F. pose proof (fm_root _ _ _ F) as R. pose proof (fm_joints _ _ _ F) as J. apply fixed_list in J.
  destruct (mb_joints mb) as [|j l], (mb_joints mb') as [|j' l']; cbn [hd_error tl fixl map] in *; try discriminate; auto.
  injection R as ->. now rewrite J.
Qed.
Lemma fixed_nth names mb mb' i : fixed_mb (same_or_fixed names) mb mb' -> (i < length (mb_joints mb))%nat ->
  nth i (mb_joints mb') jd = if Nat.eqb i 0 then nth i (mb_joints mb) jd else fixj names false (nth i (mb_joints mb) jd).
Proof.
  intros F Hi. rewrite (fixed_joints _ _ _ F). destruct (mb_joints mb) as [|j l]; [cbn in Hi; lia|].
  destruct i as [|i]; [reflexivity|]. cbn [fixl nth Nat.eqb]. cbn [length] in Hi. apply nth_map_lt. lia.
Qed.
Lemma fixed_in_joints names mb mb' (P : Joint -> Prop) : fixed_mb (same_or_fixed names) mb mb' -> (forall j, P j -> P (fixj names false j)) ->
  (forall j, In j (mb_joints mb) -> P j) -> forall j, In j (mb_joints mb') -> P j.
Proof.
  intros F S H j Hj. rewrite (fixed_joints _ _ _ F) in Hj. destruct (mb_joints mb) as [|j0 l]; [destruct Hj|].
  destruct Hj as [<-|Hj]; [apply H; now left|]. apply in_map_iff in Hj as (x & <- & Hx). apply S, H. now right.
Qed.
Lemma fix_run (s : GSt) names : names_ok_g s -> links_inside s -> (forall n, In n names -> In n (joint_names s)) ->
  exists s', fixJoints (snd s) names false (fst s) = Ok s' /\
    (forall fuel root t axis X0 Xb mb, makeMultiBody fuel root t axis X0 Xb s = Ok mb ->
       exists mb', makeMultiBody fuel root t axis X0 Xb s' = Ok mb' /\ fixed_mb (same_or_fixed names) mb mb').
Proof.
  intros NG LI HN. destruct (copy_start s NG LI) as ((h1 & g1) & E1 & SV & NG1 & LI1 & GO). unfold fixJoints. rewrite E1. cbn [bind].
  assert (HN1 : forall n, In n names -> mfind (gJoint g1) n <> None).
  { intros n Hn. apply (ng_in_names (h1, g1) n NG1). rewrite (sv_joints _ _ SV). auto. }
  rewrite fix_names_run by exact HN1. cbn [bind fst snd].
  destruct (fix_nodes_run names false (gNodes g1) h1) as (h3 & E3 & AF). { apply (ng_node _ NG1). } { eapply NoDup_map_inv, (ng_bodies _ NG1). }
  rewrite E3. cbn [bind]. exists (h3, g1). split; [reflexivity|]. pose proof AF as (EJ & EL & EB & EA).
  intros fuel root t axis X0 Xb mb H. rewrite <- (sv_make _ _ SV) in H.
  destruct (make_fix (fixj names false) h1 h3 g1 g1 fuel root t axis X0 Xb) with (mb := mb) as (mb' & M & FM); auto.
  { intros a Ha. rewrite EA, (proj2 (inb_iff _ _) Ha). apply map_ext. intro e. apply fix_arc_eq. }
  { intros n a Ha. exact (proj1 (proj1 (ng_body _ NG1 n a) Ha)). }
  exists mb'. split; [exact M|]. exact FM.
Qed.
Lemma fix_held (s : GSt) names fuel root t axis X0 Xb mb : names_ok_g s -> links_inside s -> (forall n, In n names -> In n (joint_names s)) ->
  makeMultiBody fuel root t axis X0 Xb s = Ok mb -> wf_mb mb ->
  exists s' mb', fixJoints (snd s) names false (fst s) = Ok s' /\ makeMultiBody fuel root t axis X0 Xb s' = Ok mb' /\
    wf_mb mb' /\ (rigid_mb mb -> rigid_mb mb') /\ same_tree mb mb' /\
    (forall i, (i < nrBodies mb)%nat -> i = 0%nat \/ ~ In (jname (nth i (mb_joints mb) jd)) names -> nth i (mb_joints mb') jd = nth i (mb_joints mb) jd) /\
    forall m0 m0', gravity m0' = gravity m0 -> force m0' = force m0 ->
      (forall i, (i < nrBodies mb)%nat -> i = 0%nat \/ ~ In (jname (nth i (mb_joints mb) jd)) names ->
         nth i (q m0') [] = nth i (q m0) [] /\ nth i (alpha m0') [] = nth i (alpha m0) [] /\ nth i (alphaD m0') [] = nth i (alphaD m0) []) ->
      (forall i, (0 < i < nrBodies mb)%nat -> In (jname (nth i (mb_joints mb) jd)) names ->
         let j := nth i (mb_joints mb) jd in jmimic j = false /\ nth i (q m0) [] = zeroParam j /\ nth i (alpha m0) [] = zeroDof j /\ nth i (alphaD m0) [] = zeroDof j) ->
      held_state mb m0 mb' m0'.
Proof.
  intros NG LI HN M W. destruct (fix_run s names NG LI HN) as (s' & E & HM). destruct (HM _ _ _ _ _ _ _ M) as (mb' & M' & F).
  exists s', mb'. split; [exact E|]. split; [exact M'|]. destruct (make_sizes _ _ _ _ _ _ _ _ M') as (L1 & L2 & L3 & L4).
  assert (NB : nrBodies mb' = nrBodies mb) by (unfold nrBodies; now rewrite (fm_bodies _ _ _ F)).
  assert (W' : wf_mb mb').
  { destruct W. constructor; rewrite ?NB, ?(fm_pred _ _ _ F), ?(fm_succ _ _ _ F), ?(fm_parent _ _ _ F), ?(fm_Xt _ _ _ F) in *; auto.
    - apply (fixed_in_joints names mb mb' joint_ok F (fixj_ok names)). assumption.
    - intros i Hi. apply L2; lia.
    - intros i Hi. apply L2; lia. }
  assert (NF : forall i, (i < nrBodies mb)%nat -> i = 0%nat \/ ~ In (jname (nth i (mb_joints mb) jd)) names -> nth i (mb_joints mb') jd = nth i (mb_joints mb) jd).
  { intros i Hi HK. rewrite (fixed_nth names mb mb' i F) by (rewrite (wf_joints mb W); auto). destruct HK as [->|HK]; [reflexivity|].
    destruct (Nat.eqb i 0); auto. apply (proj2 (fixj_spec names _)). exact HK. }
  split; [exact W'|]. split; [|split; [|split; [exact NF|]]].
  - intros [R1 R2]. split; [|now rewrite (fm_Xt _ _ _ F)]. apply (fixed_in_joints names mb mb' joint_unit F (fixj_unit names) R1).
  - constructor; [apply (fm_bodies _ _ _ F)|apply (fm_pred _ _ _ F)|apply (fm_Xt _ _ _ F)].
  - intros m0 m0' Eg Ef HK HH. split; [exact Eg|]. split; [exact Ef|]. intros i Hi.
    destruct (in_dec string_dec (jname (nth i (mb_joints mb) jd)) names) as [IN|NI].
    + destruct (Nat.eq_dec i 0) as [->|Ni].
      * destruct (HK 0%nat Hi (or_introl eq_refl)) as (Q1 & Q2 & Q3). apply kept; auto.
      * destruct (HH i ltac:(lia) IN) as (NM & Q1 & Q2 & Q3). pose proof (wf_joint_nth mb i W Hi) as JO.
        assert (ZD : forall j x, In x (zeroDof j) -> x = 0).
        { intros j x. unfold zeroDof, ZeroDof. destruct (jtyp j); cbn [In]; intuition. }
        apply held.
        -- rewrite (fixed_nth names mb mb' i F) by (rewrite (wf_joints mb W); auto). destruct (Nat.eqb_spec i 0); [lia|].
           apply (proj1 (fixj_spec names _)). exact IN.
        -- rewrite Q1. apply (pose_zero _ JO NM).
        -- rewrite Q2. apply ZD.
        -- rewrite Q3. apply ZD.
    + destruct (HK i Hi (or_intror NI)) as (Q1 & Q2 & Q3). apply kept; auto.
Qed.
