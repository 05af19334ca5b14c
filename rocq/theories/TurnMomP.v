(** The acceleration of the centre of mass and the centroidal momentum with held and with turned joints. *)
From Coq Require Import Reals String ZArith Bool Arith List Lia Lra.
From Verif Require Import Res ResP SMap Vec VecP Sva SvaP Mat JointM MultiBodyM KinM DynM CoMM MomM Spec SpecDyn SpecHold SpecTurn
  JointP KinP MbP TreeP DynP KinFinP BaseP HoldP HoldTopP TurnP TurnTopP.
Import ListNotations.
Open Scope R_scope.

Lemma coma_same mb mb' m m' : same_tree mb mb' -> bodyPosW m' = bodyPosW m -> bodyVelB m' = bodyVelB m -> bodyVelW m' = bodyVelW m ->
  bodyAccB m' = bodyAccB m -> computeCoMAcceleration mb' m' = computeCoMAcceleration mb m.
Proof. intros T E1 E2 E3 E4. unfold computeCoMAcceleration, coma_step, nrBodies. now rewrite (st_bodies _ _ T), E1, E2, E3, E4. Qed.
Lemma mom_same mb mb' m m' : same_tree mb mb' -> bodyPosW m' = bodyPosW m -> bodyVelB m' = bodyVelB m ->
  forall com, computeCentroidalMomentum mb' m' com = computeCentroidalMomentum mb m com.
Proof. intros T E1 E2 com. unfold computeCentroidalMomentum, nrBodies. now rewrite (st_bodies _ _ T), E1, E2. Qed.
Lemma momd_same mb mb' m m' : same_tree mb mb' -> bodyPosW m' = bodyPosW m -> bodyVelB m' = bodyVelB m -> bodyAccB m' = bodyAccB m ->
  forall com comDot, computeCentroidalMomentumDot mb' m' com comDot = computeCentroidalMomentumDot mb m com comDot.
Proof. intros T E1 E2 E3 com cd. unfold computeCentroidalMomentumDot, nrBodies. now rewrite (st_bodies _ _ T), E1, E2, E3. Qed.
Lemma FA_keeps mb m A0 n : wf_mb mb -> mbc_ok mb m -> forwardAcceleration mb m A0 = Ok n ->
  bodyPosW n = bodyPosW m /\ bodyVelB n = bodyVelB m /\ bodyVelW n = bodyVelW m.
Proof.
  intros W K E. destruct (FA_total mb m A0 W K) as (x & Ex & P). rewrite E in Ex. injection Ex as <-.
  rewrite (fa_frame _ _ _ _ P). repeat split.
Qed.
Lemma all_same mb mb' m m' n n' A0 : wf_mb mb -> wf_mb mb' -> same_tree mb mb' -> mbc_ok mb m -> mbc_ok mb' m' ->
  bodyPosW m' = bodyPosW m -> bodyVelB m' = bodyVelB m -> bodyVelW m' = bodyVelW m ->
  forwardAcceleration mb m A0 = Ok n -> forwardAcceleration mb' m' A0 = Ok n' -> bodyAccB n' = bodyAccB n ->
  computeCoMAcceleration mb' n' = computeCoMAcceleration mb n /\
  (forall com, computeCentroidalMomentum mb' n' com = computeCentroidalMomentum mb n com) /\
  (forall com comDot, computeCentroidalMomentumDot mb' n' com comDot = computeCentroidalMomentumDot mb n com comDot).
Proof.
  intros W W' T K K' E1 E2 E3 F F' EA. destruct (FA_keeps mb m A0 n W K F) as (P1 & P2 & P3). destruct (FA_keeps mb' m' A0 n' W' K' F') as (P1' & P2' & P3').
  split; [apply coma_same; auto; congruence|]. split; [apply mom_same|apply momd_same]; auto; congruence.
Qed.
Lemma turned_momentum t mb mb' m0 m m0' m' A0 : wf_mb mb -> wf_mb mb' -> same_tree mb mb' -> mbc_ok mb m0 -> mbc_ok mb' m0' -> turned_state t mb m0 mb' m0' ->
  after_kinematics mb m0 m -> after_kinematics mb' m0' m' ->
  exists n n', forwardAcceleration mb m A0 = Ok n /\ forwardAcceleration mb' m' A0 = Ok n' /\
    computeCoMAcceleration mb' n' = computeCoMAcceleration mb n /\
    (forall com, computeCentroidalMomentum mb' n' com = computeCentroidalMomentum mb n com) /\
    (forall com comDot, computeCentroidalMomentumDot mb' n' com comDot = computeCentroidalMomentumDot mb n com comDot).
Proof.
  intros W W' T K K' H A A'. destruct (tu_ok mb mb' m0 m m0' m' W W' K K' A A') as [Km Km'].
  destruct (FA_total mb m A0 W Km) as (n & E & _). destruct (FA_total mb' m' A0 W' Km') as (n' & E' & _).
  exists n, n'. split; [exact E|]. split; [exact E'|].
  apply (all_same mb mb' m m' n n' A0); auto.
  - exact (tu_posW t mb mb' m0 m m0' m' T W W' K K' A A' H).
  - exact (tu_velB t mb mb' m0 m m0' m' T W W' K K' A A' H).
  - exact (tu_velW t mb mb' m0 m m0' m' T W W' K K' A A' H).
  - exact (tu_FA t mb mb' m0 m m0' m' T W W' K K' A A' H A0 n n' E E').
Qed.
Lemma held_momentum mb mb' m0 m m0' m' A0 : wf_mb mb -> wf_mb mb' -> same_tree mb mb' -> mbc_ok mb m0 -> mbc_ok mb' m0' -> held_state mb m0 mb' m0' ->
  after_kinematics mb m0 m -> after_kinematics mb' m0' m' ->
  exists n n', forwardAcceleration mb m A0 = Ok n /\ forwardAcceleration mb' m' A0 = Ok n' /\
    computeCoMAcceleration mb' n' = computeCoMAcceleration mb n /\
    (forall com, computeCentroidalMomentum mb' n' com = computeCentroidalMomentum mb n com) /\
    (forall com comDot, computeCentroidalMomentumDot mb' n' com comDot = computeCentroidalMomentumDot mb n com comDot).
Proof.
  intros W W' T K K' H A A'. destruct (hd_ok mb mb' m0 m m0' m' W W' K K' A A') as [Km Km'].
  destruct (FA_total mb m A0 W Km) as (n & E & _). destruct (FA_total mb' m' A0 W' Km') as (n' & E' & _).
  exists n, n'. split; [exact E|]. split; [exact E'|].
  apply (all_same mb mb' m m' n n' A0); auto.
  - exact (hd_posW mb mb' m0 m m0' m' T W W' K K' A A' H).
  - exact (hd_velB mb mb' m0 m m0' m' T W W' K K' A A' H).
  - exact (hd_velW mb mb' m0 m m0' m' T W W' K K' A A' H).
  - exact (hd_FA mb mb' m0 m m0' m' T W W' K K' A A' H A0 n n' E E').
Qed.
