(** C52, C53, C70: numerical integration. *)
From Coq Require Import Reals ZArith Bool Arith List Lra.
From Verif Require Import Res Vec Sva JointM MultiBodyM KinM IntegM Spec SpecDeriv SpecInteg Ex DerivExP IntegP IntegJointP IntegAllP IntegExactP IntegEndP IntegExP.
Import ListNotations.
Open Scope R_scope.

(** C52: integration adds alphaD * step to alpha, and integrates exactly the parameters of
    revolute, prismatic and cylindrical joints (and the angle of planar ones) with the velocity
    before the update. It changes nothing but q and alpha. *)
Theorem C52_integration : forall fuel mb m step prec m', wf_mb mb -> mbc_ok mb m -> integration fuel mb m step prec = Ok m' ->
  only_q_alpha m m' /\ mbc_ok mb m' /\
  forall i j, nth_error (mb_joints mb) i = Some j ->
    speed_up step (nth i (alpha m) []) (nth i (alphaD m) []) (nth i (alpha m') []) /\
    (~ curved (jtyp j) -> drift step (nth i (q m) []) (nth i (alpha m) []) (nth i (alphaD m) []) (nth i (q m') [])) /\
    (jtyp j = Planar -> 0 < prec ->
       co (nth i (q m') []) 0 = co (nth i (q m) []) 0 + co (nth i (alpha m) []) 0 * step + co (nth i (alphaD m) []) 0 * (step * step) / 2).
Proof. exact integrate_exact. Qed.
Print Assumptions C52_integration.
Example C52_applies : wf_mb ex_mb /\ mbc_ok ex_mb ex_m /\ exists N m', integration N ex_mb ex_m (/ 10) (/ 10) = Ok m'.
Proof. split; [exact ex_wf|]. split; [exact ex_mbc_ok|]. apply exi_step. lra. Qed.

(** C52: it returns when all joints are of these types, whatever the step. *)
Theorem C52_returns : forall fuel mb m step prec, wf_mb mb -> mbc_ok mb m -> (forall j, In j (mb_joints mb) -> ~ curved (jtyp j)) ->
  exists m', integration fuel mb m step prec = Ok m'.
Proof. exact integrate_returns. Qed.
Print Assumptions C52_returns.

(** C52: step 0 changes nothing, for any joint types. *)
Theorem C52_step_0 : forall mb m prec fuel, wf_mb mb -> mbc_ok mb m -> config_ok mb m -> 0 < prec -> integration (S fuel) mb m 0 prec = Ok m.
Proof. exact integration_0. Qed.
Print Assumptions C52_step_0.
Example C52_step_0_applies : wf_mb ex_mb /\ mbc_ok ex_mb ex_m /\ config_ok ex_mb ex_m.
Proof. split; [exact ex_wf|]. split; [exact ex_mbc_ok|exact ex_config]. Qed.

(** C52: the checked version throws domain_error when a vector has the wrong size, and is the
    unchecked one otherwise. *)
Theorem C52_checked : forall fuel mb m step prec,
  (sized mb jparams (q m) /\ sized mb jdof (alpha m) /\ sized mb jdof (alphaD m) -> sIntegration fuel mb m step prec = integration fuel mb m step prec) /\
  (~ (sized mb jparams (q m) /\ sized mb jdof (alpha m) /\ sized mb jdof (alphaD m)) -> sIntegration fuel mb m step prec = Throw DomainError).
Proof. exact sIntegration_checks. Qed.
Print Assumptions C52_checked.

(** C53: SO3Integration stays on the unit quaternions. *)
Theorem C53_SO3 : forall qi w wD step relEps absEps b, qnorm2 qi = 1 -> qnorm2 (fst (SO3Integration qi w wD step relEps absEps b)) = 1.
Proof. exact SO3_group. Qed.
Print Assumptions C53_SO3.

(** C53: sphericalJointIntegration returns a unit quaternion for any step. *)
Theorem C53_spherical : forall qi w wD step prec, qnorm2 qi = 1 -> 0 < prec ->
  exists N q', qnorm2 q' = 1 /\ forall fuel, (N <= fuel)%nat -> sphericalJointIntegration fuel qi w wD step prec = Ok q'.
Proof. exact spherical_group. Qed.
Print Assumptions C53_spherical.

(** C53: so does freeJointIntegration, for a step that is not negative. *)
Theorem C53_free_partial : forall qi xi w v wD vD step prec, qnorm2 qi = 1 -> 0 < prec -> 0 <= step ->
  exists N r, qnorm2 (fst r) = 1 /\ forall fuel, (N <= fuel)%nat -> freeJointIntegration fuel qi xi w v wD vD step prec = Ok r.
Proof. exact free_group. Qed.
Print Assumptions C53_free_partial.
Example C53_free_applies : qnorm2 (mkQ (3/5) (4/5) 0 0) = 1.
Proof. unfold qnorm2; cbn. field. Qed.

(** C53: any number of calls of integration, with accelerations chosen by the caller before each,
    return and keep q admissible: every quaternion is a unit quaternion. *)
Theorem C53_simulation_partial : forall mb prec, wf_mb mb -> 0 < prec -> forall l m, mbc_ok mb m -> config_ok mb m ->
  (forall step d, In (step, d) l -> sized mb jdof d /\ step_fits mb step) ->
  exists N m', mbc_ok mb m' /\ config_ok mb m' /\ forall fuel, (N <= fuel)%nat -> simulate fuel mb prec l m = Ok m'.
Proof. exact simulate_ok. Qed.
Print Assumptions C53_simulation_partial.
Example C53_simulation_applies : wf_mb ex_mb /\ mbc_ok ex_mb ex_m /\ config_ok ex_mb ex_m /\
  (forall step d, In (step, d) [(1, alphaD ex_m); (/ 2, alpha ex_m)] -> sized ex_mb jdof d /\ step_fits ex_mb step).
Proof.
  split; [exact ex_wf|]. split; [exact ex_mbc_ok|]. split; [exact ex_config|].
  intros step d [E|[E|[]]]; injection E as <- <-; (split; [reflexivity|left; lra]).
Qed.

(** C53 refuted for a negative step: the integration of a free joint converts "not a number" to int. *)
Theorem C53_negative_step_refuted : exists qi xi w v, qnorm2 qi = 1 /\ forall fuel prec, 0 < prec -> freeJointIntegration (S fuel) qi xi w v v0 v0 (-1) prec = UB.
Proof. exact negative_step_refuted. Qed.
Print Assumptions C53_negative_step_refuted.

(** C70: when every joint is steady the result of integration with step t, seen as a function of
    t, is the exact solution of the kinematic law: it starts at q and at each t its derivative is
    the one that the velocity reached at t gives, for quaternions too. *)
Theorem C70_exact_motion : forall mb m prec, wf_mb mb -> mbc_ok mb m -> config_ok mb m -> 0 < prec ->
  (forall i j, nth_error (mb_joints mb) i = Some j -> steady (jtyp j) (nth i (alpha m) []) (nth i (alphaD m) [])) ->
  exists M : R -> MBC, M 0 = m /\ (forall fuel t, integration (S fuel) mb m t prec = Ok (M t)) /\
    forall t i j, nth_error (mb_joints mb) i = Some j -> follows j (fun s => nth i (q (M s)) []) t (nth i (alpha (M t)) []).
Proof. exact exact_motion. Qed.
Print Assumptions C70_exact_motion.
Example C70_applies : wf_mb ex_mb /\ mbc_ok ex_mb exi_m /\ config_ok ex_mb exi_m /\
  (forall i j, nth_error (mb_joints ex_mb) i = Some j -> steady (jtyp j) (nth i (alpha exi_m) []) (nth i (alphaD exi_m) [])).
Proof. split; [exact ex_wf|]. split; [exact exi_ok|]. split; [exact exi_config|exact exi_steady]. Qed.
