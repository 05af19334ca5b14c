(** C89: the parameter prec of integration bounds its error. Only property theorems and
    examples. *)
From Coq Require Import Reals List Lra.
From Verif Require Import Res Sva JointM MultiBodyM IntegM Spec SpecDeriv SpecInteg SpecPrec KinP Ex Prec4P PrecExP.
Import ListNotations.
Open Scope R_scope.

(** C89: a joint that turns about one axis and whose position bends most at the beginning or at the
    end of the step ends within prec of the true motion, with the same orientation. Partial: the
    other joints are missing; for those whose axis turns the orientation is approximate too. *)
Theorem C89_precision_partial : forall fuel mb m step prec m' i j c, wf_mb mb -> mbc_ok mb m -> config_ok mb m -> 0 <= step -> 0 < prec ->
  integration fuel mb m step prec = Ok m' -> nth_error (mb_joints mb) i = Some j ->
  one_axis (jtyp j) (nth i (alpha m) []) (nth i (alphaD m) []) ->
  true_motion j (nth i (q m) []) (nth i (alpha m) []) (nth i (alphaD m) []) c ->
  bent_at_ends (jtyp j) c step ->
  within prec (jtyp j) (nth i (q m') []) (c step).
Proof. intros. eapply integrate_within; eauto. Qed.
Print Assumptions C89_precision_partial.
Example C89_precision_applies : exists N m' j,
  wf_mb ex_mb /\ mbc_ok ex_mb (arc_m ac_spin ac_acc) /\ config_ok ex_mb (arc_m ac_spin ac_acc) /\
  integration N ex_mb (arc_m ac_spin ac_acc) 1 (/ 1000) = Ok m' /\ nth_error (mb_joints ex_mb) 0 = Some j /\
  one_axis (jtyp j) (nth 0 (alpha (arc_m ac_spin ac_acc)) []) (nth 0 (alphaD (arc_m ac_spin ac_acc)) []) /\
  true_motion j (nth 0 (q (arc_m ac_spin ac_acc)) []) (nth 0 (alpha (arc_m ac_spin ac_acc)) []) (nth 0 (alphaD (arc_m ac_spin ac_acc)) []) (fun t => arc (t * t / 2)) /\
  bent_at_ends (jtyp j) (fun t => arc (t * t / 2)) 1.
Proof.
  destruct (arc_runs ac_spin ac_acc 1 (/ 1000)) as (N & m' & E); [reflexivity|reflexivity|lra|lra|]. exists N, m', base_joint.
  split; [exact ex_wf|]. split; [now apply arc_ok|]. split; [apply arc_config|]. split; [exact E|]. split; [reflexivity|]. split; [exact arc_axis|]. split; [exact arc_true|exact (arc_bent 1)].
Qed.

(** C89: in particular every joint that turns with a constant angular velocity, whatever it does
    with its position. *)
Theorem C89_steady_turn : forall fuel mb m step prec m' i j c, wf_mb mb -> mbc_ok mb m -> config_ok mb m -> 0 <= step -> 0 < prec ->
  integration fuel mb m step prec = Ok m' -> nth_error (mb_joints mb) i = Some j ->
  steady_turn (jtyp j) (nth i (alphaD m) []) ->
  true_motion j (nth i (q m) []) (nth i (alpha m) []) (nth i (alphaD m) []) c ->
  within prec (jtyp j) (nth i (q m') []) (c step).
Proof. intros. eapply integrate_within; eauto using turn_axis. Qed.
Print Assumptions C89_steady_turn.
Example C89_steady_turn_applies : exists N m' j, let m := arc_m [0; 0; 1; 1; 0; 0] [0; 0; 0; 0; 0; 0] in
  wf_mb ex_mb /\ mbc_ok ex_mb m /\ config_ok ex_mb m /\
  integration N ex_mb m 1 (/ 1000) = Ok m' /\ nth_error (mb_joints ex_mb) 0 = Some j /\
  steady_turn (jtyp j) (nth 0 (alphaD m) []) /\
  true_motion j (nth 0 (q m) []) (nth 0 (alpha m) []) (nth 0 (alphaD m) []) arc.
Proof.
  destruct (arc_runs [0; 0; 1; 1; 0; 0] [0; 0; 0; 0; 0; 0] 1 (/ 1000)) as (N & m' & E); [reflexivity|reflexivity|lra|lra|]. exists N, m', base_joint. cbv zeta.
  split; [exact ex_wf|]. split; [now apply arc_ok|]. split; [apply arc_config|]. split; [exact E|]. split; [reflexivity|]. split; [reflexivity|exact circle_true].
Qed.
