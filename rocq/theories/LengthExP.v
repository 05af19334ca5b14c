(** The example robot in centimetres instead of metres. *)
From Coq Require Import Reals String ZArith Bool Arith List Lia Lra.
From Verif Require Import Res ResP SMap Vec VecP Sva SvaP Mat JointM MultiBodyM KinM DynM Spec SpecDyn SpecUnits SpecLength
  JointP JointFinP KinP MbP Ex DynExP UnitsExP LengthP.
Import ListNotations.
Open Scope R_scope.

Definition exl_mb : MultiBody :=
  match MultiBody_ctor (map (body_len 100) ex_bodies) ex_joints ex_pred ex_succ ex_pred (map (pose_len 100) ex_Xt) with
  | Ok mb => mb
  | _ => mkMB [] [] [] [] [] [] [] [] [] [] 0 0
  end.
Lemma exl_ctor : MultiBody_ctor (map (body_len 100) ex_bodies) ex_joints ex_pred ex_succ ex_pred (map (pose_len 100) ex_Xt) = Ok exl_mb.
Proof. reflexivity. Qed.
Lemma exl_wf : wf_mb exl_mb.
Proof.
  apply (MultiBody_ctor_wf (map (body_len 100) ex_bodies) ex_joints ex_pred ex_succ (map (pose_len 100) ex_Xt)); [|apply exl_ctor].
  constructor; try reflexivity.
  - intros i z. unfold ex_pred. intros H.
    do 4 (destruct i as [|i]; [simpl in H; injection H as <-; lia|]). destruct i; discriminate.
  - intros j H. apply joint_unit_ok. now apply ex_joint_unit.
Qed.
Definition per_joint (f : list bool -> list R -> list R) (d : jtype -> list bool) (v : list (list R)) : list (list R) :=
  map (fun e => f (d (jtyp (fst e))) (snd e)) (combine ex_joints v).
Definition exl_m' : MBC :=
  with_jointTorque (per_joint (torques_times 100) dof_lengths (jointTorque exu_m))
  (with_force (map (wrench_len 100) (force exu_m))
  (with_gravity (vscale 100 (gravity exu_m))
  (with_alphaD (per_joint (lengths_times 100) dof_lengths (alphaD exu_m))
  (with_alpha (per_joint (lengths_times 100) dof_lengths (alpha exu_m))
  (with_q (per_joint (lengths_times 100) param_lengths (q exu_m)) exu_m))))).
Lemma exl_ok' : mbc_ok exl_mb exl_m'.
Proof.
  pose proof ex_mbc_ok as H. destruct H. constructor; unfold exl_m'; auto; reflexivity.
Qed.
Lemma exl_length : other_length 100 ex_mb exu_m exl_mb exl_m'.
Proof.
  constructor; try reflexivity; intros i j H; change (mb_joints ex_mb) with ex_joints in H;
    (do 4 (destruct i as [|i]; [injection H as <-; reflexivity|])); destruct i; discriminate H.
Qed.
Lemma exl_torque i j : nth_error (mb_joints ex_mb) i = Some j ->
  nth i (jointTorque exl_m') [] = torques_times 100 (dof_lengths (jtyp j)) (nth i (jointTorque exu_m) []).
Proof.
  intro H; change (mb_joints ex_mb) with ex_joints in H;
    (do 4 (destruct i as [|i]; [injection H as <-; reflexivity|])); destruct i; discriminate H.
Qed.
