(** The example robot with masses in grams and times in minutes instead of kilograms and seconds. *)
From Coq Require Import Reals String ZArith Bool Arith List Lia Lra.
From Verif Require Import Res ResP SMap Vec VecP Sva SvaP Mat JointM MultiBodyM KinM DynM Spec SpecDyn SpecUnits
  JointP JointFinP KinP MbP Ex DynExP UnitsP UnitsTopP.
Import ListNotations.
Open Scope R_scope.

Definition exu_mb : MultiBody :=
  match MultiBody_ctor (map (body_times 1000) ex_bodies) ex_joints ex_pred ex_succ ex_pred ex_Xt with
  | Ok mb => mb
  | _ => mkMB [] [] [] [] [] [] [] [] [] [] 0 0
  end.
Lemma exu_ctor : MultiBody_ctor (map (body_times 1000) ex_bodies) ex_joints ex_pred ex_succ ex_pred ex_Xt = Ok exu_mb.
Proof. reflexivity. Qed.
Lemma exu_wf : wf_mb exu_mb.
Proof.
  apply (MultiBody_ctor_wf (map (body_times 1000) ex_bodies) ex_joints ex_pred ex_succ ex_Xt); [|apply exu_ctor].
  constructor; try reflexivity.
  - intros i z. unfold ex_pred. intros H.
    do 4 (destruct i as [|i]; [simpl in H; injection H as <-; lia|]). destruct i; discriminate.
  - intros j H. apply joint_unit_ok. now apply ex_joint_unit.
Qed.
Definition exu_m : MBC := with_force ex_forces ex_m.
Definition exu_m' : MBC :=
  with_jointTorque (numbers_times (1000 * (60 * 60)) (jointTorque exu_m))
  (with_force (map (svscale (1000 * (60 * 60))) (force exu_m))
  (with_gravity (vscale (60 * 60) (gravity exu_m))
  (with_alphaD (numbers_times (60 * 60) (alphaD exu_m))
  (with_alpha (numbers_times 60 (alpha exu_m)) exu_m)))).
Lemma exu_ok : mbc_ok ex_mb exu_m.
Proof.
  pose proof ex_mbc_ok as H. destruct H. constructor; unfold exu_m; auto; reflexivity.
Qed.
Lemma exu_ok' : mbc_ok exu_mb exu_m'.
Proof.
  pose proof ex_mbc_ok as H. destruct H. constructor; unfold exu_m'; auto; reflexivity.
Qed.
Lemma exu_units : other_units 60 1000 ex_mb exu_m exu_mb exu_m'.
Proof. constructor; reflexivity. Qed.
