(** Concrete robots to integrate. *)
From Coq Require Import Reals ZArith Bool List Lia Lra.
From Verif Require Import Res Vec Sva JointM MultiBodyM KinM IntegM Spec SpecDeriv SpecInteg KinP Ex MbP IntegP IntegJointP IntegAllP IntegEndP.
Import ListNotations.
Open Scope R_scope.

Lemma exi_step : 0 < / 10 -> exists N m', integration N ex_mb ex_m (/ 10) (/ 10) = Ok m'.
Proof.
  intro P. destruct (integration_total ex_mb ex_m (/ 10) (/ 10) ex_wf (ok_q _ _ ex_mbc_ok) (ok_alpha _ _ ex_mbc_ok) (ok_alphaD _ _ ex_mbc_ok) ex_config P) as (N & T); [left; lra|].
  destruct (T N (le_n _)) as (m' & E). eauto.
Qed.
(** The base spins about its y axis, faster and faster, and so does the head about (1,2,3). *)
Definition exi_m : MBC := with_alphaD [[0; 2; 0; 0; 0; 0]; [3]; [-1]; [2; 4; 6]] (with_alpha [[0; 1; 0; 0; 0; 0]; [2]; [1]; [1; 2; 3]] ex_m).
Lemma exi_ok : mbc_ok ex_mb exi_m.
Proof. destruct ex_mbc_ok. constructor; cbn [exi_m q alpha alphaD force jointConfig jointVelocity jointTorque motionSubspace bodyPosW parentToSon bodyVelW bodyVelB bodyAccB with_q with_alpha with_alphaD]; auto; reflexivity. Qed.
Lemma exi_config : config_ok ex_mb exi_m. Proof. exact ex_config. Qed.
Lemma exi_steady i j : nth_error (mb_joints ex_mb) i = Some j -> steady (jtyp j) (nth i (alpha exi_m) []) (nth i (alphaD exi_m) []).
Proof.
  intro E. cbn in E. destruct i as [|[|[|[|i]]]]; cbn in E; try (injection E as <-); try exact Logic.I.
  - split; [apply vec_eq; cbn; ring|]. right. split; reflexivity.
  - apply vec_eq; cbn; ring.
  - destruct i; discriminate.
Qed.
