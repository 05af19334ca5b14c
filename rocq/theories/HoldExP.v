(** The example robot with its neck fixed, and the same robot with its neck held at zero. *)
From Coq Require Import Reals String ZArith Bool Arith List Lia Lra.
From Verif Require Import Res ResP SMap Vec VecP Sva SvaP Mat JointM MultiBodyM KinM DynM GraphM Spec SpecDyn SpecGraph SpecGraphOp SpecHold
  JointP JointFinP KinP MbP Ex DynExP GraphFixP HoldP HoldTopP.
Import ListNotations.
Open Scope R_scope.

Definition exh_joints : list Joint :=
  [ mkJz Free true "Root"%string; mkJ Rev unitZ true "shoulder"%string; mkJ Prism unitX true "slide"%string; mkJfixed "neck"%string ].
Definition exh_mb : MultiBody :=
  match MultiBody_ctor ex_bodies exh_joints ex_pred ex_succ ex_pred ex_Xt with
  | Ok mb => mb
  | _ => mkMB [] [] [] [] [] [] [] [] [] [] 0 0
  end.
Lemma exh_ctor : MultiBody_ctor ex_bodies exh_joints ex_pred ex_succ ex_pred ex_Xt = Ok exh_mb.
Proof. reflexivity. Qed.
Lemma exh_unit j : In j exh_joints -> joint_unit j.
Proof.
  intros [<-|[<-|[<-|[<-|[]]]]].
  - exists unitZ; split; [apply unitZ_unit|constructor].
  - exists unitZ; split; [apply unitZ_unit|constructor].
  - exists unitX; split; [apply unitX_unit|constructor].
  - exists unitZ; split; [apply unitZ_unit|]. exact (built_ctor unitZ Fixed true "neck").
Qed.
Lemma exh_wf : wf_mb exh_mb.
Proof.
  apply (MultiBody_ctor_wf ex_bodies exh_joints ex_pred ex_succ ex_Xt); [|apply exh_ctor].
  constructor; try reflexivity.
  - intros i z. unfold ex_pred. intros H.
    do 4 (destruct i as [|i]; [simpl in H; injection H as <-; lia|]). destruct i; discriminate.
  - intros j H. apply joint_unit_ok. now apply exh_unit.
Qed.
Lemma exh_rigid : rigid_mb exh_mb.
Proof. split; [exact exh_unit|exact (proj2 ex_rigid)]. Qed.
Lemma exh_tree : same_tree ex_mb exh_mb.
Proof. constructor; reflexivity. Qed.
(** The robot moves all its joints but the neck, whose position is zero. *)
Definition exh_m : MBC :=
  with_alphaD [[1; 0; 0; 0; 0; 2]; [3]; [-1]; [0; 0; 0]]
    (with_alpha [[0; 1; 0; 1; 0; 0]; [2]; [1]; [0; 0; 0]]
      (with_q [[3/5; 4/5; 0; 0; 1; 2; 3]; [1]; [2]; [1; 0; 0; 0]] (MBC_ctor ex_garbage ex_mb))).
Definition exh_m' : MBC :=
  with_alphaD [[1; 0; 0; 0; 0; 2]; [3]; [-1]; []]
    (with_alpha [[0; 1; 0; 1; 0; 0]; [2]; [1]; []]
      (with_q [[3/5; 4/5; 0; 0; 1; 2; 3]; [1]; [2]; []] (MBC_ctor ex_garbage exh_mb))).
Lemma exh_ok : mbc_ok ex_mb exh_m.
Proof.
  pose proof (MBC_ctor_ok ex_garbage ex_mb eq_refl) as H. destruct H.
  constructor; unfold exh_m; cbn [q alpha alphaD force jointConfig jointVelocity jointTorque
    motionSubspace bodyPosW parentToSon bodyVelW bodyVelB bodyAccB with_q with_alpha with_alphaD]; auto; reflexivity.
Qed.
Lemma exh_ok' : mbc_ok exh_mb exh_m'.
Proof.
  pose proof (MBC_ctor_ok ex_garbage exh_mb eq_refl) as H. destruct H.
  constructor; unfold exh_m'; cbn [q alpha alphaD force jointConfig jointVelocity jointTorque
    motionSubspace bodyPosW parentToSon bodyVelW bodyVelB bodyAccB with_q with_alpha with_alphaD]; auto; reflexivity.
Qed.
Lemma exh_config : config_ok ex_mb exh_m.
Proof.
  intros i j qi Hj Hq. simpl in Hj. unfold exh_m in Hq; cbn [q with_q with_alpha with_alphaD] in Hq.
  do 4 (destruct i as [|i]; [simpl in Hj, Hq; injection Hj as <-; injection Hq as <-; split;
      [reflexivity| try exact Logic.I; unfold quat_unit; simpl; field]|]).
  destruct i; discriminate.
Qed.
Lemma exh_held : held_state ex_mb exh_m exh_mb exh_m'.
Proof.
  split; [reflexivity|]. split; [reflexivity|]. intros i Hi. change (nrBodies ex_mb) with 4%nat in Hi.
  do 3 (destruct i as [|i]; [apply kept; reflexivity|]). destruct i as [|i]; [|lia].
  apply held; [reflexivity| | |].
  - apply (pose_zero (mkJz Spherical false "neck")); [|reflexivity]. exists unitZ. constructor.
  - intros x. cbn [nth exh_m alpha with_alpha with_alphaD In]. intuition.
  - intros x. cbn [nth exh_m alphaD with_alphaD In]. intuition.
Qed.
Lemma exh_moves : nth 3 (mb_joints exh_mb) jd <> nth 3 (mb_joints ex_mb) jd /\ mb_nrDof ex_mb = 11%nat /\ mb_nrDof exh_mb = 8%nat.
Proof. split; [discriminate|]. split; reflexivity. Qed.
